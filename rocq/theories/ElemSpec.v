(** Specification vocabulary for the element routines: geometry, gradients by the
    chain rule, and Hooke's law in tensor form.  Nothing here depends on the
    modelled routines. *)
From Coq Require Import List Arith Reals.
From Verif Require Import Res SumR DenseModel DenseSpec ShapeModel QuadModel QuadSpec.
Import ListNotations.
Local Open Scope R_scope.

(** the g-th integration point *)
Definition pt (q : rule) (g : nat) : nat -> R := fun k => nth k (nth g (q_points q) []) 0.

(** value of shape function i, and its derivative in direction k *)
Definition shp (s : shape) (r : nat -> R) (i : nat) : R := nth i (sf_N s r) 0.
Definition dshp (s : shape) (r : nat -> R) (k i : nat) : R := nth i (nth k (sf_dN s r) []) 0.

(** component c of the nodal vector table at node i of the element *)
Definition nodal (elem : list nat) (xs : list (list R)) (i c : nat) : R := nth c (nth (nth i elem O) xs []) 0.

(** derivative of position component l in parent direction k *)
Definition tangent (s : shape) (x : nat -> nat -> R) (r : nat -> R) (k l : nat) : R :=
  bigsum (sf_n s) (fun i => dshp s r k i * x i l).

Definition det2 (a : nat -> nat -> R) : R := a 0%nat 0%nat * a 1%nat 1%nat - a 0%nat 1%nat * a 1%nat 0%nat.
Definition det3 (a : nat -> nat -> R) : R :=
  a 0%nat 0%nat * (a 1%nat 1%nat * a 2%nat 2%nat - a 1%nat 2%nat * a 2%nat 1%nat)
  - a 0%nat 1%nat * (a 1%nat 0%nat * a 2%nat 2%nat - a 1%nat 2%nat * a 2%nat 0%nat)
  + a 0%nat 2%nat * (a 1%nat 0%nat * a 2%nat 1%nat - a 1%nat 1%nat * a 2%nat 0%nat).
Definition detd (d : nat) (a : nat -> nat -> R) : R :=
  match d with 2%nat => det2 a | 3%nat => det3 a | _ => a 0%nat 0%nat end.

(** Jacobian determinant of the map from the parent domain to the element *)
Definition jac (s : shape) (x : nat -> nat -> R) (r : nat -> R) : R := detd (sf_d s) (tangent s x r).

(** [H l c] is the derivative in direction x_l of component c < m of the field
    with nodal values u, at the parent point r (chain rule) *)
Definition field_gradient (s : shape) (x : nat -> nat -> R) (r : nat -> R) (m : nat)
  (u : nat -> nat -> R) (H : nat -> nat -> R) : Prop :=
  forall k c, (k < sf_d s)%nat -> (c < m)%nat ->
    bigsum (sf_d s) (fun l => tangent s x r k l * H l c) = bigsum (sf_n s) (fun i => dshp s r k i * u i c).

(** component c of the interpolated field *)
Definition field_value (s : shape) (r : nat -> R) (u : nat -> nat -> R) (c : nat) : R :=
  bigsum (sf_n s) (fun i => shp s r i * u i c).

(** every listed node exists and has at least m components *)
Definition nodes_ok (m : nat) (elem : list nat) (xs : list (list R)) : Prop :=
  forall e, In e elem -> (e < length xs)%nat /\ (m <= length (nth e xs []))%nat.

(** the tables of the rule have an entry for each of the N points with at least
    d coordinates and d weight factors *)
Definition rule_ok (d : nat) (q : rule) : Prop :=
  (q_n q <= length (q_points q))%nat /\ (q_n q <= length (q_weights q))%nat /\
  forall g, (g < q_n q)%nat ->
    (d <= length (nth g (q_points q) []))%nat /\ (d <= length (nth g (q_weights q) []))%nat.

(** an admissible call: library shape function of dimension d in d-dimensional
    space, one node per shape function, nonzero Jacobian at the points used *)
Definition element_ok (d : nat) (s : shape) (q : rule) (elem : list nat) (xs : list (list R)) : Prop :=
  In s all_shapes /\ sf_d s = d /\ length elem = sf_n s /\ nodes_ok d elem xs /\ rule_ok d q /\
  forall g, (g < q_n q)%nat -> jac s (nodal elem xs) (pt q g) <> 0.

(** symmetric gradient *)
Definition strain (H : nat -> nat -> R) (i j : nat) : R := (H i j + H j i) / 2.
Definition trace (d : nat) (e : nat -> nat -> R) : R := bigsum d (fun i => e i i).
Definition ddot (d : nat) (e f : nat -> nat -> R) : R := bigsum d (fun i => bigsum d (fun j => e i j * f i j)).
(** isotropic elastic energy density: lambda tr(e) tr(f) + 2 mu e : f *)
Definition hooke (d : nat) (lambda mu : R) (e f : nat -> nat -> R) : R :=
  lambda * trace d e * trace d f + 2 * mu * ddot d e f.
Definition lame_lambda (E V : R) : R := E * V / ((1 + V) * (1 - 2 * V)).
Definition lame_mu (E V : R) : R := E / (2 * (1 + V)).

(** the matrix entries k as a bilinear form on nodal fields with m components
    per node, dof m*i + c belonging to component c of node i *)
Definition form (m n : nat) (k : nat -> nat -> R) (y z : nat -> nat -> R) : R :=
  bigsum (m * n) (fun a => bigsum (m * n) (fun b =>
    y (a / m)%nat (a mod m)%nat * k a b * z (b / m)%nat (b mod m)%nat)).

(** entry b of the matrix applied to a nodal field *)
Definition apply_field (m n : nat) (k : nat -> nat -> R) (z : nat -> nat -> R) (a : nat) : R :=
  bigsum (m * n) (fun b => k a b * z (b / m)%nat (b mod m)%nat).

(** the local numbering: dof m*i + j of the element is dof dou[j] of node i *)
Definition numbered (m n : nat) (dou : list nat) (ne : list (list (nat * nat))) : Prop :=
  length ne = n /\ forall i, (i < n)%nat ->
    length (nth i ne []) = m /\ forall j, (j < m)%nat -> nth j (nth i ne []) (O, O) = (nth j dou O, (m * i + j)%nat).

(** Hy r is the gradient of the nodal field y at each point of the rule *)
Definition gradients (s : shape) (q : rule) (x : nat -> nat -> R) (m : nat) (y : nat -> nat -> R)
  (H : (nat -> R) -> nat -> nat -> R) : Prop :=
  forall g, (g < q_n q)%nat -> field_gradient s x (pt q g) m y (H (pt q g)).

(** engineering strain components: e00, e11, 2 e01 *)
Definition eng (H : nat -> nat -> R) (i : nat) : R :=
  match i with O => strain H 0 0 | 1%nat => strain H 1 1 | _ => 2 * strain H 0 1 end.

(** a call that returns a stiffness-like matrix: the bilinear form of the result
    on nodal fields with m components is the quadrature of W (grad y) (grad z) *)
Definition stiffness_of (d m : nat) (s : shape) (q : rule) (elem dou : list nat) (xs : list (list R))
  (r : res (mat R * list (list (nat * nat)))) (W : (nat -> nat -> R) -> (nat -> nat -> R) -> R) : Prop :=
  exists K ne k, r = Ok (K, ne) /\ is_mat K (m * length elem) (m * length elem) k /\ numbered m (length elem) dou ne /\
    forall y z Hy Hz, gradients s q (nodal elem xs) m y Hy -> gradients s q (nodal elem xs) m z Hz ->
      form m (length elem) k y z = quad d q (fun p => jac s (nodal elem xs) p * W (Hy p) (Hz p)).
(** a call that returns a mass-like matrix: the form is the quadrature of
    rho y.z over the m components *)
Definition mass_of (d m : nat) (s : shape) (q : rule) (elem dou : list nat) (xs : list (list R))
  (r : res (mat R * list (list (nat * nat)))) (rho : R) : Prop :=
  exists K ne k, r = Ok (K, ne) /\ is_mat K (m * length elem) (m * length elem) k /\ numbered m (length elem) dou ne /\
    forall y z, form m (length elem) k y z =
      quad d q (fun p => jac s (nodal elem xs) p * (rho * bigsum m (fun c => field_value s p y c * field_value s p z c))).
(** the result is a symmetric N x N matrix *)
Definition symmetric_result (N : nat) (r : res (mat R * list (list (nat * nat)))) : Prop :=
  exists K ne k, r = Ok (K, ne) /\ is_mat K N N k /\ forall a b, (a < N)%nat -> (b < N)%nat -> k a b = k b a.
(** the quadratic form of the result is nonnegative *)
Definition psd_result (N : nat) (r : res (mat R * list (list (nat * nat)))) : Prop :=
  exists K ne k, r = Ok (K, ne) /\ is_mat K N N k /\
    forall v : nat -> R, 0 <= bigsum N (fun a => bigsum N (fun b => v a * k a b * v b)).
(** the result annihilates the nodal field z *)
Definition kills (m n : nat) (r : res (mat R * list (list (nat * nat)))) (z : nat -> nat -> R) : Prop :=
  exists K ne k, r = Ok (K, ne) /\ is_mat K (m * n) (m * n) k /\ forall a, (a < m * n)%nat -> apply_field m n k z a = 0.
(** positive Jacobian and weights at the points of the rule *)
Definition positive_rule (d : nat) (s : shape) (q : rule) (x : nat -> nat -> R) : Prop :=
  forall g, (g < q_n q)%nat -> 0 < jac s x (pt q g) /\ 0 < wprod d (nth g (q_weights q) []).
(** a + x W with W skew-symmetric *)
Definition rigid_motion (d n : nat) (x z : nat -> nat -> R) : Prop :=
  exists (a : nat -> R) (W : nat -> nat -> R), (forall l c, W l c = - W c l) /\
    forall i c, (i < n)%nat -> (c < d)%nat -> z i c = a c + bigsum d (fun l => x i l * W l c).
