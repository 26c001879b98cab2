(** Specification vocabulary for the finite-deformation element routines.
    H l c is the derivative of displacement component c in direction X_l. *)
From Coq Require Import List Arith Reals.
From Verif Require Import Res SumR DenseModel DenseSpec ShapeModel QuadModel QuadSpec ElemSpec.
Import ListNotations.
Local Open Scope R_scope.

Definition kron (a b : nat) : R := if (a =? b)%nat then 1 else 0.
(** deformation gradient F = I + (grad u)^T *)
Definition defgrad (H : nat -> nat -> R) (c l : nat) : R := kron c l + H l c.
(** Green-Lagrange strain (F^T F - I)/2 *)
Definition green (d : nat) (H : nat -> nat -> R) (a b : nat) : R :=
  (bigsum d (fun c => defgrad H c a * defgrad H c b) - kron a b) / 2.
(** its derivative in the direction of the gradient Y: sym (F^T (grad y)^T) *)
Definition dgreen (d : nat) (H Y : nat -> nat -> R) : nat -> nat -> R :=
  strain (fun a b => bigsum d (fun c => defgrad H c a * Y b c)).
(** second derivative: sym (grad y . grad z) *)
Definition ddgreen (d : nat) (Y Z : nat -> nat -> R) : nat -> nat -> R :=
  strain (fun a b => bigsum d (fun c => Y a c * Z b c)).

(** St. Venant-Kirchhoff material, S = lambda tr(E) I + 2 mu E: virtual work
    density S : dE(y) and its derivative in direction z *)
Definition svk_work (d : nat) (lambda mu : R) (H Y : nat -> nat -> R) : R :=
  hooke d lambda mu (green d H) (dgreen d H Y).
Definition svk_tangent (d : nat) (lambda mu : R) (H Y Z : nat -> nat -> R) : R :=
  hooke d lambda mu (dgreen d H Y) (dgreen d H Z) + hooke d lambda mu (green d H) (ddgreen d Y Z).

(** the nodal table us e is us 0 displaced by e z at the nodes of the element *)
Definition moved (m : nat) (elem : list nat) (us : R -> list (list R)) (z : nat -> nat -> R) : Prop :=
  forall e, nodes_ok m elem (us e) /\
    forall i c, (i < length elem)%nat -> (c < m)%nat -> nodal elem (us e) i c = nodal elem (us 0) i c + e * z i c.

(** a call that returns a tangent matrix and a residual: on nodal fields, the
    matrix is the quadrature of T and the residual that of minus W, where the
    first argument of T and W is the gradient of the displacement *)
Definition finite_of (d : nat) (s : shape) (q : rule) (elem dou : list nat) (xs us : list (list R))
  (r : res (mat R * list R * list (list (nat * nat))))
  (T : (nat -> nat -> R) -> (nat -> nat -> R) -> (nat -> nat -> R) -> R)
  (W : (nat -> nat -> R) -> (nat -> nat -> R) -> R) : Prop :=
  exists K F ne k f, r = Ok (K, F, ne) /\ is_mat K (d * length elem) (d * length elem) k /\
    is_vec F (d * length elem) f /\ numbered d (length elem) dou ne /\
    forall y z Hu Hy Hz, gradients s q (nodal elem xs) d (nodal elem us) Hu ->
      gradients s q (nodal elem xs) d y Hy -> gradients s q (nodal elem xs) d z Hz ->
      form d (length elem) k y z = quad d q (fun p => jac s (nodal elem xs) p * T (Hu p) (Hy p) (Hz p)) /\
      bigsum (d * length elem) (fun a => f a * y (a / d)%nat (a mod d)%nat) =
        - quad d q (fun p => jac s (nodal elem xs) p * W (Hu p) (Hy p)).

Definition residual (r : res (mat R * list R * list (list (nat * nat)))) : list R :=
  match r with Ok (_, F, _) => F | Fail _ => [] end.
(** consistency: along every line of displacements the routine succeeds near the
    start, and the derivative of each residual entry is minus the returned matrix
    applied to the direction *)
Definition consistent (m : nat) (elem : list nat) (us : R -> list (list R)) (z : nat -> nat -> R)
  (call : list (list R) -> res (mat R * list R * list (list (nat * nat)))) : Prop :=
  (exists eps, 0 < eps /\ forall e, Rabs e < eps -> exists K F ne,
     call (us e) = Ok (K, F, ne) /\ length F = (m * length elem)%nat) /\
  exists K F ne k, call (us 0) = Ok (K, F, ne) /\ is_mat K (m * length elem) (m * length elem) k /\
    forall a, (a < m * length elem)%nat ->
      derivable_pt_lim (fun e => nth a (residual (call (us e))) 0) 0 (- apply_field m (length elem) k z a).
