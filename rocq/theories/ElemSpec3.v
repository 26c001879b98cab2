(** Specification vocabulary for stored energies of the finite-deformation
    element routines.  H l c is the derivative of displacement component c in
    direction X_l. *)
From Coq Require Import List Arith Reals.
From Verif Require Import Res SumR DenseModel DenseSpec ShapeModel QuadModel QuadSpec ElemSpec ElemSpec2.
Import ListNotations.
Local Open Scope R_scope.

(** compressible neo-Hookean material: with F the deformation gradient and
    J = det F, the energy per reference volume is
    mu/2 (F : F - d) - mu ln J + lambda/2 (ln J)^2 *)
Definition neo_energy (d : nat) (lambda mu : R) (H : nat -> nat -> R) : R :=
  mu / 2 * (bigsum d (fun c => bigsum d (fun l => defgrad H c l * defgrad H c l)) - INR d)
  - mu * ln (detd d (defgrad H)) + lambda / 2 * (ln (detd d (defgrad H)) * ln (detd d (defgrad H))).

(** St. Venant-Kirchhoff material: lambda/2 (tr E)^2 + mu E : E *)
Definition svk_energy (d : nat) (lambda mu : R) (H : nat -> nat -> R) : R :=
  lambda / 2 * (trace d (green d H) * trace d (green d H)) + mu * ddot d (green d H) (green d H).

(** no Gauss point is inverted: det F is positive at all of them *)
Definition admissible (d : nat) (s : shape) (q : rule) (elem : list nat) (xs us : list (list R)) : Prop :=
  forall Hu, gradients s q (nodal elem xs) d (nodal elem us) Hu ->
    forall g, (g < q_n q)%nat -> 0 < detd d (defgrad (Hu (pt q g))).

(** a call that returns a matrix and a residual: the residual is minus the
    derivative of the total energy (quadrature of Psi over the reference element)
    in every direction *)
Definition potential_of (d : nat) (s : shape) (q : rule) (elem dou : list nat) (xs us : list (list R))
  (r : res (mat R * list R * list (list (nat * nat)))) (Psi : (nat -> nat -> R) -> R) : Prop :=
  exists K F ne f, r = Ok (K, F, ne) /\ is_vec F (d * length elem) f /\ numbered d (length elem) dou ne /\
    forall y Hu Hy, gradients s q (nodal elem xs) d (nodal elem us) Hu -> gradients s q (nodal elem xs) d y Hy ->
      derivable_pt_lim (fun e => quad d q (fun p => jac s (nodal elem xs) p * Psi (fun l c => Hu p l c + e * Hy p l c))) 0
        (- bigsum (d * length elem) (fun a => f a * y (a / d)%nat (a mod d)%nat)).

(** the displaced nodes are Q X + a with Q a rotation *)
Definition rotated (d : nat) (elem : list nat) (xs us : list (list R)) : Prop :=
  exists Q a, (forall i j, (i < d)%nat -> (j < d)%nat -> bigsum d (fun k => Q i k * Q j k) = kron i j) /\ 0 < detd d Q /\
    forall i c, (i < length elem)%nat -> (c < d)%nat ->
      nodal elem xs i c + nodal elem us i c = a c + bigsum d (fun l => Q c l * nodal elem xs i l).
