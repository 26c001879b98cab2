(** Specification vocabulary for the incompatible (Wilson) modes. *)
From Coq Require Import List Arith Reals.
From Verif Require Import Res SumR DenseModel DenseSpec ShapeModel QuadModel QuadSpec ElemSpec.
Import ListNotations.
Local Open Scope R_scope.

(** [H] is the gradient at the parent point r of the displacement
    sum_m (1 - r_m^2) a_m, a_m = (a m 0, a m 1); its derivative in parent
    direction k is -2 r_k a_k *)
Definition bubble_gradient (s : shape) (x : nat -> nat -> R) (r : nat -> R) (a H : nat -> nat -> R) : Prop :=
  forall k c, (k < 2)%nat -> (c < 2)%nat -> bigsum 2 (fun l => tangent s x r k l * H l c) = -2 * r k * a k c.
Definition bubbles (s : shape) (q : rule) (x : nat -> nat -> R) (a : nat -> nat -> R) (H : (nat -> R) -> nat -> nat -> R) : Prop :=
  forall g, (g < q_n q)%nat -> bubble_gradient s x (pt q g) a (H (pt q g)).
(** the material form on two gradients *)
Definition dform (Df : nat -> nat -> R) (H Z : nat -> nat -> R) : R :=
  bigsum 3 (fun i => bigsum 3 (fun j => eng H i * Df i j * eng Z j)).
Definition gplus (H Z : nat -> nat -> R) (l c : nat) : R := H l c + Z l c.
(** a material matrix that is symmetric and positive definite *)
Definition material (Df : nat -> nat -> R) : Prop :=
  (forall i j, (i < 3)%nat -> (j < 3)%nat -> Df i j = Df j i) /\
  forall v : nat -> R, 0 <= bigsum 3 (fun i => bigsum 3 (fun j => v i * Df i j * v j)) /\
    (bigsum 3 (fun i => bigsum 3 (fun j => v i * Df i j * v j)) = 0 -> forall i, (i < 3)%nat -> v i = 0).
(** the modes are strained at some point of the rule *)
Definition modes_strained (s : shape) (q : rule) (x : nat -> nat -> R) : Prop :=
  forall a H, bubbles s q x a H -> (forall g i, (g < q_n q)%nat -> (i < 3)%nat -> eng (H (pt q g)) i = 0) ->
    forall k c, (k < 2)%nat -> (c < 2)%nat -> a k c = 0.
(** an admissible call: positive definite material, positive thickness, positive
    Jacobian and weights *)
Definition wt_setting (s : shape) (q : rule) (elem dou : list nat) (xs : list (list R)) (D : mat R) (Df : nat -> nat -> R) (t : R) : Prop :=
  element_ok 2 s q elem xs /\ length dou = 2%nat /\ is_mat D 3 3 Df /\ material Df /\ positive_rule 2 s q (nodal elem xs) /\ 0 < t.
