(** Specification vocabulary for the stabilised advection routines. *)
From Coq Require Import List Arith Reals.
From Verif Require Import Res SumR DenseModel DenseSpec ShapeModel QuadModel QuadSpec ElemSpec.
Import ListNotations.
Local Open Scope R_scope.

(** derivative along the velocity (ax, ay) of a scalar field with gradient H *)
Definition along (ax ay : R) (H : nat -> nat -> R) : R := ax * H 0%nat 0%nat + ay * H 1%nat 0%nat.
Definition vel (ax ay : R) : R := sqrt (ax * ax + ay * ay).
(** nodal values of shape function i *)
Definition hat (i j c : nat) : R := if (j =? i)%nat then 1 else 0.
(** Hn i p is the gradient of shape function i at each point of the rule *)
Definition shape_gradients (s : shape) (q : rule) (x : nat -> nat -> R) (Hn : nat -> (nat -> R) -> nat -> nat -> R) : Prop :=
  forall i, (i < sf_n s)%nat -> gradients s q x 1 (hat i) (Hn i).
(** length of the element along the flow *)
Definition stream_length (n : nat) (ax ay : R) (Hn : nat -> nat -> nat -> R) : R :=
  2 * vel ax ay / bigsum n (fun i => Rabs (along ax ay (Hn i))).
(** element Peclet number |a| h / (2 k) *)
Definition peclet (ax ay k h : R) : R := vel ax ay * h / (2 * k).
Definition upwind (ax ay k h : R) : R := Rmin 1 (peclet ax ay k h / 3).
Definition tau_supg (ax ay k h : R) : R := h / (2 * vel ax ay) * upwind ax ay k h.
Definition kappa_shock (ax ay k h : R) : R := vel ax ay * h / 2 * upwind ax ay k h.
