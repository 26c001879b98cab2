(** Statements about interpolation, nodal and elemental averages. *)
From Coq Require Import List Arith Lia Bool Reals.
From Verif Require Import Res SumR.
Import ListNotations.
Local Open Scope R_scope.

(** every node number of the mesh is below the number of nodes *)
Definition mesh_ok (nodesize : nat) (elements : list (list nat)) : Prop :=
  forall e n, In e elements -> In n e -> (n < nodesize)%nat.
(** the values of the elements that touch node n, one for each time n occurs *)
Definition received {V} (d : V) (ue : list V) (elements : list (list nat)) (n : nat) : list V :=
  flat_map (fun i => repeat (nth i ue d) (count_occ Nat.eq_dec (nth i elements []) n)) (seq 0 (length elements)).
Definition mean_with (u0 : R) (l : list R) : R := (u0 + sumlist l) / INR (length l).
Definition mean (l : list R) : R := sumlist l / INR (length l).

(** polynomials with k coefficients *)
Definition polynomial (k : nat) (f : R -> R) : Prop := exists c : nat -> R, forall x, f x = bigsum k (fun i => c i * x ^ i).
(** function i is 1 at point i and 0 at the other points *)
Definition nodal_basis (xs : list R) (N : R -> nat -> R) : Prop :=
  forall i j, (i < length xs)%nat -> (j < length xs)%nat -> N (nth j xs 0) i = if (i =? j)%nat then 1 else 0.
