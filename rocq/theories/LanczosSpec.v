(** Vocabulary for the eigenvalue solvers. *)
From Coq Require Import List Arith Lia Bool Reals.
From Verif Require Import Res SumR SparseModel SparseSpec KrylovSpec.
Import ListNotations.
Local Open Scope R_scope.

(** the symmetric tridiagonal matrix with diagonal a and off-diagonal b *)
Definition tri (a b : nat -> R) (i j : nat) : R :=
  if (i =? j)%nat then a i else if (j =? S i)%nat then b i else if (i =? S j)%nat then b j else 0.

(** x is an eigenvalue of the matrix M of order m *)
Definition eigenvalue (m : nat) (M : nat -> nat -> R) (x : R) : Prop :=
  exists v, nonzero m v /\ forall i, (i < m)%nat -> matvec m M v i = x * v i.
(** r 0 < r 1 < ... < r (m-1) are all the eigenvalues of M *)
Definition ordered_spectrum (m : nat) (M : nat -> nat -> R) (r : nat -> R) : Prop :=
  (forall i j, (i < j)%nat -> (j < m)%nat -> r i < r j) /\
  (forall x, eigenvalue m M x <-> exists i, (i < m)%nat /\ x = r i).
(** b bounds the absolute row sums |b_(i-1)| + |a_i| + |b_i| *)
Definition row_bound (m : nat) (a b : nat -> R) (B : R) : Prop :=
  forall i, (i < m)%nat -> (match i with O => 0 | S k => Rabs (b k) end) + Rabs (a i) + Rabs (b i) <= B.
