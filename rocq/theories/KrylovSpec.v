(** Specification vocabulary for the iterative solvers. *)
From Coq Require Import List Arith Lia Bool Reals.
From Verif Require Import Res SumR SparseModel SparseSpec.
Import ListNotations.
Local Open Scope R_scope.

(** a vector as a function of its index *)
Definition ix (v : list R) (i : nat) : R := nth i v 0.

Definition dot (n : nat) (u v : nat -> R) : R := bigsum n (fun i => u i * v i).
Definition norm2 (n : nat) (u : nat -> R) : R := sqrt (dot n u u).

(** a well formed square CSR matrix of order n; its entries are those reported by [get] *)
Definition square_csr (n : nat) (A : csr R) : Prop :=
  csr_wf A /\ csr_cols_ok A /\ crows A = n /\ ccols A = n.
Definition entry (A : csr R) : nat -> nat -> R := csr_entry 0 A.

(** b - A x *)
Definition residual (n : nat) (A : csr R) (b x : list R) (i : nat) : R :=
  ix b i - matvec n (entry A) (ix x) i.

(** the promise behind a reported convergence *)
Definition accurate (n : nat) (A : csr R) (b : list R) (eps : R) (x : list R) : Prop :=
  length x = n /\ norm2 n (residual n A b x) < eps * norm2 n (ix b).

Definition nonzero (n : nat) (u : nat -> R) : Prop := exists i, (i < n)%nat /\ u i <> 0.

Definition symmetric (n : nat) (M : nat -> nat -> R) : Prop :=
  forall i j, (i < n)%nat -> (j < n)%nat -> M i j = M j i.
Definition pos_def (n : nat) (M : nat -> nat -> R) : Prop :=
  forall u, nonzero n u -> 0 < dot n u (matvec n M u).

(** a preconditioner that computes the operator [M] *)
Definition computes (n : nat) (pre : list R -> res (list R)) (M : (nat -> R) -> nat -> R) : Prop :=
  forall v, length v = n ->
    exists w, pre v = Ok w /\ length w = n /\ forall i, (i < n)%nat -> ix w i = M (ix v) i.

(** matrix product *)
Definition matmul (n : nat) (A B : nat -> nat -> R) (i j : nat) : R :=
  bigsum n (fun k => A i k * B k j).
Definition lower_part (A : nat -> nat -> R) (i j : nat) : R :=
  if (i =? j)%nat then 1 else if (j <? i)%nat then A i j else 0.
Definition upper_part (A : nat -> nat -> R) (i j : nat) : R :=
  if (i <=? j)%nat then A i j else 0.
(** position (i,j) is stored in a CSR matrix *)
Definition stored (A : csr R) (i j : nat) : Prop :=
  exists lo hi k, nth_error (indptr A) i = Some lo /\ nth_error (indptr A) (S i) = Some hi /\
    (lo <= k < hi)%nat /\ nth_error (indices A) k = Some j.
