(** Property C20: LU decomposition and SolveLU. *)
From Coq Require Import List Arith Lia Bool Reals Lra Permutation.
From Verif Require Import Res SumR DenseModel DenseSpec DenseProof DenseR DenseMain LUModel LUProof LUMain.
Import ListNotations.
Local Open Scope R_scope.

(** C20: for every nonsingular A (only the zero vector is mapped to zero) and
    every b, LU and SolveLU run to completion without a zero pivot, a failing
    assert or an access out of bounds, and the vector left in b solves A x = b.
    The pivot vector is a permutation of 0..n-1 and every multiplier stored
    below the diagonal has absolute value at most 1.  The initial contents of
    the pivot vector do not matter. *)
Theorem C20_lu_solves : forall (n : nat) (a : mat R) (A : nat -> nat -> R) (b : list R) (B : nat -> R) (p0 : list nat),
  is_mat a n n A -> is_vec b n B -> length p0 = n ->
  (forall x : nat -> R, (forall i, (i < n)%nat -> bigsum n (fun j => A i j * x j) = 0) ->
     forall j, (j < n)%nat -> x j = 0) ->
  exists lum piv x f X,
    lu a p0 = Ok (lum, piv) /\ is_mat lum n n f /\
    Permutation piv (seq 0 n) /\
    (forall i j, (j < i < n)%nat -> Rabs (f i j) <= 1) /\
    (forall i, (i < n)%nat -> f i i <> 0) /\
    (forall i j, (i < n)%nat -> (j < n)%nat -> A (nth i piv 0%nat) j =
       bigsum n (fun t => (if (t <? i)%nat then f i t else if (t =? i)%nat then 1 else 0) *
                          (if (t <=? j)%nat then f t j else 0))) /\
    solve_lu lum b piv = Ok x /\ is_vec x n X /\
    forall i, (i < n)%nat -> bigsum n (fun j => A i j * X j) = B i.
Proof. exact C20_lu_solves_pf. Qed.
Print Assumptions C20_lu_solves.

(** a matrix with a zero leading entry, which needs the exchange *)
Example C20_ex : forall x : nat -> R,
  (forall i, (i < 2)%nat -> bigsum 2 (fun j => (if (i =? j)%nat then 0 else 2) * x j) = 0) ->
  forall j, (j < 2)%nat -> x j = 0.
Proof.
  intros x H j Hj. pose proof (H 0%nat ltac:(lia)) as H0. pose proof (H 1%nat ltac:(lia)) as H1.
  cbn in H0, H1. destruct j as [|[|]]; [lra|lra|lia].
Qed.

(** C20: shapes that do not fit abort. *)
Theorem C20_shapes : forall (a : mat R) (b : list R) (p : list nat),
  (mrow a <> mcol a \/ mrow a <> length p -> lu a p = Fail AssertFail) /\
  (mrow a <> mcol a \/ mrow a <> length b \/ mrow a <> length p -> solve_lu a b p = Fail AssertFail).
Proof. exact C20_shapes_pf. Qed.
Print Assumptions C20_shapes.
