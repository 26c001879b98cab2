(** Property C20: LU decomposition and SolveLU: the proofs. *)
From Coq Require Import List Arith Lia Bool Reals Lra Permutation.
From Verif Require Import Res SumR DenseModel DenseSpec DenseProof DenseR DenseMain LUModel LUProof.
Import ListNotations.
Local Open Scope R_scope.

Lemma C20_lu_solves_pf : forall (n : nat) (a : mat R) (A : nat -> nat -> R) (b : list R) (B : nat -> R) (p0 : list nat),
  is_mat a n n A -> is_vec b n B -> length p0 = n ->
  (forall x : nat -> R, (forall i, (i < n)%nat -> bigsum n (fun j => A i j * x j) = 0) ->
     forall j, (j < n)%nat -> x j = 0) ->
  exists lum piv x f X,
    lu a p0 = Ok (lum, piv) /\ is_mat lum n n f /\
    Permutation piv (seq 0 n) /\
    (forall i j, (j < i < n)%nat -> Rabs (f i j) <= 1) /\
    (forall i, (i < n)%nat -> f i i <> 0) /\
    (forall i j, (i < n)%nat -> (j < n)%nat -> A (nth i piv 0%nat) j =
       bigsum n (fun t => (if (t <? i)%nat then f i t else if (t =? i)%nat then 1 else 0) *
                          (if (t <=? j)%nat then f t j else 0))) /\
    solve_lu lum b piv = Ok x /\ is_vec x n X /\
    forall i, (i < n)%nat -> bigsum n (fun j => A i j * X j) = B i.
Proof.
  intros n a A b B p0 Ha Hb L HN.
  destruct (lu_ok n A a p0 Ha L HN) as (a' & p & f & E & Hm & Hf).
  destruct (solve_lu_ok n A f a' p b B Hm Hf Hb) as (x & X & E' & HX & HS).
  destruct Hf as (F1 & F2 & F3 & F4).
  exists a', p, x, f, X. splits; auto.
Qed.

Lemma C20_shapes_pf : forall (a : mat R) (b : list R) (p : list nat),
  (mrow a <> mcol a \/ mrow a <> length p -> lu a p = Fail AssertFail) /\
  (mrow a <> mcol a \/ mrow a <> length b \/ mrow a <> length p -> solve_lu a b p = Fail AssertFail).
Proof.
  intros a b p. unfold lu, solve_lu. split; intros H.
  - destruct (Nat.eqb_spec (mrow a) (mcol a)); auto. destruct (Nat.eqb_spec (mrow a) (length p)); auto. lia.
  - destruct (Nat.eqb_spec (mrow a) (mcol a)); auto. cbn [assert_ bind].
    destruct (Nat.eqb_spec (mrow a) (length b)); auto. destruct (Nat.eqb_spec (mrow a) (length p)); auto. lia.
Qed.
