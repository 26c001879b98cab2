(** Properties C17 and C18: Determinant and Inverse: the proofs. *)
From Coq Require Import List Arith Lia Bool.
From mathcomp Require Import all_ssreflect all_algebra perm.
From Verif Require Import Res DenseModel DenseSpec DenseProof DetProof.
Import GRing.Theory.
Local Open Scope ring_scope.

Lemma mx_fun (R : comRingType) div n a f : is_mat a n n f ->
  mx div n a = \matrix_(i < n, j < n) (f i j : R).
Proof.
  case/(is_mat_ent (ring_ops div)) => _ [_ [_ E]]. apply/matrixP => i j.
  rewrite !mxE E //; by apply/ltP.
Qed.
Lemma mx_is_mat (R : comRingType) div n a (f : nat -> nat -> R) : mat_wf a -> mrow a = n -> mcol a = n ->
  (forall i j : 'I_n, mx div n a i j = f i j) -> is_mat a n n f.
Proof.
  move=> W Rw C E. apply: (is_mat_intro (ring_ops div)) => // i j /ltP Hi /ltP Hj.
  by have := E (Ordinal Hi) (Ordinal Hj); rewrite mxE.
Qed.

Lemma C17_determinant_pf : forall (R : comRingType) (div : R -> R -> res R) (n : nat) (a : mat R) (f : nat -> nat -> R),
  is_mat a n.+1 n.+1 f ->
  mdet (ring_ops div) a = Ok (\sum_(s : 'S_n.+1) (-1) ^+ s * \prod_(i < n.+1) f i (s i)).
Proof.
  move=> R div n a f H. have [W [Rw [C _]]] := is_mat_ent (ring_ops div) _ _ _ _ H.
  rewrite (@mdet_correct _ div n a W Rw C) (mx_fun _ div _ _ _ H). congr Ok.
  rewrite /determinant. apply: eq_bigr => s _. congr (_ * _). apply: eq_bigr => i _. by rewrite mxE.
Qed.

Lemma C17_domain_pf : forall (R : comRingType) (div : R -> R -> res R) (a : mat R),
  mrow a <> mcol a \/ mrow a = 0%N -> mdet (ring_ops div) a = Fail AssertFail.
Proof.
  move=> R div a H. rewrite /mdet. have : forall k, mdet_fuel (ring_ops div) k a = Fail AssertFail; last by []. move=> k.
  have E : (Nat.eqb (mrow a) (mcol a) && negb (Nat.eqb (mrow a) 0))%bool = false.
  { case: Nat.eqb_spec => //= E. case: Nat.eqb_spec => //= E'. by case: H. }
  by case: k => [|k]; rewrite /= E.
Qed.

Lemma C18_inverse_pf : forall (F : fieldType) (n : nat) (a : mat F) (f : nat -> nat -> F),
  is_mat a n.+1 n.+1 f ->
  \sum_(s : 'S_n.+1) (-1) ^+ s * \prod_(i < n.+1) f i (s i) != 0 ->
  exists (m p q : mat F) (g : nat -> nat -> F),
    minv (field_ops F) a = Ok m /\ is_mat m n.+1 n.+1 g /\
    mmul (field_ops F) a m = Ok p /\ is_mat p n.+1 n.+1 (fun i j => if i =? j then 1 else 0) /\
    mmul (field_ops F) m a = Ok q /\ is_mat q n.+1 n.+1 (fun i j => if i =? j then 1 else 0).
Proof.
  move=> F n a f H Hd. have [W [Rw [C _]]] := is_mat_ent (field_ops F) _ _ _ _ H.
  have Hm : mx (@field_div F) n.+1 a = \matrix_(i, j) f i j by apply: mx_fun.
  have Hdet : \det (mx (@field_div F) n.+1 a) != 0.
  { rewrite Hm /determinant. move: Hd. congr (_ != _). apply: eq_bigr => s _. congr (_ * _).
    apply: eq_bigr => i _. by rewrite mxE. }
  have Hu : mx (@field_div F) n.+1 a \in unitmx by rewrite unitmxE unitfE.
  have [m [Em [Wm [Rm [Cm Mm]]]]] := @minv_ok F n a W Rw C Hdet.
  have [p [Ep [Wp [Rp [Cp Mp]]]]] := @mmul_mx F n.+1 a m W Wm Rw C Rm Cm.
  have [q [Eq [Wq [Rq [Cq Mq]]]]] := @mmul_mx F n.+1 m a Wm W Rm Cm Rw C.
  have I1 : forall i j : 'I_n.+1, (1%:M : 'M[F]_n.+1) i j = (if Nat.eqb i j then 1 else 0).
  { move=> i j. rewrite mxE. case: Nat.eqb_spec => E.
    - have -> : i = j by apply: val_inj. by rewrite eqxx.
    - have -> : (i == j) = false by apply/eqP => E'; apply: E; rewrite E'. by []. }
  exists m, p, q, (ent (field_ops F) m). split => //. split.
  { apply: (mx_is_mat F (@field_div F)) => // i j. by rewrite mxE. }
  split => //. split.
  { apply: (mx_is_mat F (@field_div F)) => // i j. rewrite Mp Mm mulmxV //. }
  split => //.
  apply: (mx_is_mat F (@field_div F)) => // i j. rewrite Mq Mm mulVmx //.
Qed.

Lemma C18_singular_pf : forall (F : fieldType) (n : nat) (a : mat F) (f : nat -> nat -> F),
  is_mat a n.+1 n.+1 f ->
  \sum_(s : 'S_n.+1) (-1) ^+ s * \prod_(i < n.+1) f i (s i) = 0 ->
  minv (field_ops F) a = Fail DivByZero.
Proof.
  move=> F n a f H Hd. have [W [Rw [C _]]] := is_mat_ent (field_ops F) _ _ _ _ H.
  apply: (@minv_singular F n a W Rw C). rewrite (mx_fun _ (@field_div F) _ _ _ H) /determinant -[RHS]Hd.
  apply: eq_bigr => s _. congr (_ * _). apply: eq_bigr => i _. by rewrite mxE.
Qed.
