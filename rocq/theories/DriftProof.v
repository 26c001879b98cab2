(** Runs with positive definite matrices that need not be symmetric. *)
From Coq Require Import List Arith Lia Bool Reals Lra.
From Verif Require Import Res SumR DenseModel DenseR DenseSpec ShapeModel QuadModel QuadSpec ElemModel ElemSpec SparseModel SparseSpec AssemblyModel AssemblySpec KrylovSpec PatchSpec StableSpec TopSpec StaticModel StaticSpec FrameSpec DriftModel DriftSpec SolvelsModel.
From Verif Require Import DenseProof DenseMain AssemblyProof AssemblyProof2 AssemblyProof3 AssemblyMain PatchProof PatchProof2 PatchProof3 StableProof3 StableProof4 StableMain HomMain TopProof3 TopProof4 StaticPiece StaticProof LUProof SolvelsProof.
Import ListNotations.
Local Open Scope R_scope.

Lemma pd_nonsingular n A : pos_def n A -> nonsingular n A.
Proof.
  intros PD x Hx j Hj. destruct (Req_EM_T (x j) 0) as [E|NE]; [exact E|]. exfalso. pose proof (PD x (ex_intro _ j (conj Hj NE))) as Q.
  unfold dot in Q. rewrite bigsum_zero in Q; [lra|]. intros i Hi. unfold matvec. rewrite Hx by auto. ring.
Qed.
(** a solver for all regular matrices: elimination on the full matrix *)
Definition full_solve (A : csr R) (b : list R) : res (list R) :=
  let n := length b in if (n =? 0)%nat then Ok [] else solvels (map (fun i => map (entry A i) (seq 0 n)) (seq 0 n)) b.
Lemma nth_ms {A} (f : nat -> A) N i d : (i < N)%nat -> nth i (map f (seq 0 N)) d = f i.
Proof. intros H. rewrite (nth_indep _ d (f O)) by (now rewrite map_length, seq_length). rewrite (map_nth f), seq_nth by auto. reflexivity. Qed.
Lemma full_pd : pd_solver full_solve.
Proof.
  intros n A b SQ LB PD. unfold full_solve. rewrite LB. destruct (Nat.eqb_spec n 0) as [->|Hn].
  - exists []. split; [reflexivity|]. split; [reflexivity|]. apply (mulvec_rows 0 A [] b SQ eq_refl LB). intros i Hi. lia.
  - destruct (solvels_ok n (map (fun i => map (entry A i) (seq 0 n)) (seq 0 n)) b (entry A) (ix b)) as [(x & X & E & Hx & HX & _)|(_ & HN)].
    + lia.
    + split; [now rewrite map_length, seq_length|]. intros i Hi. rewrite nth_ms by auto. split; [now rewrite map_length, seq_length|]. intros j Hj. now rewrite nth_ms by auto.
    + split; [auto|]. intros i Hi. reflexivity.
    + exists x. split; [exact E|]. split; [apply Hx|]. apply (mulvec_rows n A x b SQ (proj1 Hx) LB). intros i Hi. rewrite <- (HX i Hi). unfold matvec. apply bigsum_ext. intros j Hj. unfold ix. now rewrite (proj2 Hx j Hj).
    + exfalso. apply HN. now apply pd_nonsingular.
Qed.

Lemma gen_run_pd solve d es : pd_solver solve -> Forall2 (made_by (st_f d)) (st_pieces d) es ->
  (forall e t, In e es -> (forall i j, (i < length (st_x d))%nat -> (j < st_m d)%nat -> in_table t i j) -> elem_fits t e) ->
  (forall i j v, In (i, j, v) (st_fx d) -> (i < length (st_x d))%nat /\ (j < st_m d)%nat) ->
  (forall i j v, In (i, j, v) (st_loads d) -> (i < length (st_x d))%nat /\ (j < st_m d)%nat) ->
  (forall v, (forall k c, last_value (st_fx d) k c <> None -> v k c = 0) -> (exists k c, (k < length (st_x d))%nat /\ (c < st_m d)%nat /\ v k c <> 0) -> 0 < sum_over es (fun e => denergy e v)) ->
  exists u, st_run solve d = Ok u /\ length u = length (st_x d) /\ sshape d u /\ balanced d es u /\
    forall u', sshape d u' -> balanced d es u' -> forall i j, uval u' i j = uval u i j.
Proof.
  intros HS HF HFit HX HL HH. set (N := length (st_x d)) in *. set (m := st_m d) in *.
  set (u0 := repeat (vnew R_ops m) N). set (t0 := repeat (repeat (Some 0%nat) m) N).
  assert (U0 : forall i j, in_table u0 i j <-> (i < N)%nat /\ (j < m)%nat) by (intros; apply in_rep).
  assert (T0 : forall i j, in_table t0 i j <-> (i < N)%nat /\ (j < m)%nat) by (intros; apply in_rep).
  destruct (set_dirichlet_ok (st_fx d) u0 t0) as (u1 & t1 & E1 & SU & ST & VU & VT).
  { intros i j v Hin. rewrite U0, T0. split; exact (HX i j v Hin). }
  destruct (renumber t1) as [t2 n] eqn:E2. destruct (renumber_ok _ _ _ E2) as ((L2 & S2 & N2) & _ & _ & NU & _).
  assert (T2 : forall i j, in_table t2 i j <-> (i < N)%nat /\ (j < m)%nat). { intros i j. rewrite <- T0. unfold in_table. rewrite <- S2, (proj2 ST). tauto. }
  assert (U1 : forall i j, in_table u1 i j <-> (i < N)%nat /\ (j < m)%nat). { intros i j. rewrite <- U0. unfold in_table. rewrite (proj2 SU). tauto. }
  assert (Z : forall i j, num t2 i j = None <-> last_value (st_fx d) i j <> None \/ ~ ((i < N)%nat /\ (j < m)%nat)).
  { intros i j. rewrite <- N2, VT. unfold t0. rewrite num_rep. destruct (last_value (st_fx d) i j); [split; intros; auto; left; discriminate|].
    destruct (Nat.ltb_spec i N), (Nat.ltb_spec j m); cbn [andb]; split; intros Q; try discriminate; auto; try (right; lia); destruct Q as [Q|Q]; [congruence|exfalso; apply Q; auto]. }
  destruct (kf_system n t2 u1 es (st_loads d) NU) as (K & F & F' & Kc & K' & E3 & E4 & E5 & SQ & LF & EN & OK & X).
  { intros i j. rewrite T2, U1. auto. }
  { intros e He. apply HFit; auto. intros i j Hi Hj. apply T2. auto. }
  { intros i j v Hin. apply T2. exact (HL i j v Hin). }
  assert (PD : pos_def n (entry Kc)).
  { intros x Hx. set (v := fun k c => match num t2 k c with Some j => x j | None => 0 end).
    assert (EE : dot n x (matvec n (entry Kc) x) = sum_over es (fun e => denergy e v)).
    { unfold dot, matvec. rewrite (sum_ext es _ (fun e => bigsum n (fun i => bigsum n (fun j => x i * k_contrib t2 e i j * x j)))).
      2:{ intros e Hin. destruct NU as (_ & I2 & _). rewrite (energy n t2 u1) by auto. reflexivity. }
      rewrite <- bigsum_over. apply bigsum_ext. intros i Hi. rewrite <- bigsum_over, <- bigsum_scal. apply bigsum_ext. intros j Hj.
      rewrite EN by auto. rewrite (Rmult_comm (sum_over _ _)), <- Rmult_assoc, <- sum_over_scal. apply sum_ext. intros; ring. }
    rewrite EE. apply HH.
    - intros k c Hl. unfold v. assert (num t2 k c = None) as -> by (apply Z; now left). reflexivity.
    - destruct Hx as (k & Hk & Hne). destruct NU as (_ & _ & O2). destruct (O2 k Hk) as (i & j & Eij). exists i, j.
      assert (A : (i < N)%nat /\ (j < m)%nat). { destruct (lt_dec i N), (lt_dec j m); auto; exfalso; assert (num t2 i j = None) by (apply Z; right; lia); congruence. }
      split; [apply A|]. split; [apply A|]. unfold v. now rewrite Eij. }
  destruct (HS n Kc F' SQ LF PD) as (x & Ex & Lx & Sx). destruct (X x Lx) as (u & E6 & IU & LU & VV & EQ).
  exists u. split; [|split; [|split; [|split]]].
  - unfold st_run. fold N m u0 t0. rewrite dirichlet_concat. fold (st_fx d). rewrite E1. cbn [bind]. rewrite E2, (add_made d u1 t2 _ es _ HF), E3. cbn [bind]. rewrite E4. cbn [bind]. rewrite E5. cbn [bind]. rewrite Ex. exact E6.
  - rewrite LU, (proj1 SU). apply repeat_length.
  - intros i j. rewrite IU. apply U1.
  - split.
    + intros i j v Hv. rewrite VV. assert (num t2 i j = None) as -> by (apply Z; left; congruence). rewrite VU, Hv. reflexivity.
    + intros i j Hi Hj Hv. destruct (num t2 i j) as [k|] eqn:Ek; [|apply Z in Ek; destruct Ek as [Ek|Ek]; [congruence|exfalso; apply Ek; auto]].
      pose proof (EQ i j k Ek) as Q. assert (residual n Kc F' x k = 0); [|lra]. unfold residual. pose proof (proj1 (mulvec_rows n Kc x F' SQ Lx LF) Sx k (proj1 NU _ _ _ Ek)). lra.
  - intros u' SH [B1 B2]. destruct NU as (N1 & I2 & O2).
    destruct (PatchProof3.finite_choice (fun k w => forall i j, num t2 i j = Some k -> w = uval u' i j) n) as (x' & Lx' & Hx').
    { intros k Hk. destruct (O2 k Hk) as (i & j & Eij). exists (uval u' i j). intros i' j' E'. destruct (I2 _ _ _ _ _ Eij E') as [-> ->]. reflexivity. }
    destruct (X x' Lx') as (u2 & _ & _ & _ & V2 & EQ2).
    assert (SM : forall i j, uval u2 i j = uval u' i j).
    { intros i j. rewrite V2. destruct (num t2 i j) as [k|] eqn:Ek; [apply Hx'; eauto|]. rewrite VU. destruct (last_value (st_fx d) i j) as [v|] eqn:Ev; [symmetry; auto|].
      apply Z in Ek. destruct Ek as [Ek|Ek]; [congruence|]. assert (~ in_table u' i j) as Hu by (rewrite (SH i j); exact Ek). assert (~ in_table u0 i j) as H0 by (rewrite U0; exact Ek).
      unfold in_table in Hu, H0. unfold uval. rewrite !nth_overflow by lia. reflexivity. }
    assert (Rx' : forall k, (k < n)%nat -> matvec n (entry Kc) (ix x') k = ix F' k).
    { intros k Hk. destruct (O2 k Hk) as (i & j & Eij). pose proof (EQ2 i j k Eij) as Q.
      assert (P : ~ (last_value (st_fx d) i j <> None \/ ~ ((i < N)%nat /\ (j < m)%nat))) by (rewrite <- Z; congruence).
      assert (A1 : last_value (st_fx d) i j = None) by (destruct (last_value (st_fx d) i j); auto; exfalso; apply P; left; discriminate).
      assert (A2 : (i < N)%nat /\ (j < m)%nat) by (destruct (lt_dec i N), (lt_dec j m); auto; exfalso; apply P; right; lia).
      rewrite (internal_force_ext es u2 u' i j SM), (B2 i j (proj1 A2) (proj2 A2) A1) in Q. unfold residual in Q. lra. }
    pose proof (proj1 (mulvec_rows n Kc x F' SQ Lx LF) Sx) as Rx.
    assert (DX : forall k, (k < n)%nat -> ix x' k - ix x k = 0).
    { apply (pd_nonsingular n (entry Kc) PD). intros i Hi. specialize (Rx i Hi). specialize (Rx' i Hi). unfold matvec in Rx, Rx'.
      rewrite (bigsum_ext _ _ (fun j => entry Kc i j * ix x' j + -1 * (entry Kc i j * ix x j))) by (intros; ring). rewrite bigsum_plus, bigsum_scal, Rx, Rx'. ring. }
    assert (x' = x) as EXX. { apply (nth_ext _ _ 0 0); [congruence|]. intros k Hk. specialize (DX k ltac:(lia)). unfold ix in DX. lra. }
    intros i j. rewrite <- SM, V2, VV, EXX. reflexivity.
Qed.
