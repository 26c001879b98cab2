(** Runs of static samples from properties of their elements; the bars. *)
From Coq Require Import List Arith Lia Bool Reals Lra.
From Verif Require Import Res SumR DenseModel DenseR DenseSpec ShapeModel QuadModel QuadSpec ElemModel ElemSpec BeamModel BeamSpec SparseModel SparseSpec AssemblyModel AssemblySpec KrylovSpec PatchSpec StableSpec TopSpec StaticModel StaticSpec FrameModel FrameSpec.
From Verif Require Import DenseProof DenseMain AssemblyProof AssemblyProof2 AssemblyProof3 AssemblyMain ElemProof ElemProof2 ElemMain PatchProof PatchProof2 PatchProof3 StableProof3 StableProof4 StableMain HomMain TopProof3 TopProof4 StaticPiece StaticProof BeamMain.
Import ListNotations.
Local Open Scope R_scope.

Definition esym (e : elem) : Prop := forall a b, In a (e_dofs e) -> In b (e_dofs e) -> e_k e (dloc a) (dloc b) = e_k e (dloc b) (dloc a).
Lemma gen_definite es n t u G : (forall e, In e es -> elem_ok n t u e) -> numbering n t -> (forall i j, (i < n)%nat -> G i j = sum_over es (fun e => k_contrib t e i j)) ->
  (forall e, In e es -> esym e) -> (forall e v, In e es -> 0 <= denergy e v) ->
  (forall v, (forall k c, num t k c = None -> v k c = 0) -> (forall e, In e es -> denergy e v = 0) -> forall k c, num t k c <> None -> v k c = 0) ->
  symmetric n G /\ pos_def n G.
Proof.
  intros He (B2 & I2 & O2) HG HSy HN0 HZ. split.
  - intros i j Hi Hj. rewrite !HG by auto. apply sum_ext. intros e Hin. apply k_contrib_sym. exact (HSy e Hin).
  - intros x Hx. set (v := fun k c => match num t k c with Some j => x j | None => 0 end).
    assert (EE : dot n x (matvec n G x) = sum_over es (fun e => denergy e v)).
    { unfold dot, matvec. rewrite (sum_ext es _ (fun e => bigsum n (fun i => bigsum n (fun j => x i * k_contrib t e i j * x j)))).
      2:{ intros e Hin. rewrite (energy n t u) by auto. reflexivity. }
      rewrite <- bigsum_over. apply bigsum_ext. intros i Hi. rewrite <- bigsum_over, <- bigsum_scal. apply bigsum_ext. intros j Hj.
      rewrite HG by auto. rewrite (Rmult_comm (sum_over _ _)), <- Rmult_assoc, <- sum_over_scal. apply sum_ext. intros; ring. }
    assert (NN : forall e, In e es -> 0 <= denergy e v) by (intros; auto).
    rewrite EE. destruct (Rle_lt_or_eq_dec _ _ (sum_over_nonneg es _ NN)) as [Hlt|H0]; [exact Hlt|]. exfalso. symmetry in H0.
    destruct Hx as (k & Hk & Hne). destruct (O2 k Hk) as (i & j & Eij). apply Hne.
    assert (Z : v i j = 0). { apply HZ; [|intros e Hin; exact (sum_zero_each es _ NN H0 e Hin)|congruence]. intros k0 c E0. unfold v. now rewrite E0. }
    unfold v in Z. now rewrite Eij in Z.
Qed.

Lemma gen_run solve d es : spd_solver solve -> Forall2 (made_by (st_f d)) (st_pieces d) es ->
  (forall e, In e es -> esym e) -> (forall e v, In e es -> 0 <= denergy e v) ->
  (forall e t, In e es -> (forall i j, (i < length (st_x d))%nat -> (j < st_m d)%nat -> in_table t i j) -> elem_fits t e) ->
  (forall i j v, In (i, j, v) (st_fx d) -> (i < length (st_x d))%nat /\ (j < st_m d)%nat) ->
  (forall i j v, In (i, j, v) (st_loads d) -> (i < length (st_x d))%nat /\ (j < st_m d)%nat) ->
  (forall v, (forall k c, last_value (st_fx d) k c <> None -> v k c = 0) -> (forall e, In e es -> denergy e v = 0) -> forall k c, (k < length (st_x d))%nat -> (c < st_m d)%nat -> v k c = 0) ->
  exists u, st_run solve d = Ok u /\ length u = length (st_x d) /\ sshape d u /\ balanced d es u /\
    forall u', sshape d u' -> balanced d es u' -> forall i j, uval u' i j = uval u i j.
Proof.
  intros HS HF HSy HE0 HFit HX HL HH. set (N := length (st_x d)) in *. set (m := st_m d) in *.
  set (u0 := repeat (vnew R_ops m) N). set (t0 := repeat (repeat (Some 0%nat) m) N).
  assert (U0 : forall i j, in_table u0 i j <-> (i < N)%nat /\ (j < m)%nat) by (intros; apply in_rep).
  assert (T0 : forall i j, in_table t0 i j <-> (i < N)%nat /\ (j < m)%nat) by (intros; apply in_rep).
  destruct (set_dirichlet_ok (st_fx d) u0 t0) as (u1 & t1 & E1 & SU & ST & VU & VT).
  { intros i j v Hin. rewrite U0, T0. split; exact (HX i j v Hin). }
  destruct (renumber t1) as [t2 n] eqn:E2. destruct (renumber_ok _ _ _ E2) as ((L2 & S2 & N2) & _ & _ & NU & _).
  assert (T2 : forall i j, in_table t2 i j <-> (i < N)%nat /\ (j < m)%nat). { intros i j. rewrite <- T0. unfold in_table. rewrite <- S2, (proj2 ST). tauto. }
  assert (U1 : forall i j, in_table u1 i j <-> (i < N)%nat /\ (j < m)%nat). { intros i j. rewrite <- U0. unfold in_table. rewrite (proj2 SU). tauto. }
  assert (Z : forall i j, num t2 i j = None <-> last_value (st_fx d) i j <> None \/ ~ ((i < N)%nat /\ (j < m)%nat)).
  { intros i j. rewrite <- N2, VT. unfold t0. rewrite num_rep. destruct (last_value (st_fx d) i j); [split; intros; auto; left; discriminate|].
    destruct (Nat.ltb_spec i N), (Nat.ltb_spec j m); cbn [andb]; split; intros Q; try discriminate; auto; try (right; lia); destruct Q as [Q|Q]; [congruence|exfalso; apply Q; auto]. }
  destruct (kf_system n t2 u1 es (st_loads d) NU) as (K & F & F' & Kc & K' & E3 & E4 & E5 & SQ & LF & EN & OK & X).
  { intros i j. rewrite T2, U1. auto. }
  { intros e He. apply HFit; auto. intros i j Hi Hj. apply T2. auto. }
  { intros i j v Hin. apply T2. exact (HL i j v Hin). }
  destruct (gen_definite es n t2 u1 (entry Kc)) as [SY PD]; auto.
  { intros v Hv He k c Hn.
    assert (A : (k < N)%nat /\ (c < m)%nat). { rewrite Z in Hn. destruct (lt_dec k N), (lt_dec c m); auto; exfalso; apply Hn; right; lia. }
    apply HH; try apply A; auto. intros k' c' Hl. apply Hv. apply Z. now left. }
  destruct (HS n Kc F' SQ LF SY PD) as (x & Ex & Lx & Sx). destruct (X x Lx) as (u & E6 & IU & LU & VV & EQ).
  exists u. split; [|split; [|split; [|split]]].
  - unfold st_run. fold N m u0 t0. rewrite dirichlet_concat. fold (st_fx d). rewrite E1. cbn [bind]. rewrite E2, (add_made d u1 t2 _ es _ HF), E3. cbn [bind]. rewrite E4. cbn [bind]. rewrite E5. cbn [bind]. rewrite Ex. exact E6.
  - rewrite LU, (proj1 SU). apply repeat_length.
  - intros i j. rewrite IU. apply U1.
  - split.
    + intros i j v Hv. rewrite VV. assert (num t2 i j = None) as -> by (apply Z; left; congruence). rewrite VU, Hv. reflexivity.
    + intros i j Hi Hj Hv. destruct (num t2 i j) as [k|] eqn:Ek; [|apply Z in Ek; destruct Ek as [Ek|Ek]; [congruence|exfalso; apply Ek; auto]].
      pose proof (EQ i j k Ek) as Q. assert (residual n Kc F' x k = 0); [|lra]. unfold residual. pose proof (proj1 (mulvec_rows n Kc x F' SQ Lx LF) Sx k (proj1 NU _ _ _ Ek)). lra.
  - intros u' SH [B1 B2]. destruct NU as (N1 & I2 & O2).
    destruct (PatchProof3.finite_choice (fun k w => forall i j, num t2 i j = Some k -> w = uval u' i j) n) as (x' & Lx' & Hx').
    { intros k Hk. destruct (O2 k Hk) as (i & j & Eij). exists (uval u' i j). intros i' j' E'. destruct (I2 _ _ _ _ _ Eij E') as [-> ->]. reflexivity. }
    destruct (X x' Lx') as (u2 & _ & _ & _ & V2 & EQ2).
    assert (SM : forall i j, uval u2 i j = uval u' i j).
    { intros i j. rewrite V2. destruct (num t2 i j) as [k|] eqn:Ek; [apply Hx'; eauto|]. rewrite VU. destruct (last_value (st_fx d) i j) as [v|] eqn:Ev; [symmetry; auto|].
      apply Z in Ek. destruct Ek as [Ek|Ek]; [congruence|]. assert (~ in_table u' i j) as Hu by (rewrite (SH i j); exact Ek). assert (~ in_table u0 i j) as H0 by (rewrite U0; exact Ek).
      unfold in_table in Hu, H0. unfold uval. rewrite !nth_overflow by lia. reflexivity. }
    assert (Sx' : csr_mulvec 0 Rplus Rmult Kc x' = Ok F').
    { apply (mulvec_rows n Kc x' F' SQ Lx' LF). intros k Hk. destruct (O2 k Hk) as (i & j & Eij). pose proof (EQ2 i j k Eij) as Q.
      assert (P : ~ (last_value (st_fx d) i j <> None \/ ~ ((i < N)%nat /\ (j < m)%nat))) by (rewrite <- Z; congruence).
      assert (A1 : last_value (st_fx d) i j = None) by (destruct (last_value (st_fx d) i j); auto; exfalso; apply P; left; discriminate).
      assert (A2 : (i < N)%nat /\ (j < m)%nat) by (destruct (lt_dec i N), (lt_dec j m); auto; exfalso; apply P; right; lia).
      rewrite (internal_force_ext es u2 u' i j SM), (B2 i j (proj1 A2) (proj2 A2) A1) in Q. unfold residual in Q. lra. }
    destruct (definite_solution n Kc F' SQ LF SY PD) as (y & _ & _ & UY).
    assert (x' = x) as EXX by (rewrite (UY x Lx Sx); apply UY; auto). intros i j. rewrite <- SM, V2, VV, EXX. reflexivity.
Qed.

(** ** A bar *)
Definition dou6 : list nat := [0; 1; 2; 3; 4; 5]%nat.
Lemma dou6_nth c : (c < 6)%nat -> nth c dou6 O = c.
Proof. intros H. do 6 (destruct c as [|c]; [reflexivity|]). lia. Qed.
Lemma timoshenko_ext E G l a b d1 d2 y y' z z' : (forall i c, (i < 2)%nat -> (c < 6)%nat -> y i c = y' i c) -> (forall i c, (i < 2)%nat -> (c < 6)%nat -> z i c = z' i c) ->
  timoshenko E G l a b d1 d2 y z = timoshenko E G l a b d1 d2 y' z'.
Proof. intros HY HZ. unfold timoshenko, stretch, turn, mean_turn, dot3. cbn [bigsum Nat.add]. rewrite !HY, !HZ by lia. reflexivity. Qed.
Lemma dform_gen m dou e kf v w : (m <> 0)%nat -> is_mat (e_K e) (m * length (e_nodes e)) (m * length (e_nodes e)) kf -> numbered m (length (e_nodes e)) dou (e_nte e) ->
  sum_over (e_dofs e) (fun a => sum_over (e_dofs e) (fun b => v (dnode a) (ddof a) * e_k e (dloc a) (dloc b) * w (dnode b) (ddof b))) =
  form m (length (e_nodes e)) kf (fun i c => v (nth i (e_nodes e) O) (nth c dou O)) (fun i c => w (nth i (e_nodes e) O) (nth c dou O)).
Proof.
  intros Hm Hk Hn. unfold e_dofs. rewrite (numbered_sum m dou _ _ _ Hn), form_blocks by auto. apply bigsum_ext. intros i Hi. apply bigsum_ext. intros c Hc.
  rewrite (numbered_sum m dou _ _ _ Hn). apply bigsum_ext. intros i' Hi'. apply bigsum_ext. intros c' Hc'. cbn [dnode ddof dloc]. unfold e_k.
  rewrite (mat_entry _ _ _ _ _ _ Hk) by nia. reflexivity.
Qed.
(** the element of a bar: its matrix, for the given frame of the section *)
Lemma bar_element d el l d1 d2 : 0 < fr_a d -> 0 < fr_b d -> 0 < 1 + fr_V d -> bar_ok d el -> 0 < l -> straight el (fr_x d) (fr_v1 d) (fr_v2 d) l d1 d2 ->
  exists K ne kf, fr_routine d sf_2Line Gauss1Line el = Ok (K, ne) /\ is_mat K 12 12 kf /\ numbered 6 2 dou6 ne /\
    forall y z, form 6 2 kf y z = timoshenko (fr_E d) (lame_mu (fr_E d) (fr_V d)) l (fr_a d) (fr_b d) d1 d2 y z.
Proof.
  intros Ha Hb HV (HL & H1 & H2 & H3 & _) Hl HS. apply (C97_straight_beam_pf Gauss4Square el dou6 (fr_x d) (fr_v1 d) (fr_v2 d) (fr_E d) (fr_V d) (fr_a d) (fr_b d) l d1 d2); auto; try lra.
  - apply list_rule. reflexivity.
  - exact section4.
Qed.
Lemma bar_made d el e l d1 d2 : 0 < fr_a d -> 0 < fr_b d -> 0 < 1 + fr_V d -> bar_ok d el -> 0 < l -> straight el (fr_x d) (fr_v1 d) (fr_v2 d) l d1 d2 ->
  made_by (fr_routine d) (mkPiece sf_2Line Gauss1Line el) e ->
  exists kf, e_nodes e = el /\ is_mat (e_K e) (6 * length (e_nodes e)) (6 * length (e_nodes e)) kf /\ numbered 6 (length (e_nodes e)) dou6 (e_nte e) /\
    forall v w, sum_over (e_dofs e) (fun a => sum_over (e_dofs e) (fun b => v (dnode a) (ddof a) * e_k e (dloc a) (dloc b) * w (dnode b) (ddof b))) =
      timoshenko (fr_E d) (lame_mu (fr_E d) (fr_V d)) l (fr_a d) (fr_b d) d1 d2 (ends v el) (ends w el).
Proof.
  intros Ha Hb HV HB Hl HS [EN Er]. cbn [p_nodes p_shape p_rule] in EN, Er. destruct (bar_element d el l d1 d2 Ha Hb HV HB Hl HS) as (K & ne & kf & E & Hk & Hn & HF).
  rewrite E in Er. injection Er as EK Ene. pose proof (proj1 HB) as HL. exists kf. rewrite EN, HL, <- EK, <- Ene. splits; auto.
  intros v w. rewrite EK, Ene in *. rewrite (dform_gen 6 dou6 e kf v w); try (rewrite ?EN, ?HL; auto).
  rewrite HF. apply timoshenko_ext; intros i c Hi Hc; unfold ends; rewrite dou6_nth by auto; reflexivity.
Qed.
Lemma timoshenko_sym E G l a b d1 d2 y z : timoshenko E G l a b d1 d2 y z = timoshenko E G l a b d1 d2 z y.
Proof. unfold timoshenko. ring. Qed.
Lemma ortho_zero d1 d2 w : dot3 d1 d1 = 1 -> dot3 d2 d2 = 1 -> dot3 d1 d2 = 0 -> dot3 w d1 = 0 -> dot3 w d2 = 0 -> dot3 w (cross3 d1 d2) = 0 -> forall c, (c < 3)%nat -> w c = 0.
Proof.
  intros H11 H22 H12 W1 W2 W3. assert (E : dot3 w w = 0).
  { assert (T : dot3 (cross3 d1 d2) (cross3 d1 d2) = 1).
    { replace (dot3 (cross3 d1 d2) (cross3 d1 d2)) with (dot3 d1 d1 * dot3 d2 d2 - dot3 d1 d2 * dot3 d1 d2) by (unfold dot3; cbn; ring). rewrite H11, H22, H12. ring. }
    rewrite <- (Rmult_1_r (dot3 w w)), <- T.
    replace (dot3 w w * dot3 (cross3 d1 d2) (cross3 d1 d2)) with (dot3 w (cross3 d1 d2) * dot3 w (cross3 d1 d2)
      + (dot3 w d2 * dot3 w d2 * dot3 d1 d1 + dot3 w d1 * dot3 w d1 * dot3 d2 d2 - 2 * dot3 w d1 * dot3 w d2 * dot3 d1 d2)) by (unfold dot3; cbn; ring).
    rewrite W1, W2, W3. ring. }
  unfold dot3 in E. cbn in E. intros c Hc. do 3 (destruct c as [|c]; [nra|]). lia.
Qed.
Lemma timoshenko_pos E G l a b d1 d2 z : 0 < E -> 0 < G -> 0 < l -> 0 < a -> 0 < b -> 0 <= timoshenko E G l a b d1 d2 z z.
Proof.
  intros HE HG Hl Ha Hb. unfold timoshenko. cbv zeta. pose proof (Rinv_0_lt_compat _ Hl) as Hi. unfold Rdiv.
  pose proof (pow_lt _ 3 Ha). pose proof (pow_lt _ 3 Hb).
  repeat apply Rplus_le_le_0_compat; apply Rmult_le_pos; try (apply Rplus_le_le_0_compat; apply Rle_0_sqr); try apply Rle_0_sqr; left; repeat apply Rmult_lt_0_compat; try lra; nra.
Qed.
Lemma timoshenko_zero E G l a b d1 d2 z : 0 < E -> 0 < G -> 0 < l -> 0 < a -> 0 < b -> dot3 d1 d1 = 1 -> dot3 d2 d2 = 1 -> dot3 d1 d2 = 0 ->
  timoshenko E G l a b d1 d2 z z = 0 -> forall i j, (i < 2)%nat -> (j < 2)%nat -> (forall c, (c < 6)%nat -> z i c = 0) -> forall c, (c < 6)%nat -> z j c = 0.
Proof.
  intros HE HG Hl Ha Hb H11 H22 H12 HZ i j Hi Hj Hzi. pose proof (Rinv_0_lt_compat _ Hl) as Hil. pose proof (pow_lt _ 3 Ha). pose proof (pow_lt _ 3 Hb).
  unfold timoshenko in HZ. cbv zeta in HZ. set (t := cross3 d1 d2) in *.
  assert (C1 : 0 < E * (a * b) / l) by (unfold Rdiv; repeat apply Rmult_lt_0_compat; auto). assert (C2 : 0 < E * (a * b ^ 3 / 12) / l) by (unfold Rdiv; repeat apply Rmult_lt_0_compat; auto; lra).
  assert (C3 : 0 < E * (b * a ^ 3 / 12) / l) by (unfold Rdiv; repeat apply Rmult_lt_0_compat; auto; lra). assert (C4 : 0 < 5 / 6 * G * (a * b) / l) by (unfold Rdiv; repeat apply Rmult_lt_0_compat; auto; lra).
  assert (C5 : 0 < 5 / 6 * G * (a * b ^ 3 / 12 + b * a ^ 3 / 12) / l). { unfold Rdiv. apply Rmult_lt_0_compat; auto. apply Rmult_lt_0_compat; [lra|]. apply Rplus_lt_0_compat; repeat apply Rmult_lt_0_compat; auto; lra. }
  set (k1 := E * (a * b) / l) in *. set (k2 := E * (a * b ^ 3 / 12) / l) in *. set (k3 := E * (b * a ^ 3 / 12) / l) in *. set (k4 := 5 / 6 * G * (a * b) / l) in *. set (k5 := 5 / 6 * G * (a * b ^ 3 / 12 + b * a ^ 3 / 12) / l) in *. clearbody k1 k2 k3 k4 k5.
  set (q1 := stretch z t) in *. set (q2 := turn z d1) in *. set (q3 := turn z d2) in *. set (q4 := stretch z d1 - l * mean_turn z d2) in *. set (q5 := stretch z d2 + l * mean_turn z d1) in *. set (q6 := turn z t) in *.
  assert (Q : q1 = 0 /\ q2 = 0 /\ q3 = 0 /\ q4 = 0 /\ q5 = 0 /\ q6 = 0).
  { clearbody q1 q2 q3 q4 q5 q6. pose proof (Rle_0_sqr q1) as S1. pose proof (Rle_0_sqr q2) as S2. pose proof (Rle_0_sqr q3) as S3. pose proof (Rle_0_sqr q4) as S4. pose proof (Rle_0_sqr q5) as S5. pose proof (Rle_0_sqr q6) as S6. unfold Rsqr in *.
    pose proof (Rmult_le_pos _ _ (Rlt_le _ _ C1) S1). pose proof (Rmult_le_pos _ _ (Rlt_le _ _ C2) S2). pose proof (Rmult_le_pos _ _ (Rlt_le _ _ C3) S3). pose proof (Rmult_le_pos _ _ (Rlt_le _ _ C4) S4). pose proof (Rmult_le_pos _ _ (Rlt_le _ _ C4) S5). pose proof (Rmult_le_pos _ _ (Rlt_le _ _ C5) S6).
    assert (X : forall k q, 0 < k -> k * (q * q) = 0 -> q = 0). { intros k q Hk Hq. apply Rmult_integral in Hq. destruct Hq as [Hq|Hq]; [lra|]. apply Rmult_integral in Hq. tauto. }
    splits; [apply (X k1)|apply (X k2)|apply (X k3)|apply (X k4)|apply (X k4)|apply (X k5)]; auto; lra. }
  destruct Q as (Q1 & Q2 & Q3 & Q4 & Q5 & Q6).
  assert (TH : forall c, (c < 3)%nat -> z 1%nat (3 + c)%nat - z 0%nat (3 + c)%nat = 0) by (apply (ortho_zero d1 d2); auto).
  assert (TA : forall c, (c < 3)%nat -> z 0%nat (3 + c)%nat = 0 /\ z 1%nat (3 + c)%nat = 0).
  { intros c Hc. specialize (TH c Hc). pose proof (Hzi (3 + c)%nat ltac:(lia)) as Z0. destruct i as [|[|i]]; [| |lia]; split; lra. }
  assert (MT : forall p, mean_turn z p = 0). { intros p. unfold mean_turn, dot3. cbn [bigsum]. destruct (TA 0%nat), (TA 1%nat), (TA 2%nat); try lia. rewrite H1, H2, H3, H4, H5, H6. lra. }
  unfold q4 in Q4. unfold q5 in Q5. rewrite MT in Q4, Q5.
  assert (TU : forall c, (c < 3)%nat -> z 1%nat c - z 0%nat c = 0) by (apply (ortho_zero d1 d2); auto; unfold stretch in *; try lra; auto).
  intros c Hc. destruct (lt_dec c 3) as [Hc3|Hc3].
  - specialize (TU c Hc3). pose proof (Hzi c Hc). destruct i as [|[|i]], j as [|[|j]]; try lia; lra.
  - destruct (TA (c - 3)%nat ltac:(lia)) as [A0 A1]. replace (3 + (c - 3))%nat with c in A0, A1 by lia. destruct j as [|[|j]]; try lia; auto.
Qed.
