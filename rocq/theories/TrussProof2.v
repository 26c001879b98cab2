(** The displacements and the reactions of a truss. *)
From Coq Require Import List Arith Lia Bool Reals Lra.
From Verif Require Import Res SumR DenseModel DenseR DenseSpec ShapeModel QuadModel ElemModel ElemSpec SparseModel SparseSpec AssemblyModel AssemblySpec KrylovSpec OCModel TopModel TopSpec TrussModel TrussSpec.
From Verif Require Import DenseProof DenseMain SparseMain AssemblyProof AssemblyProof2 AssemblyProof3 AssemblyMain ElemProof ElemProof2 ElemMain StableProof3 StableProof4 ThetaProof ThetaProof3 ThetaProof4 ThetaProof5 TopProof TopProof2 TopProof3 TopProof4 TopProof5 CellProof CellProof3 TrussProof.
Import ListNotations.
Local Open Scope R_scope.

Section S.
Variables (d : truss) (A : list R) (area : nat -> res R).
Hypothesis HT : truss_ok d.
Hypothesis HA : forall i, (i < nb d)%nat -> area i = Ok (nth i A 0).

Lemma add_bars u t acc : foldM (tr_add d area u t) (seq 0 (length (tr_elements d))) acc = foldM (add_KF u t) (bels d A) acc.
Proof.
  apply foldM_map. intros s i Hi. apply in_seq in Hi. assert (Hi' : (i < nb d)%nat) by (unfold nb in *; lia). destruct (bar_nodes d i HT Hi') as (E & _). unfold tr_add, add_KF. rewrite HA by auto. cbn [bind]. rewrite (rd_nth _ i []) by exact Hi'. cbn [bind].
  rewrite bel_call by auto. cbn [bind]. rewrite E. reflexivity.
Qed.
Lemma bels_fit t : (forall i j, in_table t i j <-> (i < length (tr_x d))%nat /\ (j < 2)%nat) -> forall e, In e (bels d A) -> elem_fits t e.
Proof. intros Ht e He. destruct (bels_in d A e He) as (i & Hi & ->). now apply bel_fits. Qed.

(** the system *)
Record tsys (u1 : list (list R)) (t : table) (n : nat) (Kc : csr R) (F : list R) : Prop := mkTSys {
  ts_run : tr_system d area = Ok (u1, t, Kc, F);
  ts_sq : square_csr n Kc;
  ts_F : length F = n;
  ts_form : forall x y, dot n x (matvec n (entry Kc) y) = aform field (nb d) (kbar d) (fun i => nth i A 0) (fld t x) (fld t y);
  ts_sym : symmetric n (entry Kc);
  ts_out : forall x, length x = n -> exists u2, disassemble u1 x t = Ok u2 /\ length u2 = length (tr_x d) /\ (forall i j, in_table u2 i j <-> (i < length (tr_x d))%nat /\ (j < 2)%nat) /\
      (forall i j, uval u2 i j = fld t (fun k => nth k x 0) i j) /\
      (forall i j k, num t i j = Some k -> bars_resist d (bar_force d A (uval u2)) i j - nodal_load (tr_qfixed d) i j = - residual n Kc F x k) }.
Lemma system_ok u1 t n : ttables d u1 t n -> exists Kc F, tsys u1 t n Kc F.
Proof.
  intros TB. pose proof (tt_num _ _ _ _ TB) as NU.
  destruct (kf_system n t u1 (bels d A) (tr_qfixed d) NU) as (K & F & F' & Kc & K' & E1 & E2 & E3 & SQ & LF & EN & OK & X).
  { intros i j H. apply (tt_inu _ _ _ _ TB), (tt_in _ _ _ _ TB), H. }
  { apply bels_fit. apply TB. }
  { intros i j v H. apply (tt_in _ _ _ _ TB). exact (trk_loads d HT i j v H). }
  exists Kc, F'. split; auto.
  - unfold tr_system. destruct (tt_run _ _ _ _ TB) as (t1 & R1 & R2). rewrite R1. cbn [bind]. rewrite R2, add_bars, E1. cbn [bind]. rewrite E2. cbn [bind]. rewrite E3. reflexivity.
  - intros x y. rewrite <- bels_bil. unfold dot. rewrite (bigsum_ext n _ (fun i => x i * sum_over (bels d A) (fun e => bigsum n (fun j => k_contrib t e i j * y j)))).
    + change (dot n x (fun i => sum_over (bels d A) (fun e => bigsum n (fun j => k_contrib t e i j * y j))) = sum_over (bels d A) (fun e => bil e (e_dofs e) (fld t x) (fld t y))).
      rewrite (dot_sum n x (bels d A) (fun e i => bigsum n (fun j => k_contrib t e i j * y j))). apply sum_ext. intros e He. apply (k_bil n t u1). now apply OK.
    + intros i Hi. f_equal. unfold matvec. rewrite <- bigsum_over. apply bigsum_ext. intros j Hj. rewrite EN by auto. rewrite Rmult_comm, <- sum_over_scal. apply sum_ext. intros; ring.
  - intros i j Hi Hj. rewrite !EN by auto. apply sum_ext. intros e He. apply k_contrib_sym. destruct (bels_in d A e He) as (k & Hk & ->). intros a b Ha Hb. apply bel_sym; rewrite bel_dofs in *; cbn in Ha, Hb; destruct Ha as [<-|[<-|[<-|[<-|[]]]]], Hb as [<-|[<-|[<-|[<-|[]]]]]; cbn; lia.
  - intros x Lx. destruct (X x Lx) as (u & E4 & IU & LU & VU & EQ). exists u. split; auto. split; [rewrite LU; apply TB|]. split; [intros i j; rewrite IU; apply TB|]. split.
    + intros i j. rewrite VU. unfold fld. destruct (num t i j); auto. apply TB.
    + intros i j k Hk. rewrite <- (EQ i j k Hk). f_equal. symmetry. apply bels_force. assert (N : num t i j <> None) by congruence. apply (tt_free _ _ _ _ TB) in N. apply N.
Qed.
Hypothesis HP : forall i, (i < nb d)%nat -> 0 < nth i A 0.
Lemma energy_zero v : aform field (nb d) (kbar d) (fun i => nth i A 0) v v = 0 -> forall i, (i < nb d)%nat -> elongation d i v = 0.
Proof.
  intros H i Hi. apply (kbar_zero d i v HT Hi). assert (NN : forall j, (j < nb d)%nat -> 0 <= nth j A 0 * kbar d j v v) by (intros j Hj; apply Rmult_le_pos; [left; auto|now apply kbar_p]).
  destruct (Rle_lt_or_eq_dec 0 (nth i A 0 * kbar d i v v) (NN i Hi)) as [L|E].
  - exfalso. unfold aform in H. pose proof (bigsum_pos (nb d) (fun i => nth i A 0 * kbar d i v v) i NN Hi L). lra.
  - symmetry in E. apply Rmult_integral in E. destruct E as [E|E]; auto. specialize (HP i Hi). lra.
Qed.
Lemma aform_ext' v w v' w' : (forall i j, (i < length (tr_x d))%nat -> (j < 2)%nat -> v i j = v' i j /\ w i j = w' i j) -> aform field (nb d) (kbar d) (fun i => nth i A 0) v w = aform field (nb d) (kbar d) (fun i => nth i A 0) v' w'.
Proof.
  intros H. apply bigsum_ext. intros i Hi. destruct (bar_nodes d i HT Hi) as (_ & Ha & Hb). unfold kbar, elongation.
  rewrite (proj1 (H _ 0%nat Ha ltac:(lia))), (proj1 (H _ 1%nat Ha ltac:(lia))), (proj1 (H _ 0%nat Hb ltac:(lia))), (proj1 (H _ 1%nat Hb ltac:(lia))).
  rewrite (proj2 (H _ 0%nat Ha ltac:(lia))), (proj2 (H _ 1%nat Ha ltac:(lia))), (proj2 (H _ 0%nat Hb ltac:(lia))), (proj2 (H _ 1%nat Hb ltac:(lia))). reflexivity.
Qed.
Lemma fld_out u1 t n x i j : ttables d u1 t n -> ~ ((i < length (tr_x d))%nat /\ (j < 2)%nat) -> fld t x i j = 0.
Proof. intros TB H. unfold fld. destruct (num t i j) eqn:E; auto. assert (N : num t i j <> None) by congruence. apply (tt_free _ _ _ _ TB) in N. exfalso. apply H. split; apply N. Qed.
Lemma fld_vs t x : vs t (fld t x).
Proof. intros i j H. unfold fld. now rewrite H. Qed.
Lemma definite_iff u1 t n Kc F : ttables d u1 t n -> tsys u1 t n Kc F -> pos_def n (entry Kc) <-> rigid_truss d.
Proof.
  intros TB TS. pose proof (tt_num _ _ _ _ TB) as (B2 & I2 & O2). split.
  - intros PD v HR HZ i j Hi Hj. destruct (num t i j) as [k|] eqn:Ek.
    2:{ pose proof (last_value_in (tr_ufixed d) i j) as LV. destruct (last_value (tr_ufixed d) i j) as [w|]; [exact (HR i j w LV)|]. exfalso. apply (proj2 (tt_free _ _ _ _ TB i j)); auto. split; auto. }
    destruct (Req_dec (v i j) 0) as [|N]; auto. exfalso.
    (* the values of v at the numbered dofs *)
    destruct (list_choice (fun k r => exists i j, num t i j = Some k /\ r = v i j) n) as (x & Lx & Hx). { intros k' Hk'. destruct (O2 k' Hk') as (i' & j' & E'). eauto. }
    assert (FV : forall i j, (i < length (tr_x d))%nat -> (j < 2)%nat -> fld t (fun k => nth k x 0) i j = v i j).
    { intros i' j' Hi' Hj'. unfold fld. destruct (num t i' j') as [k'|] eqn:E'.
      - destruct (Hx k' 0 (B2 _ _ _ E')) as (a & b & Eab & ->). destruct (I2 _ _ _ _ _ Eab E') as [-> ->]. reflexivity.
      - pose proof (last_value_in (tr_ufixed d) i' j') as LV. destruct (last_value (tr_ufixed d) i' j') as [w|]; [symmetry; exact (HR i' j' w LV)|]. exfalso. apply (proj2 (tt_free _ _ _ _ TB i' j')); auto. split; auto. }
    assert (P : 0 < dot n (fun k => nth k x 0) (matvec n (entry Kc) (fun k => nth k x 0))).
    { apply PD. exists k. split; [eapply B2; eauto|]. pose proof (FV i j Hi Hj) as Q. unfold fld in Q. rewrite Ek in Q. lra. }
    rewrite (ts_form _ _ _ _ _ TS) in P. rewrite (aform_ext' _ _ v v) in P by (intros; split; now apply FV).
    assert (Z : aform field (nb d) (kbar d) (fun i => nth i A 0) v v = 0); [|lra]. apply bigsum_zero. intros m Hm. unfold kbar. rewrite (HZ m Hm). ring.
  - intros RG x (k & Hk & Hne). rewrite (ts_form _ _ _ _ _ TS).
    assert (P : 0 <= aform field (nb d) (kbar d) (fun i => nth i A 0) (fld t x) (fld t x)) by (apply aform_nonneg; intros; try (now apply kbar_p); left; auto).
    destruct (Rle_lt_or_eq_dec _ _ P) as [L|E]; [exact L|]. exfalso. symmetry in E. destruct (O2 k Hk) as (i & j & Eij).
    assert (N : num t i j <> None) by congruence. apply (tt_free _ _ _ _ TB) in N. destruct N as (Hi & Hj & _).
    pose proof (RG (fld t x)) as Z. specialize (Z (proj1 (vs_respects d u1 t n (fld t x) HT TB (fun a b H => fld_out u1 t n x a b TB H)) (fld_vs t x)) (energy_zero _ E) i j Hi Hj). unfold fld in Z. rewrite Eij in Z. auto.
Qed.

Lemma residual_zero n Kc F x k : square_csr n Kc -> length F = n -> length x = n -> csr_mulvec 0 Rplus Rmult Kc x = Ok F -> (k < n)%nat -> residual n Kc F x k = 0.
Proof. intros SQ LF Lx Sx Hk. unfold residual. pose proof (proj1 (mulvec_rows n Kc x F SQ Lx LF) Sx k Hk). lra. Qed.
Lemma tdisplacement_ok solve u1 t n : spd_solver solve -> rigid_truss d -> ttables d u1 t n ->
  exists u, tr_displacement solve d area = Ok (u, t) /\ length u = length (tr_x d) /\ (forall i j, in_table u i j <-> (i < length (tr_x d))%nat /\ (j < 2)%nat) /\
    vs t (uval u) /\ (forall i j, free_dof d i j -> bars_resist d (bar_force d A (uval u)) i j = nodal_load (tr_qfixed d) i j).
Proof.
  intros HS RG TB. destruct (system_ok u1 t n TB) as (Kc & F & TS). pose proof (proj2 (definite_iff u1 t n Kc F TB TS) RG) as PD.
  destruct (HS n Kc F (ts_sq _ _ _ _ _ TS) (ts_F _ _ _ _ _ TS) (ts_sym _ _ _ _ _ TS) PD) as (x & Ex & Lx & Sx). destruct (ts_out _ _ _ _ _ TS x Lx) as (u & E4 & LU & IU & VU & EQ).
  exists u. split; [unfold tr_displacement; rewrite (ts_run _ _ _ _ _ TS); cbn [bind]; rewrite Ex; cbn [bind]; rewrite E4; reflexivity|]. split; auto. split; auto. split.
  - intros i j Hn. rewrite VU. now apply fld_vs.
  - intros i j Hf. apply (tt_free _ _ _ _ TB) in Hf. destruct (num t i j) as [k|] eqn:Ek; [|congruence]. pose proof (EQ i j k Ek) as Q.
    rewrite (residual_zero n Kc F x k (ts_sq _ _ _ _ _ TS) (ts_F _ _ _ _ _ TS) Lx Sx (proj1 (tt_num _ _ _ _ TB) _ _ _ Ek)) in Q. lra.
Qed.

(** ** Virtual work *)
Definition tlw (w : field) : R := sum_over (tr_qfixed d) (fun q => snd q * w (fst (fst q)) (snd (fst q))).
Lemma resist_work (f : nat -> R) (w : field) N : N = length (tr_x d) ->
  bigsum N (fun k => bigsum 2 (fun j => w k j * bars_resist d f k j)) = bigsum (nb d) (fun i => f i * elongation d i w).
Proof.
  intros ->. rewrite (bigsum_ext (length (tr_x d)) _ (fun k => bigsum (nb d) (fun i => bigsum 2 (fun j => w k j * (f i * (span d i j / bar_length d i) * ((if (bar_b d i =? k)%nat then 1 else 0) - (if (bar_a d i =? k)%nat then 1 else 0))))))).
  2:{ intros k Hk. rewrite bigsum_swap. apply bigsum_ext. intros j Hj. unfold bars_resist. now rewrite <- bigsum_scal. }
  rewrite bigsum_swap. apply bigsum_ext. intros i Hi. destruct (bar_nodes d i HT Hi) as (_ & Ha & Hb).
  rewrite (bigsum_ext _ _ (fun k => (if (bar_b d i =? k)%nat then f i * (span d i 0 / bar_length d i) * w k 0%nat + f i * (span d i 1 / bar_length d i) * w k 1%nat else 0) + (-1) * (if (bar_a d i =? k)%nat then f i * (span d i 0 / bar_length d i) * w k 0%nat + f i * (span d i 1 / bar_length d i) * w k 1%nat else 0))).
  2:{ intros k Hk. cbn [bigsum]. destruct (bar_b d i =? k)%nat, (bar_a d i =? k)%nat; ring. }
  rewrite bigsum_plus, bigsum_scal. rewrite (bigsum_single _ (bar_b d i)), (bigsum_single _ (bar_a d i)); auto.
  - rewrite !Nat.eqb_refl. unfold elongation, Rdiv. ring.
  - intros k _ Hk. destruct (Nat.eqb_spec (bar_a d i) k); congruence.
  - intros k _ Hk. destruct (Nat.eqb_spec (bar_b d i) k); congruence.
Qed.
Lemma load_sum (w : field) : bigsum (length (tr_x d)) (fun k => bigsum 2 (fun j => w k j * nodal_load (tr_qfixed d) k j)) = tlw w.
Proof.
  unfold nodal_load, tlw. rewrite (bigsum_ext _ _ (fun k => sum_over (tr_qfixed d) (fun q => bigsum 2 (fun j => ind ((fst (fst q) =? k) && (snd (fst q) =? j))%nat (snd q * w (fst (fst q)) (snd (fst q))))))).
  2:{ intros k Hk. rewrite <- bigsum_over. apply bigsum_ext. intros j Hj. rewrite <- sum_over_scal. apply sum_ext. intros q _. destruct (Nat.eqb_spec (fst (fst q)) k) as [<-|]; cbn [andb ind]; [|ring]. destruct (Nat.eqb_spec (snd (fst q)) j) as [<-|]; cbn [ind]; ring. }
  rewrite bigsum_over. apply sum_ext. intros [[i j] v] Hq. destruct (trk_loads d HT i j v Hq). apply (TopProof5.pick (length (tr_x d)) i j); auto.
Qed.
(** forces in equilibrium work as much as the loads *)
Lemma virtual_work (f : nat -> R) u1 t n w : ttables d u1 t n -> vs t w -> (forall i j, free_dof d i j -> bars_resist d f i j = nodal_load (tr_qfixed d) i j) ->
  bigsum (nb d) (fun i => f i * elongation d i w) = tlw w.
Proof.
  intros TB Hw HE. rewrite <- (resist_work f w _ eq_refl), <- load_sum. apply bigsum_ext. intros k Hk. apply bigsum_ext. intros j Hj.
  destruct (num_dec t k j) as [N|N]; [rewrite (Hw k j N); ring|]. rewrite HE; auto. now apply (tt_free _ _ _ _ TB).
Qed.
Definition tsol (t : table) (u : field) : Prop := sol field (nb d) (kbar d) tlw (vs t) (fun i => nth i A 0) u.
Lemma force_elong u w i : bar_force d A u i * elongation d i w = nth i A 0 * kbar d i w u.
Proof. unfold bar_force, stress, kbar, Rdiv. ring. Qed.
Lemma balance_sol u1 t n u : ttables d u1 t n -> vs t u -> (forall i j, free_dof d i j -> bars_resist d (bar_force d A u) i j = nodal_load (tr_qfixed d) i j) -> tsol t u.
Proof.
  intros TB Hu HE. split; auto. intros w Hw. rewrite <- (virtual_work _ u1 t n w TB Hw HE). apply bigsum_ext. intros i Hi. now rewrite force_elong.
Qed.

(** ** The reactions *)
Definition bact (u : list (list R)) (i : nat) (e : elem) : Prop :=
  e_nodes e = [bar_a d i; bar_b d i] /\ e_nte e = bnte /\ e_K e = e_K (bel d i (nth i A 0)) /\ (forall t RF, tr_react d area u t RF i = assemble_F RF (e_F e) t (e_nte e) (e_nodes e)) /\
  length (e_F e) = 4%nat /\ forall a, In a (e_dofs e) -> e_f e (dloc a) = sum_over (e_dofs e) (fun b => e_k e (dloc a) (dloc b) * duval u b).
Lemma bact_exists u i : (i < nb d)%nat -> (forall i j, in_table u i j <-> (i < length (tr_x d))%nat /\ (j < 2)%nat) -> exists e, bact u i e.
Proof.
  intros Hi HU. destruct (bar_nodes d i HT Hi) as (E & Ha & Hb). set (e := bel d i (nth i A 0)).
  destruct (action 2 [0%nat; 1%nat] [bar_a d i; bar_b d i] bnte (e_K e) _ u bel_numbered eq_refl (bel_mat d i (nth i A 0))) as (ue & y & E1 & E2 & Ly & Hy & _).
  { intros a c Hin Hc. apply HU. cbn in Hin, Hc. destruct Hin as [<-|[<-|[]]], Hc as [<-|[<-|[]]]; lia. }
  exists (mkElem [bar_a d i; bar_b d i] bnte (e_K e) y). unfold bact, e_dofs. cbn [e_nodes e_nte e_K e_F]. splits; auto.
  intros t RF. unfold tr_react. rewrite HA by auto. cbn [bind]. rewrite (rd_nth _ i []) by auto. cbn [bind]. rewrite bel_call by auto. cbn [bind]. rewrite E. fold e. rewrite E1. cbn [bind]. rewrite E2. reflexivity.
Qed.
Lemma treaction_ok u t : (forall i j, in_table t i j <-> (i < length (tr_x d))%nat /\ (j < 2)%nat) -> (forall i j, in_table u i j <-> (i < length (tr_x d))%nat /\ (j < 2)%nat) ->
  exists r, tr_reaction d area u t = Ok r /\ length r = length (tr_x d) /\ (forall i j, in_table r i j <-> (i < length (tr_x d))%nat /\ (j < 2)%nat) /\
    forall i j, (i < length (tr_x d))%nat -> (j < 2)%nat -> uval r i j = bars_resist d (bar_force d A (uval u)) i j.
Proof.
  intros Ht HU. set (N := length (tr_x d)) in *. set (m := nb d).
  destruct (list_choice (bact u) m) as (es & Les & Hes). { intros i Hi. now apply bact_exists. }
  unfold tr_reaction. destruct (renumber (remove_bc t)) as [t' n'] eqn:E0. destruct (renumber_ok _ _ _ E0) as ((L2 & L2' & P2) & _ & _ & (B2 & I2 & O2) & _).
  assert (Ht' : forall i j, in_table t' i j <-> (i < N)%nat /\ (j < 2)%nat). { intros i j. rewrite <- (removed_table t N Ht i j). unfold in_table. rewrite (L2' i). tauto. }
  assert (HN : forall i j, (i < N)%nat -> (j < 2)%nat -> exists k, num t' i j = Some k).
  { intros i j Hi Hj. destruct (num t' i j) as [k|] eqn:Ek; [eauto|]. apply P2, removed_num in Ek. exfalso. apply Ek, Ht. auto. }
  assert (OK : forall e, In e es -> elem_ok n' t' u e).
  { intros e He. destruct (In_nth es e e He) as (i & Hi & Ei). rewrite Les in Hi. pose proof (Hes i e Hi) as AE. rewrite Ei in AE. destruct AE as (A1 & A2 & A3 & _ & A5 & _).
    apply (elem_fits_ok n' t' t' u e); auto.
    - destruct (bel_fits d i (nth i A 0) t' HT Hi Ht') as (F1 & F2 & F3). unfold elem_fits, e_dofs in *. rewrite A1, A2, A3, A5. cbn [bel e_nodes e_nte e_K e_F] in *. splits; auto.
    - split; auto.
    - intros i' j' H. apply HU, Ht', H. }
  set (e0 := mkElem [] [] (mnew R_ops 0 0) []).
  rewrite (foldM_map (tr_react d area u t') (fun F e => assemble_F F (e_F e) t' (e_nte e) (e_nodes e)) (fun i => nth i es e0) (seq 0 (length (tr_elements d)))).
  2:{ intros s i Hi. apply in_seq in Hi. destruct (Hes i e0 ltac:(unfold m, nb in *; lia)) as (_ & _ & _ & AC & _). apply AC. }
  assert (ME : map (fun i => nth i es e0) (seq 0 m) = es).
  { apply (nth_ext _ _ e0 e0); [now rewrite map_length, seq_length|]. intros i Hi. rewrite map_length, seq_length in Hi. rewrite (nth_indep _ e0 (nth 0 es e0)) by (now rewrite map_length, seq_length).
    change (nth 0 es e0) with ((fun i => nth i es e0) 0%nat). rewrite map_nth, seq_nth by auto. reflexivity. }
  change (length (tr_elements d)) with m. rewrite ME. destruct (loads_ok n' t' u es (repeat 0 n') _ OK (vec_zero_is n')) as (RF & E1 & LRF & VRF). rewrite E1. cbn [bind].
  destruct (disassemble_ok (repeat (vnew R_ops 2) N) RF t') as (r & E2 & SH & VR).
  { intros i j H. apply in_table_repeat. now apply Ht'. } { intros i j k Hk. rewrite LRF. eauto. }
  exists r. splits; auto.
  - rewrite (proj1 SH). apply repeat_length.
  - intros i j. rewrite (same_shape_in r _ i j SH). apply (in_table_repeat 0).
  - intros i j Hi Hj. destruct (HN i j Hi Hj) as (k & Ek). rewrite VR. unfold dis_val. rewrite Ek, VRF by eauto. rewrite Rplus_0_l.
    assert (Hat : forall a, is_eq (dnum t' a) k = at_dof i j a).
    { intros a. unfold at_dof. destruct (dnum t' a) as [k'|] eqn:Ea; cbn [is_eq].
      - destruct (Nat.eqb_spec k' k).
        + subst k'. destruct (I2 _ _ _ _ _ Ea Ek) as [-> ->]. now rewrite !Nat.eqb_refl.
        + destruct (Nat.eqb_spec (dnode a) i); auto. destruct (Nat.eqb_spec (ddof a) j); auto. subst. unfold dnum in Ea. congruence.
      - destruct (Nat.eqb_spec (dnode a) i); auto. destruct (Nat.eqb_spec (ddof a) j); auto. subst. unfold dnum in Ea. congruence. }
    rewrite <- (bels_force d A u i j Hj). unfold internal_force, bels. rewrite <- ME. fold m. rewrite !sum_map. apply sum_ext. intros e He. apply in_seq in He. destruct (Hes e e0 ltac:(lia)) as (A1 & A2 & A3 & _ & _ & A6). set (x := nth e es e0) in *.
    assert (ED : e_dofs (bel d e (nth e A 0)) = e_dofs x) by (unfold e_dofs; rewrite A1, A2; reflexivity).
    rewrite ED. apply sum_ext. intros a Ha'. rewrite Hat. f_equal. rewrite A6 by auto. apply sum_ext. intros b Hb'. unfold e_k. now rewrite A3.
Qed.
End S.
