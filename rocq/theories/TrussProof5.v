(** The ground structure of the samples is rigid; the total stress design. *)
From Coq Require Import List ZArith Arith Lia Bool Reals Lra.
From Verif Require Import Res SumR DenseModel DenseR DenseSpec ElemModel ElemSpec LUModel SparseModel SparseSpec AssemblyModel AssemblySpec KrylovSpec MeshModel MeshSpec TopModel TopSpec LoopModel TrussModel TrussSpec.
From Verif Require Import DenseMain DenseProof ElemProof ElemProof2 OCMain MeshMain ThetaProof5 TopProof TopProof5 TopMain LoopProof5 TrussProof TrussProof2 TrussProof3.
Import ListNotations.
Local Open Scope R_scope.

Section Grid.
Variables (lx ly : R) (nx ny : nat).
Hypotheses (Hlx : 0 < lx) (Hly : 0 < ly) (Hnx : (0 < nx)%nat) (Hny : (0 < ny)%nat).
Let nd i j := ((ny + 1) * i + j)%nat.
Let hx := lx / INR nx.
Let hy := ly / INR ny.
Lemma nd_split k : (k < (nx + 1) * (ny + 1))%nat -> exists i j, (i <= nx)%nat /\ (j <= ny)%nat /\ k = nd i j.
Proof.
  intros H. exists (k / (ny + 1))%nat, (k mod (ny + 1))%nat. pose proof (Nat.mod_upper_bound k (ny + 1)). pose proof (Nat.div_lt_upper_bound k (ny + 1) (nx + 1)).
  pose proof (Nat.div_mod k (ny + 1)). unfold nd. splits; lia.
Qed.
Lemma hx_pos : 0 < hx. Proof. apply Rdiv_lt_0_compat; auto. now apply lt_0_INR. Qed.
Lemma hy_pos : 0 < hy. Proof. apply Rdiv_lt_0_compat; auto. now apply lt_0_INR. Qed.
(** a field without elongation of the bars of the cells, zero at the two left corners *)
Lemma grid_rigid (v : nat -> nat -> R) :
  (forall i j, (i < nx)%nat -> (j <= ny)%nat -> hx * (v (nd (i + 1) j) 0%nat - v (nd i j) 0%nat) = 0) ->
  (forall i j, (i <= nx)%nat -> (j < ny)%nat -> hy * (v (nd i (j + 1)) 1%nat - v (nd i j) 1%nat) = 0) ->
  (forall i j, (i < nx)%nat -> (j < ny)%nat -> hx * (v (nd (i + 1) (j + 1)) 0%nat - v (nd i j) 0%nat) + hy * (v (nd (i + 1) (j + 1)) 1%nat - v (nd i j) 1%nat) = 0) ->
  v (nd 0 0) 0%nat = 0 -> v (nd 0 0) 1%nat = 0 -> v (nd 0 ny) 0%nat = 0 ->
  forall i j, (i <= nx)%nat -> (j <= ny)%nat -> v (nd i j) 0%nat = 0 /\ v (nd i j) 1%nat = 0.
Proof.
  intros HH HV HD Z0 Z1 Z2. pose proof hx_pos as Px. pose proof hy_pos as Py.
  assert (X : forall i j, (i <= nx)%nat -> (j <= ny)%nat -> v (nd i j) 0%nat = v (nd 0 j) 0%nat).
  { induction i as [|i IH]; intros j Hi Hj; [reflexivity|]. rewrite <- (IH j) by lia. specialize (HH i j ltac:(lia) Hj). rewrite Nat.add_1_r in HH. apply Rmult_integral in HH. lra. }
  assert (Y : forall j i, (i <= nx)%nat -> (j <= ny)%nat -> v (nd i j) 1%nat = v (nd i 0) 1%nat).
  { induction j as [|j IH]; intros i Hi Hj; [reflexivity|]. rewrite <- (IH i) by lia. specialize (HV i j Hi ltac:(lia)). rewrite Nat.add_1_r in HV. apply Rmult_integral in HV. lra. }
  assert (D : forall i j, (i < nx)%nat -> (j < ny)%nat -> hx * (v (nd 0 (S j)) 0%nat - v (nd 0 j) 0%nat) + hy * (v (nd (S i) 0) 1%nat - v (nd i 0) 1%nat) = 0).
  { intros i j Hi Hj. specialize (HD i j Hi Hj). rewrite !Nat.add_1_r in HD. rewrite (X (S i) (S j)), (X i j), (Y (S j) (S i)), (Y j i) in HD by lia. exact HD. }
  set (e := v (nd 0 1) 0%nat). assert (L : forall j, (j <= ny)%nat -> v (nd 0 j) 0%nat = INR j * e).
  { induction j as [|j IH]; intros Hj; [cbn [INR]; lra|]. pose proof (D 0%nat j Hnx ltac:(lia)) as D1. pose proof (D 0%nat 0%nat Hnx Hny) as D2. rewrite Z0 in D2. fold e in D2. rewrite S_INR. rewrite (IH ltac:(lia)) in D1.
    assert (hx * (v (nd 0 (S j)) 0%nat - INR j * e - e) = 0) by lra. apply Rmult_integral in H. lra. }
  assert (E0 : e = 0). { pose proof (L ny (le_n _)) as Q. rewrite Z2 in Q. pose proof (lt_0_INR ny Hny). symmetry in Q. apply Rmult_integral in Q. lra. }
  assert (B : forall i, (i <= nx)%nat -> v (nd i 0) 1%nat = 0).
  { induction i as [|i IH]; intros Hi; [exact Z1|]. pose proof (D i 0%nat ltac:(lia) Hny) as D1. fold e in D1. rewrite E0, Z0, (IH ltac:(lia)) in D1. assert (hy * v (nd (S i) 0) 1%nat = 0) by lra. apply Rmult_integral in H. lra. }
  intros i j Hi Hj. rewrite X, Y by auto. rewrite L, E0 by auto. split; [lra|]. now apply B.
Qed.

Variables (lmax : R) (sup at_load : list R -> bool) (load E : R).
Hypothesis HE : 0 < E.
Hypothesis Hmax : hx ^ 2 + hy ^ 2 < lmax ^ 2.
Hypothesis Hs0 : sup [0; 0] = true.
Hypothesis Hs1 : sup [0; ly] = true.
Lemma problem_ok : exists d, tr_problem lx ly nx ny lmax sup at_load load E = Ok d /\ truss_ok d /\ rigid_truss d /\ tr_elements d <> [] /\ tr_E d = E /\
  length (tr_x d) = ((nx + 1) * (ny + 1))%nat /\
  (forall i j, (i <= nx)%nat -> (j <= ny)%nat -> nth ((ny + 1) * i + j) (tr_x d) [] = [lx * (INR i / INR nx); ly * (INR j / INR ny)]) /\
  (forall i j v, In (i, j, v) (tr_ufixed d) <-> (i < length (tr_x d))%nat /\ sup (nth i (tr_x d) []) = true /\ (j < 2)%nat /\ v = 0) /\
  (forall i j v, In (i, j, v) (tr_qfixed d) <-> (i < length (tr_x d))%nat /\ at_load (nth i (tr_x d) []) = true /\ j = 1%nat /\ v = load).
Proof.
  destruct (C50_nodes_pf lx ly nx ny Hnx Hny) as (nodes & EN & LN & N). change (sq_nodes lx ly nx ny) with (gs_nodes lx ly nx ny) in EN.
  destruct (C51_grand_pf lx ly nx ny Hnx Hny) as (nodes' & EN' & FX). rewrite EN in EN'. injection EN' as <-.
  destruct (C53_bars_pf lx ly nx ny lmax Hnx Hny) as (nodes' & els & EN' & EE & ND & SH & IB). rewrite EN in EN'. injection EN' as <-.
  unfold tr_problem. rewrite EN, EE. cbn [bind]. rewrite !FX by (try discriminate; cbn; intros u Hu; lia). cbn [bind]. eexists. split; [reflexivity|].
  assert (UF : forall i j v, In (i, j, v) (dof_list (fixed_nodes nodes [0; 1]%Z sup)) <-> (i < length nodes)%nat /\ sup (nth i nodes []) = true /\ (j < 2)%nat /\ v = 0).
  { intros i j v. rewrite in_dof_list. split.
    - intros (u & H & ->). apply in_fixed in H. destruct H as (A & B & C & D). split; [exact A|]. split; [exact B|]. split; [cbn in C; lia|exact D].
    - intros (A & B & C & D). exists (Z.of_nat j). rewrite Nat2Z.id. split; [|reflexivity]. apply in_fixed. split; [exact A|]. split; [exact B|]. split; [cbn; lia|exact D]. }
  assert (QF : forall i j v, In (i, j, v) (map (fun w => (fst w, load)) (dof_list (fixed_nodes nodes [1]%Z at_load))) <-> (i < length nodes)%nat /\ at_load (nth i nodes []) = true /\ j = 1%nat /\ v = load).
  { intros i j v. rewrite in_map_iff. split.
    - intros ([[i' j'] v'] & Q & H). cbn [fst] in Q. injection Q as <- <- <-. apply in_dof_list in H. destruct H as (u & H & ->). apply in_fixed in H. destruct H as (A & B & C & D). split; [exact A|]. split; [exact B|]. split; [cbn in C; lia|reflexivity].
    - intros (A & B & -> & ->). exists (i, 1%nat, 0). split; [reflexivity|]. apply in_dof_list. exists 1%Z. split; [|reflexivity]. apply in_fixed. split; [exact A|]. split; [exact B|]. split; [now left|reflexivity]. }
  pose proof (lt_0_INR nx Hnx) as Px. pose proof (lt_0_INR ny Hny) as Py. pose proof hx_pos as Phx. pose proof hy_pos as Phy.
  assert (NL : forall i j, (i <= nx)%nat -> (j <= ny)%nat -> (nd i j < length nodes)%nat) by (intros i j Hi Hj; rewrite LN; unfold nd; nia).
  assert (PX : forall i j, (i <= nx)%nat -> (j <= ny)%nat -> px nodes (nd i j) = INR i * hx /\ py nodes (nd i j) = INR j * hy).
  { intros i j Hi Hj. unfold px, py, nd. rewrite N by auto. cbn [nth]. unfold hx, hy. split; field; lra. }
  set (d := mkTruss nodes els _ _ E).
  assert (BAR : forall v a b, In [a; b] els -> (forall i, (i < length els)%nat -> elongation d i v = 0) -> bar_length d 0 = bar_length d 0 -> (forall i, (i < length els)%nat -> bar_length d i <> 0) ->
     (px nodes a - px nodes b) * (v a 0%nat - v b 0%nat) + (py nodes a - py nodes b) * (v a 1%nat - v b 1%nat) = 0).
  { intros v a b Hin HE0 _ HL0. destruct (In_nth els [a; b] [] Hin) as (i & Hi & Ei). specialize (HE0 i Hi). specialize (HL0 i Hi). unfold elongation in HE0.
    assert (Q : span d i 0 * (v (bar_b d i) 0%nat - v (bar_a d i) 0%nat) + span d i 1 * (v (bar_b d i) 1%nat - v (bar_a d i) 1%nat) = 0).
    { apply (f_equal (fun r => r * bar_length d i)) in HE0. unfold Rdiv in HE0. rewrite Rmult_assoc, Rinv_l, Rmult_1_r, Rmult_0_l in HE0 by auto. exact HE0. }
    unfold span, bar_a, bar_b in Q. cbn [tr_elements tr_x d] in Q. unfold d in Q. cbn [tr_elements tr_x] in Q. rewrite Ei in Q. cbn [nth] in Q. unfold px, py. lra. }
  assert (LB : forall i, (i < length els)%nat -> bar_length d i <> 0).
  { intros i Hi. pose proof (nth_In els [] Hi) as Hin. destruct (SH _ Hin) as (a & b & Ei). rewrite Ei in Hin. apply IB in Hin. destruct Hin as [[H1 H2] _].
    unfold bar_length, span, bar_a, bar_b, d. cbn [tr_elements tr_x]. rewrite Ei. cbn [nth].
    destruct (nd_split a ltac:(lia)) as (i1 & j1 & A1 & A2 & ->). destruct (nd_split b ltac:(lia)) as (i2 & j2 & B1 & B2 & ->). 
    destruct (PX i1 j1 A1 A2) as [X1 Y1]. destruct (PX i2 j2 B1 B2) as [X2 Y2]. unfold px, py in *. rewrite X1, X2, Y1, Y2. pose proof (pow2_ge_0 (INR i2 * hx - INR i1 * hx)) as P1. pose proof (pow2_ge_0 (INR j2 * hy - INR j1 * hy)) as P2. intros Q. apply sqrt_eq_0 in Q; [|lra].
    assert (Q1 : INR i2 * hx - INR i1 * hx = 0) by (apply Rsqr_0_uniq; rewrite Rsqr_pow2; lra). assert (Q2 : INR j2 * hy - INR j1 * hy = 0) by (apply Rsqr_0_uniq; rewrite Rsqr_pow2; lra).
    assert (I1 : INR i2 = INR i1) by nra. assert (J1 : INR j2 = INR j1) by nra. apply INR_eq in I1, J1. subst. lia. }
  assert (HB : forall i1 j1 i2 j2, (i1 <= nx)%nat -> (j1 <= ny)%nat -> (i2 <= nx)%nat -> (j2 <= ny)%nat -> (nd i2 j2 < nd i1 j1)%nat -> (INR i1 - INR i2) ^ 2 <= 1 -> (INR j1 - INR j2) ^ 2 <= 1 -> In [nd i1 j1; nd i2 j2] els).
  { intros i1 j1 i2 j2 A1 A2 B1 B2 HL HI HJ. apply IB. split; [split; [exact HL|now apply NL]|]. destruct (PX i1 j1 A1 A2) as [-> ->]. destruct (PX i2 j2 B1 B2) as [-> ->].
    replace (INR i1 * hx - INR i2 * hx) with ((INR i1 - INR i2) * hx) by ring. replace (INR j1 * hy - INR j2 * hy) with ((INR j1 - INR j2) * hy) by ring. rewrite !Rpow_mult_distr. pose proof (pow2_ge_0 hx). pose proof (pow2_ge_0 hy). nra. }
  assert (S00 : forall k, (k < 2)%nat -> In (nd 0 0, k, 0) (tr_ufixed d)).
  { intros k Hk. apply UF. split; [apply NL; lia|]. split; [|auto]. unfold nd. rewrite N by lia. cbn [INR]. replace (lx * (0 / INR nx)) with 0 by (field; lra). replace (ly * (0 / INR ny)) with 0 by (field; lra). exact Hs0. }
  assert (S01 : In (nd 0 ny, 0%nat, 0) (tr_ufixed d)).
  { apply UF. split; [apply NL; lia|]. split; [|auto]. unfold nd. rewrite N by lia. cbn [INR]. replace (lx * (0 / INR nx)) with 0 by (field; lra). replace (ly * (INR ny / INR ny)) with ly by (field; lra). exact Hs1. }
  split; [|split; [|split; [|split; [reflexivity|split; [exact LN|split; [exact N|split; [exact UF|exact QF]]]]]]].
  - split.
    + intros k Hk. unfold d in Hk. cbn [tr_x d] in *. rewrite LN in Hk. destruct (nd_split k Hk) as (i & j & Hi & Hj & ->). unfold d. cbn [tr_x]. unfold nd. now rewrite N.
    + intros el Hel. destruct (SH el Hel) as (a & b & ->). split; [reflexivity|]. apply IB in Hel. destruct Hel as [[H1 H2] _]. intros k [<-|[<-|[]]]; unfold d; cbn [tr_x]; lia.
    + exact LB.
    + intros i j v H. apply UF in H. tauto.
    + intros i j v H. apply QF in H. unfold d. cbn [tr_x]. destruct H as (A & _ & -> & _). split; [exact A|lia].
    + exact HE.
  - intros v HR HZ i j Hi Hj. unfold d in Hi. cbn [tr_x] in Hi. rewrite LN in Hi. destruct (nd_split i Hi) as (p & q & Hp & Hq & ->).
    assert (G : v (nd p q) 0%nat = 0 /\ v (nd p q) 1%nat = 0).
    { apply grid_rigid; auto.
      - intros a b Ha Hb. pose proof (BAR v (nd (a + 1) b) (nd a b) (HB (a + 1) b a b ltac:(lia) Hb ltac:(lia) Hb ltac:(unfold nd; nia) ltac:(rewrite plus_INR; cbn [INR]; nra) ltac:(nra))%nat HZ eq_refl LB) as Q.
        destruct (PX (a + 1)%nat b ltac:(lia) Hb) as [X1 Y1]. destruct (PX a b ltac:(lia) Hb) as [X2 Y2]. rewrite X1, X2, Y1, Y2, plus_INR in Q. cbn [INR] in Q. lra.
      - intros a b Ha Hb. pose proof (BAR v (nd a (b + 1)) (nd a b) (HB a (b + 1) a b Ha ltac:(lia) Ha ltac:(lia) ltac:(unfold nd; nia) ltac:(nra) ltac:(rewrite plus_INR; cbn [INR]; nra))%nat HZ eq_refl LB) as Q.
        destruct (PX a (b + 1)%nat Ha ltac:(lia)) as [X1 Y1]. destruct (PX a b Ha ltac:(lia)) as [X2 Y2]. rewrite X1, X2, Y1, Y2, plus_INR in Q. cbn [INR] in Q. lra.
      - intros a b Ha Hb. pose proof (BAR v (nd (a + 1) (b + 1)) (nd a b) (HB (a + 1) (b + 1) a b ltac:(lia) ltac:(lia) ltac:(lia) ltac:(lia) ltac:(unfold nd; nia) ltac:(rewrite plus_INR; cbn [INR]; nra) ltac:(rewrite plus_INR; cbn [INR]; nra))%nat HZ eq_refl LB) as Q.
        destruct (PX (a + 1)%nat (b + 1)%nat ltac:(lia) ltac:(lia)) as [X1 Y1]. destruct (PX a b ltac:(lia) ltac:(lia)) as [X2 Y2]. rewrite X1, X2, Y1, Y2, !plus_INR in Q. cbn [INR] in Q. lra.
      - apply (HR _ _ 0). apply S00. lia.
      - apply (HR _ _ 0). apply S00. lia.
      - apply (HR _ _ 0). exact S01. }
    destruct j as [|[|j]]; [tauto|tauto|lia].
  - unfold d. cbn [tr_elements]. intros Q. pose proof (HB 1 0 0 0 ltac:(lia) ltac:(lia) ltac:(lia) ltac:(lia) ltac:(unfold nd; lia) ltac:(cbn; lra) ltac:(cbn; lra))%nat as Hin. rewrite Q in Hin. destruct Hin.
Qed.
End Grid.

(** ** Total stress design *)
Section Stress.
Variables (d : truss) (sigmat sigmac : R).
Hypothesis HT : truss_ok d.
Hypothesis Ht : 0 < sigmat.
Hypothesis Hc : 0 < sigmac.
Definition resized (f : R) : R := if Rltb 0 f then f / sigmat else - f / sigmac.
Lemma resized_ok f : 0 <= resized f /\ (0 < f -> f = sigmat * resized f) /\ (f <= 0 -> f = - sigmac * resized f).
Proof.
  unfold resized. destruct (Rltb 0 f) eqn:E.
  - apply Rltb_true in E. split; [left; now apply Rdiv_lt_0_compat|]. split; [intros _; field; lra|lra].
  - apply Rltb_false in E. split; [apply Rmult_le_pos; [lra|left; now apply Rinv_0_lt_compat]|]. split; [lra|intros _; field; lra].
Qed.
Lemma ts_area_ok u Ai i : (i < nb d)%nat -> length u = length (tr_x d) -> (forall i j, in_table u i j <-> (i < length (tr_x d))%nat /\ (j < 2)%nat) ->
  ts_area d u sigmat sigmac Ai i = Ok (resized (stress d i (uval u) * Ai)).
Proof.
  intros Hi LU IU. assert (L2 : forall k, (k < length u)%nat -> length (nth k u []) = 2%nat).
  { intros k Hk. rewrite LU in Hk. pose proof (IU k 1%nat) as I1. pose proof (IU k 2%nat) as I2. unfold in_table in *. destruct I1 as [_ I1]. destruct I2 as [I2 _]. specialize (I1 ltac:(lia)). assert (~ (2 < length (nth k u []))%nat) by (intros Q; specialize (I2 Q); lia). lia. }
  pose proof (length_pos d i HT Hi) as LP. unfold ts_area. rewrite (bar_diff d i HT Hi), (diff_ok u d i HT Hi LU L2). cbn [bind].
  set (p0 := uval u (bar_b d i) 0 - uval u (bar_a d i) 0). set (p1 := uval u (bar_b d i) 1 - uval u (bar_a d i) 1).
  assert (VD : vdot R_ops [p0; p1] [span d i 0; span d i 1] = Ok (p0 * span d i 0 + p1 * span d i 1)).
  { generalize (span d i 0) (span d i 1). clearbody p0 p1. intros q0 q1. rewrite (vdot_ok R R_ops _ _ 2 _ _ (is_vec_of_list [p0; p1]) (is_vec_of_list [q0; q1])), gsum_bigsum. cbn. f_equal. ring. }
  rewrite (vdot_scal (tr_E d * Ai) _ _ _ VD). cbn [bind]. rewrite norm_ok. cbn [bind]. unfold Rdiv_res at 1. destruct (Req_EM_T (bar_length d i ^ 2) 0) as [Q|_]; [exfalso; nra|]. cbn [bind].
  match goal with |- context [Rltb 0 ?f] => replace f with (stress d i (uval u) * Ai) end.
  - unfold resized. destruct (Rltb 0 _); unfold Rdiv_res; [destruct (Req_EM_T sigmat 0)|destruct (Req_EM_T sigmac 0)]; try lra; reflexivity.
  - unfold stress, elongation. fold p0 p1. change (uval u (bar_b d i) 0%nat - uval u (bar_a d i) 0%nat) with p0. field. lra.
Qed.
Lemma ts_loop u A : length A = nb d -> length u = length (tr_x d) -> (forall i j, in_table u i j <-> (i < length (tr_x d))%nat /\ (j < 2)%nat) ->
  foldM (fun A i => Ai <- rd A i ;; a <- ts_area d u sigmat sigmac Ai i ;; wr A i a) (seq 0 (nb d)) A = Ok (map (fun i => resized (bar_force d A (uval u) i)) (seq 0 (nb d))).
Proof.
  intros LA LU IU. set (g := fun A i => _). set (f := fun i => resized (bar_force d A (uval u) i)).
  assert (G : forall k, (k <= nb d)%nat -> foldM g (seq 0 k) A = Ok (map f (seq 0 k) ++ skipn k A)).
  { induction k as [|k IH]; intros Hk; [reflexivity|]. rewrite seq_S, foldM_app, IH by lia. cbn [bind foldM Nat.add]. unfold g at 1.
    assert (SK : skipn k A = nth k A 0 :: skipn (S k) A). { clear -LA Hk. assert (H : (k < length A)%nat) by lia. clear LA Hk. revert A H. induction k as [|k IH]; intros [|a A] H; cbn in H; try lia; [reflexivity|]. cbn [skipn nth]. rewrite IH by lia. reflexivity. }
    assert (LM : length (map f (seq 0 k)) = k) by (now rewrite map_length, seq_length).
    assert (RD : rd (map f (seq 0 k) ++ skipn k A) k = Ok (nth k A 0)).
    { unfold rd. rewrite SK, nth_error_app2 by lia. rewrite LM, Nat.sub_diag. reflexivity. }
    rewrite RD. cbn [bind]. rewrite (ts_area_ok u (nth k A 0) k ltac:(lia) LU IU). cbn [bind]. change (resized (stress d k (uval u) * nth k A 0)) with (f k).
    assert (WR : wr (map f (seq 0 k) ++ skipn k A) k (f k) = Ok (map f (seq 0 (S k)) ++ skipn (S k) A)).
    { unfold wr. rewrite app_length, LM, SK. cbn [length]. destruct (Nat.ltb_spec k (k + S (length (skipn (S k) A)))); [|lia]. f_equal. rewrite seq_S, map_app. cbn [map Nat.add]. rewrite <- app_assoc. cbn [app].
      clear -LM. revert LM. generalize (map f (seq 0 k)) as l. generalize (nth k A 0) (skipn (S k) A) (f k). intros x y w l <-. induction l as [|b l IH]; [reflexivity|]. cbn [app length upd]. now rewrite IH. }
    rewrite WR. cbn [bind]. now rewrite seq_S. }
  rewrite (G (nb d) (le_n _)), skipn_all2 by lia. now rewrite app_nil_r.
Qed.
Variable solve : csr R -> list R -> res (list R).
Hypothesis HS : spd_solver solve.
Hypothesis RG : rigid_truss d.
Lemma rd_area A i : length A = nb d -> (i < nb d)%nat -> rd A i = Ok (nth i A 0).
Proof. intros L Hi. apply rd_nth. lia. Qed.
Lemma design_ok A : areas_ok d A -> exists u, ts_design solve d sigmat sigmac A = Ok (u, map (fun i => resized (bar_force d A (uval u) i)) (seq 0 (nb d))) /\
  (forall i j w, In (i, j, w) (tr_ufixed d) -> uval u i j = 0) /\ (forall i j, free_dof d i j -> bars_resist d (bar_force d A (uval u)) i j = nodal_load (tr_qfixed d) i j).
Proof.
  intros [LA HP]. rewrite LA in HP. change (length (tr_elements d)) with (nb d) in *. destruct (ttables_exist d HT) as (u1 & t & n & TB).
  destruct (tdisplacement_ok d A (rd A) HT (fun i Hi => rd_area A i LA Hi) HP solve u1 t n HS RG TB) as (u & E1 & LU & IU & VU & EU).
  exists u. split; [|split; [|exact EU]].
  - unfold ts_design. rewrite E1. cbn [bind]. change (length (tr_elements d)) with (nb d). rewrite (ts_loop u A LA LU IU). reflexivity.
  - intros i j w H. apply VU. destruct (num_dec t i j) as [|M]; auto. apply (tt_free _ _ _ _ TB) in M. exfalso. exact (proj2 (proj2 M) w H).
Qed.
Lemma resist_ext f f' k j : (forall i, (i < nb d)%nat -> f i = f' i) -> bars_resist d f k j = bars_resist d f' k j.
Proof. intros H. unfold bars_resist. apply bigsum_ext. intros i Hi. now rewrite H. Qed.
Lemma resist_minus f f' k j : bars_resist d (fun i => f i - f' i) k j = bars_resist d f k j - bars_resist d f' k j.
Proof. unfold bars_resist. rewrite <- bigsum_minus. apply bigsum_ext. intros; ring. Qed.
Lemma same_forces f f' : determinate d -> (forall i j, free_dof d i j -> bars_resist d f i j = nodal_load (tr_qfixed d) i j) -> (forall i j, free_dof d i j -> bars_resist d f' i j = nodal_load (tr_qfixed d) i j) ->
  forall i, (i < nb d)%nat -> f i = f' i.
Proof. intros HD H H' i Hi. assert (f i - f' i = 0); [|lra]. apply (HD (fun i => f i - f' i)); auto. intros k j Hf. rewrite resist_minus, H, H' by auto. ring. Qed.
End Stress.
