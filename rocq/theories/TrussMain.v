(** Properties C113 and C114: the truss samples: the proofs. *)
From Coq Require Import List Arith Lia Bool Reals Lra.
From Verif Require Import Res SumR DenseModel DenseR LUModel SparseModel SparseSpec KrylovSpec AssemblyModel AssemblySpec OCModel TopModel TopSpec LoopSpec TrussModel TrussSpec.
Import ListNotations.
Local Open Scope R_scope.
From Verif Require Import ElemProof2 FilterMain OCMain TopProof TopProof5 TopMain LoopProof3 TrussProof TrussProof2 TrussProof3 TrussProof4 TrussProof5.

Lemma field_trunc (d : truss) (v : nat -> nat -> R) : exists w, (forall i j, (i < length (tr_x d))%nat -> (j < 2)%nat -> w i j = v i j) /\ forall i j, ~ ((i < length (tr_x d))%nat /\ (j < 2)%nat) -> w i j = 0.
Proof.
  exists (fun i j => if (i <? length (tr_x d))%nat && (j <? 2)%nat then v i j else 0). split; intros i j.
  - intros Hi Hj. now rewrite (proj2 (Nat.ltb_lt _ _) Hi), (proj2 (Nat.ltb_lt _ _) Hj).
  - intros H. destruct (Nat.ltb_spec i (length (tr_x d))); cbn [andb]; auto. destruct (Nat.ltb_spec j 2); auto. exfalso. auto.
Qed.
Lemma stress_ext d v w i : truss_ok d -> (i < nb d)%nat -> (forall k j, (k < length (tr_x d))%nat -> (j < 2)%nat -> w k j = v k j) -> stress d i w = stress d i v.
Proof. intros HT Hi H. destruct (bar_nodes d i HT Hi) as (_ & Ha & Hb). unfold stress, elongation. rewrite !H by (auto; lia). reflexivity. Qed.
Lemma nth_repeat' (x : R) n i : (i < n)%nat -> nth i (repeat x n) 0 = x.
Proof. intros H. rewrite (nth_indep _ 0 x) by (now rewrite repeat_length). apply nth_repeat. Qed.
(** a candidate that changes nothing *)
Lemma ell_cand o s df dg lam : length s = oc_n o -> length df = oc_n o -> length dg = oc_n o -> (forall i, (i < oc_n o)%nat -> nth i df 0 <= 0 /\ 0 < nth i dg 0) -> 0 < lam -> 0 <= oc_move o < 1 -> 0 < oc_iota o ->
  (forall i, (i < oc_n o)%nat -> - nth i df 0 / (nth i dg 0 * lam) = 1 /\ 0 < nth i s 0 <= 1) -> oc_candidate o s df dg lam = Ok s.
Proof.
  intros Ls Lf Lg SG Hl Hm Hi0 H. rewrite (cand_vals o s df dg); auto. f_equal. apply (nth_ext _ _ 0 0); [now rewrite map_length, seq_length|]. intros i Hi. rewrite map_length, seq_length in Hi. rewrite TopMain.nth_map_seq by auto. destruct (H i Hi) as [Q [X0 X1]].
  assert (Q' : quo df dg lam i = 1) by (rewrite <- Q; unfold quo; field; destruct (SG i Hi); split; lra).
  unfold cval, clip, lo, hi. rewrite Q'. replace (pw o 1) with 1 by (unfold pw; destruct (Rlt_dec 0 1); [|lra]; unfold Rpower; rewrite ln_1, Rmult_0_r; symmetry; apply exp_0).
  rewrite Rmult_1_l, (proj2 (OCMain.Rltb_false _ _)), (proj2 (OCMain.Rltb_false _ _)); auto; [apply Rmin_glb; nra|apply Rmax_lub; nra].
Qed.
Lemma params_sz n : oc_params n (oc_new n (5/10) 0 1000 (1/1000) (15/100) (repeat (1/100) n) (repeat 1 n)).
Proof. unfold oc_params, oc_new. cbn. splits; try reflexivity; lra. Qed.

(** ** Two bars at a right angle, tied to a wall and to the ground *)
Definition ell : truss := mkTruss [[0; 0]; [-1; 0]; [0; -1]] [[1; 0]; [2; 0]]%nat [(1%nat, 0%nat, 0); (1%nat, 1%nat, 0); (2%nat, 0%nat, 0); (2%nat, 1%nat, 0)] [(0%nat, 0%nat, 3); (0%nat, 1%nat, -4)] 1.
Lemma sqrt_is a r : 0 <= r -> a = r * r -> sqrt a = r.
Proof. intros H ->. now apply sqrt_square. Qed.
Lemma ell_span : span ell 0 0 = 1 /\ span ell 0 1 = 0 /\ span ell 1 0 = 0 /\ span ell 1 1 = 1.
Proof. unfold span, bar_a, bar_b. cbn. repeat split; lra. Qed.
Lemma ell_len i : (i < 2)%nat -> bar_length ell i = 1.
Proof. intros Hi. destruct ell_span as (A & B & C & D). unfold bar_length. destruct i as [|[|]]; [rewrite A, B|rewrite C, D|lia]; apply sqrt_is; lra. Qed.
Lemma ell_elong v : elongation ell 0 v = v 0%nat 0%nat - v 1%nat 0%nat /\ elongation ell 1 v = v 0%nat 1%nat - v 2%nat 1%nat.
Proof. destruct ell_span as (A & B & C & D). unfold elongation. rewrite A, B, C, D, !ell_len by lia. cbn. split; field. Qed.
Lemma ell_ok : truss_ok ell.
Proof.
  split; cbn [ell tr_x tr_elements tr_ufixed tr_qfixed tr_E length].
  - intros [|[|[|k]]] Hk; try reflexivity. lia.
  - intros el [<-|[<-|[]]]; split; try reflexivity; intros k [<-|[<-|[]]]; lia.
  - intros i Hi. rewrite ell_len by auto. lra.
  - intros i j v H. cbn in H. destruct H as [H|[H|[H|[H|[]]]]]; injection H as <- <- <-; repeat split; lia || lra.
  - intros i j v H. cbn in H. destruct H as [H|[H|[]]]; injection H as <- <- <-; lia.
  - lra.
Qed.
Lemma ell_free j : (j < 2)%nat -> free_dof ell 0 j.
Proof. intros H. split; [cbn; lia|]. split; [exact H|]. intros w Q. cbn in Q. destruct Q as [Q|[Q|[Q|[Q|[]]]]]; discriminate. Qed.
Lemma ell_free_inv k j : free_dof ell k j -> k = 0%nat /\ (j = 0 \/ j = 1)%nat.
Proof. intros (A & B & C). cbn in A. destruct k as [|[|[|k]]]; [lia| | |lia]; exfalso; destruct j as [|[|j]]; try lia; apply (C 0); cbn; tauto. Qed.
Lemma ell_rigid : rigid_truss ell.
Proof.
  intros v HR HZ i j Hi Hj. cbn in Hi. destruct (ell_elong v) as [E0 E1]. rewrite (HZ 0%nat ltac:(cbn; lia)) in E0. rewrite (HZ 1%nat ltac:(cbn; lia)) in E1.
  assert (F : forall k c, (k = 1 \/ k = 2)%nat -> (c < 2)%nat -> v k c = 0). { intros k c Hk Hc. apply (HR k c 0). destruct Hk as [-> | ->], c as [|[|]]; cbn; tauto || lia. }
  destruct i as [|[|[|]]]; [|apply F; lia|apply F; lia|lia]. rewrite (F 1%nat 0%nat) in E0 by lia. rewrite (F 2%nat 1%nat) in E1 by lia. destruct j as [|[|]]; lra || lia.
Qed.
Lemma ell_resist f : bars_resist ell f 0 0 = f 0%nat /\ bars_resist ell f 0 1 = f 1%nat.
Proof. destruct ell_span as (A & B & C & D). unfold bars_resist. cbn [ell tr_elements length bigsum]. fold ell. rewrite A, B, C, D, !ell_len by lia. cbn. split; field. Qed.
Lemma ell_determinate : determinate ell.
Proof. intros f H i Hi. cbn in Hi. destruct (ell_resist f) as [A B]. pose proof (H 0%nat 0%nat (ell_free 0 ltac:(lia))). pose proof (H 0%nat 1%nat (ell_free 1 ltac:(lia))). destruct i as [|[|]]; lra || lia. Qed.
Lemma ell_loads : nodal_load (tr_qfixed ell) 0 0 = 3 /\ nodal_load (tr_qfixed ell) 0 1 = -4.
Proof. unfold nodal_load, sum_over. cbn. split; lra. Qed.
Lemma ell_balanced A v : respects ell v -> (forall i j, free_dof ell i j -> bars_resist ell (bar_force ell A v) i j = nodal_load (tr_qfixed ell) i j) ->
  v 0%nat 0%nat * nth 0 A 0 = 3 /\ v 0%nat 1%nat * nth 1 A 0 = -4 /\ stress ell 0 v = v 0%nat 0%nat /\ stress ell 1 v = v 0%nat 1%nat.
Proof.
  intros HR HB. destruct (ell_resist (bar_force ell A v)) as [R0 R1]. destruct ell_loads as [L0 L1]. rewrite (HB 0%nat 0%nat (ell_free 0 ltac:(lia))) in R0. rewrite (HB 0%nat 1%nat (ell_free 1 ltac:(lia))) in R1.
  destruct (ell_elong v) as [E0 E1]. rewrite (HR 1%nat 0%nat 0) in E0 by (cbn; tauto). rewrite (HR 2%nat 1%nat 0) in E1 by (cbn; tauto).
  unfold bar_force, stress in *. rewrite E0, !ell_len in * by lia. rewrite E1 in *. cbn [ell tr_E] in *. splits; lra.
Qed.
(** the truss as a sizing problem: areas from 1 to 3, half of the largest weight *)
Definition ell_size : sizing := mkSizing ell 1 3 (1 / 2) 1.
Lemma ell_sizing : sizing_ok ell_size.
Proof. unfold sizing_ok. cbn. split; [exact ell_ok|]. split; [exact ell_rigid|]. split; [discriminate|]. lra. Qed.
Lemma ell_share s : weight_share ell_size s = nth 0 s 0 + nth 1 s 0.
Proof. unfold weight_share. cbn [ell_size sz_d sz_limit]. change (length (tr_elements ell)) with 2%nat. cbn [bigsum]. rewrite !ell_len by lia. field. Qed.
Lemma ell_lengths : sz_lengths ell_size = Ok ([1; 1], 2).
Proof. rewrite (lengths_ok ell_size ell_ok). cbn [ell_size sz_d]. change (nb ell) with 2%nat. cbn [seq map bigsum]. rewrite !ell_len by lia. do 2 f_equal. lra. Qed.
Lemma closed2 a b : 0 <= a <= 1 -> 0 <= b <= 1 -> closed_design 2 [a; b].
Proof. intros. split; [reflexivity|]. intros [|[|]] Hi; cbn; auto; lia. Qed.

(** ** The same with a third bar in line with the first *)
Definition tee : truss := mkTruss [[0; 0]; [-1; 0]; [0; -1]; [2; 0]] [[1; 0]; [2; 0]; [3; 0]]%nat
  [(1%nat, 0%nat, 0); (1%nat, 1%nat, 0); (2%nat, 0%nat, 0); (2%nat, 1%nat, 0); (3%nat, 0%nat, 0); (3%nat, 1%nat, 0)] [(0%nat, 0%nat, 3); (0%nat, 1%nat, -4)] 1.
Lemma tee_span : span tee 0 0 = 1 /\ span tee 0 1 = 0 /\ span tee 1 0 = 0 /\ span tee 1 1 = 1 /\ span tee 2 0 = -2 /\ span tee 2 1 = 0.
Proof. unfold span, bar_a, bar_b. cbn. repeat split; lra. Qed.
Lemma tee_len : bar_length tee 0 = 1 /\ bar_length tee 1 = 1 /\ bar_length tee 2 = 2.
Proof. destruct tee_span as (A & B & C & D & E & F). unfold bar_length. rewrite A, B, C, D, E, F. repeat split; apply sqrt_is; lra. Qed.
Lemma tee_elong v : elongation tee 0 v = v 0%nat 0%nat - v 1%nat 0%nat /\ elongation tee 1 v = v 0%nat 1%nat - v 2%nat 1%nat /\ elongation tee 2 v = v 3%nat 0%nat - v 0%nat 0%nat.
Proof. destruct tee_span as (A & B & C & D & E & F). destruct tee_len as (L0 & L1 & L2). unfold elongation. rewrite A, B, C, D, E, F, L0, L1, L2. cbn. splits; field. Qed.
Lemma tee_ok : truss_ok tee.
Proof.
  destruct tee_len as (L0 & L1 & L2). split; cbn [tee tr_x tr_elements tr_ufixed tr_qfixed tr_E length].
  - intros [|[|[|[|k]]]] Hk; try reflexivity. lia.
  - intros el [<-|[<-|[<-|[]]]]; split; try reflexivity; intros k [<-|[<-|[]]]; lia.
  - intros i Hi. destruct i as [|[|[|]]]; [rewrite L0|rewrite L1|rewrite L2|lia]; lra.
  - intros i j v H. cbn in H. destruct H as [H|[H|[H|[H|[H|[H|[]]]]]]]; injection H as <- <- <-; repeat split; lia || lra.
  - intros i j v H. cbn in H. destruct H as [H|[H|[]]]; injection H as <- <- <-; lia.
  - lra.
Qed.
Lemma tee_free j : (j < 2)%nat -> free_dof tee 0 j.
Proof. intros H. split; [cbn; lia|]. split; [exact H|]. intros w Q. cbn in Q. destruct Q as [Q|[Q|[Q|[Q|[Q|[Q|[]]]]]]]; discriminate. Qed.
Lemma tee_rigid : rigid_truss tee.
Proof.
  intros v HR HZ i j Hi Hj. cbn in Hi. destruct (tee_elong v) as (E0 & E1 & _). rewrite (HZ 0%nat ltac:(cbn; lia)) in E0. rewrite (HZ 1%nat ltac:(cbn; lia)) in E1.
  assert (F : forall k c, (k = 1 \/ k = 2 \/ k = 3)%nat -> (c < 2)%nat -> v k c = 0). { intros k c Hk Hc. apply (HR k c 0). destruct Hk as [-> |[-> | ->]], c as [|[|]]; cbn; tauto || lia. }
  destruct i as [|[|[|[|]]]]; [|apply F; lia|apply F; lia|apply F; lia|lia]. rewrite (F 1%nat 0%nat) in E0 by lia. rewrite (F 2%nat 1%nat) in E1 by lia. destruct j as [|[|]]; lra || lia.
Qed.
Lemma tee_balanced A v : respects tee v -> (forall i j, free_dof tee i j -> bars_resist tee (bar_force tee A v) i j = nodal_load (tr_qfixed tee) i j) ->
  stress tee 0 v * nth 0 A 0 - stress tee 2 v * nth 2 A 0 = 3 /\ stress tee 1 v * nth 1 A 0 = -4 /\ stress tee 0 v = -2 * stress tee 2 v.
Proof.
  intros HR HB. pose proof (HB 0%nat 0%nat (tee_free 0 ltac:(lia))) as B0. pose proof (HB 0%nat 1%nat (tee_free 1 ltac:(lia))) as B1.
  destruct tee_span as (A0 & A1 & C & D & E & F). destruct tee_len as (L0 & L1 & L2). unfold bars_resist in B0, B1. change (length (tr_elements tee)) with 3%nat in B0, B1. cbn [bigsum] in B0, B1. rewrite A0, A1, C, D, E, F, L0, L1, L2 in *.
  unfold nodal_load, sum_over in B0, B1. cbn in B0, B1. unfold bar_force in *. splits; [lra|lra|]. unfold stress. destruct (tee_elong v) as (E0 & _ & E2). rewrite E0, E2, L0, L2, (HR 1%nat 0%nat 0), (HR 3%nat 0%nat 0) by (cbn; tauto). cbn [tee tr_E]. field.
Qed.


Lemma C113_system_pf : forall d A, truss_ok d -> areas_ok d A ->
  exists u t K F, tr_system d (rd A) = Ok (u, t, K, F) /\ square_csr (length F) K /\ symmetric (length F) (entry K) /\ (pos_def (length F) (entry K) <-> rigid_truss d).
Proof.
  intros d A HT [LA HP]. rewrite LA in HP. destruct (ttables_exist d HT) as (u1 & t & n & TB). assert (HA : forall i, (i < nb d)%nat -> rd A i = Ok (nth i A 0)) by (intros i Hi; apply rd_area with (d := d); auto).
  destruct (system_ok d A (rd A) HT HA u1 t n TB) as (K & F & S). exists u1, t, K, F. pose proof (ts_F _ _ _ _ _ _ _ _ S) as LF. rewrite LF. split; [apply S|]. split; [apply S|]. split; [apply S|]. exact (definite_iff d A (rd A) HT HP u1 t n K F TB S).
Qed.

Lemma C113_analysis_pf : forall solve z s, spd_solver solve -> sizing_ok z -> let d := sz_d z in let A := design_areas z s in closed_design (length (tr_elements d)) s ->
  exists a, sz_analysis solve z s = Ok a /\ respects d (uval (an_u a)) /\
    (forall i j, free_dof d i j -> bars_resist d (bar_force d A (uval (an_u a))) i j = nodal_load (tr_qfixed d) i j) /\
    (forall v, respects d v -> (forall i j, free_dof d i j -> bars_resist d (bar_force d A v) i j = nodal_load (tr_qfixed d) i j) ->
       forall i j, (i < length (tr_x d))%nat -> (j < 2)%nat -> v i j = uval (an_u a) i j) /\
    (forall i j, (i < length (tr_x d))%nat -> (j < 2)%nat -> uval (an_r a) i j = bars_resist d (bar_force d A (uval (an_u a))) i j) /\
    an_f a = sz_scale0 z * sum_over (tr_qfixed d) (fun q => snd q * uval (an_u a) (fst (fst q)) (snd (fst q))) /\
    length (an_df a) = length (tr_elements d) /\
    (forall i, (i < length (tr_elements d))%nat -> nth i (an_df a) 0 = - sz_scale0 z * (sz_A1 z - sz_A0 z) * tr_E d * elongation d i (uval (an_u a)) ^ 2 / bar_length d i).
Proof.
  intros solve z s HS HZ d A HC. pose proof HZ as (HT & RG & HE & HA & HL & H0). destruct (ttables_exist d HT) as (u1 & t & n & TB). pose proof (closed_ok z s HA HC) as HD.
  destruct (zanalysis_ok z HT solve HS RG s u1 t n HD TB) as (a & E & SO & LU & IU & IR & VR & EQ & VF & VD). exists a. split; [exact E|].
  assert (RS : respects d (uval (an_u a))). { intros i j w H. apply (proj1 SO). destruct (num_dec t i j) as [|M]; auto. apply (tt_free _ _ _ _ TB) in M. exfalso. exact (proj2 (proj2 M) w H). }
  split; [exact RS|]. split; [exact EQ|]. split; [|split; [exact VR|split; [exact VF|split]]].
  - intros v HR HB i j Hi Hj. destruct (field_trunc d v) as (w & W1 & W2). rewrite <- (W1 i j Hi Hj).
    assert (RW : respects d w). { intros p q r H. destruct (trk_fixed d HT p q r H) as (P1 & P2 & _). rewrite W1 by auto. exact (HR p q r H). }
    apply (tsol_unique z HT RG A t w (uval (an_u a))); auto; [apply (area_pos z s HD)| |exists u1, n; exact TB].
    apply (balance_sol d A HT u1 t n w TB); [apply (vs_respects d u1 t n w HT TB W2); exact RW|]. intros p q H. rewrite <- (HB p q H). unfold bars_resist. apply bigsum_ext. intros k Hk. unfold bar_force. rewrite (stress_ext d v w k HT Hk W1). reflexivity.
  - rewrite VD, map_length, seq_length. reflexivity.
  - intros i Hi. rewrite VD, TopMain.nth_map_seq by auto. unfold dfz, kbar. fold d. unfold Rdiv. ring.
Qed.

Lemma C113_sensitivity_pf : forall solve z (s : R -> list R) (D : nat -> R) y r a, spd_solver solve -> sizing_ok z -> let n := length (tr_elements (sz_d z)) in
  0 < r -> (forall h, Rabs h < r -> areas_ok (sz_d z) (design_areas z (s (y + h)))) -> (forall j, (j < n)%nat -> derivable_pt_lim (fun q => nth j (s q) 0) y (D j)) ->
  sz_analysis solve z (s y) = Ok a -> derivable_pt_lim (fun q => objective (sz_analysis solve z (s q))) y (bigsum n (fun j => nth j (an_df a) 0 * D j)).
Proof. intros solve z s D y r a HS HZ n Hr HD HJ E. exact (sens_path solve z HS HZ s D y r a Hr HD HJ E). Qed.

Lemma C113_convex_pf : forall solve z s s' a a', spd_solver solve -> sizing_ok z -> let n := length (tr_elements (sz_d z)) in closed_design n s -> closed_design n s' ->
  sz_analysis solve z s = Ok a -> sz_analysis solve z s' = Ok a' ->
  an_f a + bigsum n (fun i => nth i (an_df a) 0 * (nth i s' 0 - nth i s 0)) <= an_f a'.
Proof.
  intros solve z s s' a a' HS HZ n HC HC' E E'. destruct HZ as (HT & RG & HE & HA & HL & H0). exact (objective_tangent z HT solve HS RG s s' a a' H0 (closed_ok z s HA HC) (closed_ok z s' HA HC') E E').
Qed.

Lemma C113_weight_pf : forall z s, sizing_ok z -> let d := sz_d z in let n := length (tr_elements d) in length s = n ->
  exists l lsum dg, sz_lengths z = Ok (l, lsum) /\ length l = n /\ (forall i, (i < n)%nat -> nth i l 0 = bar_length d i) /\ lsum = bigsum n (bar_length d) /\
    sz_weight z l lsum s = Ok (weight_share z s - 1, dg) /\ sz_constraint z l lsum s = Ok (weight_share z s - 1) /\ length dg = n /\ (forall i, (i < n)%nat -> 0 < nth i dg 0) /\
    forall s', length s' = n -> weight_share z s' - weight_share z s = bigsum n (fun i => nth i dg 0 * (nth i s' 0 - nth i s 0)).
Proof.
  intros z s HZ d n Ls. destruct HZ as (HT & RG & HE & HA & HL & H0). destruct (weight_ok z HT HE HL s Ls) as (dg & E1 & L1 & V1).
  exists (map (bar_length d) (seq 0 n)), (bigsum n (bar_length d)), dg. split; [exact (lengths_ok z HT)|]. split; [now rewrite map_length, seq_length|]. split; [intros i Hi; now rewrite TopMain.nth_map_seq|]. split; [reflexivity|].
  split; [exact E1|]. split; [exact (constraint_ok z HT HE HL s Ls)|]. split; [exact L1|]. split.
  - intros i Hi. rewrite V1 by auto. now apply dgz_pos.
  - intros s' Ls'. rewrite share_sum. apply bigsum_ext. intros i Hi. now rewrite V1.
Qed.

Lemma C113_optimal_pf : forall solve z l lsum s g dg a lam, spd_solver solve -> sizing_ok z -> let n := length (tr_elements (sz_d z)) in closed_design n s ->
  sz_lengths z = Ok (l, lsum) -> sz_weight z l lsum s = Ok (g, dg) -> sz_analysis solve z s = Ok a -> 0 <= lam -> lam * g = 0 ->
  (forall i, (i < n)%nat -> (nth i s 0 < 1 -> 0 <= nth i (an_df a) 0 + lam * nth i dg 0) /\ (0 < nth i s 0 -> nth i (an_df a) 0 + lam * nth i dg 0 <= 0)) ->
  forall s' a', closed_design n s' -> weight_share z s' <= 1 -> sz_analysis solve z s' = Ok a' -> an_f a <= an_f a'.
Proof.
  intros solve z l lsum s g dg a lam HS HZ n HC EL EW EA Hl Hg K s' a' HC' Hw E'. pose proof HZ as (HT & RG & HE & HA & HL & H0). rewrite (lengths_ok z HT) in EL. injection EL as <- <-.
  destruct (weight_ok z HT HE HL s (proj1 HC)) as (dg' & E1 & L1 & V1). unfold tot in E1. rewrite EW in E1. injection E1 as -> ->.
  apply (optimal solve z HS HZ s s' a a' lam HC HC' EA E' Hl Hw Hg). intros i Hi. rewrite <- V1 by auto. apply K. exact Hi.
Qed.

Lemma C113_fixed_point_pf : forall solve z l lsum o s dg a lam, spd_solver solve -> sizing_ok z -> let n := length (tr_elements (sz_d z)) in unit_design n s ->
  oc_n o = n -> 0 < oc_iota o -> 0 < oc_move o < 1 -> 0 < lam -> sz_lengths z = Ok (l, lsum) -> sz_weight z l lsum s = Ok (0, dg) -> sz_analysis solve z s = Ok a ->
  oc_candidate o s (an_df a) dg lam = Ok s -> forall s' a', closed_design n s' -> weight_share z s' <= 1 -> sz_analysis solve z s' = Ok a' -> an_f a <= an_f a'.
Proof.
  intros solve z l lsum o s dg a lam HS HZ n HU On Hi0 Hm Hl EL EW EA EC s' a' HC' Hw E'. pose proof HZ as (HT & RG & HE & HA & HL & H0). rewrite (lengths_ok z HT) in EL. injection EL as <- <-.
  destruct (weight_ok z HT HE HL s (proj1 HU)) as (dg' & E1 & L1 & V1). assert (E2 := E1). unfold tot in E1. rewrite EW in E1. injection E1 as G <-.
  apply (optimal solve z HS HZ s s' a a' lam (unit_closed z s HU) HC' EA E' ltac:(lra) Hw ltac:(rewrite <- G; ring)). intros i Hi. exact (fixed_kkt solve z HS HZ o s a dg lam i HU On Hi0 Hm Hl E2 EA EC Hi).
Qed.

Lemma C113_run_pf : forall solve z s0, spd_solver solve -> sizing_ok z -> let n := length (tr_elements (sz_d z)) in 0 < s0 <= 1 ->
  (forall fuel passes, (exists stop s o, sz_optimize solve z fuel passes s0 = Ok (stop, (s, o)) /\ unit_design n s) \/ sz_optimize solve z fuel passes s0 = Fail OutOfFuel) /\
  exists l lsum, sz_lengths z = Ok (l, lsum) /\ forall fuel s o, unit_design n s -> oc_params n o ->
    (exists stop s' o', sz_iteration solve z l lsum fuel (s, o) = Ok (stop, (s', o')) /\ unit_design n s' /\ oc_params n o' /\ (stop = true -> s' = s) /\
       (forall i, (i < n)%nat -> Rabs (nth i s' 0 - nth i s 0) <= oc_move o * nth i s 0)) \/
    sz_iteration solve z l lsum fuel (s, o) = Fail OutOfFuel.
Proof.
  intros solve z s0 HS HZ n Hs. pose proof HZ as (HT & RG & HE & HA & HL & H0). split.
  - intros fuel passes. unfold sz_optimize. rewrite (lengths_ok z HT). cbn [bind]. fold n. set (o := oc_new n _ _ _ _ _ _ _).
    assert (OK : zst_ok z (repeat s0 n, o)). { split; [split; [apply repeat_length|]|apply params_sz]. intros i Hi. cbn [fst]. rewrite (nth_repeat' s0 n i) by auto. exact Hs. }
    destruct (zrun_safe solve z HS HZ fuel passes _ OK) as [(stop & [s o'] & E & [HU _])|E]; [left; exists stop, s, o'|right]; auto.
  - exists (map (bar_length (sz_d z)) (seq 0 n)), (bigsum n (bar_length (sz_d z))). split; [exact (lengths_ok z HT)|]. intros fuel s o HU HO.
    destruct (zstep_safe solve z HS HZ fuel (s, o) (conj HU HO)) as [(stop & [s' o'] & E & [HU' HO'] & ST & MV)|E]; [left; exists stop, s', o'; cbn [fst snd] in *; splits; auto|right; auto].
Qed.

Lemma C113_update_ends_pf : forall solve z l lsum o s g dg a, spd_solver solve -> sizing_ok z -> let n := length (tr_elements (sz_d z)) in unit_design n s -> oc_params n o -> oc_lmin o = 0 ->
  sz_lengths z = Ok (l, lsum) -> sz_weight z l lsum s = Ok (g, dg) -> sz_analysis solve z s = Ok a ->
  ((exists fuel r, oc_update o fuel s (an_f a) (an_df a) dg (sz_gkp1 z l lsum) = Ok r) <-> 1 < weight_share z (largest_step o s (an_df a))) /\
  (1 <= sz_limit z -> ~ exists fuel r, oc_update o fuel s (an_f a) (an_df a) dg (sz_gkp1 z l lsum) = Ok r).
Proof.
  intros solve z l lsum o s g dg a HS HZ n HU HO Hz EL EW EA. pose proof HZ as (HT & RG & HE & HA & HL & H0). rewrite (lengths_ok z HT) in EL. injection EL as <- <-.
  destruct (weight_ok z HT HE HL s (proj1 HU)) as (dg' & E1 & L1 & V1). assert (E2 := E1). unfold tot in E1. rewrite EW in E1. injection E1 as -> <-.
  pose proof (zupdate_iff solve z HS HZ o s a dg HU HO Hz E2 EA) as I. split; [exact I|]. intros H1 X. apply I in X.
  assert (B : weight_share z (largest_step o s (an_df a)) <= weight_share z (repeat 1 n)).
  { apply (share_mono z HT HE HL). intros i Hi. rewrite (nth_repeat' 1 n i) by auto. unfold largest_step. destruct HO as (On & _ & _ & _ & Om). rewrite On, TopMain.nth_map_seq by auto. destruct HU as [_ U]. specialize (U i Hi). destruct (Rlt_dec _ 0); [apply Rmin_l|]. apply Rmax_lub; [lra|]. nra. }
  pose proof (tot_pos z HT HE) as TP. assert (F : weight_share z (repeat 1 n) = / sz_limit z).
  { unfold weight_share. fold n. rewrite (bigsum_ext n _ (bar_length (sz_d z))) by (intros i Hi; rewrite (nth_repeat' 1 n i) by auto; ring). unfold tot, nb in TP. fold n in TP. field. lra. }
  rewrite F in B. assert (/ sz_limit z <= 1); [|lra]. rewrite <- Rinv_1. apply Rinv_le_contravar; lra.
Qed.

Lemma C113_sample_pf : forall lx ly nx ny lmax sup at_load load E, 0 < lx -> 0 < ly -> (0 < nx)%nat -> (0 < ny)%nat -> 0 < E ->
  (lx / INR nx) ^ 2 + (ly / INR ny) ^ 2 < lmax ^ 2 -> sup [0; 0] = true -> sup [0; ly] = true ->
  exists d, tr_problem lx ly nx ny lmax sup at_load load E = Ok d /\ truss_ok d /\ rigid_truss d /\ tr_elements d <> [] /\ tr_E d = E /\ length (tr_x d) = ((nx + 1) * (ny + 1))%nat /\
    (forall i j, (i <= nx)%nat -> (j <= ny)%nat -> nth ((ny + 1) * i + j) (tr_x d) [] = [lx * (INR i / INR nx); ly * (INR j / INR ny)]) /\
    (forall i j v, In (i, j, v) (tr_ufixed d) <-> (i < length (tr_x d))%nat /\ sup (nth i (tr_x d) []) = true /\ (j < 2)%nat /\ v = 0) /\
    (forall i j v, In (i, j, v) (tr_qfixed d) <-> (i < length (tr_x d))%nat /\ at_load (nth i (tr_x d) []) = true /\ j = 1%nat /\ v = load).
Proof. intros. now apply problem_ok. Qed.

Lemma C114_design_pf : forall solve d sigmat sigmac A, spd_solver solve -> truss_ok d -> rigid_truss d -> areas_ok d A -> 0 < sigmat -> 0 < sigmac ->
  exists u A', ts_design solve d sigmat sigmac A = Ok (u, A') /\ length A' = length A /\ respects d (uval u) /\
    (forall i j, free_dof d i j -> bars_resist d (bar_force d A (uval u)) i j = nodal_load (tr_qfixed d) i j) /\
    (forall i, (i < length A)%nat -> 0 <= nth i A' 0 /\ (nth i A' 0 = 0 <-> stress d i (uval u) = 0) /\
       (0 < stress d i (uval u) -> bar_force d A (uval u) i = sigmat * nth i A' 0) /\ (stress d i (uval u) <= 0 -> bar_force d A (uval u) i = - sigmac * nth i A' 0)) /\
    exists sigma : nat -> R, (forall i, sigma i = sigmat \/ sigma i = - sigmac) /\ forall i j, free_dof d i j -> bars_resist d (fun k => sigma k * nth k A' 0) i j = nodal_load (tr_qfixed d) i j.
Proof.
  intros solve d st sc A HS HT RG HA Ht Hc. destruct (design_ok d st sc HT Ht Hc solve HS RG A HA) as (u & E & RS & EQ). destruct HA as [LA HP]. exists u, (map (fun i => resized st sc (bar_force d A (uval u) i)) (seq 0 (nb d))). split; [exact E|].
  split; [rewrite map_length, seq_length; symmetry; exact LA|]. split; [exact RS|]. split; [exact EQ|].
  assert (SG : forall i, (i < nb d)%nat -> (0 < stress d i (uval u) <-> 0 < bar_force d A (uval u) i) /\ (stress d i (uval u) = 0 <-> bar_force d A (uval u) i = 0)).
  { intros i Hi. specialize (HP i ltac:(unfold nb in Hi; lia)). unfold bar_force. set (x := stress d i (uval u)). set (y := nth i A 0) in *. split; split; intros H.
    - now apply Rmult_lt_0_compat.
    - destruct (Rlt_le_dec 0 x); auto. exfalso. nra.
    - rewrite H. ring.
    - apply Rmult_integral in H. lra. }
  split.
  - intros i Hi. assert (Hi' : (i < nb d)%nat) by (unfold nb; lia). rewrite TopMain.nth_map_seq by auto. destruct (resized_ok st sc Ht Hc (bar_force d A (uval u) i)) as (R0 & R1 & R2). destruct (SG i Hi') as [S1 S2]. split; [exact R0|]. split; [|split].
    + rewrite S2. split; intros H; [|rewrite H; unfold resized; rewrite (proj2 (Rltb_false 0 0)) by lra; field; lra]. rewrite H in R1, R2. destruct (Rlt_le_dec 0 (bar_force d A (uval u) i)) as [X|X]; [rewrite (R1 X)|rewrite (R2 X)]; ring.
    + intros H. apply R1. now apply S1.
    + intros H. apply R2. destruct (Rle_lt_dec (bar_force d A (uval u) i) 0) as [X|X]; auto. apply S1 in X. lra.
  - exists (fun i => if Rltb 0 (bar_force d A (uval u) i) then st else - sc). split; [intros i; destruct (Rltb _ _); auto|]. intros i j Hf. rewrite <- (EQ i j Hf). apply (resist_ext d). intros k Hk. rewrite TopMain.nth_map_seq by auto.
    destruct (resized_ok st sc Ht Hc (bar_force d A (uval u) k)) as (_ & R1 & R2). destruct (Rltb 0 (bar_force d A (uval u) k)) eqn:Q; symmetry; [apply R1; now apply Rltb_true in Q|apply R2; now apply Rltb_false in Q].
Qed.

Lemma C114_determinate_pf : forall solve d sigmat sigmac A u A', spd_solver solve -> truss_ok d -> rigid_truss d -> determinate d -> areas_ok d A -> 0 < sigmat -> 0 < sigmac ->
  ts_design solve d sigmat sigmac A = Ok (u, A') -> areas_ok d A' ->
  (exists u', ts_design solve d sigmat sigmac A' = Ok (u', A') /\ forall i, (i < length A)%nat -> (0 < stress d i (uval u) -> stress d i (uval u') = sigmat) /\ (stress d i (uval u) < 0 -> stress d i (uval u') = - sigmac)) /\
  forall B v, areas_ok d B -> respects d v -> (forall i j, free_dof d i j -> bars_resist d (bar_force d B v) i j = nodal_load (tr_qfixed d) i j) ->
    (forall i, (i < length B)%nat -> - sigmac <= stress d i v <= sigmat) -> forall i, (i < length B)%nat -> nth i A' 0 <= nth i B 0.
Proof.
  intros solve d st sc A u A' HS HT RG DT HA Ht Hc E HA'. destruct (C114_design_pf solve d st sc A HS HT RG HA Ht Hc) as (u0 & A0 & E0 & L0 & RS & EQ & V & _). rewrite E in E0. injection E0 as <- <-.
  destruct (design_ok d st sc HT Ht Hc solve HS RG A HA) as (u0 & E0 & _). rewrite E in E0. injection E0 as Eu EA. rewrite <- Eu in EA. clear Eu u0.
  destruct (design_ok d st sc HT Ht Hc solve HS RG A' HA') as (u' & E' & RS' & EQ'). destruct HA as [LA HP]. destruct HA' as [LA' HP']. pose proof (same_forces d _ _ DT EQ EQ') as SF. split.
  - exists u'. split.
    + rewrite E', EA. do 2 f_equal. apply map_ext_in. intros i Hi. apply in_seq in Hi. rewrite <- EA. f_equal. symmetry. apply SF. lia.
    + intros i Hi. destruct (V i Hi) as (V0 & VZ & V1 & V2). specialize (SF i ltac:(unfold nb; lia)). specialize (HP' i ltac:(lia)). unfold bar_force at 2 in SF. split; intros H; [rewrite V1 in SF by auto|rewrite V2 in SF by lra]; apply (Rmult_eq_reg_r (nth i A' 0)); lra.
  - intros B v [LB HB] RV EV BD i Hi. pose proof (same_forces d _ _ DT EQ EV i ltac:(unfold nb; lia)) as SB. specialize (BD i Hi). specialize (HB i Hi). destruct (V i ltac:(lia)) as (V0 & VZ & V1 & V2). unfold bar_force at 2 in SB.
    destruct (Rlt_le_dec 0 (stress d i (uval u))) as [H|H]; [rewrite V1 in SB by auto|rewrite V2 in SB by auto]; nra.
Qed.

Lemma C114_overstress_pf : exists d A, truss_ok d /\ rigid_truss d /\ areas_ok d A /\ forall solve, spd_solver solve ->
  exists u A' u' A'', ts_design solve d 1 1 A = Ok (u, A') /\ areas_ok d A' /\ ts_design solve d 1 1 A' = Ok (u', A'') /\ stress d 0 (uval u') = 6 / 5.
Proof.
  exists tee, [1; 1; 1]. assert (OK : areas_ok tee [1; 1; 1]) by (split; [reflexivity|intros [|[|[|]]] Hi; cbn in *; lra || lia]). split; [exact tee_ok|]. split; [exact tee_rigid|]. split; [exact OK|]. intros solve HS.
  destruct (C114_design_pf solve tee 1 1 [1; 1; 1] HS tee_ok tee_rigid OK ltac:(lra) ltac:(lra)) as (u & A' & E & L & RS & EQ & V & _). destruct (tee_balanced _ _ RS EQ) as (B0 & B1 & B2). cbn [nth] in B0, B1.
  assert (S0 : stress tee 0 (uval u) = 2) by lra. assert (S1 : stress tee 1 (uval u) = -4) by lra. assert (S2 : stress tee 2 (uval u) = -1) by lra.
  destruct (V 0%nat ltac:(cbn; lia)) as (_ & _ & V0 & _). destruct (V 1%nat ltac:(cbn; lia)) as (_ & _ & _ & V1). destruct (V 2%nat ltac:(cbn; lia)) as (_ & _ & _ & V2). unfold bar_force in V0, V1, V2. rewrite S0 in V0. rewrite S1 in V1. rewrite S2 in V2. cbn [nth] in V0, V1, V2. specialize (V0 ltac:(lra)). specialize (V1 ltac:(lra)). specialize (V2 ltac:(lra)).
  assert (OK' : areas_ok tee A'). { split; [exact L|]. rewrite L. intros [|[|[|]]] Hi; cbn in Hi; lra || lia. }
  destruct (C114_design_pf solve tee 1 1 A' HS tee_ok tee_rigid OK' ltac:(lra) ltac:(lra)) as (u' & A'' & E' & _ & RS' & EQ' & _). destruct (tee_balanced _ _ RS' EQ') as (B0' & _ & B2').
  exists u, A', u', A''. split; [exact E|]. split; [exact OK'|]. split; [exact E'|]. assert (X0 : nth 0 A' 0 = 2) by lra. assert (X2 : nth 2 A' 0 = 1) by lra. rewrite X0, X2 in B0'. lra.
Qed.
