(** Size optimisation of a truss. *)
From Coq Require Import List Arith Lia Bool Reals Lra.
From Verif Require Import Res SumR DenseModel DenseR DenseSpec ElemModel ElemSpec LUModel SparseModel SparseSpec AssemblyModel AssemblySpec KrylovSpec OCModel TopModel TopSpec LoopModel LoopSpec TrussModel TrussSpec.
From Verif Require Import DenseProof DenseMain SparseMain AssemblyProof AssemblyProof2 AssemblyProof3 AssemblyMain ElemProof ElemProof2 ElemMain TopProof3 FilterMain OCMain ThetaProof3 ThetaProof5 TopProof TopProof2 TopProof4 TopProof5 TopMain LoopProof LoopProof3 TrussProof TrussProof2.
Import ListNotations.
Local Open Scope R_scope.

Lemma vdot_scal s a b r : vdot R_ops a b = Ok r -> vdot R_ops (vscal R_ops s a) b = Ok (s * r).
Proof.
  intros H. assert (L : length a = length b). { unfold vdot in H. destruct (Nat.eqb_spec (length a) (length b)) as [E|E]; auto. cbn [assert_ bind] in H. discriminate. }
  pose proof (is_vec_of_list a) as Va. pose proof (is_vec_of_list b) as Vb. rewrite <- L in Vb. rewrite (vdot_ok R R_ops a b (length a) _ _ Va Vb), gsum_bigsum in H. injection H as <-.
  pose proof (is_vec_of_list (vscal R_ops s a)) as Vs. assert (LS : length (vscal R_ops s a) = length a) by (unfold vscal; apply map_length). rewrite LS in Vs.
  rewrite (vdot_ok R R_ops _ b (length a) _ _ Vs Vb), gsum_bigsum, <- bigsum_scal. f_equal. apply bigsum_ext. intros i Hi. unfold vscal. cbn [omul R_ops].
  rewrite (nth_indep _ 0 (0 * s)) by (now rewrite map_length). rewrite (map_nth (fun x => x * s)). ring.
Qed.

Section Z.
Variable z : sizing.
Let d := sz_d z.
Hypothesis HT : truss_ok d.
Definition ar (s : list R) (i : nat) : R := sz_A0 z * (1 - nth i s 0) + sz_A1 z * nth i s 0.
Lemma area_nth s i : length s = nb d -> (i < nb d)%nat -> nth i (design_areas z s) 0 = ar s i /\ sz_area z s i = Ok (ar s i).
Proof.
  intros L Hi. split.
  - unfold design_areas. set (f := fun r => sz_A0 z * (1 - r) + sz_A1 z * r). rewrite (nth_indep _ 0 (f 0)) by (rewrite map_length; lia). rewrite map_nth. reflexivity.
  - unfold sz_area. rewrite (rd_nth s i 0) by lia. reflexivity.
Qed.
Lemma area_run s : length s = nb d -> forall i, (i < nb d)%nat -> sz_area z s i = Ok (nth i (design_areas z s) 0).
Proof. intros L i Hi. destruct (area_nth s i L Hi) as [-> ->]. reflexivity. Qed.
Lemma design_len s : areas_ok d (design_areas z s) -> length s = nb d.
Proof. intros [L _]. unfold design_areas in L. now rewrite map_length in L. Qed.
Lemma area_pos s : areas_ok d (design_areas z s) -> forall i, (i < nb d)%nat -> 0 < nth i (design_areas z s) 0.
Proof. intros [L P] i Hi. apply P. now rewrite L. Qed.
Lemma closed_ok s : 0 < sz_A0 z <= sz_A1 z -> closed_design (nb d) s -> areas_ok d (design_areas z s).
Proof.
  intros HA [L H]. assert (LA : length (design_areas z s) = nb d) by (unfold design_areas; now rewrite map_length). split; [exact LA|]. intros i Hi. rewrite LA in Hi. destruct (area_nth s i L Hi) as [-> _]. unfold ar. specialize (H i Hi). nra.
Qed.

Definition dfz (u : list (list R)) (i : nat) : R := - sz_scale0 z * ((sz_A1 z - sz_A0 z) * kbar d i (uval u) (uval u)).
Lemma zsens_ok u i : (i < nb d)%nat -> (forall i j, in_table u i j <-> (i < length (tr_x d))%nat /\ (j < 2)%nat) -> sz_sensitivity z u i = Ok (dfz u i).
Proof.
  intros Hi HU. destruct (bar_nodes d i HT Hi) as (E & Ha & Hb). set (a := - sz_A0 z + sz_A1 z). set (e := bel d i a).
  destruct (action 2 [0%nat; 1%nat] [bar_a d i; bar_b d i] bnte (e_K e) _ u bel_numbered eq_refl (bel_mat d i a)) as (ue & y & E1 & E2 & Ly & Hy & E3).
  { intros k c Hin Hc. apply HU. cbn in Hin, Hc. destruct Hin as [<-|[<-|[]]], Hc as [<-|[<-|[]]]; lia. }
  unfold sz_sensitivity. fold d. rewrite (rd_nth _ i []) by exact Hi. cbn [bind]. fold a. rewrite bel_call by auto. cbn [bind]. fold e. rewrite E, E1. cbn [bind]. rewrite E2. cbn [bind]. rewrite (vdot_scal _ _ _ _ E3). f_equal.
  change (bil (mkElem [bar_a d i; bar_b d i] bnte (e_K e) y) (dofs [bar_a d i; bar_b d i] bnte) (uval u) (uval u)) with (bil (bel d i a) (e_dofs (bel d i a)) (uval u) (uval u)). rewrite bel_bil. unfold dfz, kbar, a, Rdiv. ring.
Qed.

Section A.
Variable solve : csr R -> list R -> res (list R).
Hypothesis HS : spd_solver solve.
Hypothesis RG : rigid_truss d.
Lemma zanalysis_ok s u1 t n : areas_ok d (design_areas z s) -> ttables d u1 t n ->
  exists a, sz_analysis solve z s = Ok a /\ tsol d (design_areas z s) t (uval (an_u a)) /\ length (an_u a) = length (tr_x d) /\
    (forall i j, in_table (an_u a) i j <-> (i < length (tr_x d))%nat /\ (j < 2)%nat) /\ (forall i j, in_table (an_r a) i j <-> (i < length (tr_x d))%nat /\ (j < 2)%nat) /\
    (forall i j, (i < length (tr_x d))%nat -> (j < 2)%nat -> uval (an_r a) i j = bars_resist d (bar_force d (design_areas z s) (uval (an_u a))) i j) /\
    (forall i j, free_dof d i j -> bars_resist d (bar_force d (design_areas z s) (uval (an_u a))) i j = nodal_load (tr_qfixed d) i j) /\
    an_f a = sz_scale0 z * tlw d (uval (an_u a)) /\ an_df a = map (dfz (an_u a)) (seq 0 (nb d)).
Proof.
  intros HD TB. pose proof (design_len s HD) as Ls. pose proof (area_run s Ls) as HA. pose proof (area_pos s HD) as HP.
  destruct (tdisplacement_ok d (design_areas z s) (sz_area z s) HT HA HP solve u1 t n HS RG TB) as (u & E1 & LU & IU & VU & EU).
  destruct (treaction_ok d (design_areas z s) (sz_area z s) HT HA u t (tt_in _ _ _ _ TB) IU) as (r & E2 & LR & IR & VR).
  pose proof (balance_sol d (design_areas z s) HT u1 t n (uval u) TB VU EU) as SO.
  eexists. split.
  - unfold sz_analysis. fold d. rewrite E1. cbn [bind]. rewrite E2. cbn [bind]. rewrite (field_product_ok u r _ LU LR IU IR). cbn [bind].
    change (length (tr_elements (sz_d z))) with (nb d). rewrite (mapM_seq _ (dfz u)); [cbn [bind]; reflexivity|]. intros i Hi. now apply zsens_ok.
  - cbn [an_u an_r an_f an_df]. split; [exact SO|]. split; [exact LU|]. split; [exact IU|]. split; [exact IR|]. split; [exact VR|]. split; [exact EU|]. split; [|reflexivity]. f_equal.
    rewrite (bigsum_ext _ _ (fun i => bigsum 2 (fun j => uval u i j * bars_resist d (bar_force d (design_areas z s) (uval u)) i j))) by (intros i Hi; apply bigsum_ext; intros j Hj; now rewrite VR).
    rewrite (resist_work d HT _ (uval u) _ eq_refl). apply (virtual_work d HT _ u1 t n (uval u) TB VU EU).
Qed.
Lemma tsol_unique A t u u' : (forall i, (i < nb d)%nat -> 0 < nth i A 0) -> tsol d A t u -> tsol d A t u' -> (exists u1 n, ttables d u1 t n) -> forall i j, (i < length (tr_x d))%nat -> (j < 2)%nat -> u i j = u' i j.
Proof.
  intros HP [V S] [V' S'] (u1 & n & TB) i j Hi Hj. set (w := comb 1 u (-1) u').
  assert (Vw : vs t w) by (now apply vs_l). assert (Z : aform field (nb d) (kbar d) (fun i => nth i A 0) w w = 0).
  { unfold w at 2. rewrite (aform_r field comb (nb d) (kbar d) (fun i p u q u' v _ => kbar_l d i p u q u' v) (fun i u v _ => kbar_s d i u v)). rewrite S, S' by auto. ring. }
  pose proof (energy_zero d A HT HP w Z) as EZ. assert (RW : respects d w). { intros a b v Hin. apply Vw. destruct (num_dec t a b) as [|N]; auto. apply (tt_free _ _ _ _ TB) in N. exfalso. exact (proj2 (proj2 N) v Hin). }
  pose proof (RG w RW EZ i j Hi Hj) as X. unfold w, comb in X. lra.
Qed.
(** the first-order bound *)
Lemma objective_tangent s s' a a' : 0 <= sz_scale0 z -> areas_ok d (design_areas z s) -> areas_ok d (design_areas z s') -> sz_analysis solve z s = Ok a -> sz_analysis solve z s' = Ok a' ->
  an_f a + bigsum (nb d) (fun i => nth i (an_df a) 0 * (nth i s' 0 - nth i s 0)) <= an_f a'.
Proof.
  intros H0 HD HD' E E'. destruct (ttables_exist d HT) as (u1 & t & n & TB).
  destruct (zanalysis_ok s u1 t n HD TB) as (b & Eb & SO & _ & _ & _ & _ & _ & VF & VD). rewrite E in Eb. injection Eb as <-.
  destruct (zanalysis_ok s' u1 t n HD' TB) as (b & Eb & SO' & _ & _ & _ & _ & _ & VF' & _). rewrite E' in Eb. injection Eb as <-.
  pose proof (work_change field comb (nb d) (kbar d) (tlw d) (vs t) (fun i p u q u' v _ => kbar_l d i p u q u' v) (fun i u v _ => kbar_s d i u v) (fun i u Hi => kbar_p d i u HT Hi) (fun p u q u' => vs_l t p u q u')
    (fun i => nth i (design_areas z s) 0) (fun i => nth i (design_areas z s') 0) (uval (an_u a)) (uval (an_u a')) (area_pos s' HD') SO SO') as W. cbv zeta in W. destruct W as [W _].
  rewrite VF, VF'. rewrite (bigsum_ext (nb d) _ (fun i => - sz_scale0 z * ((nth i (design_areas z s') 0 - nth i (design_areas z s) 0) * kbar d i (uval (an_u a)) (uval (an_u a))))).
  2:{ intros i Hi. destruct (area_nth s i (design_len s HD) Hi) as [-> _]. destruct (area_nth s' i (design_len s' HD') Hi) as [-> _]. rewrite VD, TopMain.nth_map_seq by auto. unfold dfz, ar. ring. }
  rewrite bigsum_scal. set (S := bigsum (nb d) _) in *. clearbody S. nra.
Qed.
Lemma df_nonpos a s i : 0 <= sz_scale0 z -> sz_A0 z <= sz_A1 z -> areas_ok d (design_areas z s) -> sz_analysis solve z s = Ok a -> (i < nb d)%nat -> nth i (an_df a) 0 <= 0.
Proof.
  intros H0 H1 HD E Hi. destruct (ttables_exist d HT) as (u1 & t & n & TB). destruct (zanalysis_ok s u1 t n HD TB) as (b & Eb & _ & _ & _ & _ & _ & _ & _ & VD). rewrite E in Eb. injection Eb as <-.
  rewrite VD, TopMain.nth_map_seq by auto. unfold dfz. pose proof (kbar_p d i (uval (an_u a)) HT Hi). assert (0 <= sz_scale0 z * ((sz_A1 z - sz_A0 z) * kbar d i (uval (an_u a)) (uval (an_u a)))); [|lra].
  apply Rmult_le_pos; auto. apply Rmult_le_pos; lra.
Qed.
End A.

(** ** The weight *)
Lemma lengths_ok : sz_lengths z = Ok (map (bar_length d) (seq 0 (nb d)), bigsum (nb d) (bar_length d)).
Proof.
  unfold sz_lengths. fold d. change (length (tr_elements d)) with (nb d). set (f := fun (s : list R * R) i => _).
  assert (G : forall k, (k <= nb d)%nat -> exists l, foldM f (seq 0 k) (repeat 0 (nb d), 0) = Ok (l, bigsum k (bar_length d)) /\ length l = nb d /\ forall i, (i < k)%nat -> nth i l 0 = bar_length d i).
  { induction k as [|k IH]; intros Hk.
    - exists (repeat 0 (nb d)). split; [reflexivity|]. split; [apply repeat_length|]. intros; lia.
    - destruct IH as (l & E & L & V); [lia|]. rewrite seq_S, foldM_app, E. cbn [bind foldM Nat.add]. unfold f at 1. rewrite (bar_diff d k HT) by lia. cbn [bind]. rewrite norm_ok. cbn [bind].
      unfold wr. destruct (Nat.ltb_spec k (length l)); [|lia]. cbn [bind]. eexists. split; [reflexivity|]. split; [now rewrite upd_length|]. intros i Hi. rewrite nth_upd_in by lia. destruct (Nat.eqb_spec i k); [now subst|]. apply V. lia. }
  destruct (G (nb d) (le_n _)) as (l & E & L & V). rewrite E. do 2 f_equal. apply (nth_ext _ _ 0 0); [now rewrite map_length, seq_length|]. intros i Hi. rewrite V, TopMain.nth_map_seq by lia. reflexivity.
Qed.
Definition ln_ (i : nat) : R := bar_length d i.
Definition tot : R := bigsum (nb d) (bar_length d).
Lemma tot_pos : tr_elements d <> [] -> 0 < tot.
Proof.
  intros H. assert (N : (0 < nb d)%nat) by (unfold nb; destruct (tr_elements d); [congruence|cbn; lia]). apply (bigsum_pos (nb d) (bar_length d) 0%nat); auto; [intros; left|]; now apply length_pos.
Qed.
Hypothesis HE : tr_elements d <> [].
Hypothesis HL : 0 < sz_limit z.
Let ls := map (bar_length d) (seq 0 (nb d)).
Lemma den_pos : 0 < sz_limit z * tot.
Proof. apply Rmult_lt_0_compat; auto. now apply tot_pos. Qed.
Lemma ls_len : length ls = nb d.
Proof. unfold ls. now rewrite map_length, seq_length. Qed.
Lemma ls_nth i : (i < nb d)%nat -> nth i ls 0 = bar_length d i.
Proof. intros Hi. unfold ls. now rewrite TopMain.nth_map_seq. Qed.
Definition dgz (i : nat) : R := bar_length d i / (sz_limit z * tot).
Lemma weight_ok s : length s = nb d -> exists dg, sz_weight z ls tot s = Ok (weight_share z s - 1, dg) /\ length dg = nb d /\ forall i, (i < nb d)%nat -> nth i dg 0 = dgz i.
Proof.
  intros Ls. pose proof den_pos as DP. unfold sz_weight. fold d. change (length (tr_elements d)) with (nb d). rewrite Ls. set (f := fun (c : R * list R) i => _).
  assert (G : forall k, (k <= nb d)%nat -> exists dg, foldM f (seq 0 k) (0, repeat 0 (nb d)) = Ok (bigsum k (fun i => nth i s 0 * bar_length d i / (sz_limit z * tot)), dg) /\ length dg = nb d /\ forall i, (i < k)%nat -> nth i dg 0 = dgz i).
  { induction k as [|k IH]; intros Hk.
    - exists (repeat 0 (nb d)). split; [reflexivity|]. split; [apply repeat_length|]. intros; lia.
    - destruct IH as (dg & E & L & V); [lia|]. rewrite seq_S, foldM_app, E. cbn [bind foldM Nat.add]. unfold f at 1. rewrite (rd_nth s k 0) by lia. cbn [bind]. rewrite (rd_nth ls k 0) by (rewrite ls_len; lia). cbn [bind]. rewrite ls_nth by lia. rewrite !Rdiv_res_ok by lra. cbn [bind].
      unfold wr. destruct (Nat.ltb_spec k (length dg)); [|lia]. cbn [bind]. eexists. split; [reflexivity|]. split; [now rewrite upd_length|]. intros i Hi. rewrite nth_upd_in by lia. destruct (Nat.eqb_spec i k); [now subst|]. apply V. lia. }
  destruct (G (nb d) (le_n _)) as (dg & E & L & V). rewrite E. cbn [bind]. exists dg. split; [|auto]. do 3 f_equal. unfold weight_share. fold d. change (length (tr_elements d)) with (nb d). fold tot.
  unfold Rdiv. rewrite (Rmult_comm (bigsum (nb d) _)), <- bigsum_scal. apply bigsum_ext. intros i Hi. ring.
Qed.
Lemma constraint_ok s : length s = nb d -> sz_constraint z ls tot s = Ok (weight_share z s - 1).
Proof.
  intros Ls. pose proof den_pos as DP. unfold sz_constraint. fold d. change (length (tr_elements d)) with (nb d).
  rewrite (foldM_map _ (fun g i => a <- (si <- rd s i ;; li <- rd ls i ;; Rdiv_res (si * li) (sz_limit z * tot)) ;; Ok (g + a)) (fun i => i)).
  2:{ intros g i _. destruct (rd s i); cbn [bind]; auto. destruct (rd ls i); cbn [bind]; auto. }
  rewrite map_id, (fold_sum _ (fun i => nth i s 0 * bar_length d i / (sz_limit z * tot))).
  - cbn [bind]. do 2 f_equal. unfold weight_share. fold d. change (length (tr_elements d)) with (nb d). fold tot. unfold Rdiv. rewrite (Rmult_comm (bigsum (nb d) _)), <- bigsum_scal. apply bigsum_ext. intros i Hi. ring.
  - intros i Hi. rewrite (rd_nth s i 0) by lia. cbn [bind]. rewrite (rd_nth ls i 0) by (rewrite ls_len; lia). cbn [bind]. rewrite ls_nth by lia. now rewrite Rdiv_res_ok by lra.
Qed.
Lemma gk_val s : length s = nb d -> sz_gkp1 z ls tot s = weight_share z s - 1.
Proof. intros H. unfold sz_gkp1. now rewrite constraint_ok. Qed.
Lemma share_sum s s' : weight_share z s' - weight_share z s = bigsum (nb d) (fun i => dgz i * (nth i s' 0 - nth i s 0)).
Proof.
  unfold weight_share, dgz. fold d. change (length (tr_elements d)) with (nb d). fold tot. rewrite (bigsum_ext (nb d) (fun i => bar_length d i / (sz_limit z * tot) * (nth i s' 0 - nth i s 0)) (fun i => / (sz_limit z * tot) * (nth i s' 0 * bar_length d i - nth i s 0 * bar_length d i))) by (intros; unfold Rdiv; ring).
  rewrite bigsum_scal, bigsum_minus. unfold Rdiv. ring.
Qed.
Lemma dgz_pos i : (i < nb d)%nat -> 0 < dgz i.
Proof. intros Hi. unfold dgz. apply Rdiv_lt_0_compat; [now apply length_pos|apply den_pos]. Qed.
Lemma share_mono s s' : (forall i, (i < nb d)%nat -> nth i s 0 <= nth i s' 0) -> weight_share z s <= weight_share z s'.
Proof. intros H. assert (0 <= weight_share z s' - weight_share z s); [|lra]. rewrite share_sum. apply bigsum_nonneg. intros i Hi. pose proof (dgz_pos i Hi). specialize (H i Hi). apply Rmult_le_pos; lra. Qed.
End Z.
