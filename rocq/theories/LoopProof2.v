(** One pass of the loop: filter, weight, analysis, sensitivities. *)
From Coq Require Import List Arith Lia Bool Reals Lra.
From Verif Require Import Res SumR DenseR FilterModel FilterSpec OCModel TopModel TopSpec LoopModel LoopSpec.
From Verif Require Import FilterMain TopMain.
Import ListNotations.
Local Open Scope R_scope.

Lemma pos_min n (f : nat -> R) : (forall i, (i < n)%nat -> 0 < f i) -> exists lo, 0 < lo /\ forall i, (i < n)%nat -> lo <= f i.
Proof.
  induction n as [|n IH]; intros H; [exists 1; split; [lra|lia]|]. destruct IH as (lo & Hl & P); [intros; apply H; lia|].
  exists (Rmin lo (f n)). split; [apply Rmin_pos; auto|]. intros i Hi. destruct (Nat.eq_dec i n) as [-> |]; [apply Rmin_r|]. apply Rle_trans with lo; [apply Rmin_l|apply P; lia].
Qed.
Section F.
Variables (n : nat) (nbs : list (list nat)) (w : list (list R)).
Hypothesis Hok : filter_ok n nbs w.
Hypothesis Hw : weights_nonneg nbs w.
Lemma nb_lt i k : (i < n)%nat -> In k (nth i nbs []) -> (k < n)%nat.
Proof. intros Hi Hk. destruct Hok as (_ & _ & H). destruct (H i Hi) as (_ & P & _). now apply P. Qed.
Lemma wsum_pos i : (i < n)%nat -> 0 < weight_sum nbs w i.
Proof. intros Hi. unfold weight_sum. pose proof (tot_ne n nbs w Hok i Hi). pose proof (total_shift (links nbs w i) (fun k v => Hw i k v)). lra. Qed.
Lemma mean_pos f i : (i < n)%nat -> (forall k, (k < n)%nat -> 0 < f k) -> 0 < mean nbs w f i.
Proof.
  intros Hi Hf. destruct (pos_min n f Hf) as (lo & Hl & P).
  assert (lo <= mean nbs w f i); [|lra].
  unfold mean. apply Rmult_le_reg_r with (weight_sum nbs w i); [now apply wsum_pos|]. unfold Rdiv. rewrite Rmult_assoc. fold (weight_sum nbs w i). rewrite Rinv_l by (pose proof (wsum_pos i Hi); lra). rewrite Rmult_1_r.
  unfold weight_sum. rewrite <- total_const. apply total_le. intros k v Hk. split; [eapply Hw; eauto|]. apply P. apply (links_in n nbs w Hok i k v Hi Hk).
Qed.
Lemma mean_nonpos f i : (i < n)%nat -> (forall k, (k < n)%nat -> f k <= 0) -> mean nbs w f i <= 0.
Proof.
  intros Hi Hf. unfold mean. apply Rmult_le_reg_r with (weight_sum nbs w i); [now apply wsum_pos|]. unfold Rdiv. rewrite Rmult_assoc. fold (weight_sum nbs w i). rewrite Rinv_l by (pose proof (wsum_pos i Hi); lra). rewrite Rmult_1_r, Rmult_0_l.
  replace 0 with (total (links nbs w i) (fun _ => 0)). { apply total_le. intros k v Hk. split; [eapply Hw; eauto|]. apply Hf. apply (links_in n nbs w Hok i k v Hi Hk). }
  rewrite total_const. ring.
Qed.
Lemma mean_one f i : (i < n)%nat -> (forall k, (k < n)%nat -> f k <= 1) -> mean nbs w f i <= 1.
Proof.
  intros Hi Hf. assert (E : mean nbs w f i <= mean nbs w (fun _ => 1) i). { apply (mean_le n nbs w Hok); auto. intros k Hk. apply Hf. now apply (nb_lt i). }
  rewrite (mean_const n nbs w Hok) in E by auto. exact E.
Qed.
End F.
Lemma tanh_half beta : 0 < beta -> 0 < tanh (5/10 * beta).
Proof. intros H. apply tanh_pos. lra. Qed.
Lemma project_unit beta q : 0 < beta -> 0 < q <= 1 -> 0 < project beta q <= 1.
Proof.
  intros Hb [H0 H1]. unfold project. pose proof (tanh_half beta Hb) as T. set (T0 := tanh (5/10 * beta)) in *.
  assert (L : - T0 < tanh (beta * (q - 5/10))). { unfold T0. rewrite <- tanh_opp. apply tanh_lt. nra. }
  assert (U : tanh (beta * (q - 5/10)) <= T0). { unfold T0. apply tanh_le. nra. } set (t := tanh (beta * (q - 5/10))) in *. split.
  - apply Rdiv_lt_0_compat; [lra|auto].
  - apply Rmult_le_reg_r with T0; [auto|]. unfold Rdiv. rewrite !Rmult_assoc, Rinv_l by lra. lra.
Qed.
Lemma project_mono beta p q : 0 < beta -> p <= q -> project beta p <= project beta q.
Proof.
  intros Hb H. unfold project. pose proof (tanh_half beta Hb) as T. assert (L : tanh (beta * (p - 5/10)) <= tanh (beta * (q - 5/10))) by (apply tanh_le; nra).
  unfold Rdiv. apply Rmult_le_compat_r; [left; now apply Rinv_0_lt_compat|]. lra.
Qed.
Lemma slope_pos beta q : 0 < beta -> 0 < slope beta q.
Proof.
  intros Hb. unfold slope. pose proof (tanh_half beta Hb). pose proof (tanh_sqr (beta * (q - 5/10))). apply Rdiv_lt_0_compat; [|auto]. apply Rmult_lt_0_compat; lra.
Qed.

(** the constraint is the weight of the filtered design *)
Lemma constraint_weight d nbs w beta s rho g dg : tp_elements d <> [] -> tp_limit d <> 0 -> heaviside_variables (length (tp_elements d)) nbs w beta s = Ok rho -> length rho = length (tp_elements d) ->
  top_weight d rho = Ok (g, dg) -> ds_constraint d nbs w beta s = Ok g.
Proof.
  intros HE HL E Lr W. unfold ds_constraint. rewrite E. cbn [bind].
  assert (NZ : tp_limit d * INR (length (tp_elements d)) <> 0). { apply Rmult_integral_contrapositive. split; auto. apply not_0_INR. destruct (tp_elements d); [congruence|discriminate]. }
  assert (G : forall m, (m <= length (tp_elements d))%nat ->
    foldM (fun g i => ri <- rd rho i ;; a <- Rdiv_res (tp_scale1 d * ri) (tp_limit d * INR (length (tp_elements d))) ;; Ok (g + a)) (seq 0 m) 0 =
    Ok (bigsum m (fun i => tp_scale1 d * nth i rho 0 / (tp_limit d * INR (length (tp_elements d)))))).
  { induction m as [|m IH]; intros Hm; [reflexivity|]. rewrite seq_S, foldM_app, IH by lia. cbn [bind plus foldM]. rewrite (rd_nth rho m 0) by lia. cbn [bind]. rewrite Rdiv_res_ok by auto. reflexivity. }
  rewrite G by lia. cbn [bind]. f_equal.
  destruct (C108_weight_pf d rho Lr HE HL) as (g' & dg' & E' & V & _). rewrite W in E'. injection E' as -> ->. rewrite V, Lr.
  rewrite (bigsum_ext _ _ (fun i => tp_scale1 d / (tp_limit d * INR (length (tp_elements d))) * nth i rho 0)) by (intros; field; split; intro; apply NZ; subst; nra || (rewrite H0; ring)).
  rewrite bigsum_scal. field. split; auto. intro Z. apply NZ. rewrite Z. ring.
Qed.

Section P.
Variables (solve : SparseModel.csr R -> list R -> res (list R)) (d : top) (nbs : list (list nat)) (w : list (list R)).
Let n := length (tp_elements d).
Hypothesis HS : spd_solver solve.
Hypothesis HT : top_ok d.
Hypothesis HC : loop_consts d.
Hypothesis Hok : filter_ok n nbs w.
Hypothesis Hw : weights_nonneg nbs w.

Definition rho_of (beta : R) (s : list R) : list R := map (fun i => project beta (mean nbs w (at_ s) i)) (seq 0 n).
Lemma rho_run beta s : 0 < beta -> length s = n -> heaviside_variables n nbs w beta s = Ok (rho_of beta s).
Proof. intros Hb L. apply heaviside_variables_ok; [exact Hok|lia|]. pose proof (tanh_half beta Hb). lra. Qed.
Lemma rho_len beta s : length (rho_of beta s) = n.
Proof. unfold rho_of. now rewrite map_length, seq_length. Qed.
Lemma rho_unit beta s : 0 < beta -> unit_design n s -> unit_design n (rho_of beta s).
Proof.
  intros Hb [L U]. split; [apply rho_len|]. intros i Hi. unfold rho_of. rewrite (nth_map_seq' (fun i => project beta (mean nbs w (at_ s) i))) by auto. apply project_unit; auto. split.
  - apply (mean_pos n); auto. intros k Hk. now apply U.
  - apply (mean_one n); auto. intros k Hk. now apply U.
Qed.
Lemma unit_ok rho : unit_design n rho -> design_ok d rho.
Proof. intros [L U]. split; [exact L|]. intros x Hx. apply (In_nth _ _ 0) in Hx. destruct Hx as (i & Hi & <-). apply U. lia. Qed.
Lemma limit_ne : tp_limit d <> 0.
Proof. destruct HC as (_ & _ & _ & _ & H). lra. Qed.
Lemma pass_ok beta s : 0 < beta -> unit_design n s ->
  exists ps, ds_pass solve d nbs w beta s = Ok ps /\ ps_rho ps = rho_of beta s /\ top_analysis solve d (ps_rho ps) = Ok (ps_an ps) /\ top_weight d (ps_rho ps) = Ok (ps_g ps, repeat (tp_scale1 d / (tp_limit d * INR n)) n) /\
    ds_constraint d nbs w beta s = Ok (ps_g ps) /\
    (forall c, In c (an_df (ps_an ps)) -> c <= 0) /\ 0 <= an_f (ps_an ps) /\ length (an_df (ps_an ps)) = n /\
    ps_dfds ps = map (mean nbs w (fun k => at_ (an_df (ps_an ps)) k * slope beta (mean nbs w (at_ s) k))) (seq 0 n) /\
    ps_dgds ps = map (mean nbs w (fun k => tp_scale1 d / (tp_limit d * INR n) * slope beta (mean nbs w (at_ s) k))) (seq 0 n).
Proof.
  intros Hb HU. pose proof HU as [L _]. pose proof (rho_unit beta s Hb HU) as RU. pose proof (unit_ok _ RU) as RO. destruct HC as (HE & Hp & H0 & H1 & HL).
  destruct (C108_weight_pf d (rho_of beta s) (rho_len beta s) HE limit_ne) as (g & dg & EW & _ & Ldg & Vdg & _). rewrite rho_len in *.
  assert (DG : dg = repeat (tp_scale1 d / (tp_limit d * INR n)) n).
  { apply (nth_ext _ _ 0 0); [now rewrite repeat_length|]. intros i Hi. rewrite Vdg by lia. rewrite (nth_indep _ 0 (tp_scale1 d / (tp_limit d * INR n))) by (rewrite repeat_length; lia). now rewrite nth_repeat. }
  destruct (C108_analysis_pf solve d (rho_of beta s) HS HT RO) as (a & es & EA & _ & _ & _ & _ & _ & _ & PF & LD).
  pose proof (tanh_half beta Hb) as T.
  assert (SE : forall c, length c = n -> heaviside_sensitivities n nbs w beta s c = Ok (map (mean nbs w (fun k => at_ c k * slope beta (mean nbs w (at_ s) k))) (seq 0 n))).
  { intros c Hc. apply heaviside_sensitivities_ok; [exact Hok|lia|lia|lra]. }
  eexists. split.
  { unfold ds_pass. fold n. rewrite rho_run by auto. cbn [bind]. rewrite EW. cbn [bind]. rewrite EA. cbn [bind]. rewrite SE by exact LD. cbn [bind]. rewrite SE by exact Ldg. cbn [bind]. reflexivity. }
  cbn [ps_rho ps_an ps_g ps_dfds ps_dgds]. splits; auto.
  - now rewrite EW, DG.
  - apply (constraint_weight d nbs w beta s (rho_of beta s) g dg); auto; [apply limit_ne|now apply rho_run|apply rho_len].
  - intros c Hc. destruct (C108_monotone_pf solve d (rho_of beta s) (rho_of beta s) a a HS HT RO RO Hp H0 ltac:(intros; lra) EA EA) as [_ P]. now apply P.
  - rewrite DG. apply map_ext_in. intros i Hi. apply in_seq in Hi. apply (mean_ext n nbs w Hok); [lia|]. intros k Hk. unfold at_. rewrite (nth_indep _ 0 (tp_scale1 d / (tp_limit d * INR n))) by (rewrite repeat_length; lia). now rewrite nth_repeat.
Qed.
Lemma const_pos : 0 < tp_scale1 d / (tp_limit d * INR n).
Proof.
  destruct HC as (HE & _ & _ & H1 & HL). apply Rdiv_lt_0_compat; [auto|]. apply Rmult_lt_0_compat; [auto|]. apply lt_0_INR. unfold n. destruct (tp_elements d); [congruence|cbn; lia].
Qed.
Lemma pass_signs beta s ps : 0 < beta -> unit_design n s -> ds_pass solve d nbs w beta s = Ok ps ->
  length (ps_dfds ps) = n /\ length (ps_dgds ps) = n /\ forall i, (i < n)%nat -> nth i (ps_dfds ps) 0 <= 0 /\ 0 < nth i (ps_dgds ps) 0.
Proof.
  intros Hb HU E. destruct (pass_ok beta s Hb HU) as (ps' & E' & _ & _ & _ & _ & SG & _ & LD & VF & VG). rewrite E in E'. injection E' as <-. rewrite VF, VG, !map_length, !seq_length. splits; auto.
  intros i Hi. rewrite !nth_map_seq' by auto. split.
  - apply (mean_nonpos n); auto. intros k Hk. pose proof (slope_pos beta (mean nbs w (at_ s) k) Hb). assert (at_ (an_df (ps_an ps)) k <= 0); [|nra]. apply SG. apply nth_In. lia.
  - apply (mean_pos n); auto. intros k Hk. apply Rmult_lt_0_compat; [apply const_pos|now apply slope_pos].
Qed.
End P.
