(** Property C87: the steps of the MMA and CONLIN solvers: the proofs. *)
From Coq Require Import List Arith Lia Bool Reals Lra.
From Verif Require Import Res SumR DenseR LUModel KrylovModel SolvelsModel OCModel MMAModel MMASpec.
Import ListNotations.
Local Open Scope R_scope.
From Coquelicot Require Import Coquelicot.
From Verif Require Import LUProof SolvelsProof OCMain MMAProof MMAMain FilterMain.

Lemma tab_map k f g : (forall i, (i < k)%nat -> f i = Ok (g i)) -> tab k f = Ok (map g (seq 0 k)).
Proof.
  intros H. unfold tab. assert (G : forall len s, (s + len <= k)%nat -> mapM f (seq s len) = Ok (map g (seq s len))).
  { induction len as [|len IH]; intros s Hs; [reflexivity|]. cbn [seq mapM map]. rewrite H by lia. cbn [bind]. rewrite IH by lia. reflexivity. }
  apply G. lia.
Qed.
Lemma advance_along P w d t : shaped P w -> shaped P d -> advance P w d t = Ok (along P w d t).
Proof.
  intros A B. unfold advance, along.
  assert (Q : forall k l1 l2, length l1 = k -> length l2 = k -> tab k (fun i => u <- rd l1 i ;; v <- rd l2 i ;; Ok (u + t * v)) = Ok (map (fun i => ent l1 i + t * ent l2 i) (seq 0 k))).
  { intros k l1 l2 H1 H2. apply tab_map. intros i Hi. rewrite (rd_nth l1 i 0), (rd_nth l2 i 0) by lia. reflexivity. }
  rewrite (Q (p_n P) (w_x w)) by first [apply A|apply B]. cbn [bind]. rewrite (Q (p_n P) (w_gsi w)) by first [apply A|apply B]. cbn [bind].
  rewrite (Q (p_n P) (w_ita w)) by first [apply A|apply B]. cbn [bind]. rewrite (Q (p_m P) (w_y w)) by first [apply A|apply B]. cbn [bind].
  rewrite (Q (p_m P) (w_lambda w)) by first [apply A|apply B]. cbn [bind]. rewrite (Q (p_m P) (w_mu w)) by first [apply A|apply B]. cbn [bind].
  rewrite (Q (p_m P) (w_s w)) by first [apply A|apply B]. reflexivity.
Qed.

Lemma kkt_square_eq P h w eps : kkt_square P h w eps = norm2 P h w eps.
Proof. reflexivity. Qed.
Lemma bigsum_nn k f : (forall i, (i < k)%nat -> 0 <= f i) -> 0 <= bigsum k f.
Proof. induction k as [|k IH]; intros H; cbn [bigsum]; [lra|]. pose proof (IH (fun i Hi => H i (Nat.lt_lt_succ_r _ _ Hi))). pose proof (H k ltac:(lia)). lra. Qed.
Lemma kkt_square_nn P h w eps : 0 <= kkt_square P h w eps.
Proof.
  unfold kkt_square. repeat apply Rplus_le_le_0_compat; try apply pow2_ge_0; apply bigsum_nn; intros i _; repeat apply Rplus_le_le_0_compat; apply pow2_ge_0.
Qed.
Lemma sqrt_down u v : sqrt u < sqrt v -> u < v.
Proof. apply sqrt_lt_0_alt. Qed.
Lemma sqrt_up u v : 0 <= u -> 0 <= v -> u < v -> sqrt u < sqrt v.
Proof. intros A B C. apply sqrt_lt_1; auto. Qed.

(** ** the step size *)
Lemma maxM_le k f g t B : (forall i, (i < k)%nat -> f i = Ok (g i)) -> maxM k f = Ok t -> 0 <= B -> (forall i, (i < k)%nat -> g i <= B) -> t <= B.
Proof.
  intros H E HB HG. unfold maxM in E.
  destruct (loop_from (fun t i => v <- f i ;; Ok (if Rltb t v then v else t)) (fun _ t => t <= B) 0 k 0 HB) as (r & E' & Hr).
  - intros i u Hi Hu. rewrite H by lia. cbn [bind]. eexists; split; [reflexivity|]. destruct (Rltb u (g i)); auto. apply HG. lia.
  - rewrite E in E'. now injection E' as ->.
Qed.

Section Step.
Variables (P : prob) (h : shape).
Hypothesis K : prob_ok P h.
Lemma safe_div v dv t : 0 < v -> 0 < t -> 0 <= v + t * (101/100) * dv -> - (101/100) * dv / v <= / t.
Proof.
  intros Hv Ht H. apply (Rmult_le_reg_r v); auto. apply (Rmult_le_reg_l t); auto.
  replace (t * (- (101/100) * dv / v * v)) with (- (t * (101/100) * dv)) by (field; lra). replace (t * (/ t * v)) with v by (field; lra). lra.
Qed.
Lemma rd_ent l k i : length l = k -> (i < k)%nat -> rd l i = Ok (ent l i).
Proof. intros. rewrite (rd_nth l i 0) by lia. reflexivity. Qed.

Lemma step_full w d : inside P w -> shaped P d -> exists t, step_size P w d = Ok t /\ 0 < t <= 1 /\ keeps_inside P w d t /\ step_safe P w d t /\
  forall u, 0 < u <= 1 -> keeps_inside P w d u -> u <= t.
Proof.
  intros HI HS. destruct (step_ok P h K w d HI HS) as (t & E & Hs & H1). exists t. pose proof (t_pos _ _ _ _ Hs) as H0. pose proof (i_sh _ _ HI) as HW.
  splits; auto.
  - unfold keeps_inside. destruct Hs. unfold safe in *. splits.
    + intros j Hj. specialize (t_xa j Hj). specialize (t_xb j Hj). specialize (t_g j Hj). specialize (t_i j Hj). splits; lra.
    + intros i Hi. specialize (t_y i Hi). specialize (t_l i Hi). specialize (t_m i Hi). specialize (t_s i Hi). splits; lra.
    + lra.
    + lra.
  - intros u Hu (K1 & K2 & K3 & K4). pose proof (i_z _ _ HI) as Hz. pose proof (i_ze _ _ HI) as Hze. revert E. unfold step_size.
    match goal with |- context [maxM (p_n P) ?f1] => destruct (maxM_ok (p_n P) f1 (fun j => Rmax (- (101/100) * ent (w_x d) j / (ent (w_x w) j - ent (p_alpha P) j))
      (Rmax (101/100 * ent (w_x d) j / (ent (p_beta P) j - ent (w_x w) j)) (Rmax (- (101/100) * ent (w_gsi d) j / ent (w_gsi w) j) (- (101/100) * ent (w_ita d) j / ent (w_ita w) j))))) as (tx & Ex & _ & _);
      [|assert (Bx : tx <= / u); [refine (maxM_le _ _ _ _ _ _ Ex _ _)|]] end.
    1,2: intros j Hj; rewrite (rd_ent (w_x d) (p_n P)), (rd_ent (w_x w) (p_n P)), (rd_ent (p_alpha P) (p_n P)), (rd_ent (p_beta P) (p_n P)), (rd_ent (w_gsi d) (p_n P)), (rd_ent (w_gsi w) (p_n P)), (rd_ent (w_ita d) (p_n P)), (rd_ent (w_ita w) (p_n P)) by first [lia|apply HW|apply HS|apply K];
      cbn [bind]; pose proof (i_x _ _ HI j Hj); pose proof (i_g _ _ HI j Hj); pose proof (i_i _ _ HI j Hj); repeat (rewrite Rdiv_res_ok by lra; cbn [bind]); reflexivity.
    { left. apply Rinv_0_lt_compat. lra. }
    { intros j Hj. destruct (K1 j Hj) as (A1 & A2 & A3 & A4). pose proof (i_x _ _ HI j Hj); pose proof (i_g _ _ HI j Hj); pose proof (i_i _ _ HI j Hj).
      repeat apply Rmax_lub; [apply safe_div; lra| |apply safe_div; lra|apply safe_div; lra].
      replace (101/100 * ent (w_x d) j) with (- (101/100) * (- ent (w_x d) j)) by ring. apply safe_div; lra. }
    rewrite Ex. cbn [bind].
    match goal with |- context [maxM (p_m P) ?f1] => destruct (maxM_ok (p_m P) f1 (fun j => Rmax (- (101/100) * ent (w_y d) j / (ent (w_y w) j))
      (Rmax (- (101/100) * ent (w_lambda d) j / ent (w_lambda w) j) (Rmax (- (101/100) * ent (w_mu d) j / ent (w_mu w) j) (- (101/100) * ent (w_s d) j / ent (w_s w) j))))) as (ty & Ey & _ & _);
      [|assert (By : ty <= / u); [refine (maxM_le _ _ _ _ _ _ Ey _ _)|]] end.
    1,2: intros j Hj; rewrite (rd_ent (w_y d) (p_m P)), (rd_ent (w_y w) (p_m P)), (rd_ent (w_lambda d) (p_m P)), (rd_ent (w_lambda w) (p_m P)), (rd_ent (w_mu d) (p_m P)), (rd_ent (w_mu w) (p_m P)), (rd_ent (w_s d) (p_m P)), (rd_ent (w_s w) (p_m P)) by first [lia|apply HW|apply HS];
      cbn [bind]; pose proof (i_y _ _ HI j Hj); pose proof (i_l _ _ HI j Hj); pose proof (i_m _ _ HI j Hj); pose proof (i_s _ _ HI j Hj); repeat (rewrite Rdiv_res_ok by lra; cbn [bind]); reflexivity.
    { left. apply Rinv_0_lt_compat. lra. }
    { intros i Hi. destruct (K2 i Hi) as (A1 & A2 & A3 & A4). pose proof (i_y _ _ HI i Hi); pose proof (i_l _ _ HI i Hi); pose proof (i_m _ _ HI i Hi); pose proof (i_s _ _ HI i Hi).
      repeat apply Rmax_lub; apply safe_div; lra. }
    rewrite Ey. cbn [bind]. rewrite Rdiv_res_ok by lra. cbn [bind]. rewrite Rdiv_res_ok by lra. cbn [bind].
    set (M := Rmax 1 _). assert (HM : 1 <= M) by apply Rmax_l. rewrite Rdiv_res_ok by lra. intros E. injection E as <-.
    assert (MB : M <= / u).
    { unfold M. repeat apply Rmax_lub; auto; try (apply safe_div; lra). rewrite <- Rinv_1 at 1. apply Rinv_le_contravar; lra. }
    apply (Rmult_le_reg_r M); [lra|]. replace (1 / M * M) with 1 by (field; lra). apply (Rmult_le_compat_l u) in MB; [|lra]. rewrite Rinv_r in MB; lra.
Qed.

Lemma search_spec w d eps : inside P w -> shaped P d -> forall k tau last, step_safe P w d tau ->
  exists j, (j < S k)%nat /\ line_search P w d eps (sqrt (kkt_square P h w eps)) (S k) tau last = Ok (along P w d (tau / 2 ^ j)) /\
    (forall i, (i < j)%nat -> kkt_square P h w eps <= kkt_square P h (along P w d (tau / 2 ^ i)) eps) /\
    (kkt_square P h (along P w d (tau / 2 ^ j)) eps < kkt_square P h w eps \/
     j = k /\ kkt_square P h w eps <= kkt_square P h (along P w d (tau / 2 ^ j)) eps) /\ inside P (along P w d (tau / 2 ^ j)).
Proof.
  intros HI HS. pose proof (i_sh _ _ HI) as HW. set (n0 := sqrt (kkt_square P h w eps)).
  assert (V : forall tau, step_safe P w d tau -> inside P (along P w d tau)).
  { intros tau Ht. destruct (advance_ok P w d tau HI HS Ht) as (w' & E & HI'). rewrite advance_along in E by auto. now injection E as <-. }
  assert (U : forall k0 tau last, step_safe P w d tau -> line_search P w d eps n0 (S k0) tau last =
      if Rltb (sqrt (kkt_square P h (along P w d tau) eps)) n0 then Ok (along P w d tau) else line_search P w d eps n0 k0 (tau * (5/10)) (along P w d tau)).
  { intros k0 tau last Ht. cbn [line_search]. rewrite advance_along by auto. cbn [bind]. rewrite (kkt_ok P h K) by auto. reflexivity. }
  induction k as [|k IH]; intros tau last Ht; pose proof (V tau Ht) as HI'; assert (T0 : tau / 2 ^ 0 = tau) by (cbn; field).
  all: rewrite U by auto; unfold n0; destruct (Rltb _ _) eqn:Q.
  1,3: exists 0%nat; rewrite T0; apply Rltb_true in Q; apply sqrt_down in Q; splits; auto; intros; lia.
  - apply Rltb_false in Q. exists 0%nat. rewrite T0. cbn [line_search]. splits; auto; [intros; lia|]. right. split; auto.
    apply Rnot_lt_le. intros C. apply sqrt_up in C; auto using kkt_square_nn. lra.
  - destruct (IH (tau * (5/10)) (along P w d tau)) as (j & J1 & J2 & J3 & J4 & J5). { apply step_safe_half; auto. }
    assert (TT : forall i, tau * (5/10) / 2 ^ i = tau / 2 ^ S i). { intros i. cbn [pow]. field. apply pow_nonzero. lra. }
    rewrite TT in J2, J4, J5. exists (S j). splits; auto.
    + lia.
    + intros [|i] Hi; [|rewrite <- TT; apply J3; lia]. rewrite T0. apply Rltb_false in Q. apply Rnot_lt_le. intros C. apply sqrt_up in C; auto using kkt_square_nn. lra.
    + destruct J4 as [J4|(-> & J4)]; auto.
Qed.

Lemma pass_spec w eps : inside P w -> exists d tau k, direction P w eps = Ok d /\ largest_step P w d tau /\ inner_pass P w eps = Ok (along P w d (tau / 2 ^ k)) /\
  inside P (along P w d (tau / 2 ^ k)) /\ first_decrease P h w d eps tau k.
Proof.
  intros HI. destruct (direction_ok P h K w eps HI) as (d & Ed & Hd). pose proof (n_sh _ _ _ _ _ _ Hd) as HS.
  destruct (step_full w d HI HS) as (tau & Et & H1 & H2 & H3 & H4). exists d, tau.
  destruct (search_spec w d eps HI HS 49 tau w H3) as (k & J1 & J2 & J3 & J4 & J5). exists k. splits; auto.
  - unfold largest_step. splits; try apply H1; auto.
  - unfold inner_pass. rewrite Ed. cbn [bind]. rewrite Et. cbn [bind]. rewrite (kkt_ok P h K) by auto. cbn [bind]. exact J2.
  - unfold first_decrease. splits; auto.
Qed.
End Step.

(** ** the Newton direction decreases the residual *)
Lemma der_bigsum k (f : nat -> R -> R) (f' : nat -> R) : (forall i, (i < k)%nat -> derivable_pt_lim (f i) 0 (f' i)) ->
  derivable_pt_lim (fun e => bigsum k (fun i => f i e)) 0 (bigsum k f').
Proof.
  induction k as [|k IH]; intros H; cbn [bigsum]; [apply derivable_pt_lim_const|].
  apply (derivable_pt_lim_plus (fun e => bigsum k (fun i => f i e)) (f k)); [apply IH; auto|]. apply H. lia.
Qed.
Lemma along_0 P w d : shaped P w -> along P w d 0 = w.
Proof.
  intros HS. unfold along.
  assert (Q : forall k l (f : nat -> R), length l = k -> map (fun i => ent l i + 0 * f i) (seq 0 k) = l).
  { intros k l f H. apply (nth_ext _ _ 0 0); [now rewrite map_length, seq_length|]. intros i Hi. rewrite map_length, seq_length in Hi.
    rewrite (nth_indep _ _ (ent l 0 + 0 * f 0%nat)) by (rewrite map_length, seq_length; lia). rewrite (map_nth (fun i => ent l i + 0 * f i) (seq 0 k) 0%nat i), seq_nth by lia. unfold ent. cbn. ring. }
  destruct HS. rewrite !Q by auto. rewrite !Rmult_0_l, !Rplus_0_r. now destruct w.
Qed.
Lemma newton_square P r w d : along P w d 0 = w -> newton_step P r w d -> derivable_pt_lim (fun t => r (along P w d t) ^ 2) 0 (- 2 * r w ^ 2).
Proof.
  unfold newton_step. intros Z H. replace (- 2 * r w ^ 2) with (- r w * r (along P w d 0) + r (along P w d 0) * - r w) by (rewrite Z; ring).
  apply (derivable_pt_lim_ext (fun t => r (along P w d t) * r (along P w d t))); [intros; ring|].
  apply (derivable_pt_lim_mult (fun t => r (along P w d t)) (fun t => r (along P w d t))); auto.
Qed.
Lemma newton_norm P h w eps d : inside P w -> newton_direction P h w eps d ->
  derivable_pt_lim (fun t => kkt_square P h (along P w d t) eps) 0 (- 2 * kkt_square P h w eps).
Proof.
  intros HI (_ & N1 & N2 & N3 & N4). pose proof (along_0 P w d (i_sh _ _ HI)) as Z. unfold kkt_square.
  assert (E : forall A B C D, - 2 * (A + B + C + D) = - 2 * A + - 2 * B + - 2 * C + - 2 * D) by (intros; ring). rewrite E. rewrite <- !bigsum_scal.
  apply (derivable_pt_lim_plus (fun t => _ + _ + _) (fun t => _)); [apply (derivable_pt_lim_plus (fun t => _ + _) (fun t => _)); [apply (derivable_pt_lim_plus (fun t => bigsum _ _) (fun t => _))|]|].
  - apply (der_bigsum (p_n P) (fun j t => _)). intros j Hj. destruct (N1 j Hj) as (A1 & A2 & A3). rewrite !Rmult_plus_distr_l.
    apply (derivable_pt_lim_plus (fun t => _ + _) (fun t => _)); [apply (derivable_pt_lim_plus (fun t => _) (fun t => _))|].
    + exact (newton_square P _ w d Z A1). + exact (newton_square P _ w d Z A2). + exact (newton_square P _ w d Z A3).
  - apply (der_bigsum (p_m P) (fun j t => _)). intros j Hj. destruct (N2 j Hj) as (A1 & A2 & A3 & A4). rewrite !Rmult_plus_distr_l.
    apply (derivable_pt_lim_plus (fun t => _ + _) (fun t => _)); [apply (derivable_pt_lim_plus (fun t => _ + _) (fun t => _)); [apply (derivable_pt_lim_plus (fun t => _) (fun t => _))|]|].
    + exact (newton_square P _ w d Z A1). + exact (newton_square P _ w d Z A2). + exact (newton_square P _ w d Z A3). + exact (newton_square P _ w d Z A4).
  - exact (newton_square P _ w d Z N3).
  - exact (newton_square P _ w d Z N4).
Qed.
Lemma descent f l : derivable_pt_lim f 0 l -> l < 0 -> exists t0, 0 < t0 /\ forall t, 0 < t < t0 -> f t < f 0.
Proof.
  intros H Hl. destruct (H (- l / 2)) as (delta & HD); [lra|]. exists delta. split; [apply cond_pos|]. intros t Ht.
  specialize (HD t ltac:(lra) ltac:(rewrite Rabs_right; lra)). apply Rabs_def2 in HD. rewrite Rplus_0_l in HD.
  assert (A : (f t - f 0) / t < 0) by lra. apply (Rmult_lt_compat_r t) in A; [|lra]. replace ((f t - f 0) / t * t) with (f t - f 0) in A by (field; lra). lra.
Qed.


Lemma C87_mma_line_search_pf : forall s xk dfdx g dgdx L U P w eps, mma_ready s -> args_ok (mm_n s) (mm_m s) (mm_xmin s) (mm_xmax s) xk dfdx g dgdx ->
  mma_problem s xk dfdx g dgdx = Ok (L, U, P) -> inside P w ->
  exists d tau k, direction P w eps = Ok d /\ largest_step P w d tau /\ inner_pass P w eps = Ok (along P w d (tau / 2 ^ k)) /\
    inside P (along P w d (tau / 2 ^ k)) /\ first_decrease P (mma_shape L U) w d eps tau k.
Proof.
  intros s xk dfdx g dgdx L U P w eps HR HA E HI. destruct (mma_problem_ok s xk dfdx g dgdx HR HA) as (L' & U' & P' & E' & SP & PO & _). rewrite E in E'. injection E' as <- <- <-.
  now apply (pass_spec P _ PO w eps).
Qed.

Lemma C87_conlin_line_search_pf : forall s xk dfdx g dgdx P w eps, conlin_ready s -> args_ok (cl_n s) (cl_m s) (cl_xmin s) (cl_xmax s) xk dfdx g dgdx -> (forall j, (j < cl_n s)%nat -> 0 < ent xk j) ->
  conlin_problem s xk dfdx g dgdx = Ok P -> inside P w ->
  exists d tau k, direction P w eps = Ok d /\ largest_step P w d tau /\ inner_pass P w eps = Ok (along P w d (tau / 2 ^ k)) /\
    inside P (along P w d (tau / 2 ^ k)) /\ first_decrease P conlin_shape w d eps tau k.
Proof.
  intros s xk dfdx g dgdx P w eps HR HA HP E HI. destruct (conlin_problem_ok s xk dfdx g dgdx HR HA HP) as (P' & E' & SP & PO & _). rewrite E in E'. injection E' as <-.
  now apply (pass_spec P _ PO w eps).
Qed.

Lemma C87_newton_descent_pf : forall P h w eps d, inside P w -> newton_direction P h w eps d ->
  derivable_pt_lim (fun t => kkt_square P h (along P w d t) eps) 0 (- 2 * kkt_square P h w eps) /\
  (0 < kkt_square P h w eps -> exists t0, 0 < t0 /\ forall t, 0 < t < t0 -> kkt_square P h (along P w d t) eps < kkt_square P h w eps).
Proof.
  intros P h w eps d HI HN. pose proof (newton_norm P h w eps d HI HN) as D. split; auto. intros HP.
  destruct (descent _ _ D ltac:(lra)) as (t0 & T0 & T). exists t0. split; auto. intros t Ht. specialize (T t Ht). cbv beta in T. now rewrite (along_0 P w d (i_sh _ _ HI)) in T.
Qed.
