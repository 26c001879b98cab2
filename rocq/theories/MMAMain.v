(** Properties C48, C49 and C71-C75: the MMA and CONLIN solvers: the proofs. *)
From Coq Require Import List Arith Lia Bool Reals Lra.
From Verif Require Import Res SumR DenseR LUModel KrylovModel SolvelsModel OCModel MMAModel MMASpec.
Import ListNotations.
Local Open Scope R_scope.
From Coquelicot Require Import Coquelicot.
From Verif Require Import LUProof SolvelsProof OCMain MMAProof FilterMain.

Lemma nz_pow x k : x <> 0 -> x ^ k <> 0.
Proof. intros H. now apply pow_nonzero. Qed.
Lemma der_p u x : u - x <> 0 -> derivable_pt_lim (fun x => / (u - x)) x (/ (u - x) ^ 2).
Proof. intros H. apply is_derive_Reals. auto_derive; auto. field. auto. Qed.
Lemma der_p2 u x : u - x <> 0 -> derivable_pt_lim (fun x => / (u - x) ^ 2) x (2 * / (u - x) ^ 3).
Proof. intros H. apply is_derive_Reals. auto_derive; [exact (nz_pow _ 2 H)|]. field. auto. Qed.
Lemma der_q u x : x - u <> 0 -> derivable_pt_lim (fun x => / (x - u)) x (- / (x - u) ^ 2).
Proof. intros H. apply is_derive_Reals. auto_derive; auto. field. auto. Qed.
Lemma der_q2 u x : x - u <> 0 -> derivable_pt_lim (fun x => - / (x - u) ^ 2) x (2 * / (x - u) ^ 3).
Proof. intros H. apply is_derive_Reals. auto_derive; [exact (nz_pow _ 2 H)|]. field. auto. Qed.
Lemma der_i x : x <> 0 -> derivable_pt_lim (fun x => / x) x (- / x ^ 2).
Proof. intros H. apply is_derive_Reals. auto_derive; auto. field. auto. Qed.
Lemma der_i2 x : x <> 0 -> derivable_pt_lim (fun x => - / x ^ 2) x (2 * / x ^ 3).
Proof. intros H. apply is_derive_Reals. auto_derive; [exact (nz_pow _ 2 H)|]. field. auto. Qed.

Lemma mma_sep_ok n L U lo hi : length L = n -> length U = n ->
  (forall j, (j < n)%nat -> ent L j <= lo j /\ hi j <= ent U j) -> sep_ok (mma_sep L U) n lo hi (mma_shape L U).
Proof.
  intros HL HU HB j x Hj Hx. specialize (HB j Hj). unfold ent in HB.
  assert (Pu : 0 < nth j U 0 - x) by lra. assert (Pl : 0 < x - nth j L 0) by lra.
  assert (Pu2 : 0 < (nth j U 0 - x) ^ 2) by now apply pow_lt. assert (Pl2 : 0 < (x - nth j L 0) ^ 2) by now apply pow_lt.
  assert (Pu3 : 0 < (nth j U 0 - x) ^ 3) by now apply pow_lt. assert (Pl3 : 0 < (x - nth j L 0) ^ 3) by now apply pow_lt.
  cbn [mma_shape tp tq tp1 tq1 tp2 tq2]. split; [intros p q; cbn [mma_sep s_term s_grad s_curv]|].
  - rewrite (rd_nth U j 0), (rd_nth L j 0) by lia. cbn [bind]. splits; rewrite Rdiv_res_ok by lra; cbn [bind]; rewrite Rdiv_res_ok by lra; cbn [bind]; f_equal; unfold Rdiv; ring.
  - splits.
    + apply der_p. lra. + apply der_q. lra. + apply der_p2. lra. + apply der_q2. lra.
    + apply Rmult_le_pos; [lra|left; now apply Rinv_0_lt_compat]. + apply Rmult_le_pos; [lra|left; now apply Rinv_0_lt_compat].
Qed.
Lemma conlin_sep_ok n lo hi : (forall j, (j < n)%nat -> 0 <= lo j) -> sep_ok conlin_sep n lo hi conlin_shape.
Proof.
  intros HB j x Hj Hx. specialize (HB j Hj). assert (P1 : 0 < x) by lra. assert (P2 : 0 < x ^ 2) by now apply pow_lt. assert (P3 : 0 < x ^ 3) by now apply pow_lt.
  cbn [conlin_shape tp tq tp1 tq1 tp2 tq2]. split; [intros p q; cbn [conlin_sep s_term s_grad s_curv]|].
  - splits; rewrite Rdiv_res_ok by lra; cbn [bind]; f_equal; unfold Rdiv; ring.
  - splits.
    + apply derivable_pt_lim_id. + apply der_i. lra. + apply (derivable_pt_lim_const 1). + apply der_i2. lra. + lra.
    + apply Rmult_le_pos; [lra|left; now apply Rinv_0_lt_compat].
Qed.

(** ** the MMA subproblem *)
Lemma asymptote_ok s xk j : mma_ready s -> length xk = mm_n s -> (j < mm_n s)%nat ->
  exists l u, mma_asymptote s xk j = Ok (l, u) /\
    let w := ent (mm_xmax s) j - ent (mm_xmin s) j in
    ent xk j - 10 * w <= l <= ent xk j - 1/100 * w /\ ent xk j + 1/100 * w <= u <= ent xk j + 10 * w.
Proof.
  intros HR Hx Hj. unfold mma_asymptote. pose proof (m_box _ HR j Hj) as HB. unfold ent in *.
  rewrite (rd_nth xk j 0), (rd_nth (mm_xmin s) j 0), (rd_nth (mm_xmax s) j 0) by (rewrite ?(m_lo _ HR), ?(m_hi _ HR); lia). cbn [bind].
  set (x := nth j xk 0). set (lo := nth j (mm_xmin s) 0) in *. set (hi := nth j (mm_xmax s) 0) in *.
  match goal with |- exists l u, (bind ?e _) = _ /\ _ => assert (E : exists lu, e = Ok lu) end.
  { destruct (mm_k s <? 2)%nat; [eauto|].
    rewrite (rd_nth (mm_xkm1 s) j 0), (rd_nth (mm_xkm2 s) j 0), (rd_nth (mm_L s) j 0), (rd_nth (mm_U s) j 0) by (rewrite ?(m_1 _ HR), ?(m_2 _ HR), ?(m_L _ HR), ?(m_U _ HR); lia). cbn [bind].
    destruct (Rltb _ _); [eauto|]. destruct (Rltb _ _); eauto. }
  destruct E as ((l & u) & ->). cbn [bind]. eexists; eexists; split; [reflexivity|]. cbv zeta.
  split; split.
  - apply Rmin_glb; [apply Rmax_l|lra].
  - apply Rmin_r.
  - apply Rmin_glb; [apply Rmax_l|lra].
  - apply Rmin_r.
Qed.

Lemma mapM_pairs {A B} (f : nat -> res (A * B)) da db : forall n s, (forall j, (s <= j < s + n)%nat -> exists p, f j = Ok p) ->
  exists l, mapM f (seq s n) = Ok l /\ length l = n /\ forall j, (j < n)%nat -> f (s + j)%nat = Ok (nth j (map fst l) da, nth j (map snd l) db).
Proof.
  induction n as [|n IH]; intros s H; [exists []; splits; auto; intros; lia|]. cbn [seq mapM]. destruct (H s) as ((x & y) & E); [lia|]. rewrite E. cbn [bind].
  destruct (IH (S s)) as (l & -> & Hl & HH); [intros; apply H; lia|]. cbn [bind]. exists ((x, y) :: l). splits; auto; [cbn; lia|].
  intros [|j] Hj; cbn [nth map fst snd]; [now rewrite Nat.add_0_r|]. rewrite <- Nat.add_succ_comm. apply HH. lia.
Qed.

Lemma rde l n i : length l = n -> (i < n)%nat -> rd l i = Ok (ent l i).
Proof. intros H Hi. apply rd_nth. lia. Qed.
Lemma rde2 A n m i j : length A = n -> (forall i, (i < n)%nat -> length (nth i A []) = m) -> (i < n)%nat -> (j < m)%nat -> rd2 A i j = Ok (ent2 A i j).
Proof. intros H HH Hi Hj. unfold rd2. rewrite (rd_nth A i []) by lia. cbn [bind]. apply rd_nth. rewrite HH; auto. Qed.

Lemma coef_pos k u p t : 0 <= p -> 0 <= k -> 0 <= t -> 0 <= u ^ 2 * (1001/1000 * Rmax p 0 + k * Rmax (- p) 0 + t).
Proof. intros. pose proof (Rmax_r p 0). pose proof (Rmax_r (- p) 0). apply Rmult_le_pos; [apply pow2_ge_0|]. assert (0 <= k * Rmax (- p) 0) by (apply Rmult_le_pos; auto). lra. Qed.

Lemma mma_problem_ok s xk dfdx g dgdx : mma_ready s -> args_ok (mm_n s) (mm_m s) (mm_xmin s) (mm_xmax s) xk dfdx g dgdx ->
  exists L U P, mma_problem s xk dfdx g dgdx = Ok (L, U, P) /\ mma_subproblem s xk dfdx g dgdx L U P /\ prob_ok P (mma_shape L U) /\ p_sep P = mma_sep L U.
Proof.
  intros HR HA. destruct HR as [Hlo Hhi H1 H2 HL HU Ha Hc Hd Hbox Hdn Hraa Halb Hmov] eqn:ER. clear ER. destruct HA as [Gx Gf Gg GG Gr Gin].
  unfold mma_problem.
  destruct (mapM_pairs (mma_asymptote s xk) 0 0 (mm_n s) 0) as (lu & E & Hlu & HE).
  { intros j Hj. destruct (asymptote_ok s xk j) as (l & u & EE & _); [now constructor|auto|lia|]. eauto. }
  rewrite E. cbn [bind]. set (L := map fst lu) in *. set (U := map snd lu) in *.
  assert (LL : length L = mm_n s) by (unfold L; now rewrite map_length). assert (LU' : length U = mm_n s) by (unfold U; now rewrite map_length).
  assert (HB : forall j, (j < mm_n s)%nat -> let w := ent (mm_xmax s) j - ent (mm_xmin s) j in
    ent xk j - 10 * w <= ent L j <= ent xk j - 1/100 * w /\ ent xk j + 1/100 * w <= ent U j <= ent xk j + 10 * w).
  { intros j Hj. destruct (asymptote_ok s xk j) as (l & u & EE & Hlu'); [now constructor|auto|lia|]. rewrite (HE j Hj : mma_asymptote s xk j = _) in EE. injection EE as <- <-. exact Hlu'. }
  clear E HE Hlu. clearbody L U. clear lu.
  Local Ltac rr := repeat (first [ match goal with |- context [rd2 ?A ?i ?j] => erewrite (rde2 A _ _ i j) by eauto end | match goal with |- context [rd ?l ?i] => erewrite (rde l _ i) by eauto end]; cbn [bind]).
  match goal with |- context [tab ?n1 ?f1] => edestruct (tab_ok n1 f1) as (alpha & -> & Hal) end. { intros j Hj. rr. reflexivity. } cbn [bind].
  match goal with |- context [tab ?n1 ?f1] => edestruct (tab_ok n1 f1) as (beta & -> & Hbe) end. { intros j Hj. rr. reflexivity. } cbn [bind].
  match goal with |- context [tab ?n1 ?f1] => edestruct (tab_ok n1 f1) as (p0 & -> & Hp0) end.
  { intros j Hj. unfold mma_p. rr. rewrite Rdiv_res_ok by (pose proof (Hbox j Hj); lra). cbn [bind]. reflexivity. } cbn [bind].
  match goal with |- context [tab ?n1 ?f1] => edestruct (tab_ok n1 f1) as (q0 & -> & Hq0) end.
  { intros j Hj. unfold mma_q. rr. rewrite Rdiv_res_ok by (pose proof (Hbox j Hj); lra). cbn [bind]. reflexivity. } cbn [bind].
  match goal with |- context [tab2 ?m1 ?n1 ?f1] => edestruct (tab2_ok m1 n1 f1) as (p & -> & Hp) end.
  { intros i j Hi Hj. unfold mma_p. rr. rewrite Rdiv_res_ok by (pose proof (Hbox j Hj); lra). cbn [bind]. reflexivity. } cbn [bind].
  match goal with |- context [tab2 ?m1 ?n1 ?f1] => edestruct (tab2_ok m1 n1 f1) as (q & -> & Hq) end.
  { intros i j Hi Hj. unfold mma_q. rr. rewrite Rdiv_res_ok by (pose proof (Hbox j Hj); lra). cbn [bind]. reflexivity. } cbn [bind].
  assert (PE : forall i j, (i < mm_m s)%nat -> (j < mm_n s)%nat -> rd2 p i j = Ok (ent2 p i j)) by (intros i j Hi Hj; apply (rde2 p (mm_m s) (mm_n s)); auto; [apply Hp|intros k Hk; apply (proj2 Hp k Hk)]).
  assert (QE : forall i j, (i < mm_m s)%nat -> (j < mm_n s)%nat -> rd2 q i j = Ok (ent2 q i j)) by (intros i j Hi Hj; apply (rde2 q (mm_m s) (mm_n s)); auto; [apply Hq|intros k Hk; apply (proj2 Hq k Hk)]).
  match goal with |- context [tab ?n1 ?f1] => destruct (tab_ok n1 f1 (fun i => - ent g i + bigsum (mm_n s) (fun j => ent2 p i j / (ent U j - ent xk j) + ent2 q i j / (ent xk j - ent L j)))) as (b & -> & Hb) end.
  { intros i Hi. rr. erewrite addM_ok; [reflexivity|]. intros j Hj. cbv beta. rewrite PE, QE by auto. cbn [bind]. rr. cbn [mma_sep s_term]. rr.
    pose proof (HB j Hj) as B. pose proof (Hbox j Hj). cbv zeta in B. rewrite Rdiv_res_ok by lra. cbn [bind]. rewrite Rdiv_res_ok by lra. cbn [bind]. reflexivity. }
  cbn [bind]. eexists; eexists; eexists; split; [reflexivity|].
  assert (SPEC : mma_subproblem s xk dfdx g dgdx L U (mkProb (mm_n s) (mm_m s) (mm_a0 s) (mm_a s) (mm_c s) (mm_d s) p0 q0 p q alpha beta b (mma_sep L U))).
  { unfold mma_subproblem. cbn. splits; auto.
    - intros j Hj. splits; try apply (HB j Hj); [now apply Hal|now apply Hbe|now apply Hp0|now apply Hq0].
    - intros i j Hi Hj. split; [now apply (proj2 Hp i Hi)|now apply (proj2 Hq i Hi)].
    - intros i Hi. now apply Hb. }
  split; [exact SPEC|]. split; [|reflexivity].
  destruct SPEC as (_ & _ & _ & _ & _ & _ & _ & _ & S1 & S2 & _). cbn [p_n p_m p_a0 p_a p_c p_d p_b p_p0 p_q0 p_alpha p_beta p_p p_q p_sep] in S1, S2.
  assert (RW : forall j, (j < mm_n s)%nat -> 0 <= mm_raa0 s / (ent (mm_xmax s) j - ent (mm_xmin s) j)).
  { intros j Hj. pose proof (Hbox j Hj). apply Rmult_le_pos; auto. left; apply Rinv_0_lt_compat. lra. }
  assert (CP : forall u c1 c2 f t, 0 <= c1 -> 0 <= c2 -> 0 <= t -> 0 <= u ^ 2 * (c1 * Rmax f 0 + c2 * Rmax (- f) 0 + t)).
  { intros u c1 c2 f t Hc1 Hc2 Ht. apply Rmult_le_pos; [apply pow2_ge_0|]. pose proof (Rmult_le_pos _ _ Hc1 (Rmax_r f 0)). pose proof (Rmult_le_pos _ _ Hc2 (Rmax_r (- f) 0)). lra. }
  constructor; cbn [p_n p_m p_a0 p_a p_c p_d p_b p_p0 p_q0 p_alpha p_beta p_p p_q p_sep]; auto.
  - apply Hb. - apply Hp0. - apply Hq0. - apply Hal. - apply Hbe.
  - split; [apply Hp|]. intros i Hi. split; [apply (proj2 Hp i Hi)|reflexivity].
  - split; [apply Hq|]. intros i Hi. split; [apply (proj2 Hq i Hi)|reflexivity].
  - intros j Hj. destruct (S1 j Hj) as (_ & _ & _ & _ & -> & _). apply CP; auto; lra.
  - intros j Hj. destruct (S1 j Hj) as (_ & _ & _ & _ & _ & ->). apply CP; auto; lra.
  - intros i j Hi Hj. rewrite (proj1 (S2 i j Hi Hj)). apply CP; auto; lra.
  - intros i j Hi Hj. rewrite (proj2 (S2 i j Hi Hj)). apply CP; auto; lra.
  - intros j Hj. destruct (S1 j Hj) as (B1 & B2 & -> & -> & _). pose proof (Hbox j Hj). pose proof (Gin j Hj).
    assert (0 < mm_move s * (ent (mm_xmax s) j - ent (mm_xmin s) j)) by (apply Rmult_lt_0_compat; lra).
    assert (ent L j + mm_albefa s * (ent xk j - ent L j) < ent xk j) by nra. assert (ent xk j < ent U j - mm_albefa s * (ent U j - ent xk j)) by nra.
    apply Rmax_lub_lt; [|apply Rmax_lub_lt]; apply Rmin_glb_lt; try apply Rmin_glb_lt; lra.
  - apply mma_sep_ok; auto. intros j Hj. destruct (S1 j Hj) as (B1 & B2 & -> & -> & _). pose proof (Hbox j Hj). split.
    + eapply Rle_trans; [|apply Rmax_r]. eapply Rle_trans; [|apply Rmax_l]. nra.
    + eapply Rle_trans; [apply Rmin_r|]. eapply Rle_trans; [apply Rmin_l|]. nra.
Qed.

Lemma conlin_problem_ok s xk dfdx g dgdx : conlin_ready s -> args_ok (cl_n s) (cl_m s) (cl_xmin s) (cl_xmax s) xk dfdx g dgdx ->
  (forall j, (j < cl_n s)%nat -> 0 < ent xk j) ->
  exists P, conlin_problem s xk dfdx g dgdx = Ok P /\ conlin_subproblem s xk dfdx g dgdx P /\ prob_ok P conlin_shape /\ p_sep P = conlin_sep.
Proof.
  intros [Hlo Hhi Ha Hc Hd Hbox Hdn Hmov] [Gx Gf Gg GG Gr Gin] Hpos. unfold conlin_problem.
  match goal with |- context [tab ?n1 ?f1] => edestruct (tab_ok n1 f1) as (alpha & -> & Hal) end. { intros j Hj. rr. reflexivity. } cbn [bind].
  match goal with |- context [tab ?n1 ?f1] => edestruct (tab_ok n1 f1) as (beta & -> & Hbe) end. { intros j Hj. rr. reflexivity. } cbn [bind].
  match goal with |- context [tab ?n1 ?f1] => edestruct (tab_ok n1 f1) as (p0 & -> & Hp0) end. { intros j Hj. rr. reflexivity. } cbn [bind].
  match goal with |- context [tab ?n1 ?f1] => edestruct (tab_ok n1 f1) as (q0 & -> & Hq0) end. { intros j Hj. rr. reflexivity. } cbn [bind].
  match goal with |- context [tab2 ?m1 ?n1 ?f1] => edestruct (tab2_ok m1 n1 f1) as (p & -> & Hp) end. { intros i j Hi Hj. rr. reflexivity. } cbn [bind].
  match goal with |- context [tab2 ?m1 ?n1 ?f1] => edestruct (tab2_ok m1 n1 f1) as (q & -> & Hq) end. { intros i j Hi Hj. rr. reflexivity. } cbn [bind].
  assert (PE : forall i j, (i < cl_m s)%nat -> (j < cl_n s)%nat -> rd2 p i j = Ok (ent2 p i j)) by (intros i j Hi Hj; apply (rde2 p (cl_m s) (cl_n s)); auto; [apply Hp|intros k Hk; apply (proj2 Hp k Hk)]).
  assert (QE : forall i j, (i < cl_m s)%nat -> (j < cl_n s)%nat -> rd2 q i j = Ok (ent2 q i j)) by (intros i j Hi Hj; apply (rde2 q (cl_m s) (cl_n s)); auto; [apply Hq|intros k Hk; apply (proj2 Hq k Hk)]).
  match goal with |- context [tab ?n1 ?f1] => destruct (tab_ok n1 f1 (fun i => - ent g i + bigsum (cl_n s) (fun j => ent2 p i j * ent xk j + ent2 q i j / ent xk j))) as (b & -> & Hb) end.
  { intros i Hi. rr. erewrite addM_ok; [reflexivity|]. intros j Hj. cbv beta. rewrite PE, QE by auto. cbn [bind]. rr. cbn [conlin_sep s_term].
    pose proof (Hpos j Hj). rewrite Rdiv_res_ok by lra. cbn [bind]. reflexivity. }
  cbn [bind]. eexists; split; [reflexivity|].
  assert (SPEC : conlin_subproblem s xk dfdx g dgdx (mkProb (cl_n s) (cl_m s) (cl_a0 s) (cl_a s) (cl_c s) (cl_d s) p0 q0 p q alpha beta b conlin_sep)).
  { unfold conlin_subproblem. cbn. splits; auto.
    - intros j Hj. splits; [now apply Hal|now apply Hbe|now apply Hp0|now apply Hq0].
    - intros i j Hi Hj. split; [now apply (proj2 Hp i Hi)|now apply (proj2 Hq i Hi)].
    - intros i Hi. now apply Hb. }
  split; [exact SPEC|]. split; [|reflexivity]. destruct SPEC as (_ & _ & _ & _ & _ & _ & S1 & S2 & _).
  cbn [p_n p_m p_a0 p_a p_c p_d p_b p_p0 p_q0 p_alpha p_beta p_p p_q p_sep] in S1, S2.
  constructor; cbn [p_n p_m p_a0 p_a p_c p_d p_b p_p0 p_q0 p_alpha p_beta p_p p_q p_sep]; auto.
  - apply Hb. - apply Hp0. - apply Hq0. - apply Hal. - apply Hbe.
  - split; [apply Hp|]. intros i Hi. split; [apply (proj2 Hp i Hi)|reflexivity].
  - split; [apply Hq|]. intros i Hi. split; [apply (proj2 Hq i Hi)|reflexivity].
  - intros j Hj. destruct (S1 j Hj) as (_ & _ & -> & _). apply Rmax_r.
  - intros j Hj. destruct (S1 j Hj) as (_ & _ & _ & ->). apply Rmult_le_pos; [apply Rmax_r|apply pow2_ge_0].
  - intros i j Hi Hj. rewrite (proj1 (S2 i j Hi Hj)). apply Rmax_r.
  - intros i j Hi Hj. rewrite (proj2 (S2 i j Hi Hj)). apply Rmult_le_pos; [apply Rmax_r|apply pow2_ge_0].
  - intros j Hj. destruct (S1 j Hj) as (-> & -> & _). pose proof (Hbox j Hj). pose proof (Gin j Hj).
    assert (0 < cl_move s * (ent (cl_xmax s) j - ent (cl_xmin s) j)) by (apply Rmult_lt_0_compat; lra).
    apply Rmax_lub_lt; apply Rmin_glb_lt; lra.
  - apply conlin_sep_ok. intros j Hj. destruct (S1 j Hj) as (-> & _). pose proof (Hbox j Hj). eapply Rle_trans; [|apply Rmax_l]. lra.
Qed.

(** ** consequences of a small norm *)
Lemma sqrt_lt_sq u x r : 0 <= r -> x ^ 2 <= u -> sqrt u < r -> Rabs x < r.
Proof. intros Hr Hx Hs. eapply Rle_lt_trans; [|exact Hs]. rewrite <- sqrt_Rsqr_abs. apply sqrt_le_1_alt. unfold Rsqr. cbn in Hx. lra. Qed.
Lemma bigsum_term n f k : (forall i, (i < n)%nat -> 0 <= f i) -> (k < n)%nat -> f k <= bigsum n f.
Proof.
  induction n as [|n IH]; intros H Hk; [lia|]. cbn [bigsum]. assert (H1 : 0 <= bigsum n f) by (apply bigsum_nonneg; intros; apply H; lia).
  destruct (Nat.eq_dec k n) as [->|]; [lra|]. assert (f k <= bigsum n f) by (apply IH; [intros; apply H; lia|lia]). assert (0 <= f n) by (apply H; lia). lra.
Qed.
Lemma norm_within P h w eps r : 0 <= r -> sqrt (norm2 P h w eps) < r -> kkt_within P h w eps r.
Proof.
  intros Hr H. unfold norm2 in H.
  set (S1 := bigsum (p_n P) _) in H. set (S2 := bigsum (p_m P) _) in H.
  assert (Q : forall u : R, 0 <= u ^ 2) by (intros; apply pow2_ge_0).
  assert (P1 : 0 <= S1) by (apply bigsum_nonneg; intros; repeat apply Rplus_le_le_0_compat; apply Q).
  assert (P2 : 0 <= S2) by (apply bigsum_nonneg; intros; repeat apply Rplus_le_le_0_compat; apply Q).
  assert (N1 : forall j, (j < p_n P)%nat -> res_x P h w j ^ 2 + res_lo P w eps j ^ 2 + res_hi P w eps j ^ 2 <= S1).
  { intros j Hj. apply (bigsum_term (p_n P) (fun j => res_x P h w j ^ 2 + res_lo P w eps j ^ 2 + res_hi P w eps j ^ 2)); auto. intros; repeat apply Rplus_le_le_0_compat; apply Q. }
  assert (N2 : forall i, (i < p_m P)%nat -> res_y P w i ^ 2 + res_con P h w i ^ 2 + res_mu w eps i ^ 2 + res_s w eps i ^ 2 <= S2).
  { intros i Hi. apply (bigsum_term (p_m P) (fun i => res_y P w i ^ 2 + res_con P h w i ^ 2 + res_mu w eps i ^ 2 + res_s w eps i ^ 2)); auto. intros; repeat apply Rplus_le_le_0_compat; apply Q. }
  pose proof (Q (res_z P w)). pose proof (Q (res_zeta w eps)).
  unfold kkt_within. splits.
  - intros j Hj. specialize (N1 j Hj). pose proof (Q (res_x P h w j)). pose proof (Q (res_lo P w eps j)). pose proof (Q (res_hi P w eps j)).
    splits; (eapply sqrt_lt_sq; [exact Hr| |exact H]); lra.
  - intros i Hi. specialize (N2 i Hi). pose proof (Q (res_y P w i)). pose proof (Q (res_con P h w i)). pose proof (Q (res_mu w eps i)). pose proof (Q (res_s w eps i)).
    splits; (eapply sqrt_lt_sq; [exact Hr| |exact H]); lra.
  - eapply sqrt_lt_sq; [exact Hr| |exact H]; lra.
  - eapply sqrt_lt_sq; [exact Hr| |exact H]; lra.
Qed.

(** ** runs *)
Lemma mma_update_ok s fuel xk f dfdx g dgdx : mma_ready s -> args_ok (mm_n s) (mm_m s) (mm_xmin s) (mm_xmax s) xk dfdx g dgdx ->
  match mma_update s fuel xk f dfdx g dgdx with
  | Ok (s', x) => exists P w e, mma_subproblem s xk dfdx g dgdx (mm_L s') (mm_U s') P /\ prob_ok P (mma_shape (mm_L s') (mm_U s')) /\ x = w_x w /\ inside P w /\
      1/10000000 < e <= 1/1000000 /\ kkt_within P (mma_shape (mm_L s') (mm_U s')) w e (9/10 * e) /\
      s' = mkMMA (S (mm_k s)) (mm_n s) (mm_m s) f (mm_eps s) (mm_xmin s) (mm_xmax s) (mm_xkm1 s) xk (mm_a0 s) (mm_a s) (mm_c s) (mm_d s)
        (mm_raa0 s) (mm_albefa s) (mm_move s) (mm_asyinit s) (mm_asydecr s) (mm_asyincr s) (mm_L s') (mm_U s')
  | Fail e => e = OutOfFuel end.
Proof.
  intros HR HA. unfold mma_update. destruct (mma_problem_ok s xk dfdx g dgdx HR HA) as (L & U & P & -> & SP & PO & _). cbn [bind].
  pose proof (solve_ok P (mma_shape L U) PO fuel) as H. destruct (start P) as [w0|]; cbn [bind] in *; [|exact H].
  destruct (inner_loop P fuel w0 1) as [w|]; cbn [bind] in *; [|exact H]. destruct H as (HI & e & He & Hn). cbn [mm_L mm_U].
  exists P, w, e. splits; auto; try lra. apply norm_within; auto; lra.
Qed.
Lemma conlin_update_ok s fuel xk f dfdx g dgdx : conlin_ready s -> args_ok (cl_n s) (cl_m s) (cl_xmin s) (cl_xmax s) xk dfdx g dgdx ->
  (forall j, (j < cl_n s)%nat -> 0 < ent xk j) ->
  match conlin_update s fuel xk f dfdx g dgdx with
  | Ok (s', x) => exists P w e, conlin_subproblem s xk dfdx g dgdx P /\ prob_ok P conlin_shape /\ x = w_x w /\ inside P w /\
      1/10000000 < e <= 1/1000000 /\ kkt_within P conlin_shape w e (9/10 * e) /\
      s' = mkCONLIN (S (cl_k s)) (cl_n s) (cl_m s) f (cl_eps s) (cl_xmin s) (cl_xmax s) (cl_a0 s) (cl_a s) (cl_c s) (cl_d s) (cl_move s)
  | Fail e => e = OutOfFuel end.
Proof.
  intros HR HA HP. unfold conlin_update. destruct (conlin_problem_ok s xk dfdx g dgdx HR HA HP) as (P & -> & SP & PO & _). cbn [bind].
  pose proof (solve_ok P conlin_shape PO fuel) as H. destruct (start P) as [w0|]; cbn [bind] in *; [|exact H].
  destruct (inner_loop P fuel w0 1) as [w|]; cbn [bind] in *; [|exact H]. destruct H as (HI & e & He & Hn).
  exists P, w, e. splits; auto; try lra. apply norm_within; auto; lra.
Qed.

(** ** the direction is a Newton step *)
Lemma dline x v : derivable_pt_lim (fun t => x + t * v) 0 v.
Proof. apply is_derive_Reals. auto_derive; auto. ring. Qed.
Lemma dcomp f x v l : derivable_pt_lim f x l -> derivable_pt_lim (fun t => f (x + t * v)) 0 (l * v).
Proof. intros H. apply (derivable_pt_lim_comp (fun t => x + t * v) f); [apply dline|]. replace (x + 0 * v) with x by ring. exact H. Qed.
Lemma dplus f g x a b : derivable_pt_lim f x a -> derivable_pt_lim g x b -> derivable_pt_lim (fun t => f t + g t) x (a + b).
Proof. apply derivable_pt_lim_plus. Qed.
Lemma dminus f g x a b : derivable_pt_lim f x a -> derivable_pt_lim g x b -> derivable_pt_lim (fun t => f t - g t) x (a - b).
Proof. apply derivable_pt_lim_minus. Qed.
Lemma dmult f g x a b : derivable_pt_lim f x a -> derivable_pt_lim g x b -> derivable_pt_lim (fun t => f t * g t) x (a * g x + f x * b).
Proof. apply derivable_pt_lim_mult. Qed.

Section Newton.
Variables (P : prob) (h : shape).
Hypothesis K : prob_ok P h.
Variables (w d : point).
Hypothesis HI : inside P w.
Notation A t := (along P w d t).
Lemma al_x t j : (j < p_n P)%nat -> ent (w_x (A t)) j = ent (w_x w) j + t * ent (w_x d) j.
Proof. intros H. unfold ent at 1. cbn [along w_x]. now rewrite nth_map_seq'. Qed.
Lemma al_g t j : (j < p_n P)%nat -> ent (w_gsi (A t)) j = ent (w_gsi w) j + t * ent (w_gsi d) j.
Proof. intros H. unfold ent at 1. cbn [along w_gsi]. now rewrite nth_map_seq'. Qed.
Lemma al_i t j : (j < p_n P)%nat -> ent (w_ita (A t)) j = ent (w_ita w) j + t * ent (w_ita d) j.
Proof. intros H. unfold ent at 1. cbn [along w_ita]. now rewrite nth_map_seq'. Qed.
Lemma al_y t j : (j < p_m P)%nat -> ent (w_y (A t)) j = ent (w_y w) j + t * ent (w_y d) j.
Proof. intros H. unfold ent at 1. cbn [along w_y]. now rewrite nth_map_seq'. Qed.
Lemma al_l t j : (j < p_m P)%nat -> ent (w_lambda (A t)) j = ent (w_lambda w) j + t * ent (w_lambda d) j.
Proof. intros H. unfold ent at 1. cbn [along w_lambda]. now rewrite nth_map_seq'. Qed.
Lemma al_m t j : (j < p_m P)%nat -> ent (w_mu (A t)) j = ent (w_mu w) j + t * ent (w_mu d) j.
Proof. intros H. unfold ent at 1. cbn [along w_mu]. now rewrite nth_map_seq'. Qed.
Lemma al_s t j : (j < p_m P)%nat -> ent (w_s (A t)) j = ent (w_s w) j + t * ent (w_s d) j.
Proof. intros H. unfold ent at 1. cbn [along w_s]. now rewrite nth_map_seq'. Qed.
Lemma sep_at j : (j < p_n P)%nat ->
   derivable_pt_lim (tp h j) (ent (w_x w) j) (tp1 h j (ent (w_x w) j)) /\ derivable_pt_lim (tq h j) (ent (w_x w) j) (tq1 h j (ent (w_x w) j)) /\
   derivable_pt_lim (tp1 h j) (ent (w_x w) j) (tp2 h j (ent (w_x w) j)) /\ derivable_pt_lim (tq1 h j) (ent (w_x w) j) (tq2 h j (ent (w_x w) j)).
Proof. intros Hj. destruct (k_sep _ _ K j (ent (w_x w) j) Hj (i_x _ _ HI j Hj)) as (_ & H). tauto. Qed.
Lemma d_slope p q j : (j < p_n P)%nat -> derivable_pt_lim (fun t => p * tp1 h j (ent (w_x (A t)) j) + q * tq1 h j (ent (w_x (A t)) j)) 0
  ((p * tp2 h j (ent (w_x w) j) + q * tq2 h j (ent (w_x w) j)) * ent (w_x d) j).
Proof.
  intros Hj. destruct (sep_at j Hj) as (_ & _ & H1 & H2).
  eapply deriv_ext'. { intros t. rewrite al_x by auto. reflexivity. }
  eapply deriv_val; [|apply dplus; (apply deriv_scal, dcomp; eassumption)]. ring.
Qed.
Lemma d_value p q j : (j < p_n P)%nat -> derivable_pt_lim (fun t => p * tp h j (ent (w_x (A t)) j) + q * tq h j (ent (w_x (A t)) j)) 0
  ((p * tp1 h j (ent (w_x w) j) + q * tq1 h j (ent (w_x w) j)) * ent (w_x d) j).
Proof.
  intros Hj. destruct (sep_at j Hj) as (H1 & H2 & _).
  eapply deriv_ext'. { intros t. rewrite al_x by auto. reflexivity. }
  eapply deriv_val; [|apply dplus; (apply deriv_scal, dcomp; eassumption)]. ring.
Qed.
Lemma D_x j : (j < p_n P)%nat -> derivable_pt_lim (fun t => res_x P h (A t) j) 0
  (CU P h w j * ent (w_x d) j + bigsum (p_m P) (fun i => con_slope P h (w_x w) i j * ent (w_lambda d) i) - ent (w_gsi d) j + ent (w_ita d) j).
Proof.
  intros Hj. unfold res_x.
  eapply deriv_val; [|apply dplus; [apply dminus; [apply dplus|]|]].
  2: { unfold obj_slope. now apply d_slope. }
  2: { apply (deriv_bigsum _ (fun i t => ent (w_lambda (A t)) i * con_slope P h (w_x (A t)) i j)). intros i Hi.
       eapply deriv_ext'. { intros t. rewrite al_l by auto. reflexivity. } apply (dmult (fun t => _ + t * _) (fun t => con_slope P h (w_x (A t)) i j)); [apply dline|]. unfold con_slope. now apply d_slope. }
  2: { eapply deriv_ext'; [intros t; apply (al_g t j Hj)|]. apply dline. }
  2: { eapply deriv_ext'; [intros t; apply (al_i t j Hj)|]. apply dline. }
  cbv beta. f_equal. f_equal. unfold CU, PL, QL. rewrite !Rmult_plus_distr_r, <- !bigsum_scal_r.
  rewrite (bigsum_ext (p_m P) _ (fun i => con_slope P h (w_x w) i j * ent (w_lambda d) i + (ent (w_lambda w) i * ent2 (p_p P) i j * tp2 h j (ent (w_x w) j) * ent (w_x d) j + ent (w_lambda w) i * ent2 (p_q P) i j * tq2 h j (ent (w_x w) j) * ent (w_x d) j))).
  - rewrite !bigsum_plus. ring.
  - intros i Hi. assert (E : con_slope P h (w_x (A 0)) i j = con_slope P h (w_x w) i j) by (unfold con_slope; rewrite al_x by auto; now replace (ent (w_x w) j + 0 * ent (w_x d) j) with (ent (w_x w) j) by ring).
    rewrite E. ring.
Qed.
Lemma D_con i : (i < p_m P)%nat -> derivable_pt_lim (fun t => res_con P h (A t) i) 0
  (bigsum (p_n P) (fun j => con_slope P h (w_x w) i j * ent (w_x d) j) - ent (p_a P) i * w_z d - ent (w_y d) i + ent (w_s d) i).
Proof.
  intros Hi. unfold res_con. eapply deriv_val; [|apply dminus; [apply dplus; [apply dminus; [apply dminus|]|]|apply derivable_pt_lim_const]].
  2: { unfold con_value. apply (deriv_bigsum _ (fun j t => ent2 (p_p P) i j * tp h j (ent (w_x (A t)) j) + ent2 (p_q P) i j * tq h j (ent (w_x (A t)) j))).
       intros j Hj. now apply d_value. }
  2: { apply deriv_scal. apply dline. }
  2: { eapply deriv_ext'; [intros t; apply (al_y t i Hi)|]. apply dline. }
  2: { eapply deriv_ext'; [intros t; apply (al_s t i Hi)|]. apply dline. }
  cbv beta. rewrite Rminus_0_r. reflexivity.
Qed.
Lemma D_z : derivable_pt_lim (fun t => res_z P (A t)) 0 (- w_zeta d - bigsum (p_m P) (fun i => ent (p_a P) i * ent (w_lambda d) i)).
Proof.
  unfold res_z. eapply deriv_val; [|apply dminus; [apply dminus; [apply derivable_pt_lim_const|apply dline]|]].
  2: { apply (deriv_bigsum _ (fun i t => ent (w_lambda (A t)) i * ent (p_a P) i) 0 (fun i => ent (p_a P) i * ent (w_lambda d) i)). intros i Hi.
       eapply deriv_ext'; [intros t; rewrite (al_l t i Hi), Rmult_comm; reflexivity|]. apply deriv_scal, dline. }
  ring.
Qed.
Lemma prod_line (f g : R -> R) x u y v : (forall t, f t = x + t * u) -> (forall t, g t = y + t * v) -> derivable_pt_lim (fun t => f t * g t) 0 (u * y + x * v).
Proof. intros Hf Hg. eapply deriv_ext'; [intros t; rewrite Hf, Hg; reflexivity|]. apply is_derive_Reals. auto_derive; auto. ring. Qed.

Lemma is_newton eps : linearised P h w eps 0 d -> newton_direction P h w eps d.
Proof.
  intros [Hs Ha Hb Hc Hd He Hf Hg Hh Hi]. unfold newton_direction, newton_step. splits; auto.
  - intros j Hj. splits.
    + eapply deriv_val; [|now apply D_x]. now apply Ha.
    + unfold res_lo at 1. eapply deriv_val; [|apply dminus; [apply (prod_line _ _ (ent (w_gsi w) j) (ent (w_gsi d) j) (ent (w_x w) j - ent (p_alpha P) j) (ent (w_x d) j))|apply derivable_pt_lim_const]].
      * rewrite <- (He j Hj). ring. * intros t. now apply al_g. * intros t. rewrite al_x by auto. ring.
    + unfold res_hi at 1. eapply deriv_val; [|apply dminus; [apply (prod_line _ _ (ent (w_ita w) j) (ent (w_ita d) j) (ent (p_beta P) j - ent (w_x w) j) (- ent (w_x d) j))|apply derivable_pt_lim_const]].
      * rewrite <- (Hf j Hj). ring. * intros t. now apply al_i. * intros t. rewrite al_x by auto. ring.
  - intros i Hi'. splits.
    + eapply deriv_val; [apply (Hb i Hi')|]. unfold res_y. eapply deriv_ext'. { intros t. rewrite al_y, al_l, al_m by auto. reflexivity. }
      apply is_derive_Reals. auto_derive; auto. ring.
    + eapply deriv_val; [|now apply D_con]. now apply Hd.
    + unfold res_mu at 1. eapply deriv_val; [|apply dminus; [apply (prod_line _ _ (ent (w_mu w) i) (ent (w_mu d) i) (ent (w_y w) i) (ent (w_y d) i))|apply derivable_pt_lim_const]].
      * rewrite <- (Hg i Hi'). ring. * intros t. now apply al_m. * intros t. now apply al_y.
    + unfold res_s at 1. eapply deriv_val; [|apply dminus; [apply (prod_line _ _ (ent (w_lambda w) i) (ent (w_lambda d) i) (ent (w_s w) i) (ent (w_s d) i))|apply derivable_pt_lim_const]].
      * rewrite <- (Hi i Hi'). ring. * intros t. now apply al_l. * intros t. now apply al_s.
  - eapply deriv_val; [|apply D_z]. rewrite Hc. ring.
  - unfold res_zeta at 1. eapply deriv_val; [|apply dminus; [apply (prod_line _ _ (w_zeta w) (w_zeta d) (w_z w) (w_z d))|apply derivable_pt_lim_const]].
    + rewrite <- Hh. ring. + intros t. reflexivity. + intros t. reflexivity.
Qed.
Lemma is_newton_e eps e : linearised P h w eps e d -> newton_direction P h w eps d -> e * w_z d = 0.
Proof.
  intros Hl Hn. destruct Hn as (_ & _ & _ & H & _). unfold newton_step in H.
  pose proof (uniqueness_limite _ _ _ _ H D_z) as E. pose proof (n_c _ _ _ _ _ _ Hl) as C. lra.
Qed.
End Newton.

(** ** approximate optimality *)
Section Opt.
Variables (P : prob) (h : shape) (w : point) (e : R).
Hypothesis K : prob_ok P h.
Hypothesis HI : inside P w.
Hypothesis He : 0 < e.
Hypothesis HK : kkt_within P h w e (9/10 * e).
Variables (x' y' : list R) (z' : R).
Hypothesis HF : sub_feasible P h 0 x' y' z'.
Hypothesis HC : forall j, (j < p_n P)%nat -> tp h j (ent (w_x w) j) + tp1 h j (ent (w_x w) j) * (ent x' j - ent (w_x w) j) <= tp h j (ent x' j) /\
  tq h j (ent (w_x w) j) + tq1 h j (ent (w_x w) j) * (ent x' j - ent (w_x w) j) <= tq h j (ent x' j).
Notation n := (p_n P). Notation m := (p_m P).
Notation dx j := (ent x' j - ent (w_x w) j). Notation dy i := (ent y' i - ent (w_y w) i). Notation dz := (z' - w_z w).

Lemma conv_obj : obj_value P h (w_x w) + bigsum n (fun j => obj_slope P h (w_x w) j * dx j) <= obj_value P h x'.
Proof.
  unfold obj_value. rewrite <- bigsum_plus. apply bigsum_le. intros j Hj. destruct (HC j Hj) as (H1 & H2).
  pose proof (k_p0n _ _ K j Hj). pose proof (k_q0n _ _ K j Hj). unfold obj_slope.
  apply (Rmult_le_compat_l (ent (p_p0 P) j)) in H1; auto. apply (Rmult_le_compat_l (ent (p_q0 P) j)) in H2; auto. lra.
Qed.
Lemma conv_con i : (i < m)%nat -> con_value P h (w_x w) i + bigsum n (fun j => con_slope P h (w_x w) i j * dx j) <= con_value P h x' i.
Proof.
  intros Hi. unfold con_value. rewrite <- bigsum_plus. apply bigsum_le. intros j Hj. destruct (HC j Hj) as (H1 & H2).
  pose proof (k_pn _ _ K i j Hi Hj). pose proof (k_qn _ _ K i j Hi Hj). unfold con_slope.
  apply (Rmult_le_compat_l (ent2 (p_p P) i j)) in H1; auto. apply (Rmult_le_compat_l (ent2 (p_q P) i j)) in H2; auto. lra.
Qed.
Lemma prod_bound r u c : Rabs r < c -> - c * Rabs u <= r * u.
Proof.
  intros H. apply Rabs_def2 in H. unfold Rabs. destruct (Rcase_abs u); nra.
Qed.
Lemma near_optimal : sub_objective P h (w_x w) (w_y w) (w_z w) <= sub_objective P h x' y' z' + 19/10 * e * INR (2 * n + 2 * m + 1) +
  9/10 * e * (bigsum n (fun j => Rabs (dx j)) + Rabs dz + bigsum m (fun i => Rabs (dy i)) + bigsum m (fun i => ent (w_lambda w) i)).
Proof.
  destruct HF as (F1 & F2 & F3 & F4). destruct HK as (K1 & K2 & K3 & K4).
  pose proof conv_obj as CO.
  assert (CY : bigsum m (fun i => ent (p_c P) i * ent (w_y w) i + ent (p_d P) i / 2 * ent (w_y w) i ^ 2) + bigsum m (fun i => (ent (p_c P) i + ent (p_d P) i * ent (w_y w) i) * dy i)
     <= bigsum m (fun i => ent (p_c P) i * ent y' i + ent (p_d P) i / 2 * ent y' i ^ 2)).
  { rewrite <- bigsum_plus. apply bigsum_le. intros i Hi. pose proof (k_dn _ _ K i Hi). pose proof (pow2_ge_0 (dy i)).
    assert (0 <= ent (p_d P) i * (dy i) ^ 2) by now apply Rmult_le_pos. lra. }
  (* stationarity in x, summed *)
  assert (SX : bigsum n (fun j => obj_slope P h (w_x w) j * dx j) >= - (19/10 * e) * (2 * INR n) - 9/10 * e * bigsum n (fun j => Rabs (dx j)) - bigsum m (fun i => ent (w_lambda w) i * bigsum n (fun j => con_slope P h (w_x w) i j * dx j))).
  { rewrite (bigsum_ext m (fun i => _ * bigsum n _) (fun i => bigsum n (fun j => ent (w_lambda w) i * (con_slope P h (w_x w) i j * dx j)))) by (intros; now rewrite bigsum_scal).
    rewrite bigsum_swap. apply Rle_ge.
    replace (- (19/10 * e) * (2 * INR n)) with (bigsum n (fun _ => - (19/5 * e))) by (rewrite bigsum_const; field).
    rewrite <- bigsum_scal, <- !bigsum_minus. apply bigsum_le. intros j Hj. destruct (K1 j Hj) as (Kx & Kl & Kh).
    rewrite (bigsum_ext m _ (fun i => ent (w_lambda w) i * con_slope P h (w_x w) i j * dx j)) by (intros; ring). rewrite bigsum_scal_r.
    pose proof (prod_bound _ (dx j) _ Kx) as B. unfold res_x in B. destruct (F1 j Hj) as (A1 & A2). pose proof (i_g _ _ HI j Hj). pose proof (i_i _ _ HI j Hj).
    unfold res_lo in Kl. unfold res_hi in Kh. apply Rabs_def2 in Kl. apply Rabs_def2 in Kh.
    assert (G1 : 0 <= ent (w_gsi w) j * (ent x' j - ent (p_alpha P) j)) by (apply Rmult_le_pos; lra).
    assert (G2 : 0 <= ent (w_ita w) j * (ent (p_beta P) j - ent x' j)) by (apply Rmult_le_pos; lra). lra. }
  assert (SZ : p_a0 P * dz >= - (19/10 * e) - 9/10 * e * Rabs dz + bigsum m (fun i => ent (w_lambda w) i * ent (p_a P) i) * dz).
  { pose proof (prod_bound _ dz _ K3) as B. unfold res_z in B. unfold res_zeta in K4. apply Rabs_def2 in K4. pose proof (i_ze _ _ HI).
    assert (0 <= w_zeta w * z') by (apply Rmult_le_pos; lra). lra. }
  assert (SY : bigsum m (fun i => (ent (p_c P) i + ent (p_d P) i * ent (w_y w) i) * dy i) >= - (19/10 * e) * INR m - 9/10 * e * bigsum m (fun i => Rabs (dy i)) + bigsum m (fun i => ent (w_lambda w) i * dy i)).
  { apply Rle_ge. replace (- (19/10 * e) * INR m) with (bigsum m (fun _ => - (19/10 * e))) by (rewrite bigsum_const; field).
    rewrite <- bigsum_scal, <- bigsum_minus, <- bigsum_plus. apply bigsum_le. intros i Hi. destruct (K2 i Hi) as (Ky & _ & Km & _).
    pose proof (prod_bound _ (dy i) _ Ky) as B. unfold res_y in B. unfold res_mu in Km. apply Rabs_def2 in Km. pose proof (i_m _ _ HI i Hi).
    assert (0 <= ent (w_mu w) i * ent y' i) by (apply Rmult_le_pos; [lra|auto]). lra. }
  assert (SL : bigsum m (fun i => ent (w_lambda w) i * bigsum n (fun j => con_slope P h (w_x w) i j * dx j)) - bigsum m (fun i => ent (w_lambda w) i * ent (p_a P) i) * dz - bigsum m (fun i => ent (w_lambda w) i * dy i)
     <= 19/10 * e * INR m + 9/10 * e * bigsum m (fun i => ent (w_lambda w) i)).
  { replace (19/10 * e * INR m) with (bigsum m (fun _ => 19/10 * e)) by (rewrite bigsum_const; field).
    rewrite <- bigsum_scal, <- bigsum_scal_r, <- !bigsum_minus, <- bigsum_plus. apply bigsum_le. intros i Hi. destruct (K2 i Hi) as (_ & Kc & _ & Ks).
    pose proof (i_l _ _ HI i Hi) as Hl. pose proof (conv_con i Hi) as CC. pose proof (F4 i Hi) as FF. unfold res_con in Kc. unfold res_s in Ks. apply Rabs_def2 in Kc. apply Rabs_def2 in Ks.
    set (D := bigsum n (fun j => con_slope P h (w_x w) i j * dx j)) in *.
    assert (Q : D - ent (p_a P) i * dz - dy i <= ent (w_s w) i + 9/10 * e) by lra.
    apply (Rmult_le_compat_l (ent (w_lambda w) i)) in Q; lra. }
  unfold sub_objective. replace (INR (2 * n + 2 * m + 1)) with (2 * INR n + 2 * INR m + 1) by (rewrite !plus_INR, !mult_INR; cbn; ring).
  lra.
Qed.
Lemma near_feasible : sub_feasible P h (9/10 * e) (w_x w) (w_y w) (w_z w).
Proof.
  destruct HK as (K1 & K2 & K3 & K4). unfold sub_feasible. splits.
  - intros j Hj. pose proof (i_x _ _ HI j Hj). lra. - intros i Hi. left. now apply (i_y _ _ HI). - left. apply (i_z _ _ HI).
  - intros i Hi. destruct (K2 i Hi) as (_ & Kc & _). unfold res_con in Kc. apply Rabs_def2 in Kc. pose proof (i_s _ _ HI i Hi). lra.
Qed.
End Opt.

(** gradient inequalities of the basic functions *)
Lemma grad_p u x y : x < u -> y < u -> / (u - x) + / (u - x) ^ 2 * (y - x) <= / (u - y).
Proof.
  intros Hx Hy. apply Rminus_le. replace (/ (u - x) + / (u - x) ^ 2 * (y - x) - / (u - y)) with (- ((y - x) ^ 2 * / ((u - x) ^ 2 * (u - y)))) by (field; split; lra).
  assert (0 < (u - x) ^ 2 * (u - y)) by (apply Rmult_lt_0_compat; [apply pow_lt|]; lra).
  assert (0 <= (y - x) ^ 2 * / ((u - x) ^ 2 * (u - y))) by (apply Rmult_le_pos; [apply pow2_ge_0|left; now apply Rinv_0_lt_compat]). lra.
Qed.
Lemma grad_q l x y : l < x -> l < y -> / (x - l) + - / (x - l) ^ 2 * (y - x) <= / (y - l).
Proof.
  intros Hx Hy. apply Rminus_le. replace (/ (x - l) + - / (x - l) ^ 2 * (y - x) - / (y - l)) with (- ((y - x) ^ 2 * / ((x - l) ^ 2 * (y - l)))) by (field; split; lra).
  assert (0 < (x - l) ^ 2 * (y - l)) by (apply Rmult_lt_0_compat; [apply pow_lt|]; lra).
  assert (0 <= (y - x) ^ 2 * / ((x - l) ^ 2 * (y - l))) by (apply Rmult_le_pos; [apply pow2_ge_0|left; now apply Rinv_0_lt_compat]). lra.
Qed.
Lemma grad_i x y : 0 < x -> 0 < y -> / x + - / x ^ 2 * (y - x) <= / y.
Proof. intros Hx Hy. pose proof (grad_q 0 x y Hx Hy) as H. now rewrite !Rminus_0_r in H. Qed.
Lemma conv_from (f f1 : R -> R) (D : R -> Prop) x y t : (forall u v, D u -> D v -> f u + f1 u * (v - u) <= f v) -> 0 <= t <= 1 -> D x -> D y -> D ((1 - t) * x + t * y) ->
  f ((1 - t) * x + t * y) <= (1 - t) * f x + t * f y.
Proof.
  intros H Ht Hx Hy Hm. pose proof (H _ _ Hm Hx) as A. pose proof (H _ _ Hm Hy) as B. set (u := (1 - t) * x + t * y) in *.
  apply (Rmult_le_compat_l (1 - t)) in A; [|lra]. apply (Rmult_le_compat_l t) in B; [|lra].
  assert (E : (1 - t) * (f1 u * (x - u)) + t * (f1 u * (y - u)) = 0) by (unfold u; ring). lra.
Qed.

(** ** a wrong direction *)
Lemma bad_newton P h w d : prob_ok P h -> inside P w -> p_n P = 2%nat -> p_m P = 2%nat -> p_a P = [1; 1] -> p_d P = [0; 0] ->
  w_z w = 1 -> w_zeta w = 1 -> (forall i, (i < 2)%nat -> ent (w_y w) i = 1 /\ ent (w_lambda w) i = 1 /\ ent (w_s w) i = 1 /\ ent (w_mu w) i = 1) ->
  (forall i j, (i < 2)%nat -> (j < 2)%nat -> con_slope P h (w_x w) i j = 0) ->
  (forall i, (i < 2)%nat -> res_con P h w i = -1 /\ res_y P w i = -2) -> res_z P w = -2 ->
  direction P w 1 = Ok d -> ~ newton_direction P h w 1 d.
Proof.
  intros K HI Hn Hm Ha Hd Hz Hze HV HG HR Hrz HD HN.
  destruct (direction_ok P h K w 1 HI) as (d' & E & HL). rewrite HD in E. injection E as <-.
  pose proof (is_newton_e P h w d 1 _ HL HN) as E0.
  assert (EX : 0 < excess P w).
  { unfold excess. rewrite Hn, Hm. cbn [Nat.ltb Nat.leb]. replace (INR 2 - 1) with 1 by (cbn; ring). rewrite Rmult_1_l. unfold SA. rewrite Hm. cbn [bigsum].
    pose proof (DLY_pos P h K w 0 HI ltac:(lia)) as D0. pose proof (DLY_pos P h K w 1 HI ltac:(lia)) as D1. rewrite Ha. unfold ent at 1 2 3 4; cbn [nth].
    assert (0 < 1 * 1 / DLY P w 0) by (apply Rdiv_lt_0_compat; lra). assert (0 < 1 * 1 / DLY P w 1) by (apply Rdiv_lt_0_compat; lra). lra. }
  assert (Z : w_z d = 0). { apply Rmult_integral in E0. destruct E0; auto. lra. }
  destruct HL as [Hs La Lb Lc Ld Le Lf Lg Lh Li]. rewrite Z in *.
  rewrite Hm in *. rewrite Hn in *. unfold res_zeta in Lh. rewrite Hz, Hze in Lh.
  rewrite Hrz in Lc. cbn [bigsum] in Lc. rewrite Ha in Lc. unfold ent at 1 3 in Lc. cbn [nth] in Lc.
  assert (Q : forall i, (i < 2)%nat -> ent (w_lambda d) i = - 3 / 2).
  { intros i Hi. destruct (HV i Hi) as (V1 & V2 & V3 & V4). destruct (HR i Hi) as (R1 & R2).
    pose proof (Lb i Hi) as B. pose proof (Ld i Hi) as D. pose proof (Lg i Hi) as G. pose proof (Li i Hi) as T.
    cbn [bigsum] in D. rewrite !HG in D by lia. rewrite R1 in D. rewrite R2 in B. unfold res_mu in G. unfold res_s in T. rewrite V1, V4 in G. rewrite V2, V3 in T.
    assert (Ei : ent (p_d P) i = 0) by (rewrite Hd; destruct i as [|[|]]; [reflexivity|reflexivity|lia]). rewrite Ei in B. lra. }
  rewrite !Q in Lc by lia. lra.
Qed.

Definition cl_bad : conlin := conlin_new 2 2 1 [1; 1] [0; 0] [0; 0] [1; 1] [3; 3].
Definition mm_bad : mma := mma_new 2 2 1 [1; 1] [0; 0] [0; 0] [1; 1] [3; 3].
Ltac two i := destruct i as [|[|i]]; [| |lia].
Lemma args_bad : args_ok 2 2 [1; 1] [3; 3] [2; 2] [0; 0] [0; 0] [[0; 0]; [0; 0]].
Proof. constructor; auto; intros i Hi; two i; unfold ent; cbn; auto; lra. Qed.
Lemma cl_bad_ready : conlin_ready cl_bad.
Proof. constructor; cbn; auto; intros; try lra; two i || two j; unfold ent; cbn; lra. Qed.
Lemma mm_bad_ready : mma_ready mm_bad.
Proof. constructor; cbn; auto; intros; try lra; two i || two j; unfold ent; cbn; lra. Qed.

Lemma mma_new_ready n m a0 a c d xmin xmax : length xmin = n -> length xmax = n -> length a = m -> length c = m -> length d = m ->
  (forall j, (j < n)%nat -> ent xmin j < ent xmax j) -> (forall i, (i < m)%nat -> 0 <= ent d i) -> mma_ready (mma_new n m a0 a c d xmin xmax).
Proof. intros. constructor; cbn; auto using repeat_length; lra. Qed.
Lemma ready_step s s' xk f L U : mma_ready s -> length xk = mm_n s -> length L = mm_n s -> length U = mm_n s ->
  s' = mkMMA (S (mm_k s)) (mm_n s) (mm_m s) f (mm_eps s) (mm_xmin s) (mm_xmax s) (mm_xkm1 s) xk (mm_a0 s) (mm_a s) (mm_c s) (mm_d s)
        (mm_raa0 s) (mm_albefa s) (mm_move s) (mm_asyinit s) (mm_asydecr s) (mm_asyincr s) L U -> mma_ready s'.
Proof. intros [] ? ? ? ->. now constructor. Qed.

Lemma Rmax_id df : Rmax df 0 - Rmax (- df) 0 = df.
Proof. unfold Rmax. repeat destruct Rle_dec; lra. Qed.
Lemma upd_single n (f : nat -> R -> R) (x : list R) j l : length x = n -> (j < n)%nat -> derivable_pt_lim (f j) (ent x j) l ->
  derivable_pt_lim (fun t => bigsum n (fun k => f k (ent (upd x j t) k))) (ent x j) l.
Proof.
  intros Hx Hj Hd. eapply deriv_val; [|apply (deriv_bigsum n (fun k t => f k (ent (upd x j t) k)) (ent x j) (fun k => l * delta k j))].
  - exact (bigsum_delta_r n j (fun _ => l) Hj).
  - intros k Hk. destruct (Nat.eq_dec k j) as [->|Hne].
    + eapply deriv_ext'. { intros t. unfold ent at 1. rewrite nth_upd. rewrite Nat.eqb_refl. replace (j <? length x)%nat with true by (symmetry; apply Nat.ltb_lt; lia). reflexivity. }
      eapply deriv_val; [|exact Hd]. unfold delta. rewrite Nat.eqb_refl. ring.
    + eapply deriv_ext'. { intros t. unfold ent at 1. rewrite nth_upd. replace (j =? k)%nat with false by (symmetry; apply Nat.eqb_neq; auto). cbn [andb]. reflexivity. }
      eapply deriv_val; [|apply derivable_pt_lim_const]. unfold delta. replace (k =? j)%nat with false by (symmetry; now apply Nat.eqb_neq). ring.
Qed.

Lemma conv_sum n (f f1 : nat -> R -> R) (D : nat -> R -> Prop) (x y : list R) t : 0 <= t <= 1 ->
  (forall j u v, (j < n)%nat -> D j u -> D j v -> f j u + f1 j u * (v - u) <= f j v) ->
  (forall j, (j < n)%nat -> D j (ent x j) /\ D j (ent y j) /\ D j ((1 - t) * ent x j + t * ent y j)) ->
  bigsum n (fun j => f j ((1 - t) * ent x j + t * ent y j)) <= (1 - t) * bigsum n (fun j => f j (ent x j)) + t * bigsum n (fun j => f j (ent y j)).
Proof.
  intros Ht HG HD. rewrite <- !bigsum_scal, <- bigsum_plus. apply bigsum_le. intros j Hj. destruct (HD j Hj) as (A & B & C).
  apply (conv_from (f j) (f1 j) (D j)); auto.
Qed.
Lemma mid_in l u x y t : 0 <= t <= 1 -> l < x < u -> l < y < u -> l < (1 - t) * x + t * y < u.
Proof.
  intros Ht Hx Hy. split.
  - replace l with ((1 - t) * l + t * l) at 1 by ring. destruct (Req_dec t 0) as [->|]; [lra|]. apply Rplus_le_lt_compat; [apply Rmult_le_compat_l; lra|apply Rmult_lt_compat_l; lra].
  - replace u with ((1 - t) * u + t * u) at 1 by ring. destruct (Req_dec t 0) as [->|]; [lra|]. apply Rplus_le_lt_compat; [apply Rmult_le_compat_l; lra|apply Rmult_lt_compat_l; lra].
Qed.
Lemma mid_pos x y t : 0 <= t <= 1 -> 0 < x -> 0 < y -> 0 < (1 - t) * x + t * y.
Proof. intros Ht Hx Hy. apply (mid_in 0 (x + y + 1) x y t); lra. Qed.
Definition mix (n : nat) (t : R) (x y : list R) : list R := map (fun j => (1 - t) * ent x j + t * ent y j) (seq 0 n).
Lemma mix_ent n t x y j : (j < n)%nat -> ent (mix n t x y) j = (1 - t) * ent x j + t * ent y j.
Proof. intros H. unfold mix, ent at 1. now rewrite nth_map_seq'. Qed.
Lemma convex_generic (D : nat -> R -> Prop) n (f f1 : nat -> R -> R) x y t : 0 <= t <= 1 ->
  (forall j u v, (j < n)%nat -> D j u -> D j v -> f j u + f1 j u * (v - u) <= f j v) ->
  (forall j, (j < n)%nat -> D j (ent x j) /\ D j (ent y j) /\ D j ((1 - t) * ent x j + t * ent y j)) ->
  bigsum n (fun j => f j (ent (mix n t x y) j)) <= (1 - t) * bigsum n (fun j => f j (ent x j)) + t * bigsum n (fun j => f j (ent y j)).
Proof.
  intros Ht HG HD. rewrite (bigsum_ext n _ (fun j => f j ((1 - t) * ent x j + t * ent y j))) by (intros; now rewrite mix_ent).
  now apply (conv_sum n f f1 D).
Qed.
Lemma pq_grad p q (tp tp1 tq tq1 : R -> R) u v : 0 <= p -> 0 <= q -> tp u + tp1 u * (v - u) <= tp v -> tq u + tq1 u * (v - u) <= tq v ->
  (p * tp u + q * tq u) + (p * tp1 u + q * tq1 u) * (v - u) <= p * tp v + q * tq v.
Proof. intros Hp Hq A B. apply (Rmult_le_compat_l p) in A; auto. apply (Rmult_le_compat_l q) in B; auto. lra. Qed.


Lemma C49_solvels_pf : forall n A b, (0 < n)%nat -> length A = n -> (forall i, (i < n)%nat -> length (nth i A []) = n) -> length b = n ->
  let regular := forall v : nat -> R, (forall i, (i < n)%nat -> bigsum n (fun j => ent2 A i j * v j) = 0) -> forall j, (j < n)%nat -> v j = 0 in
  (regular -> exists x, solvels A b = Ok x /\ length x = n /\ forall i, (i < n)%nat -> bigsum n (fun j => ent2 A i j * ent x j) = ent b i) /\
  (~ regular -> solvels A b = Fail DivByZero).
Proof.
  intros n A b Hn HA HR Hb regular.
  assert (M : matf A n n (ent2 A)) by (split; auto; intros i Hi; split; auto).
  destruct (solvels_ok n A b (ent2 A) (ent b) Hn M (vecf_self _ _ Hb)) as [(x & X & E & HX & HS & NS)|(E & NS)].
  - split; [intros _|intros G; exfalso; apply G, NS]. exists x. split; auto. split; [apply HX|]. intros i Hi. rewrite <- (HS i Hi). apply bigsum_ext. intros j Hj. unfold ent at 1. now rewrite (proj2 HX j Hj).
  - split; [intros G; exfalso; apply NS, G|auto].
Qed.

Lemma C48_mma_pf : forall s fuel xk f dfdx g dgdx, mma_ready s -> args_ok (mm_n s) (mm_m s) (mm_xmin s) (mm_xmax s) xk dfdx g dgdx ->
  match mma_update s fuel xk f dfdx g dgdx with
  | Ok (s', x) => length x = mm_n s /\ mma_ready s' /\ mm_xmin s' = mm_xmin s /\ mm_xmax s' = mm_xmax s /\
      forall j, (j < mm_n s)%nat -> ent (mm_xmin s) j < ent x j < ent (mm_xmax s) j /\ ent (mm_L s') j < ent x j < ent (mm_U s') j /\
        Rabs (ent x j - ent xk j) < mm_move s * (ent (mm_xmax s) j - ent (mm_xmin s) j) /\
        ent x j - ent (mm_L s') j > mm_albefa s * (ent xk j - ent (mm_L s') j) /\ ent (mm_U s') j - ent x j > mm_albefa s * (ent (mm_U s') j - ent xk j)
  | Fail e => e = OutOfFuel end.
Proof.
  intros s fuel xk f dfdx g dgdx HR HA. pose proof (mma_update_ok s fuel xk f dfdx g dgdx HR HA) as H. destruct (mma_update s fuel xk f dfdx g dgdx) as [[s' x]|]; auto.
  destruct H as (P & w & e & SP & PO & Hx & HI & _ & _ & Es). pose proof SP as (S1 & S2 & _ & _ & _ & _ & S7 & S8 & S9 & _). subst x.
  split; [rewrite (z_x _ _ (i_sh _ _ HI)); auto|]. split; [eapply ready_step; [exact HR|apply (g_x _ _ _ _ _ _ _ _ HA)| | |exact Es]; auto|].
  split; [now rewrite Es|]. split; [now rewrite Es|]. intros j Hj. destruct (S9 j Hj) as (B1 & B2 & A1 & A2 & _).
  pose proof (i_x _ _ HI j ltac:(lia)) as [X1 X2]. rewrite A1 in X1. rewrite A2 in X2.
  pose proof (m_alb _ HR) as AL. pose proof (m_box _ HR j Hj) as BX.
  set (x := ent (w_x w) j) in *. set (L := ent (mm_L s') j) in *. set (U := ent (mm_U s') j) in *. set (lo := ent (mm_xmin s) j) in *. set (hi := ent (mm_xmax s) j) in *. set (x0 := ent xk j) in *.
  assert (M1 : lo < x) by (eapply Rle_lt_trans; [apply Rmax_l|exact X1]). assert (M2 : x < hi) by (eapply Rlt_le_trans; [exact X2|apply Rmin_l]).
  assert (M3 : Rmax (L + mm_albefa s * (x0 - L)) (x0 - mm_move s * (hi - lo)) < x) by (eapply Rle_lt_trans; [apply Rmax_r|exact X1]).
  assert (M4 : x < Rmin (U - mm_albefa s * (U - x0)) (x0 + mm_move s * (hi - lo))) by (eapply Rlt_le_trans; [exact X2|apply Rmin_r]).
  assert (N1 : L + mm_albefa s * (x0 - L) < x) by (eapply Rle_lt_trans; [apply Rmax_l|exact M3]).
  assert (N2 : x0 - mm_move s * (hi - lo) < x) by (eapply Rle_lt_trans; [apply Rmax_r|exact M3]).
  assert (N3 : x < U - mm_albefa s * (U - x0)) by (eapply Rlt_le_trans; [exact M4|apply Rmin_l]).
  assert (N4 : x < x0 + mm_move s * (hi - lo)) by (eapply Rlt_le_trans; [exact M4|apply Rmin_r]).
  assert (Q1 : 0 <= mm_albefa s * (x0 - L)) by (apply Rmult_le_pos; lra). assert (Q2 : 0 <= mm_albefa s * (U - x0)) by (apply Rmult_le_pos; lra).
  splits; try lra. apply Rabs_def1; lra.
Qed.

Lemma C48_conlin_pf : forall s fuel xk f dfdx g dgdx, conlin_ready s -> args_ok (cl_n s) (cl_m s) (cl_xmin s) (cl_xmax s) xk dfdx g dgdx -> (forall j, (j < cl_n s)%nat -> 0 < ent xk j) ->
  match conlin_update s fuel xk f dfdx g dgdx with
  | Ok (s', x) => length x = cl_n s /\ conlin_ready s' /\ cl_xmin s' = cl_xmin s /\ cl_xmax s' = cl_xmax s /\
      forall j, (j < cl_n s)%nat -> ent (cl_xmin s) j < ent x j < ent (cl_xmax s) j /\ Rabs (ent x j - ent xk j) < cl_move s * (ent (cl_xmax s) j - ent (cl_xmin s) j)
  | Fail e => e = OutOfFuel end.
Proof.
  intros s fuel xk f dfdx g dgdx HR HA HP. pose proof (conlin_update_ok s fuel xk f dfdx g dgdx HR HA HP) as H. destruct (conlin_update s fuel xk f dfdx g dgdx) as [[s' x]|]; auto.
  destruct H as (P & w & e & SP & PO & Hx & HI & _ & _ & Es). pose proof SP as (S1 & S2 & _ & _ & _ & _ & S9 & _). subst x.
  split; [rewrite (z_x _ _ (i_sh _ _ HI)); auto|]. split; [rewrite Es; destruct HR; now constructor|].
  split; [now rewrite Es|]. split; [now rewrite Es|]. intros j Hj. destruct (S9 j Hj) as (A1 & A2 & _).
  pose proof (i_x _ _ HI j ltac:(lia)) as [X1 X2]. rewrite A1 in X1. rewrite A2 in X2.
  assert (M1 : ent (cl_xmin s) j < ent (w_x w) j) by (eapply Rle_lt_trans; [apply Rmax_l|exact X1]). assert (M2 : ent (w_x w) j < ent (cl_xmax s) j) by (eapply Rlt_le_trans; [exact X2|apply Rmin_l]).
  assert (N2 : ent xk j - cl_move s * (ent (cl_xmax s) j - ent (cl_xmin s) j) < ent (w_x w) j) by (eapply Rle_lt_trans; [apply Rmax_r|exact X1]).
  assert (N4 : ent (w_x w) j < ent xk j + cl_move s * (ent (cl_xmax s) j - ent (cl_xmin s) j)) by (eapply Rlt_le_trans; [exact X2|apply Rmin_r]).
  splits; try lra. apply Rabs_def1; lra.
Qed.

Lemma C71_mma_kkt_pf : forall s fuel xk f dfdx g dgdx s' x, mma_ready s -> args_ok (mm_n s) (mm_m s) (mm_xmin s) (mm_xmax s) xk dfdx g dgdx ->
  mma_update s fuel xk f dfdx g dgdx = Ok (s', x) ->
  exists P w e, mma_subproblem s xk dfdx g dgdx (mm_L s') (mm_U s') P /\ w_x w = x /\ inside P w /\ 0 < e <= 1/1000000 /\ kkt_within P (mma_shape (mm_L s') (mm_U s')) w e (9/10 * e).
Proof.
  intros s fuel xk f dfdx g dgdx s' x HR HA E. pose proof (mma_update_ok s fuel xk f dfdx g dgdx HR HA) as H. rewrite E in H.
  destruct H as (P & w & e & SP & PO & Hx & HI & He & HK & _). exists P, w, e. splits; auto; lra.
Qed.

Lemma C71_conlin_kkt_pf : forall s fuel xk f dfdx g dgdx s' x, conlin_ready s -> args_ok (cl_n s) (cl_m s) (cl_xmin s) (cl_xmax s) xk dfdx g dgdx -> (forall j, (j < cl_n s)%nat -> 0 < ent xk j) ->
  conlin_update s fuel xk f dfdx g dgdx = Ok (s', x) ->
  exists P w e, conlin_subproblem s xk dfdx g dgdx P /\ w_x w = x /\ inside P w /\ 0 < e <= 1/1000000 /\ kkt_within P conlin_shape w e (9/10 * e).
Proof.
  intros s fuel xk f dfdx g dgdx s' x HR HA HP E. pose proof (conlin_update_ok s fuel xk f dfdx g dgdx HR HA HP) as H. rewrite E in H.
  destruct H as (P & w & e & SP & PO & Hx & HI & He & HK & _). exists P, w, e. splits; auto; lra.
Qed.

Lemma C72_mma_first_order_pf : forall s xk dfdx g dgdx, mma_ready s -> args_ok (mm_n s) (mm_m s) (mm_xmin s) (mm_xmax s) xk dfdx g dgdx ->
  exists L U P, mma_problem s xk dfdx g dgdx = Ok (L, U, P) /\ mma_subproblem s xk dfdx g dgdx L U P /\
  let h := mma_shape L U in
  (forall i, (i < mm_m s)%nat -> con_value P h xk i - ent (p_b P) i = ent g i) /\
  (forall j, (j < mm_n s)%nat -> derivable_pt_lim (fun t => obj_value P h (upd xk j t)) (ent xk j) (ent dfdx j)) /\
  (forall i j, (i < mm_m s)%nat -> (j < mm_n s)%nat -> derivable_pt_lim (fun t => con_value P h (upd xk j t) i) (ent xk j) (ent2 dgdx i j)).
Proof.
  intros s xk dfdx g dgdx HR HA. destruct (mma_problem_ok s xk dfdx g dgdx HR HA) as (L & U & P & E & SP & PO & _). exists L, U, P. split; auto. split; auto.
  pose proof SP as (S1 & S2 & _ & _ & _ & _ & _ & _ & S9 & S10 & S11). intros h.
  assert (PU : forall j, (j < mm_n s)%nat -> 0 < ent U j - ent xk j /\ 0 < ent xk j - ent L j /\ 0 < ent (mm_xmax s) j - ent (mm_xmin s) j).
  { intros j Hj. destruct (S9 j Hj) as (B1 & B2 & _). pose proof (m_box _ HR j Hj). lra. }
  assert (DD : forall p q j df, (j < mm_n s)%nat -> p = (ent U j - ent xk j) ^ 2 * (1001/1000 * Rmax df 0 + 1/1000 * Rmax (- df) 0 + mm_raa0 s / (ent (mm_xmax s) j - ent (mm_xmin s) j)) ->
     q = (ent xk j - ent L j) ^ 2 * (1/1000 * Rmax df 0 + 1001/1000 * Rmax (- df) 0 + mm_raa0 s / (ent (mm_xmax s) j - ent (mm_xmin s) j)) ->
     derivable_pt_lim (fun t => p * tp h j t + q * tq h j t) (ent xk j) df).
  { intros p q j df Hj Hp Hq. destruct (PU j Hj) as (U1 & U2 & U3). cbn [h mma_shape tp tq].
    eapply deriv_val; [|apply dplus; apply deriv_scal; [apply der_p|apply der_q]]; [|fold (ent U j); lra|fold (ent L j); lra].
    fold (ent U j) (ent L j). rewrite Hp, Hq. rewrite <- (Rmax_id df) at 5. field. splits; lra. }
  splits.
  - intros i Hi. rewrite (S11 i Hi). unfold con_value. rewrite S1. rewrite (bigsum_ext (mm_n s) _ (fun j => ent2 (p_p P) i j / (ent U j - ent xk j) + ent2 (p_q P) i j / (ent xk j - ent L j))); [ring|].
    intros j Hj. reflexivity.
  - intros j Hj. unfold obj_value. rewrite S1. apply (upd_single (mm_n s) (fun k t => ent (p_p0 P) k * tp h k t + ent (p_q0 P) k * tq h k t)); auto; [apply (g_x _ _ _ _ _ _ _ _ HA)|].
    destruct (S9 j Hj) as (_ & _ & _ & _ & Ep & Eq). now apply DD.
  - intros i j Hi Hj. unfold con_value. rewrite S1. apply (upd_single (mm_n s) (fun k t => ent2 (p_p P) i k * tp h k t + ent2 (p_q P) i k * tq h k t)); auto; [apply (g_x _ _ _ _ _ _ _ _ HA)|].
    destruct (S10 i j Hi Hj) as (Ep & Eq). now apply DD.
Qed.

Lemma C72_conlin_first_order_pf : forall s xk dfdx g dgdx, conlin_ready s -> args_ok (cl_n s) (cl_m s) (cl_xmin s) (cl_xmax s) xk dfdx g dgdx -> (forall j, (j < cl_n s)%nat -> 0 < ent xk j) ->
  exists P, conlin_problem s xk dfdx g dgdx = Ok P /\ conlin_subproblem s xk dfdx g dgdx P /\
  let h := conlin_shape in
  (forall i, (i < cl_m s)%nat -> con_value P h xk i - ent (p_b P) i = ent g i) /\
  (forall j, (j < cl_n s)%nat -> derivable_pt_lim (fun t => obj_value P h (upd xk j t)) (ent xk j) (ent dfdx j)) /\
  (forall i j, (i < cl_m s)%nat -> (j < cl_n s)%nat -> derivable_pt_lim (fun t => con_value P h (upd xk j t) i) (ent xk j) (ent2 dgdx i j)).
Proof.
  intros s xk dfdx g dgdx HR HA HP. destruct (conlin_problem_ok s xk dfdx g dgdx HR HA HP) as (P & E & SP & PO & _). exists P. split; auto. split; auto.
  pose proof SP as (S1 & S2 & _ & _ & _ & _ & S9 & S10 & S11). intros h.
  assert (DD : forall p q j df, (j < cl_n s)%nat -> p = Rmax df 0 -> q = Rmax (- df) 0 * ent xk j ^ 2 -> derivable_pt_lim (fun t => p * tp h j t + q * tq h j t) (ent xk j) df).
  { intros p q j df Hj Hp Hq. pose proof (HP j Hj). cbn [h conlin_shape tp tq].
    eapply deriv_val; [|apply dplus; apply deriv_scal; [apply derivable_pt_lim_id|apply der_i]]; [|lra].
    rewrite Hp, Hq. rewrite <- (Rmax_id df) at 3. field. lra. }
  splits.
  - intros i Hi. rewrite (S11 i Hi). unfold con_value. rewrite S1. rewrite (bigsum_ext (cl_n s) _ (fun j => ent2 (p_p P) i j * ent xk j + ent2 (p_q P) i j / ent xk j)); [ring|].
    intros j Hj. reflexivity.
  - intros j Hj. unfold obj_value. rewrite S1. apply (upd_single (cl_n s) (fun k t => ent (p_p0 P) k * tp h k t + ent (p_q0 P) k * tq h k t)); auto; [apply (g_x _ _ _ _ _ _ _ _ HA)|].
    destruct (S9 j Hj) as (_ & _ & Ep & Eq). now apply DD.
  - intros i j Hi Hj. unfold con_value. rewrite S1. apply (upd_single (cl_n s) (fun k t => ent2 (p_p P) i k * tp h k t + ent2 (p_q P) i k * tq h k t)); auto; [apply (g_x _ _ _ _ _ _ _ _ HA)|].
    destruct (S10 i j Hi Hj) as (Ep & Eq). now apply DD.
Qed.

Lemma C72_mma_convex_pf : forall s xk dfdx g dgdx L U P, mma_ready s -> args_ok (mm_n s) (mm_m s) (mm_xmin s) (mm_xmax s) xk dfdx g dgdx ->
  mma_problem s xk dfdx g dgdx = Ok (L, U, P) ->
  let n := mm_n s in let h := mma_shape L U in
  forall x y t, 0 <= t <= 1 -> (forall j, (j < n)%nat -> ent L j < ent x j < ent U j /\ ent L j < ent y j < ent U j) ->
  let v := map (fun j => (1 - t) * ent x j + t * ent y j) (seq 0 n) in
  obj_value P h v <= (1 - t) * obj_value P h x + t * obj_value P h y /\
  forall i, (i < mm_m s)%nat -> con_value P h v i <= (1 - t) * con_value P h x i + t * con_value P h y i.
Proof.
  intros s xk dfdx g dgdx L U P HR HA E n h x y t Ht HD v. destruct (mma_problem_ok s xk dfdx g dgdx HR HA) as (L' & U' & P' & E' & SP & PO & _). rewrite E in E'. injection E' as <- <- <-.
  pose proof SP as (S1 & S2 & _). fold n in S1. change v with (mix n t x y).
  assert (DD : forall j, (j < n)%nat -> (fun j u => ent L j < u < ent U j) j (ent x j) /\ (fun j u => ent L j < u < ent U j) j (ent y j) /\ (fun j u => ent L j < u < ent U j) j ((1 - t) * ent x j + t * ent y j)).
  { intros j Hj. destruct (HD j Hj) as (D1 & D2). exact (conj D1 (conj D2 (mid_in _ _ _ _ t Ht D1 D2))). }
  assert (GP : forall j a b, ent L j < a < ent U j -> ent L j < b < ent U j -> tp h j a + tp1 h j a * (b - a) <= tp h j b) by (intros j a b Ha Hb; cbn [h mma_shape tp tp1]; apply grad_p; fold (ent U j); lra).
  assert (GQ : forall j a b, ent L j < a < ent U j -> ent L j < b < ent U j -> tq h j a + tq1 h j a * (b - a) <= tq h j b) by (intros j a b Ha Hb; cbn [h mma_shape tq tq1]; apply grad_q; fold (ent L j); lra).
  split; [unfold obj_value; rewrite S1|intros i Hi; unfold con_value; rewrite S1].
  - apply (convex_generic (fun j u => ent L j < u < ent U j) n (fun j u => ent (p_p0 P) j * tp h j u + ent (p_q0 P) j * tq h j u) (fun j u => ent (p_p0 P) j * tp1 h j u + ent (p_q0 P) j * tq1 h j u)); auto.
    intros j a b Hj Ha Hb. apply pq_grad; auto; [apply (k_p0n _ _ PO)|apply (k_q0n _ _ PO)]; lia.
  - apply (convex_generic (fun j u => ent L j < u < ent U j) n (fun j u => ent2 (p_p P) i j * tp h j u + ent2 (p_q P) i j * tq h j u) (fun j u => ent2 (p_p P) i j * tp1 h j u + ent2 (p_q P) i j * tq1 h j u)); auto.
    intros j a b Hj Ha Hb. apply pq_grad; auto; [apply (k_pn _ _ PO)|apply (k_qn _ _ PO)]; lia.
Qed.

Lemma C72_conlin_convex_pf : forall s xk dfdx g dgdx P, conlin_ready s -> args_ok (cl_n s) (cl_m s) (cl_xmin s) (cl_xmax s) xk dfdx g dgdx -> (forall j, (j < cl_n s)%nat -> 0 < ent xk j) ->
  conlin_problem s xk dfdx g dgdx = Ok P ->
  let n := cl_n s in let h := conlin_shape in
  forall x y t, 0 <= t <= 1 -> (forall j, (j < n)%nat -> 0 < ent x j /\ 0 < ent y j) ->
  let v := map (fun j => (1 - t) * ent x j + t * ent y j) (seq 0 n) in
  obj_value P h v <= (1 - t) * obj_value P h x + t * obj_value P h y /\
  forall i, (i < cl_m s)%nat -> con_value P h v i <= (1 - t) * con_value P h x i + t * con_value P h y i.
Proof.
  intros s xk dfdx g dgdx P HR HA HP E n h x y t Ht HD v. destruct (conlin_problem_ok s xk dfdx g dgdx HR HA HP) as (P' & E' & SP & PO & _). rewrite E in E'. injection E' as <-.
  pose proof SP as (S1 & S2 & _). fold n in S1. change v with (mix n t x y).
  assert (DD : forall j, (j < n)%nat -> (fun (j : nat) u => 0 < u) j (ent x j) /\ (fun (j : nat) u => 0 < u) j (ent y j) /\ (fun (j : nat) u => 0 < u) j ((1 - t) * ent x j + t * ent y j)).
  { intros j Hj. destruct (HD j Hj). splits; auto. now apply mid_pos. }
  assert (GP : forall j a b, 0 < a -> 0 < b -> tp h j a + tp1 h j a * (b - a) <= tp h j b) by (intros j a b Ha Hb; cbn [h conlin_shape tp tp1]; lra).
  assert (GQ : forall j a b, 0 < a -> 0 < b -> tq h j a + tq1 h j a * (b - a) <= tq h j b) by (intros j a b Ha Hb; cbn [h conlin_shape tq tq1]; now apply grad_i).
  split; [unfold obj_value; rewrite S1|intros i Hi; unfold con_value; rewrite S1].
  - apply (convex_generic (fun (j : nat) u => 0 < u) n (fun j u => ent (p_p0 P) j * tp h j u + ent (p_q0 P) j * tq h j u) (fun j u => ent (p_p0 P) j * tp1 h j u + ent (p_q0 P) j * tq1 h j u)); auto.
    intros j a b Hj Ha Hb. apply pq_grad; auto; [apply (k_p0n _ _ PO)|apply (k_q0n _ _ PO)]; lia.
  - apply (convex_generic (fun (j : nat) u => 0 < u) n (fun j u => ent2 (p_p P) i j * tp h j u + ent2 (p_q P) i j * tq h j u) (fun j u => ent2 (p_p P) i j * tp1 h j u + ent2 (p_q P) i j * tq1 h j u)); auto.
    intros j a b Hj Ha Hb. apply pq_grad; auto; [apply (k_pn _ _ PO)|apply (k_qn _ _ PO)]; lia.
Qed.

Lemma C73_mma_near_optimal_pf : forall s fuel xk f dfdx g dgdx s' x, mma_ready s -> args_ok (mm_n s) (mm_m s) (mm_xmin s) (mm_xmax s) xk dfdx g dgdx ->
  mma_update s fuel xk f dfdx g dgdx = Ok (s', x) ->
  let n := mm_n s in let m := mm_m s in let h := mma_shape (mm_L s') (mm_U s') in
  exists P y z lambda, mma_subproblem s xk dfdx g dgdx (mm_L s') (mm_U s') P /\ sub_feasible P h (9/10000000) x y z /\ (forall i, (i < m)%nat -> 0 < ent lambda i) /\
  forall x' y' z', sub_feasible P h 0 x' y' z' -> (forall j, (j < n)%nat -> ent (mm_L s') j < ent x' j < ent (mm_U s') j) ->
  sub_objective P h x y z <= sub_objective P h x' y' z' + 19/10000000 * INR (2 * n + 2 * m + 1) +
    9/10000000 * (bigsum n (fun j => Rabs (ent x' j - ent x j)) + Rabs (z' - z) + bigsum m (fun i => Rabs (ent y' i - ent y i)) + bigsum m (ent lambda)).
Proof.
  intros s fuel xk f dfdx g dgdx s' x HR HA E n m h. pose proof (mma_update_ok s fuel xk f dfdx g dgdx HR HA) as H. rewrite E in H.
  destruct H as (P & w & e & SP & PO & Hx & HI & He & HK & _). pose proof SP as (S1 & S2 & _ & _ & _ & _ & _ & _ & S9 & _). fold n in S1. fold m in S2. fold h in PO, HK.
  exists P, (w_y w), (w_z w), (w_lambda w). subst x. splits; auto.
  - pose proof (near_feasible P h w e HI HK) as (F1 & F2 & F3 & F4). unfold sub_feasible. splits; auto. intros i Hi. pose proof (F4 i Hi). lra.
  - intros i Hi. apply (i_l _ _ HI). lia.
  - intros x' y' z' HF HX. pose proof (near_optimal P h w e PO HI HK x' y' z' HF) as H. rewrite S1, S2 in H.
    eapply Rle_trans; [apply H|].
    + intros j Hj. pose proof (HX j ltac:(lia)) as B. pose proof (i_x _ _ HI j ltac:(lia)) as (X1 & X2). destruct (S9 j ltac:(lia)) as (B1 & B2 & A1 & A2 & _).
      pose proof (m_alb _ HR) as AL. pose proof (m_box _ HR j ltac:(lia)) as BX.
      assert (Q1 : 0 <= mm_albefa s * (ent xk j - ent (mm_L s') j)) by (apply Rmult_le_pos; lra). assert (Q2 : 0 <= mm_albefa s * (ent (mm_U s') j - ent xk j)) by (apply Rmult_le_pos; lra).
      assert (M1 : ent (mm_L s') j + mm_albefa s * (ent xk j - ent (mm_L s') j) <= ent (p_alpha P) j) by (rewrite A1; eapply Rle_trans; [|apply Rmax_r]; apply Rmax_l).
      assert (M2 : ent (p_beta P) j <= ent (mm_U s') j - mm_albefa s * (ent (mm_U s') j - ent xk j)) by (rewrite A2; eapply Rle_trans; [apply Rmin_r|]; apply Rmin_l).
      cbn [h mma_shape tp tp1 tq tq1]. split; [apply grad_p; fold (ent (mm_U s') j); lra|apply grad_q; fold (ent (mm_L s') j); lra].
    + assert (Q0 : 0 <= INR (2 * n + 2 * m + 1)) by apply pos_INR.
      assert (Q1 : 0 <= bigsum n (fun j => Rabs (ent x' j - ent (w_x w) j)) + Rabs (z' - w_z w) + bigsum m (fun i => Rabs (ent y' i - ent (w_y w) i)) + bigsum m (ent (w_lambda w))).
      { repeat apply Rplus_le_le_0_compat; try apply Rabs_pos; apply bigsum_nonneg; intros; try apply Rabs_pos. left. apply (i_l _ _ HI). lia. }
      apply (Rmult_le_compat_r (INR (2 * n + 2 * m + 1)) (19/10 * e) (19/10000000)) in Q0; [|lra].
      apply (Rmult_le_compat_r _ (9/10 * e) (9/10000000)) in Q1; [|lra].
      change (fun i => ent (w_lambda w) i) with (ent (w_lambda w)). lra.
Qed.

Lemma C73_conlin_near_optimal_pf : forall s fuel xk f dfdx g dgdx s' x, conlin_ready s -> args_ok (cl_n s) (cl_m s) (cl_xmin s) (cl_xmax s) xk dfdx g dgdx -> (forall j, (j < cl_n s)%nat -> 0 < ent xk j) ->
  conlin_update s fuel xk f dfdx g dgdx = Ok (s', x) ->
  let n := cl_n s in let m := cl_m s in let h := conlin_shape in
  exists P y z lambda, conlin_subproblem s xk dfdx g dgdx P /\ sub_feasible P h (9/10000000) x y z /\ (forall i, (i < m)%nat -> 0 < ent lambda i) /\
  forall x' y' z', sub_feasible P h 0 x' y' z' -> (forall j, (j < n)%nat -> 0 < ent x' j) ->
  sub_objective P h x y z <= sub_objective P h x' y' z' + 19/10000000 * INR (2 * n + 2 * m + 1) +
    9/10000000 * (bigsum n (fun j => Rabs (ent x' j - ent x j)) + Rabs (z' - z) + bigsum m (fun i => Rabs (ent y' i - ent y i)) + bigsum m (ent lambda)).
Proof.
  intros s fuel xk f dfdx g dgdx s' x HR HA HP E n m h. pose proof (conlin_update_ok s fuel xk f dfdx g dgdx HR HA HP) as H. rewrite E in H.
  destruct H as (P & w & e & SP & PO & Hx & HI & He & HK & _). pose proof SP as (S1 & S2 & _ & _ & _ & _ & S9 & _). fold n in S1. fold m in S2. fold h in PO, HK.
  exists P, (w_y w), (w_z w), (w_lambda w). subst x. splits; auto.
  - pose proof (near_feasible P h w e HI HK) as (F1 & F2 & F3 & F4). unfold sub_feasible. splits; auto. intros i Hi. pose proof (F4 i Hi). lra.
  - intros i Hi. apply (i_l _ _ HI). lia.
  - intros x' y' z' HF HX. pose proof (near_optimal P h w e PO HI HK x' y' z' HF) as H. rewrite S1, S2 in H.
    eapply Rle_trans; [apply H|].
    + intros j Hj. pose proof (HX j ltac:(lia)) as B. pose proof (i_x _ _ HI j ltac:(lia)) as (X1 & X2). destruct (S9 j ltac:(lia)) as (A1 & A2 & _).
      pose proof (l_box _ HR j ltac:(lia)) as BX. assert (M1 : ent (cl_xmin s) j <= ent (p_alpha P) j) by (rewrite A1; apply Rmax_l).
      cbn [h conlin_shape tp tp1 tq tq1]. split; [lra|apply grad_i; lra].
    + assert (Q0 : 0 <= INR (2 * n + 2 * m + 1)) by apply pos_INR.
      assert (Q1 : 0 <= bigsum n (fun j => Rabs (ent x' j - ent (w_x w) j)) + Rabs (z' - w_z w) + bigsum m (fun i => Rabs (ent y' i - ent (w_y w) i)) + bigsum m (ent (w_lambda w))).
      { repeat apply Rplus_le_le_0_compat; try apply Rabs_pos; apply bigsum_nonneg; intros; try apply Rabs_pos. left. apply (i_l _ _ HI). lia. }
      apply (Rmult_le_compat_r (INR (2 * n + 2 * m + 1)) (19/10 * e) (19/10000000)) in Q0; [|lra].
      apply (Rmult_le_compat_r _ (9/10 * e) (9/10000000)) in Q1; [|lra].
      change (fun i => ent (w_lambda w) i) with (ent (w_lambda w)). lra.
Qed.

Lemma C74_mma_newton_partial_pf : forall s xk dfdx g dgdx L U P w eps, mma_ready s -> args_ok (mm_n s) (mm_m s) (mm_xmin s) (mm_xmax s) xk dfdx g dgdx ->
  mma_problem s xk dfdx g dgdx = Ok (L, U, P) -> inside P w ->
  exists d, direction P w eps = Ok d /\
    ((mm_m s < mm_n s)%nat \/ mm_n s = 1%nat \/ (forall i, (i < mm_m s)%nat -> ent (mm_a s) i = 0) -> newton_direction P (mma_shape L U) w eps d).
Proof.
  intros s xk dfdx g dgdx L U P w eps HR HA E HI. destruct (mma_problem_ok s xk dfdx g dgdx HR HA) as (L' & U' & P' & E' & SP & PO & _). rewrite E in E'. injection E' as <- <- <-.
  destruct (direction_ok P _ PO w eps HI) as (d & Ed & HL). exists d. split; auto. intros HC. pose proof SP as (S1 & S2 & _ & S4 & _).
  apply is_newton; auto. replace 0 with (excess P w); auto. unfold excess. rewrite S1, S2. destruct (mm_m s <? mm_n s)%nat eqn:EE; auto. apply Nat.ltb_ge in EE.
  destruct HC as [HC|[HC|HC]]; [lia|rewrite HC; cbn; ring|]. unfold SA. rewrite S2, S4. rewrite bigsum_zero; [ring|]. intros i Hi. rewrite (HC i Hi). unfold Rdiv. ring.
Qed.

Lemma C74_conlin_newton_partial_pf : forall s xk dfdx g dgdx P w eps, conlin_ready s -> args_ok (cl_n s) (cl_m s) (cl_xmin s) (cl_xmax s) xk dfdx g dgdx -> (forall j, (j < cl_n s)%nat -> 0 < ent xk j) ->
  conlin_problem s xk dfdx g dgdx = Ok P -> inside P w ->
  exists d, direction P w eps = Ok d /\
    ((cl_m s < cl_n s)%nat \/ cl_n s = 1%nat \/ (forall i, (i < cl_m s)%nat -> ent (cl_a s) i = 0) -> newton_direction P conlin_shape w eps d).
Proof.
  intros s xk dfdx g dgdx P w eps HR HA HP E HI. destruct (conlin_problem_ok s xk dfdx g dgdx HR HA HP) as (P' & E' & SP & PO & _). rewrite E in E'. injection E' as <-.
  destruct (direction_ok P _ PO w eps HI) as (d & Ed & HL). exists d. split; auto. intros HC. pose proof SP as (S1 & S2 & _ & S4 & _).
  apply is_newton; auto. replace 0 with (excess P w); auto. unfold excess. rewrite S1, S2. destruct (cl_m s <? cl_n s)%nat eqn:EE; auto. apply Nat.ltb_ge in EE.
  destruct HC as [HC|[HC|HC]]; [lia|rewrite HC; cbn; ring|]. unfold SA. rewrite S2, S4. rewrite bigsum_zero; [ring|]. intros i Hi. rewrite (HC i Hi). unfold Rdiv. ring.
Qed.

Lemma C74_mma_newton_refuted_pf : exists s xk dfdx g dgdx L U P w d, mma_ready s /\ args_ok (mm_n s) (mm_m s) (mm_xmin s) (mm_xmax s) xk dfdx g dgdx /\
  mma_problem s xk dfdx g dgdx = Ok (L, U, P) /\ start P = Ok w /\ direction P w 1 = Ok d /\ ~ newton_direction P (mma_shape L U) w 1 d.
Proof.
  destruct (mma_problem_ok mm_bad [2; 2] [0; 0] [0; 0] [[0; 0]; [0; 0]] mm_bad_ready args_bad) as (L & U & P & E & SP & PO & _).
  destruct (start_ok P _ PO) as (w & Ew & HI & Wz & Wze & W1 & W2). destruct (direction_ok P _ PO w 1 HI) as (d & Ed & _).
  exists mm_bad, [2; 2], [0; 0], [0; 0], [[0; 0]; [0; 0]], L, U, P, w, d. splits; auto using mm_bad_ready; [exact args_bad|].
  pose proof SP as (S1 & S2 & S3 & S4 & S5 & S6 & S7 & S8 & S9 & S10 & S11). cbn in S1, S2. rewrite S1 in W2. rewrite S2 in W1.
  change (mm_n mm_bad) with 2%nat in *. change (mm_m mm_bad) with 2%nat in *.
  (* symmetric asymptotes: only their symmetry about xk matters *)
  assert (AS : forall j, (j < 2)%nat -> ent L j = 1 /\ ent U j = 3).
  { clear - E. unfold mma_problem in E. intros j Hj.
    destruct (asymptote_ok mm_bad [2; 2] 0 mm_bad_ready eq_refl ltac:(cbn; lia)) as (l0 & u0 & E0 & _). destruct (asymptote_ok mm_bad [2; 2] 1 mm_bad_ready eq_refl ltac:(cbn; lia)) as (l1 & u1 & E1 & _).
    assert (V : forall j, (j < 2)%nat -> mma_asymptote mm_bad [2; 2] j = Ok (1, 3)).
    { intros k Hk. two k; unfold mma_asymptote; cbn [mm_bad mma_new mm_xmin mm_xmax mm_k mm_asyinit rd nth_error bind Nat.ltb Nat.leb]; f_equal; f_equal;
      (rewrite Rmax_right by lra; rewrite Rmin_left by lra; lra). }
    change (mm_n mm_bad) with 2%nat in E. cbn [seq mapM] in E. rewrite !V in E by lia. cbn [bind] in E.
    repeat match type of E with (bind ?f1 _) = _ => destruct f1; [cbn [bind] in E|discriminate] end. injection E as <- <- <-. two j; unfold ent; cbn; lra. }
  assert (AB : forall j, (j < 2)%nat -> ent (w_x w) j = 2).
  { intros j Hj. destruct (S9 j Hj) as (_ & _ & A1 & A2 & _). rewrite W2 by auto. rewrite A1, A2. destruct (AS j Hj) as (-> & ->). two j; cbn [mm_bad mma_new mm_xmin mm_xmax mm_albefa mm_move ent nth];
    unfold ent; cbn [nth]; rewrite (Rmax_left (1 + _)), (Rmax_right 1) by lra; rewrite (Rmin_left (3 - _)), (Rmin_right 3) by lra; lra. }
  assert (PQ : forall i j, (i < 2)%nat -> (j < 2)%nat -> ent2 (p_p P) i j = ent2 (p_q P) i j).
  { intros i j Hi Hj. destruct (S10 i j Hi Hj) as (-> & ->). destruct (AS j Hj) as (-> & ->). two i; two j; unfold ent2, ent; cbn [nth]; rewrite Ropp_0; ring. }
  assert (V : forall i, (i < 2)%nat -> con_value P (mma_shape L U) (w_x w) i = ent (p_b P) i).
  { intros i Hi. rewrite (S11 i Hi). unfold con_value. rewrite S1. replace (- ent [0; 0] i) with 0 by (two i; unfold ent; cbn; ring). rewrite Rplus_0_l. apply bigsum_ext; intros j Hj; rewrite (AB j Hj); cbn [mma_shape tp tq]; fold (ent L j) (ent U j); two j; reflexivity. }
  apply (bad_newton P _ w d PO HI S1 S2); auto.
  - intros i Hi. destruct (W1 i Hi) as (B1 & B2 & B3 & B4). splits; auto. rewrite B4, S5. two i; unfold ent; cbn; rewrite Rmax_left by lra; reflexivity.
  - intros i j Hi Hj. unfold con_slope. rewrite (AB j Hj), (PQ i j Hi Hj). cbn [mma_shape tp1 tq1]. fold (ent L j) (ent U j). destruct (AS j Hj) as (-> & ->). field.
  - intros i Hi. destruct (W1 i Hi) as (B1 & B2 & B3 & B4). unfold res_con, res_y. rewrite (V i Hi), B1, B2, B3, B4, S4, S5, S6, Wz. split; two i; unfold ent; cbn [mm_bad mma_new mm_a mm_c mm_d nth]; try rewrite Rmax_left by lra; lra.
  - unfold res_z. rewrite S2, S3, S4, Wze. cbn [bigsum]. destruct (W1 0%nat ltac:(lia)) as (_ & -> & _). destruct (W1 1%nat ltac:(lia)) as (_ & -> & _). unfold ent. cbn. lra.
Qed.

Lemma C74_conlin_newton_refuted_pf : exists s xk dfdx g dgdx P w d, conlin_ready s /\ args_ok (cl_n s) (cl_m s) (cl_xmin s) (cl_xmax s) xk dfdx g dgdx /\
  (forall j, (j < cl_n s)%nat -> 0 < ent xk j) /\
  conlin_problem s xk dfdx g dgdx = Ok P /\ start P = Ok w /\ direction P w 1 = Ok d /\ ~ newton_direction P conlin_shape w 1 d.
Proof.
  assert (HP : forall j, (j < cl_n cl_bad)%nat -> 0 < ent [2; 2] j) by (intros j Hj; change (cl_n cl_bad) with 2%nat in Hj; two j; unfold ent; cbn; lra).
  destruct (conlin_problem_ok cl_bad [2; 2] [0; 0] [0; 0] [[0; 0]; [0; 0]] cl_bad_ready args_bad HP) as (P & E & SP & PO & _).
  destruct (start_ok P _ PO) as (w & Ew & HI & Wz & Wze & W1 & W2). destruct (direction_ok P _ PO w 1 HI) as (d & Ed & _).
  exists cl_bad, [2; 2], [0; 0], [0; 0], [[0; 0]; [0; 0]], P, w, d. splits; auto using cl_bad_ready; [exact args_bad|].
  pose proof SP as (S1 & S2 & S3 & S4 & S5 & S6 & S9 & S10 & S11). cbn in S1, S2. rewrite S1 in W2. rewrite S2 in W1.
  change (cl_n cl_bad) with 2%nat in *. change (cl_m cl_bad) with 2%nat in *.
  assert (PQ : forall i j, (i < 2)%nat -> (j < 2)%nat -> ent2 (p_p P) i j = 0 /\ ent2 (p_q P) i j = 0).
  { intros i j Hi Hj. destruct (S10 i j Hi Hj) as (-> & ->). two i; two j; unfold ent2, ent; cbn [nth]; rewrite Ropp_0, Rmax_left by lra; split; ring. }
  apply (bad_newton P _ w d PO HI S1 S2); auto.
  - intros i Hi. destruct (W1 i Hi) as (B1 & B2 & B3 & B4). splits; auto. rewrite B4, S5. two i; unfold ent; cbn; rewrite Rmax_left by lra; reflexivity.
  - intros i j Hi Hj. unfold con_slope. destruct (PQ i j Hi Hj) as (-> & ->). ring.
  - intros i Hi. destruct (W1 i Hi) as (B1 & B2 & B3 & B4). unfold res_con, res_y, con_value. rewrite (S11 i Hi), S1. cbn [bigsum]. destruct (PQ i 0%nat Hi ltac:(lia)) as (-> & ->). destruct (PQ i 1%nat Hi ltac:(lia)) as (-> & ->).
    rewrite B1, B2, B3, B4, S4, S5, S6, Wz. unfold Rdiv. split; two i; unfold ent; cbn [cl_bad conlin_new cl_a cl_c cl_d nth]; try rewrite Rmax_left by lra; lra.
  - unfold res_z. rewrite S2, S3, S4, Wze. cbn [bigsum]. destruct (W1 0%nat ltac:(lia)) as (_ & -> & _). destruct (W1 1%nat ltac:(lia)) as (_ & -> & _). unfold ent. cbn. lra.
Qed.

Lemma C75_asymptotes_pf : forall s xk j, mma_ready s -> length xk = mm_n s -> (j < mm_n s)%nat ->
  let w := ent (mm_xmax s) j - ent (mm_xmin s) j in let x := ent xk j in
  exists l u l0 u0, mma_asymptote s xk j = Ok (l, u) /\ asymptote_rule s xk j l0 u0 /\
    (x - 10 * w <= l0 <= x - 1/100 * w -> l = l0) /\ (l0 < x - 10 * w -> l = x - 10 * w) /\ (x - 1/100 * w < l0 -> l = x - 1/100 * w) /\
    (x + 1/100 * w <= u0 <= x + 10 * w -> u = u0) /\ (u0 < x + 1/100 * w -> u = x + 1/100 * w) /\ (x + 10 * w < u0 -> u = x + 10 * w).
Proof.
  intros s xk j HR Hx Hj w x. pose proof (m_box _ HR j Hj) as HB. fold w in HB || idtac.
  unfold mma_asymptote. rewrite (rd_nth xk j 0), (rd_nth (mm_xmin s) j 0), (rd_nth (mm_xmax s) j 0) by (rewrite ?(m_lo _ HR), ?(m_hi _ HR); lia). cbn [bind].
  fold (ent xk j) (ent (mm_xmin s) j) (ent (mm_xmax s) j). fold w x.
  match goal with |- exists l u l0 u0, (bind ?f1 _) = _ /\ _ => assert (H : exists l0 u0, f1 = Ok (l0, u0) /\ asymptote_rule s xk j l0 u0) end.
  { destruct (mm_k s <? 2)%nat eqn:Ek; [apply Nat.ltb_lt in Ek|apply Nat.ltb_ge in Ek].
    - do 2 eexists. split; [reflexivity|]. unfold asymptote_rule. fold w x. split; [intros _; split; ring|lia].
    - rewrite (rd_nth (mm_xkm1 s) j 0), (rd_nth (mm_xkm2 s) j 0), (rd_nth (mm_L s) j 0), (rd_nth (mm_U s) j 0) by (rewrite ?(m_1 _ HR), ?(m_2 _ HR), ?(m_L _ HR), ?(m_U _ HR); lia). cbn [bind].
      fold (ent (mm_xkm1 s) j) (ent (mm_xkm2 s) j) (ent (mm_L s) j) (ent (mm_U s) j). unfold Rltb.
      destruct (Rlt_dec ((x - ent (mm_xkm1 s) j) * (ent (mm_xkm1 s) j - ent (mm_xkm2 s) j)) 0); [|destruct (Rlt_dec 0 ((x - ent (mm_xkm1 s) j) * (ent (mm_xkm1 s) j - ent (mm_xkm2 s) j)))];
      (do 2 eexists; split; [reflexivity|]; unfold asymptote_rule; fold w x; split; [lia|intros _]).
      + exists (mm_asydecr s). splits; try ring; intros; auto; lra.
      + exists (mm_asyincr s). splits; try ring; intros; auto; lra.
      + exists 1. splits; try ring; intros; auto; lra. }
  destruct H as (l0 & u0 & -> & HA). cbn [bind]. do 2 eexists. exists l0, u0. split; [reflexivity|]. split; [exact HA|].
  assert (0 < w) by (unfold w; lra).
  splits; intros H0; unfold Rmin, Rmax; repeat destruct Rle_dec; lra.
Qed.
