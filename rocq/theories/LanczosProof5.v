(** From the runs of the code to the facts about its results. *)
From Coq Require Import List Arith Lia Bool Reals Lra.
From Verif Require Import Res SumR SparseModel SparseSpec DenseModel DenseR LUModel LUProof KrylovModel KrylovSpec KrylovProof CGMath LanczosSpec LanczosModel SturmMath SturmMath2 LanczosProof LanczosProof2 LanczosProof3 LanczosProof4.
Import ListNotations.
Local Open Scope R_scope.

(** ** runs of the bisection *)
Lemma bisection_inv alpha beta fuel mode x : (mode < length alpha)%nat -> (length alpha <= length beta)%nat ->
  (forall k, (S k < length alpha)%nat -> ix beta k <> 0) -> bisection_method fuel alpha beta mode = Ok x ->
  forall r, ordered_spectrum (length alpha) (tri (ix alpha) (ix beta)) r ->
  forall B, row_bound (length alpha) (ix alpha) (ix beta) B -> Rabs (x - r mode) <= 1 / 10 ^ 13 * B.
Proof.
  intros Hmode Hb NZ E r HS B' HB. unfold bisection_method in E. destruct (bis_bound_ok alpha beta ltac:(lia) Hb) as (B & EB & RB & PB & Min).
  rewrite EB in E. cbn [bind] in E.
  destruct (Rle_lt_or_eq_dec _ _ PB) as [PB'|<-].
  - destruct (bisect_ok alpha beta ltac:(lia) Hb NZ r HS mode B Hmode 45 (- B) B (Fail Uninit)) as (x' & E2 & Hx).
    + apply (spectrum_bound (length alpha) (ix alpha) (ix beta)); auto. lia.
    + assert (P : 2 <= 2 ^ 45 * (1 / 10 ^ 13)) by (cbn [pow]; lra). nra.
    + left. cbn [pow]. lra.
    + apply (bisect_more mode alpha beta B fuel (Nat.max fuel 45)) in E; [|lia]. apply (bisect_more mode alpha beta B 45 (Nat.max fuel 45)) in E2; [|lia].
      rewrite E in E2. injection E2 as <-. specialize (Min B' HB). eapply Rle_trans; [exact Hx|]. apply Rmult_le_compat_l; [cbn [pow]; lra|auto].
  - exfalso. destruct fuel; cbn [bisect] in E; destruct (Rltb_spec (1 / 10 ^ 13 * 0) (0 - - 0)) as [L|L]; try lra; discriminate.
Qed.

(** ** runs of the inverse power method *)
Lemma thomas_down_inv alpha beta x yk p q s : length p = length alpha -> length q = length alpha -> (0 < length alpha)%nat -> thomas_down alpha beta x yk p q = Ok s ->
  forall k, (1 <= k <= length alpha)%nat -> chp (ix alpha) (ix beta) k x <> 0.
Proof.
  intros Lp Lq Hm E. unfold thomas_down in E. set (a := ix alpha). set (b := ix beta). set (m := length alpha) in *.
  apply bind_Ok in E as (b0 & Eb0 & E). apply bind_Ok in E as (a0 & Ea0 & E). apply bind_Ok in E as (y0 & Ey0 & E).
  apply bind_Ok in E as (p0 & Ep0 & E). apply bind_Ok in E as (q0 & Eq0 & E). apply bind_Ok in E as (p1 & Ep1 & E). apply bind_Ok in E as (q1 & Eq1 & E).
  pose proof (rd_inv _ _ _ Eb0) as Lb0. rewrite rd_ix in Eb0 by auto. injection Eb0 as <-. rewrite rd_ix in Ea0 by auto. injection Ea0 as <-.
  apply Rdiv_res_inv in Ep0 as (N0 & ->). apply wr_inv in Ep1 as (_ & ->). apply wr_inv in Eq1 as (_ & ->).
  apply (foldM_range_inv _ (fun k s => (1 <= k)%nat /\ length (fst s) = m /\ (forall i, (1 <= i <= k)%nat -> chp a b i x <> 0) /\ ix (fst s) (k - 1) * chp a b k x = - b (k - 1)%nat * chp a b (k - 1) x)) in E.
  - destruct E as (_ & _ & E & _). intros k Hk. apply E. lia.
  - cbn [fst]. rewrite upd_length. splits; auto.
    + intros i Hi. assert (i = 1)%nat as -> by lia. rewrite chp_1. exact N0.
    + replace (1 - 1)%nat with 0%nat by lia. rewrite ix_upd by lia. cbn [Nat.eqb]. rewrite chp_1, chp_0. subst a b. field. exact N0.
  - intros k [p2 q2] s' Hk (K1 & K2 & K3 & K4) Es. cbn [fst snd] in *.
    apply bind_Ok in Es as (bi & Ebi & Es). apply bind_Ok in Es as (ai & Eai & Es). apply bind_Ok in Es as (bm & Ebm & Es). apply bind_Ok in Es as (yi & _ & Es).
    apply bind_Ok in Es as (pm & Epm & Es). apply bind_Ok in Es as (qm & _ & Es). apply bind_Ok in Es as (pi & Epi & Es). apply bind_Ok in Es as (qi & _ & Es).
    apply bind_Ok in Es as (p3 & Ep3 & Es). apply bind_Ok in Es as (q3 & _ & Es). injection Es as <-. cbn [fst].
    pose proof (rd_inv _ _ _ Ebi) as Lbi. rewrite rd_ix in Ebi by auto. injection Ebi as <-. rewrite rd_ix in Eai by (fold m; lia). injection Eai as <-. rewrite rd_ix in Ebm by lia. injection Ebm as <-.
    rewrite rd_ix in Epm by lia. injection Epm as <-. apply Rdiv_res_inv in Epi as (N & ->). apply wr_inv in Ep3 as (_ & ->). rewrite upd_length.
    fold a b in N |- *. destruct k as [|k]; [lia|]. replace (S k - 1)%nat with k in * by lia.
    pose proof (K3 (S k) ltac:(lia)) as Nk.
    assert (D : (a (S k) - x + b k * ix p2 k) * chp a b (S k) x = chp a b (S (S k)) x).
    { rewrite chp_SS. replace ((a (S k) - x + b k * ix p2 k) * chp a b (S k) x) with ((a (S k) - x) * chp a b (S k) x + b k * (ix p2 k * chp a b (S k) x)) by ring. rewrite K4. ring. }
    assert (N2 : chp a b (S (S k)) x <> 0) by (rewrite <- D; now apply Rmult_integral_contrapositive_currified).
    splits; auto; try lia.
    + intros i Hi. destruct (Nat.eq_dec i (S (S k))) as [->|]; auto. apply K3. lia.
    + replace (S (S k) - 1)%nat with (S k) by lia. rewrite ix_upd by lia. rewrite Nat.eqb_refl. rewrite <- D. field. exact N.
Qed.
Lemma inverse_power_inv alpha beta x y : (length alpha <= length beta)%nat -> inverse_power alpha beta x = Ok y ->
  (0 < length alpha)%nat /\ (forall k, (1 <= k <= length alpha)%nat -> chp (ix alpha) (ix beta) k x <> 0).
Proof.
  intros Hb E. unfold inverse_power in E. apply bind_Ok in E as (yk & Ey & E). apply wr_inv in Ey as (Lm & ->). rewrite repeat_length in Lm. split; auto.
  apply bind_Ok in E as (s & Es & _). replace (100 * 100)%nat with (S (99 * 101)) in Es by reflexivity.
  assert (G : forall {S} (f : S -> res S) k s s', passes f (Datatypes.S k) s = Ok s' -> exists s1, f s = Ok s1). { intros S0 f k t t' H. change (passes f (Datatypes.S k) t) with (u <- f t ;; passes f k u) in H. apply bind_Ok in H as (s1 & H & _). eauto. }
  apply G in Es as (s1 & Es). unfold power_pass in Es. apply bind_Ok in Es as (s2 & Es & _). apply (thomas_down_inv _ _ _ _ _ _ _ (repeat_length _ _) (repeat_length _ _) Lm Es).
Qed.

(** ** ReconvertVector *)
Lemma reconvert_ok n y q : (length y <= length q)%nat -> (0 < length q)%nat -> (forall j, (j < length q)%nat -> length (nth j q []) = n) ->
  exists x, reconvert y q = Ok x /\ length x = n /\ agree n (ix x) (fun i => bigsum (length y) (fun k => ix y k * qr q k i)).
Proof.
  intros Hy Hq HL. unfold reconvert. rewrite (rd_nth q 0 []) by auto. cbn [bind]. rewrite (HL 0%nat Hq).
  match goal with |- context[foldM ?f ?l ?s0] => destruct (foldM_range f (fun k x => length x = n /\ agree n (ix x) (fun i => bigsum k (fun k => ix y k * qr q k i))) (length y) 0%nat s0) as (x & E & H) end.
  - rewrite repeat_length. split; auto. intros i Hi. apply ix_repeat.
  - intros k x Hk (L & V).
    match goal with |- context[foldM ?f ?l ?s0] => destruct (foldM_range f (fun j z => length z = n /\ forall i, (i < n)%nat -> ix z i = if (i <? j)%nat then bigsum (S k) (fun k => ix y k * qr q k i) else ix x i) n 0%nat s0) as (z & E & H) end.
    + split; auto.
    + intros i z Hi (Lz & Vz). rewrite (rd_nth q k []) by lia. cbn [bind]. rewrite (rd_ix (nth k q []) i) by (rewrite HL; lia). cbn [bind]. rewrite (rd_ix y k) by lia. cbn [bind]. rewrite (rd_ix z i) by lia. cbn [bind]. rewrite wr_Ok by lia.
      eexists. split; [reflexivity|]. rewrite upd_length. split; auto. intros l Hl. rewrite ix_upd by lia. destruct (Nat.eqb_spec l i) as [->|N].
      * assert (Y : (i <? S i)%nat = true) by (apply Nat.ltb_lt; lia). rewrite Y. rewrite Vz by lia. rewrite Nat.ltb_irrefl. rewrite V by lia. cbn [bigsum]. fold (qr q k i). ring.
      * rewrite Vz by auto. assert (Y : (l <? S i)%nat = (l <? i)%nat) by (destruct (Nat.ltb_spec l (S i)), (Nat.ltb_spec l i); lia || reflexivity). now rewrite Y.
    + exists z. split; auto. destruct H as (Lz & Vz). split; auto. intros i Hi. rewrite Vz by auto. assert (Y : (i <? 0 + n)%nat = true) by (apply Nat.ltb_lt; lia). now rewrite Y.
  - exists x. cbn [Nat.add] in H. destruct H. splits; auto.
Qed.

(** ** the process on a symmetric matrix *)
Section A.
Variables (n : nat) (A : csr R).
Hypothesis SQ : square_csr n A.
Hypothesis Hn : (0 < n)%nat.
Hypothesis SY : symmetric n (entry A).
Lemma crows_n : crows A = n.
Proof. destruct SQ as (_ & _ & H & _). exact H. Qed.
Lemma Amul_len v w : length v = n -> Amul A v = Ok w -> length w = n.
Proof. intros H E. apply (Amul_inv n A v w SQ H) in E. apply E. Qed.
Lemma linv_rec m k alpha beta q : (k <= m)%nat -> linv n m (Amul A) k (alpha, beta, q) -> exists P, rec n m (entry A) (ix alpha) (ix beta) (qr q) P k.
Proof.
  intros Hk ((_ & _ & _ & L) & _ & P & HP & HR). exists P. split; auto. intros j Hj i Hi. destruct (HP j Hj) as (w & E & V). rewrite V by auto.
  apply (Amul_inv n A _ w SQ) in E; [|apply L; lia]. destruct E as (_ & E). now apply E.
Qed.
Lemma process_rec m alpha beta q : process (Amul A) false A m = Ok (alpha, beta, q) -> (0 < m)%nat /\ shape n m (alpha, beta, q) /\ dot n (qr q 0) (qr q 0) = 1 /\
  (exists P, rec n m (entry A) (ix alpha) (ix beta) (qr q) P m) /\ exists d, get_diagonal A = Ok d /\ norm2 n (ix d) <> 0 /\ forall i, (i < n)%nat -> qr q 0 i = ix d i / norm2 n (ix d).
Proof.
  intros E. apply (process_inv n m Hn (Amul A) Amul_len A) in E as (E1 & E2 & E3); [|apply crows_n]. splits; auto; try apply E2. apply (linv_rec m m); auto.
Qed.
(** the additional orthogonalisation changes nothing *)
Lemma foldM_same {S} (f g : S -> nat -> res S) (Inv : nat -> S -> Prop) : forall l lo s, Inv lo s ->
  (forall k s, (lo <= k < lo + l)%nat -> Inv k s -> f s k = g s k) -> (forall k s s', (lo <= k < lo + l)%nat -> Inv k s -> g s k = Ok s' -> Inv (Datatypes.S k) s') ->
  foldM f (seq lo l) s = foldM g (seq lo l) s.
Proof.
  induction l as [|l IH]; intros lo s H0 H1 H2; [reflexivity|]. cbn [seq foldM]. rewrite H1 by (auto; lia). destruct (g s lo) as [s'|] eqn:E; [|reflexivity]. cbn [bind].
  apply IH; [apply (H2 lo s); auto; lia|intros k t Hk; apply H1; lia|intros k t t2 Hk; apply H2; lia].
Qed.
Lemma restart_step m k s : (k < m)%nat -> linv n m (Amul A) k s -> lanczos_step (Amul A) true m s k = lanczos_step (Amul A) false m s k.
Proof.
  intros Hk HI. destruct s as [[alpha beta] q]. destruct (linv_rec m k alpha beta q ltac:(lia) HI) as (P & HR). destruct HI as ((La & Lb & Lq & Lr) & U & _).
  pose proof (orth n m (entry A) (ix alpha) (ix beta) (qr q) P SY U k Hk HR) as HO.
  unfold lanczos_step. rewrite (rd_nth q k []) by lia. cbn [bind]. destruct (Amul A (nth k q [])) as [w|] eqn:Ew; [|reflexivity]. cbn [bind].
  assert (E : foldM (fun p i => qi <- rd q i ;; c <- inner p qi ;; xexpay p (- c) qi) (seq 0 (k - 2)) w = Ok w); [|rewrite E; reflexivity].
  apply (Amul_inv n A _ w SQ) in Ew as (Lw & Vw); [|apply Lr; lia].
  destruct (foldM_range (fun p i => qi <- rd q i ;; c <- inner p qi ;; xexpay p (- c) qi) (fun _ p => p = w) (k - 2) 0 w eq_refl) as (p & E & ->); auto.
  intros i p Hi ->. exists w. split; auto. rewrite (rd_nth q i []) by lia. cbn [bind]. rewrite (inner_ok n) by (auto; apply Lr; lia). cbn [bind].
  assert (Z : dot n (ix w) (ix (nth i q [])) = 0).
  { change (ix (nth i q [])) with (qr q i). rewrite (dot_ext n (ix w) (matvec n (entry A) (qr q k)) (qr q i) (qr q i)) by (intros; auto). rewrite dot_sym, matvec_sym by auto.
    rewrite (dot_ext n (matvec n (entry A) (qr q i)) (fun l => 1 * (fun l => 1 * prev (ix beta) (qr q) i l + ix alpha i * qr q i l) l + ix beta i * qr q (S i) l) (qr q k) (qr q k)); auto.
    2:{ intros l Hl. rewrite (three_term n m (entry A) (ix alpha) (ix beta) (qr q) P k i) by (auto; lia). ring. }
    rewrite !dot_lin_l, (dot_sym n (prev _ _ _)), dot_prev. rewrite (HO i k), (HO (S i) k), !delta_ne by lia. destruct i as [|i]; [ring|]. rewrite (HO k i), delta_ne by lia. ring. }
  rewrite Z. unfold xexpay. destruct (walk2_ok (fun xi yi => xi + - 0 * yi) w (nth i q [])) as (p & E & Lp & Vp); [rewrite Lr; lia|]. rewrite E. f_equal.
  apply (nth_ext _ _ 0 0); auto. intros l Hl. rewrite Lp in Hl. specialize (Vp l Hl). unfold ix in Vp. rewrite Vp. ring.
Qed.
Lemma process_restart m : process (Amul A) true A m = process (Amul A) false A m.
Proof.
  unfold process. destruct (start A m) as [q|] eqn:E; [|reflexivity]. cbn [bind]. destruct (start_inv n m Hn A q crows_n E) as (S1 & S2 & S3 & S4 & _).
  apply (foldM_same _ _ (linv n m (Amul A))).
  - unfold linv, shape. rewrite !repeat_length. splits; auto. exists (fun _ _ => 0). split; [intros; lia|]. intros j Hj. lia.
  - intros k s Hk. apply restart_step. lia.
  - intros k s s' Hk HI Es. apply (step_inv n m Hn (Amul A) Amul_len k s s'); auto. lia.
Qed.
End A.

(** ** bounds on the entries of the projected matrix *)
Lemma abs_dot n u v x y : norm2 n u <= x -> norm2 n v <= y -> Rabs (dot n u v) <= x * y.
Proof.
  intros Hx Hy. pose proof (Cauchy_Schwarz n u v) as C. pose proof (norm_nonneg n u). pose proof (norm_nonneg n v). rewrite <- !norm_sq in C.
  apply Rle_trans with (norm2 n u * norm2 n v).
  -
    assert (Q : Rabs (dot n u v) * Rabs (dot n u v) <= (norm2 n u * norm2 n v) * (norm2 n u * norm2 n v)). { rewrite <- Rabs_mult, Rabs_right by nra. nra. }
    pose proof (Rabs_pos (dot n u v)). assert (0 <= norm2 n u * norm2 n v) by (apply Rmult_le_pos; auto). apply Rsqr_incr_0; auto.
  - apply Rmult_le_compat; auto.
Qed.
Lemma entries_bound n m M a b q P N : symmetric n M -> dot n (q 0%nat) (q 0%nat) = 1 -> (0 < m)%nat -> rec n m M a b q P m -> (forall v, norm2 n (matvec n M v) <= N * norm2 n v) -> row_bound m a b (3 * N).
Proof.
  intros SY U Hm HR HN. pose proof (orth_m n m M a b q P SY U Hm HR) as HO.
  assert (Nq : forall j, (j < m)%nat -> norm2 n (q j) = 1). { intros j Hj. unfold norm2. rewrite HO, delta_refl by auto. apply sqrt_1. }
  assert (NA : forall j, (j < m)%nat -> norm2 n (P j) <= N).
  { intros j Hj. destruct HR as (H1 & _). specialize (HN (q j)). rewrite Nq in HN by auto. unfold norm2 in *. rewrite (dot_ext n (P j) (matvec n M (q j)) (P j) (matvec n M (q j))) by auto. lra. }
  assert (Pa : 0 <= N). { specialize (NA 0%nat Hm). pose proof (norm_nonneg n (P 0%nat)). lra. }
  assert (BA : forall j, (j < m)%nat -> Rabs (a j) <= N).
  { intros j Hj. pose proof HR as (_ & H2). destruct (H2 j Hj) as (Ea & _). replace (a j) with (dot n (q j) (P j)).
    - rewrite <- (Rmult_1_l N). apply abs_dot; [rewrite Nq by auto; lra|auto].
    - rewrite Ea. rewrite (dot_ext n (q j) (q j) (fun i => P j i - prev b q j i) (fun i => 1 * P j i + (-1) * prev b q j i)) by (intros; auto; ring). rewrite dot_lin_r, dot_prev. destruct j as [|j]; [ring|]. rewrite (HO (S j) j), delta_ne by lia. ring. }
  assert (BB : forall j, (j < m)%nat -> Rabs (b j) <= N).
  { intros j Hj. pose proof HR as (_ & H2). destruct (H2 j Hj) as (_ & Eb & _). fold (wk a b q P j) in Eb.
    assert (W : forall i, (i <= j)%nat -> dot n (q i) (wk a b q P j) = 0). { apply (wk_orth n m M); auto; [apply (rec_less n m M a b q P m); auto; lia|]. intros i i' Hi Hi'. apply HO; lia. }
    pose proof (norm_nonneg n (wk a b q P j)) as Pw. rewrite Eb, Rabs_right by lra.
    assert (D : dot n (wk a b q P j) (wk a b q P j) = dot n (wk a b q P j) (P j)). { rewrite dot_wk. rewrite (dot_sym n _ (q j)), W by lia. rewrite dot_prev. destruct j as [|j]; [ring|]. rewrite (dot_sym n _ (q j)), W by lia. ring. }
    pose proof (abs_dot n (wk a b q P j) (P j) (norm2 n (wk a b q P j)) N (Rle_refl _) (NA j Hj)) as G. rewrite <- D, <- norm_sq in G. rewrite Rabs_right in G by nra.
    destruct (Rle_lt_or_eq_dec _ _ Pw) as [L|L]; [|lra]. apply (Rmult_le_reg_l (norm2 n (wk a b q P j))); auto. }
  intros j Hj. pose proof (BA j Hj). pose proof (BB j Hj). destruct j as [|j]; [lra|]. pose proof (BB j ltac:(lia)). lra.
Qed.
