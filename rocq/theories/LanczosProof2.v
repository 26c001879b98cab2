(** The inverse power method. *)
From Coq Require Import List Arith Lia Bool Reals Lra.
From Verif Require Import Res SumR SparseModel SparseSpec DenseModel DenseR LUModel LUProof KrylovModel KrylovSpec KrylovProof CGMath LanczosSpec LanczosModel SturmMath SturmMath2 LanczosProof.
Import ListNotations.
Local Open Scope R_scope.

Lemma xexda_ok (x : list R) c : c <> 0 -> xexda x c = Ok (map (fun v => v / c) x).
Proof.
  intros Hc. unfold xexda. induction x as [|v x IH]; cbn [mapM map]; auto. unfold Rdiv_res at 1. destruct (Req_EM_T c 0); [easy|]. cbn [bind]. now rewrite IH.
Qed.
Lemma ix_map_div (x : list R) c i : (i < length x)%nat -> ix (map (fun v => v / c) x) i = ix x i / c.
Proof. intros H. unfold ix. rewrite (nth_indep _ 0 (0 / c)) by (rewrite map_length; auto). exact (map_nth (fun v => v / c) x 0 i). Qed.
Lemma Rdiv_res_nz x y : y <> 0 -> Rdiv_res x y = Ok (x / y).
Proof. intros H. unfold Rdiv_res. destruct (Req_EM_T y 0); [easy|reflexivity]. Qed.

Section Power.
Variables (alpha beta : list R) (x : R).
Let m := length alpha.
Let a := ix alpha.
Let b := ix beta.
Hypothesis Hm : (0 < m)%nat.
Hypothesis Hb : (m <= length beta)%nat.
(** the leading minors of T - x *)
Hypothesis MN : forall k, (1 <= k <= m)%nat -> chp a b k x <> 0.

Definition den (i : nat) : R := chp a b (S i) x / chp a b i x.
Lemma chp_nz k : (k <= m)%nat -> chp a b k x <> 0.
Proof. intros H. destruct k; [rewrite chp_0; lra|apply MN; lia]. Qed.
Lemma den_0 : den 0 = a 0%nat - x.
Proof. unfold den. rewrite chp_1, chp_0. field. Qed.
Lemma den_S i : (S i < m)%nat -> den (S i) = (a (S i) - x) + b i * (- b i / den i).
Proof. intros H. unfold den. rewrite chp_SS. pose proof (chp_nz i ltac:(lia)). pose proof (chp_nz (S i) ltac:(lia)). field. split; auto. Qed.
Lemma den_nz i : (i < m)%nat -> den i <> 0.
Proof. intros H. unfold den, Rdiv. apply Rmult_integral_contrapositive_currified; [apply chp_nz; lia|apply Rinv_neq_0_compat, chp_nz; lia]. Qed.

Definition Pc (i : nat) : R := - b i / den i.
Fixpoint Qc (y : nat -> R) (i : nat) : R := match i with O => y 0%nat / den 0 | S i => (y (S i) - b i * Qc y i) / den (S i) end.

Lemma thomas_down_ok yk p q : length yk = m -> length p = m -> length q = m -> exists p' q', thomas_down alpha beta x yk p q = Ok (p', q') /\
  length p' = m /\ length q' = m /\ agree m (ix p') Pc /\ agree m (ix q') (Qc (ix yk)).
Proof.
  intros Hy Hp Hq. unfold thomas_down. rewrite !rd_ix by (subst m; lia). cbn [bind]. pose proof (den_nz 0 Hm) as N0. rewrite den_0 in N0.
  rewrite !Rdiv_res_nz by exact N0. cbn [bind]. rewrite !wr_Ok by lia. cbn [bind].
  match goal with |- context[foldM ?f ?l ?s0] => destruct (foldM_range f
    (fun k s => (1 <= k)%nat /\ length (fst s) = m /\ length (snd s) = m /\ (forall i, (i < k)%nat -> ix (fst s) i = Pc i /\ ix (snd s) i = Qc (ix yk) i)) (length alpha - 1) 1%nat s0) as (s & E & H) end.
  - cbn [fst snd]. rewrite !upd_length. splits; auto. intros i Hi. assert (i = 0)%nat as -> by lia. rewrite !ix_upd by lia. cbn [Nat.eqb]. unfold Pc. cbn [Qc]. rewrite den_0. split; reflexivity.
  - intros k [p1 q1] Hk (K1 & K2 & K3 & K4). cbn [fst snd] in *. fold m in Hk. rewrite !rd_ix by (subst m; lia). cbn [bind].
    destruct k as [|k]; [lia|]. replace (S k - 1)%nat with k by lia. destruct (K4 k ltac:(lia)) as (Ep & Eq). rewrite Ep, Eq.
    pose proof (den_S k ltac:(lia)) as D. pose proof (den_nz (S k) ltac:(lia)) as N. fold a b. unfold Pc at 1 2. rewrite <- D. rewrite !Rdiv_res_nz by exact N. cbn [bind].
    rewrite !wr_Ok by lia. cbn [bind]. eexists. split; [reflexivity|]. cbn [fst snd]. rewrite !upd_length. splits; auto; try lia.
    intros i Hi. rewrite !ix_upd by lia. destruct (Nat.eqb_spec i (S k)) as [->|Ni]; [split; reflexivity|]. apply K4. lia.
  - fold m in E, H. destruct s as [p' q']. cbn [fst snd] in H. destruct H as (_ & H2 & H3 & H4). replace (1 + (m - 1))%nat with m in H4 by lia.
    exists p', q'. splits; auto; intros i Hi; apply H4; auto.
Qed.

(** back substitution from the last entry *)
Fixpoint back (y : nat -> R) (k : nat) : R := match k with O => Qc y (m - 1) | S k => Pc (m - 1 - S k) * back y k + Qc y (m - 1 - S k) end.
Definition zs (y : nat -> R) (i : nat) : R := back y (m - 1 - i).
Lemma zs_last y : zs y (m - 1) = Qc y (m - 1).
Proof. unfold zs. now rewrite Nat.sub_diag. Qed.
Lemma zs_step y i : (S i < m)%nat -> zs y i = Pc i * zs y (S i) + Qc y i.
Proof.
  intros H. unfold zs. replace (m - 1 - i)%nat with (S (m - 1 - S i)) by lia. cbn [back]. replace (m - 1 - S (m - 1 - S i))%nat with i by lia. reflexivity.
Qed.
Lemma thomas_up_ok p q yk y : length p = m -> length q = m -> length yk = m -> agree m (ix p) Pc -> agree m (ix q) (Qc y) ->
  exists z, thomas_up p q yk = Ok z /\ length z = m /\ agree m (ix z) (zs y).
Proof.
  intros Hp Hq Hy Ep Eq. unfold thomas_up. rewrite Hy. rewrite rd_ix by lia. cbn [bind]. rewrite wr_Ok by lia. cbn [bind].
  match goal with |- context[foldM ?f (rev (seq 0 ?n)) ?s0] => destruct (foldM_rev_seq f (fun k z => length z = m /\ (forall i, (k <= i)%nat -> (i < m)%nat -> ix z i = zs y i)) n s0) as (z & E & H1 & H2) end.
  - rewrite upd_length. split; auto. intros i Hi Hi'. assert (i = m - 1)%nat as -> by lia. rewrite ix_upd by lia. rewrite Nat.eqb_refl. rewrite zs_last. apply Eq. lia.
  - intros i z Hi (K1 & K2). rewrite !rd_ix by lia. cbn [bind]. rewrite wr_Ok by lia. eexists. split; [reflexivity|]. rewrite upd_length. split; auto.
    intros j Hj Hj'. rewrite ix_upd by lia. destruct (Nat.eqb_spec j i) as [->|N]; [|apply K2; lia]. rewrite Nat.add_1_r, K2, Ep, Eq, (zs_step y i) by lia. reflexivity.
  - exists z. splits; auto. intros i Hi. apply H2; lia.
Qed.
Lemma b_Pc i z : (i < m)%nat -> den i * (Pc i * z) = - b i * z.
Proof. intros H. unfold Pc. pose proof (den_nz i H). field. auto. Qed.
(** T - x times the computed vector *)
Lemma zs_solves y i : (i < m)%nat -> matvec m (tri a b) (zs y) i = x * zs y i + y i.
Proof.
  intros Hi. rewrite tri_row by auto.
  assert (D : den i * zs y i = (if (S i <? m)%nat then - b i * zs y (S i) else 0) + den i * Qc y i).
  { destruct (Nat.ltb_spec (S i) m) as [L|L].
    - rewrite (zs_step y i L) at 1. rewrite Rmult_plus_distr_l, b_Pc by auto. reflexivity.
    - assert (i = m - 1)%nat as -> by lia. rewrite zs_last. ring. }
  assert (DQ : den i * Qc y i = y i - match i with O => 0 | S k => b k * Qc y k end).
  { pose proof (den_nz i Hi). destruct i as [|k]; cbn [Qc]; field; auto. }
  rewrite DQ in D. destruct i as [|k].
  - rewrite den_0 in D. destruct (Nat.ltb_spec 1 m); lra.
  - rewrite (den_S k Hi) in D. pose proof (zs_step y k Hi) as Zk. unfold Pc in Zk. rewrite Zk. destruct (Nat.ltb_spec (S (S k)) m); lra.
Qed.

Lemma power_pass_ok yk p q : length yk = m -> length p = m -> length q = m -> nonzero m (ix yk) ->
  exists y' p' q' rho, power_pass alpha beta x (yk, p, q) = Ok (y', p', q') /\ length y' = m /\ length p' = m /\ length q' = m /\ 0 < rho /\
    dot m (ix y') (ix y') = 1 /\ (forall i, (i < m)%nat -> matvec m (tri a b) (ix y') i - x * ix y' i = rho * ix yk i).
Proof.
  intros Hy Hp Hq NZy. unfold power_pass. destruct (thomas_down_ok yk p q Hy Hp Hq) as (p' & q' & E & Lp & Lq & Ep & Eq). rewrite E. cbn [bind].
  destruct (thomas_up_ok p' q' yk (ix yk) Lp Lq Hy Ep Eq) as (z & Ez & Lz & Vz). rewrite Ez. cbn [bind]. rewrite (inner_ok m z z Lz Lz). cbn [bind].
  assert (Sz : forall i, (i < m)%nat -> matvec m (tri a b) (ix z) i = x * ix z i + ix yk i).
  { intros i Hi. rewrite (matvec_ext m _ (ix z) (zs (ix yk))) by exact Vz. rewrite zs_solves by auto. now rewrite <- Vz. }
  assert (Nz : nonzero m (ix z)). { destruct (nonzero_dec m (ix z)) as [N|Z]; auto. exfalso. destruct NZy as (i & Hi & Ni). apply Ni. specialize (Sz i Hi). rewrite (matvec_ext m _ (ix z) (fun _ => 0)) in Sz by exact Z. rewrite matvec_0, (Z i Hi) in Sz. lra. }
  pose proof (dot_pos m (ix z) Nz) as Pz. pose proof (sqrt_lt_R0 _ Pz) as Ps. set (s := sqrt (dot m (ix z) (ix z))) in *.
  assert (Es : s * s = dot m (ix z) (ix z)) by (apply sqrt_sqrt; lra).
  rewrite xexda_ok by lra. cbn [bind]. exists (map (fun v => v / s) z), p', q', (/ s). rewrite map_length.
  assert (V : agree m (ix (map (fun v => v / s) z)) (fun i => / s * ix z i + 0 * ix z i)). { intros i Hi. rewrite ix_map_div by lia. unfold Rdiv. ring. }
  splits; auto.
  - now apply Rinv_0_lt_compat.
  - rewrite (dot_ext m _ _ _ _ V V). rewrite dot_lin_l, dot_lin_r, <- Es. field. lra.
  - intros i Hi. rewrite (matvec_ext m _ _ _ i V), matvec_lin, (V i Hi), (Sz i Hi). ring.
Qed.

Hypothesis NZ : forall k, (S k < m)%nat -> b k <> 0.
(** after k passes *)
Definition pow_inv (k : nat) (y0 : nat -> R) (y : nat -> R) (c rho : R) : Prop :=
  dot m y y = 1 /\ 0 < c /\ 0 < rho /\ rho ^ k <= c /\
  (forall u r, (forall i, (i < m)%nat -> matvec m (tri a b) u i = r * u i) -> (r - x) ^ k * dot m y u = c * dot m y0 u).
Lemma passes_ok yk p q : length yk = m -> length p = m -> length q = m -> dot m (ix yk) (ix yk) = 1 ->
  forall k, exists y z p' q' c rho, passes (power_pass alpha beta x) (S k) (yk, p, q) = Ok (y, p', q') /\ length y = m /\ length p' = m /\ length q' = m /\
    pow_inv (S k) (ix yk) (ix y) c rho /\ dot m z z = 1 /\ (forall i, (i < m)%nat -> matvec m (tri a b) (ix y) i - x * ix y i = rho * z i).
Proof.
  intros Hy Hp Hq HU.
  assert (NZu : forall v, dot m v v = 1 -> nonzero m v). { intros v Hv. apply (dot_pos_inv m v v). lra. }
  assert (Eig : forall y' y rho u r, (forall i, (i < m)%nat -> matvec m (tri a b) y' i - x * y' i = rho * y i) -> (forall i, (i < m)%nat -> matvec m (tri a b) u i = r * u i) -> (r - x) * dot m y' u = rho * dot m y u).
  { intros y' y rho u r H1 H2. pose proof (matvec_sym m (tri a b) y' u (tri_symmetric m a b)) as S.
    rewrite (dot_ext m y' y' (matvec m (tri a b) u) (fun i => r * u i + 0 * u i)) in S by (intros i Hi; auto; rewrite H2 by auto; ring).
    rewrite (dot_ext m (matvec m (tri a b) y') (fun i => x * y' i + rho * y i) u u) in S by (intros i Hi; auto; specialize (H1 i Hi); lra).
    rewrite dot_lin_l, dot_lin_r in S. lra. }
  assert (Last : forall k (s : list R * list R * list R), passes (power_pass alpha beta x) (S k) s = (s <- passes (power_pass alpha beta x) k s ;; power_pass alpha beta x s)).
  { induction k as [|k IHk]; intros s; [cbn [passes bind]; destruct (power_pass alpha beta x s); reflexivity|].
    change (passes (power_pass alpha beta x) (S (S k)) s) with (s <- power_pass alpha beta x s ;; passes (power_pass alpha beta x) (S k) s).
    change (passes (power_pass alpha beta x) (S k) s) with (s <- power_pass alpha beta x s ;; passes (power_pass alpha beta x) k s).
    destruct (power_pass alpha beta x s) as [s'|f]; cbn [bind]; auto. }
  induction k as [|k (y & z & p1 & q1 & c & rho & E & L1 & L2 & L3 & (I1 & I2 & I3 & I4 & I5) & Hz & HzS)].
  - destruct (power_pass_ok yk p q Hy Hp Hq (NZu _ HU)) as (y' & p' & q' & rho & E & L1 & L2 & L3 & Pr & U & HS).
    exists y', (ix yk), p', q', rho, rho. cbn [passes]. rewrite E. cbn [bind]. splits; auto. unfold pow_inv. splits; auto; [cbn [pow]; lra|].
    intros u r Hu. cbn [pow]. rewrite Rmult_1_r. apply (Eig _ _ _ _ _ HS Hu).
  - destruct (power_pass_ok y p1 q1 L1 L2 L3 (NZu _ I1)) as (y' & p' & q' & rho' & E' & L1' & L2' & L3' & Pr & U & HS).
    assert (RR : rho' <= rho).
    { pose proof (matvec_sym m (tri a b) (ix y') (ix y) (tri_symmetric m a b)) as S.
      rewrite (dot_ext m (ix y') (ix y') (matvec m (tri a b) (ix y)) (fun i => x * ix y i + rho * z i)) in S by (intros i Hi; auto; specialize (HzS i Hi); lra).
      rewrite (dot_ext m (matvec m (tri a b) (ix y')) (fun i => x * ix y' i + rho' * ix y i) (ix y) (ix y)) in S by (intros i Hi; auto; specialize (HS i Hi); lra).
      rewrite dot_lin_l, dot_lin_r, I1 in S. pose proof (Cauchy_Schwarz m (ix y') z) as CS. rewrite U, Hz in CS. assert (dot m (ix y') z <= 1) by nra. nra. }
    exists y', (ix y), p', q', (c * rho'), rho'. rewrite Last, E. cbn [bind]. splits; auto. unfold pow_inv. splits; auto.
    + apply Rmult_lt_0_compat; auto.
    + change (rho' ^ S (S k)) with (rho' * rho' ^ S k). assert (rho' ^ S k <= rho ^ S k) by (apply pow_incr; lra). pose proof (pow_le rho' (S k)). nra.
    + intros u r Hu. specialize (I5 u r Hu). specialize (Eig _ _ _ _ _ HS Hu). change ((r - x) ^ S (S k)) with ((r - x) * (r - x) ^ S k). replace ((r - x) * (r - x) ^ S k * dot m (ix y') u) with ((r - x) ^ S k * ((r - x) * dot m (ix y') u)) by ring. rewrite Eig.
      replace (c * rho' * dot m (ix yk) u) with (rho' * (c * dot m (ix yk) u)) by ring. rewrite <- I5. ring.
Qed.
End Power.

(** the residual of the result, without and with a gap *)
Lemma inverse_power_ok alpha beta x : (0 < length alpha)%nat -> (length alpha <= length beta)%nat ->
  (forall k, (1 <= k <= length alpha)%nat -> chp (ix alpha) (ix beta) k x <> 0) ->
  exists y, inverse_power alpha beta x = Ok y /\ length y = length alpha /\ dot (length alpha) (ix y) (ix y) = 1 /\
    exists c, 0 < c /\ norm2 (length alpha) (fun i => matvec (length alpha) (tri (ix alpha) (ix beta)) (ix y) i - x * ix y i) ^ (100 * 100) <= c /\
     (forall u r, (forall i, (i < length alpha)%nat -> matvec (length alpha) (tri (ix alpha) (ix beta)) u i = r * u i) ->
       (r - x) ^ (100 * 100) * dot (length alpha) (ix y) u = c * u 0%nat).
Proof.
  intros Hm Hb MN. set (m := length alpha) in *. unfold inverse_power. fold m. rewrite wr_Ok by (rewrite repeat_length; auto). cbn [bind].
  set (e := upd (repeat 0 m) 0 1). assert (Le : length e = m) by (unfold e; rewrite upd_length; apply repeat_length).
  assert (Ve : forall v, dot m (ix e) v = v 0%nat).
  { intros v. unfold dot. rewrite (bigsum_single m 0); auto.
    - unfold e. rewrite ix_upd by (rewrite repeat_length; auto). cbn [Nat.eqb]. ring.
    - intros i Hi N. unfold e. rewrite ix_upd by (rewrite repeat_length; auto). destruct (Nat.eqb_spec i 0); [lia|]. rewrite ix_repeat. ring. }
  assert (Ue : dot m (ix e) (ix e) = 1). { rewrite Ve. unfold e. rewrite ix_upd by (rewrite repeat_length; auto). reflexivity. }
  replace (100 * 100)%nat with (S (99 * 101)) by reflexivity.
  destruct (passes_ok alpha beta x Hm Hb MN e (repeat 0 m) (repeat 0 m) Le (repeat_length _ _) (repeat_length _ _) Ue (99 * 101)) as (y & z & p' & q' & c & rho & E & L1 & L2 & L3 & (I1 & I2 & I3 & I4 & I5) & Hz & HzS).
  rewrite E. cbn [bind]. exists y. fold m in L1, I1, I5, Hz, HzS. splits; auto. exists c. splits; auto.
  - replace (norm2 m (fun i => matvec m (tri (ix alpha) (ix beta)) (ix y) i - x * ix y i)) with rho; auto.
    unfold norm2. rewrite (dot_ext m _ (fun i => rho * z i + 0 * z i) _ (fun i => rho * z i + 0 * z i)) by (intros i Hi; rewrite HzS by auto; ring).
    rewrite dot_lin_l, dot_lin_r, Hz. replace (rho * (rho * 1 + 0 * 1) + 0 * (rho * 1 + 0 * 1)) with (rho * rho) by ring. rewrite sqrt_square; lra.
  - intros u r Hu. rewrite <- Ve. now apply I5.
Qed.
