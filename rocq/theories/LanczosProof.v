(** The bisection method. *)
From Coq Require Import List Arith Lia Bool Reals Lra.
From Verif Require Import Res SumR SparseModel SparseSpec DenseModel DenseR LUModel KrylovModel KrylovSpec KrylovProof CGMath LanczosSpec LanczosModel SturmMath SturmMath2.
Import ListNotations.
Local Open Scope R_scope.

Lemma foldM_range {S} (f : S -> nat -> res S) (Inv : nat -> S -> Prop) : forall n lo s, Inv lo s ->
  (forall k s, (lo <= k < lo + n)%nat -> Inv k s -> exists s', f s k = Ok s' /\ Inv (Datatypes.S k) s') ->
  exists s', foldM f (seq lo n) s = Ok s' /\ Inv (lo + n)%nat s'.
Proof.
  induction n as [|n IH]; intros lo s H0 H.
  - exists s. rewrite Nat.add_0_r. split; auto.
  - destruct (H lo s ltac:(lia) H0) as (s1 & E & H1). destruct (IH (Datatypes.S lo) s1 H1) as (s2 & E2 & H2).
    { intros k t Hk. apply H. lia. }
    exists s2. cbn [seq foldM]. rewrite E. cbn [bind]. rewrite Nat.add_succ_r. split; auto.
Qed.
Lemma rd_ix (l : list R) i : (i < length l)%nat -> rd l i = Ok (ix l i).
Proof. intros H. unfold ix. now apply rd_nth. Qed.
Lemma ix_upd l i j v : (i < length l)%nat -> ix (upd l i v) j = if (j =? i)%nat then v else ix l j.
Proof.
  intros H. unfold ix. rewrite nth_upd. destruct (Nat.eqb_spec i j) as [->|N].
  - rewrite Nat.eqb_refl. apply Nat.ltb_lt in H. now rewrite H.
  - destruct (Nat.eqb_spec j i); [lia|]. reflexivity.
Qed.
Lemma Rltb_spec x y : reflect (x < y) (Rltb x y).
Proof. unfold Rltb. destruct (Rlt_dec x y); constructor; auto. Qed.

Lemma ordered_unique m M r r' : ordered_spectrum m M r -> ordered_spectrum m M r' -> forall i, (i < m)%nat -> r i = r' i.
Proof.
  intros (M1 & S1) (M2 & S2).
  assert (G : forall i, (i < m)%nat -> exists j, (j < m)%nat /\ r i = r' j). { intros i Hi. apply S2, S1. eauto. }
  assert (G' : forall i, (i < m)%nat -> exists j, (j < m)%nat /\ r' i = r j). { intros i Hi. apply S1, S2. eauto. }
  induction i as [i IH] using lt_wf_ind. intros Hi. apply Rle_antisym.
  - destruct (G' i Hi) as (j & Hj & E). destruct (lt_eq_lt_dec j i) as [[C|C]|C].
    + pose proof (IH j C Hj). pose proof (M2 j i C Hi). lra. + rewrite C in *. lra. + pose proof (M1 i j C Hj). lra.
  - destruct (G i Hi) as (j & Hj & E). destruct (lt_eq_lt_dec j i) as [[C|C]|C].
    + pose proof (IH j C Hj). pose proof (M1 j i C Hi). lra. + rewrite C in *. lra. + pose proof (M2 i j C Hj). lra.
Qed.

Section Bisection.
Variables (alpha beta : list R).
Let m := length alpha.
Let a := ix alpha.
Let b := ix beta.
Hypothesis Hm : (0 < m)%nat.
Hypothesis Hb : (m <= length beta)%nat.

Lemma bis_bound_ok : exists B, bis_bound alpha beta = Ok B /\ row_bound m a b B /\ 0 <= B /\ (forall B', row_bound m a b B' -> B <= B').
Proof.
  unfold bis_bound. rewrite !rd_ix by (subst m; lia). cbn [bind].
  destruct (foldM_range (fun bb i => bm <- rd beta (i - 1) ;; ai <- rd alpha i ;; bi <- rd beta i ;; (let s := Rabs bm + Rabs ai + Rabs bi in Ok (if Rltb bb s then s else bb)))
    (fun k B => (1 <= k)%nat /\ row_bound k a b B /\ 0 <= B /\ (forall B', row_bound m a b B' -> B <= B')) (length alpha - 1) 1 (Rabs (ix alpha 0) + Rabs (ix beta 0))) as (B & E & _ & H1 & H2 & H3).
  - splits; auto.
    + intros i Hi. assert (i = 0)%nat as -> by lia. subst a b. lra.
    + pose proof (Rabs_pos (ix alpha 0)). pose proof (Rabs_pos (ix beta 0)). lra.
    + intros B' HB. specialize (HB 0%nat Hm). cbn in HB. subst a b. lra.
  - intros k B Hk (K1 & K2 & K3 & K4). fold m in Hk. rewrite !rd_ix by (subst m; lia). cbn [bind].
    set (s := Rabs (ix beta (k - 1)) + Rabs (ix alpha k) + Rabs (ix beta k)).
    assert (Es : (match k with O => 0 | S k' => Rabs (b k') end) + Rabs (a k) + Rabs (b k) = s). { destruct k as [|k]; [lia|]. unfold s. replace (S k - 1)%nat with k by lia. reflexivity. }
    assert (Ps : 0 <= s) by (unfold s; pose proof (Rabs_pos (ix beta (k-1))); pose proof (Rabs_pos (ix alpha k)); pose proof (Rabs_pos (ix beta k)); lra).
    eexists. split; [reflexivity|]. destruct (Rltb_spec B s) as [L|L].
    + splits; try lia; auto.
      * intros i Hi. destruct (Nat.eq_dec i k) as [->|N]; [rewrite Es; lra|]. specialize (K2 i ltac:(lia)). lra.
      * intros B' HB. specialize (HB k ltac:(lia)). lra.
    + splits; try lia; auto. intros i Hi. destruct (Nat.eq_dec i k) as [->|N]; [rewrite Es; lra|]. apply K2. lia.
  - fold m in E, H1. replace (1 + (m - 1))%nat with m in H1 by lia. exists B. splits; auto.
Qed.

Lemma changes_1 x : changes a b 1 x = if Rlt_dec (chp a b 1 x) 0 then 1%nat else 0%nat.
Proof. cbn [changes pow]. rewrite Rmult_1_l. destruct (Rlt_dec _ _); reflexivity. Qed.
Lemma sign_count_ok x : sign_count alpha beta x = Ok (changes a b m x).
Proof.
  unfold sign_count. rewrite rd_ix by (subst m; lia). cbn [bind]. match goal with |- context[foldM ?f ?l ?s0] => destruct (foldM_range f
    (fun k s => s = (chp a b k x, chp a b (S k) x, (-1) ^ changes a b (S k) x, changes a b (S k) x)) (length alpha - 1) 0%nat s0) as (s & E & H) end.
  - rewrite changes_1, chp_0, chp_1. fold a. rewrite Rmult_1_l. destruct (Rltb_spec (a 0%nat - x) 0) as [L|L]; destruct (Rlt_dec _ _); try lra; repeat f_equal; cbn; ring.
  - intros k s Hk ->. fold m in Hk. rewrite !rd_ix by (subst m; lia). cbn [bind]. rewrite Nat.add_1_r. eexists. split; [|reflexivity].
    fold a b. rewrite <- chp_SS. remember (changes a b (S k) x) as c. change (changes a b (S (S k)) x) with (changes a b (S k) x + if Rlt_dec ((-1) ^ changes a b (S k) x * chp a b (S (S k)) x) 0 then 1 else 0)%nat.
    rewrite <- Heqc. destruct (Rltb_spec ((-1) ^ c * chp a b (S (S k)) x) 0) as [L|L]; destruct (Rlt_dec _ _); try lra.
    + repeat f_equal. rewrite Nat.add_1_r. cbn. ring.
    + repeat f_equal; lia.
  - rewrite E. cbn [bind]. rewrite H. fold m. replace (S (0 + (m - 1)))%nat with m by lia. reflexivity.
Qed.

Hypothesis NZ : forall k, (S k < m)%nat -> b k <> 0.
Variable r : nat -> R.
Hypothesis HS : ordered_spectrum m (tri a b) r.
Lemma changes_spec x : (changes a b m x <= m)%nat /\ (forall i, (i < m)%nat -> (r i < x <-> (i < changes a b m x)%nat)).
Proof.
  destruct bis_bound_ok as (B & _ & RB & _). destruct (spectrum_ex a b m Hm NZ B RB) as (r' & s & HR & HS').
  assert (E : forall i, (i < m)%nat -> r' i = r i).
  { apply (ordered_unique m (tri a b)); auto. }
  pose proof (changes_below a b m B RB NZ (m - 1) x ltac:(lia) r' s HR) as C. replace (S (m - 1)) with m in C by lia. rewrite C.
  destruct (below_split m r' x (proj1 HS')) as (P1 & P2 & P3). split; auto. intros i Hi. rewrite <- E by auto. split.
  - intros L. destruct (le_lt_dec (below m r' x) i) as [G|G]; auto. specialize (P3 i G Hi). lra.
  - apply P2.
Qed.

Lemma bisect_ok mode B : (mode < m)%nat -> forall fuel a1 a2 l, a1 <= r mode <= a2 -> a2 - a1 <= 2 ^ fuel * (1 / 10 ^ 13 * B) ->
  (1 / 10 ^ 13 * B < a2 - a1 \/ exists x, l = Ok x /\ (x = a1 \/ x = a2)) ->
  exists x, bisect fuel alpha beta mode B a1 a2 l = Ok x /\ Rabs (x - r mode) <= 1 / 10 ^ 13 * B.
Proof.
  intros Hmode. set (eps := 1 / 10 ^ 13 * B). induction fuel as [|fuel IH]; intros a1 a2 l H1 H2 H3.
  - cbn [pow] in H2. unfold bisect. fold eps. destruct (Rltb_spec eps (a2 - a1)) as [L|L]; [lra|]. destruct H3 as [H3|(x & -> & H3)]; [lra|].
    exists x. split; auto. apply Rabs_le. destruct H3; subst x; lra.
  - cbn [bisect]. fold eps. destruct (Rltb_spec eps (a2 - a1)) as [L|L].
    + rewrite sign_count_ok. cbn [bind]. set (x := 1 / 2 * (a1 + a2)). destruct (changes_spec x) as (_ & C). specialize (C mode Hmode). cbn [pow] in H2.
      destruct (Nat.leb_spec (changes a b m x) mode) as [G|G].
      * assert (x <= r mode) by (apply Rnot_lt_le; intros K; apply C in K; lia). apply IH; [lra| |right; exists x; auto]. unfold x. lra.
      * assert (r mode < x) by (apply C; lia). apply IH; [lra| |right; exists x; auto]. unfold x. lra.
    + destruct H3 as [H3|(x & -> & H3)]; [lra|]. exists x. split; auto. apply Rabs_le. destruct H3; subst x; lra.
Qed.
End Bisection.
Lemma bisect_more mode alpha beta B : forall fuel fuel' a1 a2 l x, (fuel <= fuel')%nat -> bisect fuel alpha beta mode B a1 a2 l = Ok x -> bisect fuel' alpha beta mode B a1 a2 l = Ok x.
Proof.
  induction fuel as [|fuel IH]; intros fuel' a1 a2 l x H E.
  - destruct fuel'; auto. cbn [bisect] in *. destruct (Rltb _ _); auto. discriminate.
  - destruct fuel' as [|fuel']; [lia|]. cbn [bisect] in *. destruct (Rltb _ _); auto. apply bind_Ok in E as (c & Ec & E). rewrite Ec. cbn [bind]. destruct (c <=? mode)%nat; apply IH; auto; lia.
Qed.
Lemma spectrum_bound m a b r B : (0 < m)%nat -> (forall k, (S k < m)%nat -> b k <> 0) -> row_bound m a b B -> ordered_spectrum m (tri a b) r -> forall i, (i < m)%nat -> - B <= r i <= B.
Proof.
  intros Hm NZ RB HS i Hi. destruct (spectrum_ex a b m Hm NZ B RB) as (r' & s & HR & HS'). rewrite (ordered_unique _ _ _ _ HS HS' i Hi). destruct HR as (_ & _ & _ & HR). apply HR. lia.
Qed.
Lemma bisection_ok alpha beta fuel mode : (mode < length alpha)%nat -> (length alpha <= length beta)%nat ->
  (forall k, (S k < length alpha)%nat -> ix beta k <> 0) -> (exists i, (i < length alpha)%nat /\ (ix alpha i <> 0 \/ ix beta i <> 0)) -> (45 <= fuel)%nat ->
  forall r, ordered_spectrum (length alpha) (tri (ix alpha) (ix beta)) r ->
  exists x, bisection_method fuel alpha beta mode = Ok x /\ (forall B, row_bound (length alpha) (ix alpha) (ix beta) B -> Rabs (x - r mode) <= 1 / 10 ^ 13 * B).
Proof.
  intros Hmode Hb NZ (i0 & Hi0 & N0) Hf r HS. destruct (bis_bound_ok alpha beta ltac:(lia) Hb) as (B & E & RB & PB & Min).
  assert (PB' : 0 < B). { specialize (RB i0 Hi0). destruct (Rle_lt_or_eq_dec _ _ PB) as [|Z]; auto. exfalso.
    assert (G : 0 <= match i0 with O => 0 | S k => Rabs (ix beta k) end) by (destruct i0; [lra|apply Rabs_pos]).
    destruct N0 as [N|N]; apply Rabs_pos_lt in N; pose proof (Rabs_pos (ix alpha i0)); pose proof (Rabs_pos (ix beta i0)); lra. }
  destruct (bisect_ok alpha beta ltac:(lia) Hb NZ r HS mode B Hmode 45 (- B) B (Fail Uninit)) as (x & E2 & Hx).
  - apply (spectrum_bound (length alpha) (ix alpha) (ix beta)); auto. lia.
  - assert (P : 2 <= 2 ^ 45 * (1 / 10 ^ 13)) by (cbn [pow]; lra). nra.
  - left. cbn [pow]. lra.
  - exists x. unfold bisection_method. rewrite E. cbn [bind]. split; [now apply (bisect_more mode alpha beta B 45)|].
    intros B' HB. specialize (Min B' HB). eapply Rle_trans; [exact Hx|]. apply Rmult_le_compat_l; [cbn [pow]; lra|auto].
Qed.

