(** Properties C47, C69 and C70: the optimality criteria solver: the proofs. *)
From Coq Require Import List Arith Lia Bool Reals Lra.
From Verif Require Import Res SumR DenseR LUModel OCModel.
Import ListNotations.
Local Open Scope R_scope.
From Verif Require Import DenseProof.

Lemma Rltb_true x y : Rltb x y = true <-> x < y.
Proof. unfold Rltb. destruct (Rlt_dec x y); split; intros; auto; try lra; discriminate. Qed.
Lemma Rltb_false x y : Rltb x y = false <-> y <= x.
Proof. unfold Rltb. destruct (Rlt_dec x y); split; intros; auto; try lra; discriminate. Qed.
Lemma Rdiv_inv x y r : Rdiv_res x y = Ok r -> y <> 0 /\ r = x / y.
Proof. unfold Rdiv_res. destruct (Req_EM_T y 0); [discriminate|]. intros [= <-]. auto. Qed.

Lemma mapM_at {B} (f : nat -> res B) d : forall n s ys, mapM f (seq s n) = Ok ys -> forall i, (i < n)%nat -> f (s + i)%nat = Ok (nth i ys d).
Proof.
  induction n as [|n IH]; intros s ys H i Hi; [lia|]. cbn [seq mapM] in H. destruct (f s) as [y|] eqn:E; [|discriminate]. cbn [bind] in H.
  destruct (mapM f (seq (S s) n)) as [ys'|] eqn:E'; [|discriminate]. cbn [bind] in H. injection H as <-. destruct i as [|i]; [now rewrite Nat.add_0_r|].
  cbn [nth]. rewrite <- Nat.add_succ_comm. apply IH; auto. lia.
Qed.
Lemma mapM_ex {A B} (f : A -> res B) l : (forall i, In i l -> exists y, f i = Ok y) -> exists ys, mapM f l = Ok ys.
Proof.
  induction l as [|i l IH]; intros H; [now exists []|]. destruct (H i (or_introl eq_refl)) as (y & Ey). destruct IH as (ys & Eys); [intros; apply H; now right|].
  exists (y :: ys). cbn [mapM]. rewrite Ey. cbn [bind]. now rewrite Eys.
Qed.
Section O.
Variables (o : oc) (xk dfdx dgdx : list R) (g : list R -> R).
Let cand := oc_candidate o xk dfdx dgdx.
Let loop := oc_loop o xk dfdx dgdx g.

Definition bracket (l0 l1 : R) : Prop :=
  (l0 = oc_lmin o \/ exists x, cand l0 = Ok x /\ 0 < g x) /\ (l1 = oc_lmax o \/ exists x, cand l1 = Ok x /\ g x <= 0).
Lemma loop_inv fuel : forall l0 l1 lam x r, loop fuel l0 l1 lam x = Ok r -> bracket l0 l1 ->
  (lam = None \/ exists l, lam = Some l /\ cand l = Ok x /\ (l = l0 \/ l = l1)) ->
  exists l0' l1', bracket l0' l1' /\ l1' + l0' <> 0 /\ (l1' - l0') / (l1' + l0') <= oc_leps o /\
   (fst r = None /\ lam = None /\ r = (lam, x) \/ exists l, fst r = Some l /\ cand l = Ok (snd r) /\ (l = l0' \/ l = l1')) /\
   (0 < l0 <= l1 -> l0 <= l0' <= l1' /\ l1' <= l1).
Proof.
  assert (STOP : forall l0 l1 lam x r q, Rdiv_res (l1 - l0) (l1 + l0) = Ok q -> Rltb (oc_leps o) q = false -> Ok (lam, x) = Ok r -> bracket l0 l1 ->
    (lam = None \/ exists l, lam = Some l /\ cand l = Ok x /\ (l = l0 \/ l = l1)) ->
    exists l0' l1', bracket l0' l1' /\ l1' + l0' <> 0 /\ (l1' - l0') / (l1' + l0') <= oc_leps o /\
      (fst r = None /\ lam = None /\ r = (lam, x) \/ exists l, fst r = Some l /\ cand l = Ok (snd r) /\ (l = l0' \/ l = l1')) /\
      (0 < l0 <= l1 -> l0 <= l0' <= l1' /\ l1' <= l1)).
  { intros l0 l1 lam x r q Eq Ec [= <-] HB HL. apply Rdiv_inv in Eq as [Hne ->]. exists l0, l1. splits; auto; try (apply Rltb_false in Ec; lra).
    destruct HL as [->|(l & -> & H)]; [left; auto|right; exists l; cbn; auto]. }
  induction fuel as [|fuel IH]; intros l0 l1 lam x r H HB HL; unfold loop in H; cbn [oc_loop] in H.
  - destruct (Rdiv_res (l1 - l0) (l1 + l0)) as [q|] eqn:Eq; [|discriminate]. cbn [bind] in H. destruct (Rltb (oc_leps o) q) eqn:Ec; [discriminate|].
    eapply STOP; eauto.
  - destruct (Rdiv_res (l1 - l0) (l1 + l0)) as [q|] eqn:Eq; [|discriminate]. cbn [bind] in H. destruct (Rltb (oc_leps o) q) eqn:Ec; [|eapply STOP; eauto].
    set (lm := 5/10 * (l1 + l0)) in *. fold cand in H. destruct (cand lm) as [x'|] eqn:Ex; [|discriminate]. cbn [bind] in H.
    destruct (Rltb 0 (g x')) eqn:Eg.
    + destruct (IH _ _ _ _ _ H) as (l0' & l1' & A1 & A2 & A3 & A4 & A5).
      * split; [right; exists x'; split; auto; now apply Rltb_true|apply HB].
      * right. exists lm. auto.
      * exists l0', l1'. splits; auto.
        -- destruct A4 as [(B1 & B2 & _)|A4]; [discriminate|right; auto].
        -- intros Hl. destruct A5; [unfold lm; lra|unfold lm in *; lra].
    + destruct (IH _ _ _ _ _ H) as (l0' & l1' & A1 & A2 & A3 & A4 & A5).
      * split; [apply HB|right; exists x'; split; auto; now apply Rltb_false].
      * right. exists lm. auto.
      * exists l0', l1'. splits; auto.
        -- destruct A4 as [(B1 & B2 & _)|A4]; [discriminate|right; auto].
        -- intros Hl. destruct A5; [unfold lm; lra|unfold lm in *; lra].
Qed.
Lemma cand_entry l x i : cand l = Ok x -> (i < oc_n o)%nat -> exists df dg xi q p, rd dfdx i = Ok df /\ rd dgdx i = Ok dg /\ rd xk i = Ok xi /\
  Rdiv_res (- df) (dg * l) = Ok q /\ cpow q (oc_iota o) = Ok p /\
  nth i x 0 = (if Rltb (p * xi) (Rmax 0 ((1 - oc_move o) * xi)) then Rmax 0 ((1 - oc_move o) * xi) else if Rltb (Rmin 1 ((1 + oc_move o) * xi)) (p * xi) then Rmin 1 ((1 + oc_move o) * xi) else p * xi).
Proof.
  intros H Hi. unfold cand, oc_candidate in H. pose proof (mapM_at _ 0 _ _ _ H i Hi) as Hn. cbn [Nat.add] in Hn.
  destruct (rd dfdx i) as [df|] eqn:E1; [|discriminate]. cbn [bind] in Hn. destruct (rd dgdx i) as [dg|] eqn:E2; [|discriminate]. cbn [bind] in Hn.
  destruct (rd xk i) as [xi|] eqn:E3; [|discriminate]. cbn [bind] in Hn. destruct (Rdiv_res (- df) (dg * l)) as [q|] eqn:E4; [|discriminate]. cbn [bind] in Hn.
  destruct (cpow q (oc_iota o)) as [p|] eqn:E5; [|discriminate]. cbn [bind] in Hn. injection Hn as Hn. exists df, dg, xi, q, p. splits; auto.
Qed.
Lemma cand_length l x : cand l = Ok x -> length x = oc_n o.
Proof. intros H. apply mapM_length in H. now rewrite seq_length in H. Qed.
End O.

Lemma update_inv o fuel xk f dfdx dgdx g o' x : oc_update o fuel xk f dfdx dgdx g = Ok (o', x) ->
  oc_prev o' = f /\ oc_k o' = S (oc_k o) /\ exists l l0 l1, oc_candidate o xk dfdx dgdx l = Ok x /\ (l = l0 \/ l = l1) /\ bracket o xk dfdx dgdx g l0 l1 /\
    l1 + l0 <> 0 /\ (l1 - l0) / (l1 + l0) <= oc_leps o /\ (0 < oc_lmin o <= oc_lmax o -> oc_lmin o <= l0 <= l1 /\ l1 <= oc_lmax o).
Proof.
  intros H. unfold oc_update in H. destruct (oc_loop _ _ _ _ _ _ _ _ _ _) as [[lam x']|] eqn:E; [|discriminate]. cbn [bind] in H.
  destruct lam as [l|]; [|discriminate]. cbn [bind] in H. injection H as <- <-. cbn. splits; auto.
  destruct (loop_inv _ _ _ _ _ _ _ _ _ _ _ E) as (l0 & l1 & A1 & A2 & A3 & A4 & A5); [split; now left|now left|].
  destruct A4 as [(B & _)|(l' & B1 & B2 & B3)]; [discriminate|]. cbn in B1, B2. injection B1 as <-. exists l, l0, l1. splits; auto; intros; now apply A5.
Qed.
Lemma clamp_between x lo hi : lo <= hi -> lo <= (if Rltb x lo then lo else if Rltb hi x then hi else x) <= hi.
Proof.
  intros H. destruct (Rltb x lo) eqn:E1; [lra|]. apply Rltb_false in E1. destruct (Rltb hi x) eqn:E2; [lra|]. apply Rltb_false in E2. lra.
Qed.
Lemma cpow_pos q i : 0 < q -> cpow q i = Ok (Rpower q i).
Proof. intros H. unfold cpow. destruct (Rlt_dec 0 q); [auto|lra]. Qed.
Lemma cand_ok o xk dfdx dgdx l : (oc_n o <= length xk)%nat -> (oc_n o <= length dfdx)%nat -> (oc_n o <= length dgdx)%nat ->
  (forall i, (i < oc_n o)%nat -> dfdx <> [] /\ 0 < - nth i dfdx 0 / (nth i dgdx 0 * l) /\ nth i dgdx 0 * l <> 0) ->
  exists x, oc_candidate o xk dfdx dgdx l = Ok x.
Proof.
  intros H1 H2 H3 H. unfold oc_candidate. apply mapM_ex. intros i Hi%in_seq. destruct (H i) as (_ & Hp & Hn); [lia|].
  rewrite (rd_nth dfdx i 0), (rd_nth dgdx i 0), (rd_nth xk i 0) by lia. cbn [bind].
  rewrite Rdiv_res_ok by auto. cbn [bind]. rewrite cpow_pos by auto. cbn [bind]. eauto.
Qed.
Lemma pow_half_small a b : 0 < b -> exists k, a * (1/2) ^ k <= b.
Proof.
  intros Hb. destruct (Rle_dec a 0) as [Ha|Ha]; [exists O; cbn; lra|]. assert (Ha' : 0 < a) by lra.
  destruct (pow_lt_1_zero (1/2) ltac:(rewrite Rabs_pos_eq; lra) (b / a)) as (k & Hk); [apply Rdiv_lt_0_compat; lra|].
  exists k. specialize (Hk k (le_n _)). rewrite Rabs_pos_eq in Hk by (apply pow_le; lra). assert (a * (1/2)^k < a * (b / a)) by (apply Rmult_lt_compat_l; auto). replace (a * (b / a)) with b in H by (field; lra). lra.
Qed.
Lemma loop_terminates o xk dfdx dgdx g : 0 < oc_leps o ->
  forall k l0 l1 lam x, (forall l, l0 <= l -> exists x, oc_candidate o xk dfdx dgdx l = Ok x) -> 0 < l0 <= l1 -> (l1 - l0) * (1/2) ^ k <= oc_leps o * (2 * l0) ->
  exists r, forall fuel, (k <= fuel)%nat -> oc_loop o xk dfdx dgdx g fuel l0 l1 lam x = Ok r.
Proof.
  intros He. induction k as [|k IH]; intros l0 l1 lam x HC Hl Hk.
  - exists (lam, x). intros fuel _. assert (Ec : Rltb (oc_leps o) ((l1 - l0) / (l1 + l0)) = false).
    { apply Rltb_false. apply Rmult_le_reg_r with (l1 + l0); [lra|]. replace ((l1 - l0) / (l1 + l0) * (l1 + l0)) with (l1 - l0) by (field; lra). cbn in Hk. nra. }
    destruct fuel; cbn [oc_loop]; rewrite Rdiv_res_ok by lra; cbn [bind]; now rewrite Ec.
  - destruct (Rltb (oc_leps o) ((l1 - l0) / (l1 + l0))) eqn:Ec.
    + set (lm := 5/10 * (l1 + l0)). destruct (HC lm) as (x' & Ex); [unfold lm; lra|].
      assert (Hlm : l0 <= lm <= l1) by (unfold lm; lra). assert (Hk' : (l1 - l0) / 2 * (1/2) ^ k <= oc_leps o * (2 * l0)) by (cbn [pow] in Hk; lra).
      assert (P : 0 <= (1/2) ^ k) by (apply pow_le; lra).
      destruct (Rltb 0 (g x')) eqn:Eg.
      * destruct (IH lm l1 (Some lm) x') as (r & Hr); [intros; apply HC; lra|lra| |].
        { replace (l1 - lm) with ((l1 - l0) / 2) by (unfold lm; field). assert (oc_leps o * (2 * l0) <= oc_leps o * (2 * lm)) by (apply Rmult_le_compat_l; lra). lra. }
        exists r. intros fuel Hf. destruct fuel as [|fuel]; [lia|]. cbn [oc_loop]. rewrite Rdiv_res_ok by lra. cbn [bind]. rewrite Ec. fold lm. rewrite Ex. cbn [bind]. rewrite Eg. apply Hr. lia.
      * destruct (IH l0 lm (Some lm) x') as (r & Hr); [auto|lra| |].
        { replace (lm - l0) with ((l1 - l0) / 2) by (unfold lm; field). lra. }
        exists r. intros fuel Hf. destruct fuel as [|fuel]; [lia|]. cbn [oc_loop]. rewrite Rdiv_res_ok by lra. cbn [bind]. rewrite Ec. fold lm. rewrite Ex. cbn [bind]. rewrite Eg. apply Hr. lia.
    + exists (lam, x). intros fuel _. destruct fuel; cbn [oc_loop]; rewrite Rdiv_res_ok by lra; cbn [bind]; now rewrite Ec.
Qed.
Lemma loop_some o xk dfdx dgdx g fuel : forall l0 l1 l x r, oc_loop o xk dfdx dgdx g fuel l0 l1 (Some l) x = Ok r -> exists l', fst r = Some l'.
Proof.
  induction fuel as [|fuel IH]; intros l0 l1 l x r H; cbn [oc_loop] in H; (destruct (Rdiv_res (l1 - l0) (l1 + l0)) as [q|]; [|discriminate]); cbn [bind] in H; destruct (Rltb (oc_leps o) q); try discriminate.
  - injection H as <-. cbn. eauto.
  - destruct (oc_candidate _ _ _ _ _) as [x'|]; [|discriminate]. cbn [bind] in H. destruct (Rltb 0 (g x')); eapply IH; eauto.
  - injection H as <-. cbn. eauto.
Qed.
Lemma Rltb_t x y : x < y -> Rltb x y = true. Proof. apply Rltb_true. Qed.
Lemma Rltb_f x y : y <= x -> Rltb x y = false. Proof. apply Rltb_false. Qed.
Lemma Rpower_1' x : 0 < x -> Rpower x 1 = x.
Proof. apply Rpower_1. Qed.


Lemma C47_box_partial_pf : forall o fuel xk f dfdx dgdx g o' x, oc_update o fuel xk f dfdx dgdx g = Ok (o', x) ->
  (forall i, (i < oc_n o)%nat -> 0 <= nth i xk 0 <= 1) -> 0 <= oc_move o ->
  length x = oc_n o /\
  (forall i, (i < oc_n o)%nat -> 0 <= nth i x 0 <= 1 /\ Rabs (nth i x 0 - nth i xk 0) <= oc_move o * nth i xk 0) /\
  ((forall i, (i < oc_n o)%nat -> nth i (oc_xmin o) 0 <= 0 /\ 1 <= nth i (oc_xmax o) 0) ->
   forall i, (i < oc_n o)%nat -> nth i (oc_xmin o) 0 <= nth i x 0 <= nth i (oc_xmax o) 0).
Proof.
  intros o fuel xk f dfdx dgdx g o' x H Hx Hm. apply update_inv in H as (_ & _ & l & l0 & l1 & Ec & _).
  assert (B : forall i, (i < oc_n o)%nat -> 0 <= nth i x 0 <= 1 /\ Rabs (nth i x 0 - nth i xk 0) <= oc_move o * nth i xk 0).
  { intros i Hi. destruct (cand_entry _ _ _ _ _ _ _ Ec Hi) as (df & dg & xi & q & p & _ & _ & E3 & _ & _ & E). specialize (Hx i Hi).
    assert (xi = nth i xk 0). { apply rd_inv in E3 as Hlt. rewrite (rd_nth xk i 0) in E3 by auto. congruence. } subst xi.
    set (lo := Rmax 0 _) in E. set (hi := Rmin 1 _) in E. set (v := nth i xk 0) in *.
    assert (L1 : 0 <= lo) by apply Rmax_l. assert (L2 : (1 - oc_move o) * v <= lo) by apply Rmax_r. assert (L3 : hi <= 1) by apply Rmin_l. assert (L4 : hi <= (1 + oc_move o) * v) by apply Rmin_r.
    assert (lo <= hi). { unfold lo, hi. apply Rmax_lub; apply Rmin_glb; nra. }
    pose proof (clamp_between (p * v) lo hi H) as HB. rewrite <- E in HB. split; [lra|]. apply Rabs_le. nra. }
  splits; auto; [now apply cand_length in Ec|]. intros HB i Hi. specialize (HB i Hi). specialize (B i Hi). lra.
Qed.

Lemma C47_refuted_pf : exists o fuel xk f dfdx dgdx g o' x, oc_n o = 1%nat /\ nth 0 (oc_xmin o) 0 <= nth 0 xk 0 <= nth 0 (oc_xmax o) 0 /\
  oc_update o fuel xk f dfdx dgdx g = Ok (o', x) /\ nth 0 x 0 < nth 0 (oc_xmin o) 0.
Proof.
  exists (oc_new 1 1 1 3 (4/10) (5/10) [1/2] [1]), 1%nat, [1/2], 0, [-1], [1], (fun _ => -1). do 2 eexists. cbn [oc_n oc_new oc_xmin oc_xmax nth]. split; [auto|]. split; [lra|]. split.
  - unfold oc_update, oc_new. cbn [oc_n oc_lmin oc_lmax oc_iota oc_leps oc_move oc_loop]. rewrite Rdiv_res_ok by lra. cbn [bind oc_leps]. rewrite Rltb_t by lra.
    unfold oc_candidate. cbn [oc_n seq mapM rd nth_error bind oc_iota oc_move]. rewrite Rdiv_res_ok by lra. cbn [bind]. rewrite cpow_pos by lra. cbn [bind]. rewrite Rpower_1' by lra.
    rewrite (Rmax_right 0) by lra. rewrite (Rmin_right 1) by lra. rewrite Rltb_f by lra. rewrite Rltb_f by lra. rewrite Rltb_f by lra. cbv iota. rewrite Rdiv_res_ok by lra. cbn [bind]. rewrite Rltb_f by lra. cbn [bind]. reflexivity.
  - cbn. lra.
Qed.

Lemma C69_bracket_partial_pf : forall o fuel xk f dfdx dgdx g o' x, oc_update o fuel xk f dfdx dgdx g = Ok (o', x) ->
  exists l l0 l1, oc_candidate o xk dfdx dgdx l = Ok x /\ (l = l0 \/ l = l1) /\ (l1 - l0) / (l1 + l0) <= oc_leps o /\
    (0 < oc_lmin o <= oc_lmax o -> oc_lmin o <= l0 <= l1 /\ l1 <= oc_lmax o) /\
    (l0 = oc_lmin o \/ exists y, oc_candidate o xk dfdx dgdx l0 = Ok y /\ 0 < g y) /\
    (l1 = oc_lmax o \/ exists y, oc_candidate o xk dfdx dgdx l1 = Ok y /\ g y <= 0).
Proof.
  intros o fuel xk f dfdx dgdx g o' x H. apply update_inv in H as (_ & _ & l & l0 & l1 & Ec & El & [HB1 HB2] & _ & Hw & Hr). exists l, l0, l1. splits; auto; intros; now apply Hr.
Qed.

Lemma C69_refuted_pf : exists o fuel xk f dfdx dgdx g o' x y, oc_update o fuel xk f dfdx dgdx g = Ok (o', x) /\ 0 < g x /\
  oc_candidate o xk dfdx dgdx (oc_lmax o) = Ok y /\ g y <= 0.
Proof.
  set (o := oc_new 1 1 1 3 (4/10) 1 [0] [1]).
  assert (C : forall l, 1 < l -> oc_candidate o [1/2] [-1] [1] l = Ok [/ l * (1/2)]).
  { intros l Hl. pose proof (Rinv_0_lt_compat l ltac:(lra)) as P. assert (P1 : / l <= 1) by (rewrite <- Rinv_1; apply Rinv_le_contravar; lra).
    unfold oc_candidate, o, oc_new. cbn [oc_n seq mapM rd nth_error bind oc_iota oc_move oc_lmax]. rewrite Rdiv_res_ok by lra. cbn [bind]. replace (- (-1) / (1 * l)) with (/ l) by (field; lra).
    rewrite cpow_pos by lra. cbn [bind]. rewrite Rpower_1' by lra. rewrite (Rmax_right 0) by lra. rewrite (Rmin_right 1) by lra. rewrite Rltb_f by lra. rewrite Rltb_f by lra. reflexivity. }
  exists o, 1%nat, [1/2], 0, [-1], [1], (fun x => nth 0 x 0 - 1/5). do 3 eexists. split; [|split; [|split; [apply C; cbn; lra|]]].
  - unfold oc_update. cbn [oc_loop]. change (oc_lmax o) with 3. change (oc_lmin o) with 1. rewrite Rdiv_res_ok by lra. cbn [bind]. change (oc_leps o) with (4/10). rewrite Rltb_t by lra.
    rewrite C by lra. cbn [bind nth]. rewrite (Rltb_t 0) by lra. rewrite Rdiv_res_ok by lra. cbn [bind]. rewrite Rltb_f by lra. cbn [bind]. reflexivity.
  - cbn. lra.
  - cbn. lra.
Qed.

Lemma C69_terminates_pf : forall o xk f dfdx dgdx g, 0 < oc_lmin o < oc_lmax o -> 0 < oc_leps o < (oc_lmax o - oc_lmin o) / (oc_lmax o + oc_lmin o) ->
  length xk = oc_n o -> length dfdx = oc_n o -> length dgdx = oc_n o ->
  (forall i, (i < oc_n o)%nat -> nth i dfdx 0 < 0 /\ 0 < nth i dgdx 0) ->
  exists o' x fuel0, forall fuel, (fuel0 <= fuel)%nat -> oc_update o fuel xk f dfdx dgdx g = Ok (o', x).
Proof.
  intros o xk f dfdx dgdx g Hl He H1 H2 H3 Hd.
  assert (HC : forall l, oc_lmin o <= l -> exists x, oc_candidate o xk dfdx dgdx l = Ok x).
  { intros l Hll. apply cand_ok; try lia. intros i Hi. destruct (Hd i Hi) as [D1 D2]. split; [intros ->; cbn in H2; lia|].
    assert (0 < nth i dgdx 0 * l) by (apply Rmult_lt_0_compat; lra). split; [apply Rdiv_lt_0_compat; lra|lra]. }
  destruct (pow_half_small (oc_lmax o - oc_lmin o) (oc_leps o * (2 * oc_lmin o))) as (k & Hk); [apply Rmult_lt_0_compat; lra|].
  destruct (loop_terminates o xk dfdx dgdx g ltac:(lra) k (oc_lmin o) (oc_lmax o) None (repeat 0 (oc_n o)) HC ltac:(lra) Hk) as ([lam x] & Hr).
  assert (HS : exists l, lam = Some l).
  { specialize (Hr (S k) ltac:(lia)). cbn [oc_loop] in Hr. rewrite Rdiv_res_ok in Hr by lra. cbn [bind] in Hr. rewrite Rltb_t in Hr by lra.
    destruct (oc_candidate _ _ _ _ _) as [x'|]; [|discriminate]. cbn [bind] in Hr. destruct (Rltb 0 (g x')); eapply loop_some in Hr; exact Hr. }
  destruct HS as (l & ->). do 2 eexists. exists k. intros fuel Hf. unfold oc_update. rewrite Hr by auto. cbn [bind]. reflexivity.
Qed.

Lemma C69_optimal_fixed_pf : forall o xk dfdx dgdx l, length xk = oc_n o -> length dfdx = oc_n o -> length dgdx = oc_n o -> 0 <= oc_move o ->
  (forall i, (i < oc_n o)%nat -> 0 <= nth i xk 0 <= 1 /\ nth i dgdx 0 * l <> 0 /\ nth i dfdx 0 + l * nth i dgdx 0 = 0) ->
  oc_candidate o xk dfdx dgdx l = Ok xk.
Proof.
  intros o xk dfdx dgdx l H1 H2 H3 Hm H.
  assert (G : exists x, oc_candidate o xk dfdx dgdx l = Ok x).
  { apply cand_ok; try lia. intros i Hi. destruct (H i Hi) as (A & B & C). split; [intros ->; cbn in H2; lia|]. split; auto.
    replace (- nth i dfdx 0) with (nth i dgdx 0 * l) by lra. unfold Rdiv. rewrite Rinv_r by auto. lra. }
  destruct G as (x & Ex). rewrite Ex. f_equal. apply nth_ext with 0 0; [rewrite (cand_length _ _ _ _ _ _ Ex); lia|]. intros i Hi. rewrite (cand_length _ _ _ _ _ _ Ex) in Hi.
  destruct (cand_entry _ _ _ _ _ _ _ Ex Hi) as (df & dg & xi & q & p & E1 & E2 & E3 & E4 & E5 & E). destruct (H i Hi) as (A & B & C).
  rewrite (rd_nth dfdx i 0) in E1 by lia. rewrite (rd_nth dgdx i 0) in E2 by lia. rewrite (rd_nth xk i 0) in E3 by lia. injection E1 as <-. injection E2 as <-. injection E3 as <-.
  apply Rdiv_inv in E4 as [_ ->]. replace (- nth i dfdx 0) with (nth i dgdx 0 * l) in E5 by lra. unfold Rdiv in E5. rewrite Rinv_r in E5 by auto. rewrite cpow_pos in E5 by lra. injection E5 as <-.
  replace (Rpower 1 (oc_iota o)) with 1 in E by (unfold Rpower; rewrite ln_1, Rmult_0_r, exp_0; auto). rewrite Rmult_1_l in E. rewrite E.
  set (v := nth i xk 0) in *. rewrite Rltb_f by (apply Rmax_lub; nra). rewrite Rltb_f by (apply Rmin_glb; nra). reflexivity.
Qed.

Lemma C70_convergence_partial_pf : forall a b eps, 0 < a + b -> (relative_change a b eps = true <-> Rabs (a - b) < eps * (a + b)).
Proof.
  intros a b eps H. unfold relative_change. destruct (Req_EM_T (a + b) 0); [lra|]. rewrite Rltb_true. split; intros G.
  - apply Rmult_lt_compat_r with (r := a + b) in G; auto. replace (Rabs (a - b) / (a + b) * (a + b)) with (Rabs (a - b)) in G by (field; lra). lra.
  - apply Rmult_lt_reg_r with (a + b); auto. replace (Rabs (a - b) / (a + b) * (a + b)) with (Rabs (a - b)) by (field; lra). lra.
Qed.

Lemma C70_negative_pf : forall a b eps, a + b < 0 -> 0 < eps -> relative_change a b eps = true.
Proof.
  intros a b eps H He. unfold relative_change. destruct (Req_EM_T (a + b) 0); [lra|]. rewrite Rltb_true.
  apply Rle_lt_trans with 0; auto. unfold Rdiv. pose proof (Rabs_pos (a - b)). assert (/ (a + b) < 0) by (apply Rinv_lt_0_compat; lra). assert (0 <= Rabs (a - b) * (- / (a + b))) by (apply Rmult_le_pos; lra). lra.
Qed.

Lemma C70_refuted_pf : exists o f0, 0 < oc_eps o /\ oc_is_convergence o f0 = true /\ 1000 * oc_eps o < Rabs (f0 - oc_prev o) / Rmax (Rabs f0) (Rabs (oc_prev o)).
Proof.
  exists (mkOC 1 0 (-2) (1 / 100000) [] [] 1 1 3 (4/10) 1), (-1). cbn [oc_eps oc_prev]. split; [lra|]. split.
  - apply C70_negative_pf; cbn; lra.
  - rewrite (Rabs_right (-1 - -2)), (Rabs_left (-1)), (Rabs_left (-2)) by lra. rewrite Rmax_right by lra. replace (- -2) with 2 by lra. lra.
Qed.
