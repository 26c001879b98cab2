(** The subdivision and the whole constructor, without any condition. *)
From Coq Require Import List Arith ZArith Lia Bool Reals Lra Psatz.
From Verif Require Import Res DenseModel DenseR LUModel DelaunayModel DelaunaySpec DelaunaySpec2 DelaunayProof DelaunayProof2 DelaunayProof6 DelaunayProof11.
Import ListNotations.
Local Open Scope R_scope.

(** boundary nodes stay where they are *)
Definition fixed (ns ns' : list dnode) : Prop :=
  (length ns <= length ns')%nat /\
  forall i n, nth_error ns i = Some n -> isonb n = true -> exists n', nth_error ns' i = Some n' /\ dx n' = dx n /\ isonb n' = true.
Lemma fixed_refl ns : fixed ns ns.
Proof. split; [lia|]. intros i n H B. exists n. auto. Qed.
Lemma fixed_trans a b c : fixed a b -> fixed b c -> fixed a c.
Proof.
  intros [A0 A1] [B0 B1]. split; [lia|]. intros i n H B. destruct (A1 i n H B) as (n1 & H1 & D1 & O1). destruct (B1 i n1 H1 O1) as (n2 & H2 & D2 & O2).
  exists n2. splits; auto. congruence.
Qed.
Lemma same_fixed ns ns' : same_nodes ns ns' -> fixed ns ns' /\ length ns' = length ns.
Proof.
  intros (S1 & S2 & S3). assert (L : length ns' = length ns) by (rewrite <- (map_length dx ns'), S1; apply map_length). split; auto. split; [lia|].
  intros i n H B. destruct (nth_error ns' i) as [n'|] eqn:E; [|apply nth_error_None in E; apply nth_error_lt in H; lia].
  exists n'. splits; auto.
  - assert (Q : nth_error (map dx ns') i = nth_error (map dx ns) i) by now rewrite S1. rewrite !nth_error_map, H, E in Q. cbn in Q. congruence.
  - assert (O : onb ns i = true) by (unfold onb; now rewrite (nth_error_nth _ _ _ H)). apply S3 in O. unfold onb in O. rewrite (nth_error_nth _ _ _ E) in O. exact O.
Qed.
Lemma set_x_ok ns i x ns' : set_x ns i x = Ok ns' -> length ns' = length ns /\ (forall k, k <> i -> nth_error ns' k = nth_error ns k) /\
  forall n, nth_error ns i = Some n -> exists n', nth_error ns' i = Some n' /\ isonb n' = isonb n.
Proof.
  unfold set_x. intros W. binv W. assert (L := rd_inv _ _ _ E). apply rd_Ok in E. apply wr_inv in W. destruct W as [_ ->]. splits.
  - apply upd_length.
  - intros k Hk. apply nth_error_upd_ne. auto.
  - intros n Hn. rewrite nth_error_upd_eq by assumption. eexists. split; [reflexivity|]. cbn. congruence.
Qed.
Definition only (i : nat) (ns ns' : list dnode) : Prop :=
  length ns' = length ns /\ (forall k, k <> i -> nth_error ns' k = nth_error ns k) /\
  forall n, nth_error ns i = Some n -> exists n', nth_error ns' i = Some n' /\ isonb n' = isonb n.
Lemma only_refl i ns : only i ns ns.
Proof. split; [|split]; auto. intros n H. exists n. auto. Qed.
Lemma only_trans i a b c : only i a b -> only i b c -> only i a c.
Proof.
  intros (A0 & A1 & A2) (B0 & B1 & B2). split; [congruence|]. split.
  - intros k Hk. now rewrite B1, A1.
  - intros n Hn. destruct (A2 n Hn) as (n1 & H1 & O1). destruct (B2 n1 H1) as (n2 & H2 & O2). exists n2. split; congruence.
Qed.
Lemma move_only ns es i st ns' : move_node ns es i st = Ok ns' -> only i ns ns'.
Proof.
  unfold move_node. intros W. binv W. binv W. binv W. binv W. apply set_x_ok in E, W. apply (only_trans i _ v); [exact E|]. apply (only_trans i _ v0); [|exact W].
  clear W E1 E2 E v1 v2. revert v E0. induction st as [|j st IH]; intros v E.
  { inversion E; subst. apply only_refl. }
  rewrite foldM_cons in E. binv E. apply (only_trans i _ v1); [|now apply IH]. clear E. do 4 binv E0. now apply set_x_ok in E0.
Qed.
Lemma smooth_fixed fuel ns es M' : laplacesmoothing fuel (mkMesh ns es) = Ok M' -> mes M' = es /\ length (mns M') = length ns /\ fixed ns (mns M') .
Proof.
  unfold laplacesmoothing. cbn [mes mns]. intros W. binv W. injection W as <-. cbn [mes mns]. split; auto.
  enough (length v = length ns /\ fixed ns v) by tauto. revert E. generalize (seq 0 (length ns)). intros l. revert ns.
  induction l as [|i l IH]; intros ns E.
  { inversion E; subst. split; auto. apply fixed_refl. }
  rewrite foldM_cons in E. binv E. assert (Q : length v0 = length ns /\ fixed ns v0).
  { binv E0. apply rd_Ok in E1. destruct (isonb v1) eqn:B. { inversion E0; subst. split; auto. apply fixed_refl. }
    cbv zeta in E0. binv E0. apply move_only in E0. destruct E0 as (L & K & _). split; auto. split; [lia|]. intros k n Hk Bk.
    destruct (Nat.eq_dec k i) as [->|Ne]; [congruence|]. exists n. rewrite K by auto. auto. }
  destruct Q as [Q1 Q2]. destruct (IH _ E) as [Q3 Q4]. split; [congruence|]. eapply fixed_trans; eauto.
Qed.
Lemma longest_lt M d k j : longest M = Ok (d, k, j) -> (j < 3)%nat /\ 0 <= d.
Proof.
  unfold longest. intros W. assert (G : forall (l : list (nat * delem)) (acc : R * nat * nat) r, foldM (fun acc q => let j := fst q in let e := snd q in
    foldM (fun acc k => a <- rd (mns M) (at3 (en e) (nx3 k)) ;; b <- rd (mns M) (at3 (en e) (pv3 k)) ;; d <- ndist a b ;;
      Ok (if Rltb (fst (fst acc)) d && eact e then (d, j, k) else acc)) [0; 1; 2]%nat acc) l acc = Ok r -> (snd acc < 3)%nat /\ 0 <= fst (fst acc) -> (snd r < 3)%nat /\ 0 <= fst (fst r)).
  { clear. induction l as [|q l IH]; intros acc r H P. { inversion H; subst; auto. }
    rewrite foldM_cons in H. binv H. apply (IH v); auto. clear H IH. cbv zeta in E. revert E P.
    assert (G : forall (ks : list nat) (acc : R * nat * nat) r, (forall k, In k ks -> (k < 3)%nat) ->
      foldM (fun acc k => a <- rd (mns M) (at3 (en (snd q)) (nx3 k)) ;; b <- rd (mns M) (at3 (en (snd q)) (pv3 k)) ;; d <- ndist a b ;;
      Ok (if Rltb (fst (fst acc)) d && eact (snd q) then (d, fst q, k) else acc)) ks acc = Ok r -> (snd acc < 3)%nat /\ 0 <= fst (fst acc) -> (snd r < 3)%nat /\ 0 <= fst (fst r)).
    { induction ks as [|k ks IH]; intros a r0 Hk H P. { inversion H; subst; auto. }
      rewrite foldM_cons in H. binv H. apply (IH v0 r0); auto. { intros; apply Hk; cbn; auto. }
      do 3 binv E. injection E as <-. destruct (Rltb (fst (fst a)) v3) eqn:C; cbn [andb]; auto. destruct (eact (snd q)); auto.
      cbn [fst snd]. split; [apply Hk; cbn; auto|]. apply Rltb_t in C. lra. }
    apply G. intros k Hk. cbn in Hk. lia. }
  apply (G _ _ _ W). cbn. split; [lia|lra].
Qed.
Lemma refine_fixed fuel ns es d M' : refine fuel (mkMesh ns es) = Ok (d, M') -> cs (fun k => (k < length ns)%nat) true es ->
  cs (fun k => (k < length ns + 1)%nat) true (mes M') /\ length (mns M') = (length ns + 1)%nat /\ fixed ns (mns M') /\ (length es < length (mes M'))%nat /\ 0 <= d.
Proof.
  intros W C. unfold refine in W. binv W. destruct v as [[d0 k] j]. do 4 binv W. cbn [mns mes] in W. cbv zeta in W. binv W. inversion W; subst.
  destruct (longest_lt _ _ _ _ E) as [Hj Hd].
  rewrite app_length in E4. cbn [length] in E4. replace (length ns + 1 - 1)%nat with (length ns) in E4 by lia.
  assert (C0 : cs (fun k => (k < length ns + 1)%nat) true es) by (eapply cs_mono; [|exact C]; intros; cbn beta in *; lia).
  assert (Lp : (fun k => (k < length ns + 1)%nat) (length ns)) by (cbn beta; lia).
  destruct (cs_geton (fun k => (k < length ns + 1)%nat) true _ _ _ _ _ _ _ _ _ Hj Lp C0 E4) as (H1 & H2 & H3).
  destruct (same_fixed _ _ H2) as [F L]. rewrite app_length in L. cbn [length] in L. splits; auto.
  refine (fixed_trans _ _ _ _ F). split; [rewrite app_length; lia|]. intros i n Hn B. exists n. splits; auto. rewrite nth_error_app1; auto. eapply nth_error_lt; eauto.
Qed.
Lemma fine_fixed fuel maxside : forall rounds ns es M', makefinemesh rounds fuel (mkMesh ns es) maxside = Ok M' -> cs (fun k => (k < length ns)%nat) true es ->
  exists r, (1 <= r <= rounds)%nat /\ length (mns M') = (length ns + r)%nat /\ cs (fun k => (k < length ns + r)%nat) true (mes M') /\ fixed ns (mns M') /\ (length es + r <= length (mes M'))%nat /\ 0 <= maxside.
Proof.
  induction rounds as [|rounds IH]; intros ns es M' W C; cbn [makefinemesh] in W; [discriminate|].
  binv W. destruct v as [d [n1 e1]]. binv W. destruct (refine_fixed _ _ _ _ _ E C) as (C1 & L1 & F1 & L2 & D). cbn [mns mes] in *.
  destruct (smooth_fixed _ _ _ _ E0) as (S1 & S2 & S3). destruct v as [n2 e2]. cbn [mns mes] in *. subst e2. destruct (Rltb maxside d) eqn:Lt.
  - rewrite <- L1, <- S2 in C1. destruct (IH _ _ _ W C1) as (r & Hr & A1 & A2 & A3 & A4 & A5). exists (S r).
    replace (length ns + S r)%nat with (length n2 + r)%nat by lia. splits; auto; try lia. eapply fixed_trans; [exact F1|]. eapply fixed_trans; eauto.
  - inversion W; subst. cbn [mns mes]. exists 1%nat. apply Rltb_f in Lt. splits; auto; try lia; try lra. eapply fixed_trans; eauto.
Qed.
Lemma ten_fixed fuel : forall l ns es M', foldM (fun M (_ : nat) => laplacesmoothing fuel M) l (mkMesh ns es) = Ok M' -> mes M' = es /\ length (mns M') = length ns /\ fixed ns (mns M').
Proof.
  induction l as [|i l IH]; intros ns es M' W. { inversion W; subst. splits; auto. apply fixed_refl. }
  rewrite foldM_cons in W. binv W. apply smooth_fixed in E. destruct v as [n1 e1]. cbn [mns mes] in *. destruct E as (-> & L & F).
  apply IH in W. destruct W as (A & B & C). splits; auto; try congruence. eapply fixed_trans; eauto.
Qed.

(** ** the new number of a listed node *)
Lemma filter_seq_nth (g : nat -> bool) : forall n k s, (k < n)%nat -> g (s + k)%nat = true -> nth_error (filter g (seq s n)) (length (filter g (seq s k))) = Some (s + k)%nat.
Proof.
  induction n as [|n IH]; intros k s Hk Hg; [lia|]. destruct k as [|k].
  - rewrite Nat.add_0_r in *. cbn [seq filter length]. rewrite Hg. reflexivity.
  - cbn [seq filter]. replace (s + S k)%nat with (S s + k)%nat in * by lia. destruct (g s); cbn [length nth_error]; apply IH; auto; lia.
Qed.
Lemma filter_firstn_len (ns : list dnode) (g : nat -> bool) : forall k, (k <= length ns)%nat -> (forall i m, nth_error ns i = Some m -> isset m = g i) ->
  length (filter isset (firstn k ns)) = length (filter g (seq 0 k)).
Proof.
  intros k Hk H. rewrite <- (map_length dx), (filter_index (firstn k ns) g), map_length.
  - rewrite firstn_length, Nat.min_l by assumption. reflexivity.
  - intros i m Hm. apply H. clear -Hm. revert k i Hm. induction ns as [|y ns IH]; intros [|k] [|i] Hm; cbn in *; try discriminate; auto. now apply (IH k).
Qed.
(** the first position of a number on a list *)
Lemma order_first l k a : order l k = Some a <-> nth_error l a = Some k /\ forall i, (i < a)%nat -> nth_error l i <> Some k.
Proof.
  revert a. induction l as [|x l IH]; intros a; cbn [order].
  { split; [discriminate|]. intros [H _]. destruct a; discriminate. }
  destruct (Nat.eqb_spec x k) as [->|Ne].
  - split.
    + intros H. inversion H; subst. split; [reflexivity|]. intros i Hi. lia.
    + intros [H F]. destruct a as [|a]; auto. exfalso. apply (F 0%nat); [lia|reflexivity].
  - destruct (order l k) as [b|] eqn:E.
    + split.
      * intros H. inversion H; subst. destruct (proj1 (IH b) eq_refl) as [H1 H2]. split; auto. intros [|i] Hi; [cbn; congruence|]. cbn. apply H2. lia.
      * intros [H F]. destruct a as [|a]; [inversion H; congruence|]. f_equal. enough (Some b = Some a) by congruence. apply IH. split; auto. intros i Hi. apply (F (S i)). lia.
    + split; [discriminate|]. intros [H F]. destruct a as [|a]; [inversion H; congruence|]. exfalso. enough (None = Some a) by discriminate. apply IH. split; auto. intros i Hi. apply (F (S i)). lia.
Qed.
Lemma order_None l k : order l k = None <-> ~ In k l.
Proof.
  induction l as [|x l IH]; cbn [order]. { split; auto. } destruct (Nat.eqb_spec x k) as [->|Ne].
  - split; [discriminate|]. intros H. exfalso. apply H. now left.
  - destruct (order l k) as [b|].
    + split; [discriminate|]. intros H. exfalso. destruct IH as [_ IH]. enough (Some b = None) by discriminate. apply IH. intros Hin. apply H. now right.
    + split; auto. intros _ [H|H]; [congruence|]. destruct IH as [IH _]. now apply IH.
Qed.
