(** Histories, conversions, arithmetic and products of the sparse containers. *)
From Coq Require Import List Arith Lia Bool Sorting.Sorted Permutation Reals Lra.
From Verif Require Import Res SumR SparseModel SparseSpec SparseProof.
Import ListNotations.

Section Histories.
Context {T : Type}.
Variable zero : T.
Implicit Types (h : list (nat * nat * T)) (m : csr T) (a : lil T).

Lemma last_write_snoc h i' j' v i j :
  last_write (h ++ [(i', j', v)]) i j =
  if (i' =? i) && (j' =? j) then Some v else last_write h i j.
Proof. unfold last_write. rewrite fold_left_app. reflexivity. Qed.

Lemma flags_snoc h i j v :
  flags (h ++ [(i, j, v)]) = flags h ++ [is_some (last_write h i j)].
Proof.
  unfold flags. rewrite app_length. cbn [length]. rewrite Nat.add_1_r, seq_S, map_app.
  cbn [map]. f_equal.
  - apply map_ext_in. intros k Hk. apply in_seq in Hk.
    rewrite nth_error_app1 by lia. rewrite firstn_app.
    replace (k - length h) with 0 by lia. rewrite firstn_O, app_nil_r. reflexivity.
  - rewrite nth_error_app2 by lia. rewrite Nat.add_0_l, Nat.sub_diag. cbn [nth_error].
    rewrite firstn_app, Nat.sub_diag, firstn_all, firstn_O, app_nil_r. reflexivity.
Qed.

Definition rows_match (rows : list (list (nat * T))) h : Prop :=
  forall i row, nth_error rows i = Some row -> forall j,
    row_get zero row j = value_or zero (last_write h i j) /\
    row_mem row j = is_some (last_write h i j).

Lemma rows_match_step rows h i row row' j v :
  nth_error rows i = Some row -> rows_match rows h ->
  (forall c, row_get zero row' c = if j =? c then v else row_get zero row c) ->
  (forall c, row_mem row' c = (j =? c) || row_mem row c) ->
  rows_match (upd rows i row') (h ++ [(i, j, v)]).
Proof.
  intros Hn Hm Hg Hmem i0 row0 H0 j0. rewrite last_write_snoc.
  assert (Hi : i < length rows) by (apply nth_error_Some; congruence).
  rewrite nth_error_upd in H0.
  destruct (Nat.eqb_spec i i0) as [->|Hne]; cbn [andb] in *.
  - destruct (Nat.ltb_spec i0 (length rows)); [|lia]. inversion H0; subst row0.
    rewrite Hg, Hmem. destruct (j =? j0); simpl; auto.
  - apply Hm; auto.
Qed.

Lemma rows_match_nil r : rows_match (repeat [] r) [].
Proof.
  intros i row H j. apply nth_error_In, repeat_spec in H; subst; simpl; auto.
Qed.

Lemma run_lil_ok h r c :
  (forall i j v, In (i, j, v) h -> i < r) ->
  exists a, run_lil h (lil_new r c) = Ok (flags h, a) /\
    lrows a = r /\ lcols a = c /\ lil_wf a /\ rows_match (ldata a) h /\
    (forall row k, In row (ldata a) -> In k (map fst row) ->
       exists i v, In (i, k, v) h).
Proof.
  intros Hb. unfold run_lil.
  destruct (foldM_inv
    (fun '(bs, m) '(i, j, v) => '(b, m') <- lil_set m i j v ;; Ok (bs ++ [b], m'))
    (fun pre s => fst s = flags pre /\ lrows (snd s) = r /\ lcols (snd s) = c /\
       lil_wf (snd s) /\ rows_match (ldata (snd s)) pre /\
       (forall row k, In row (ldata (snd s)) -> In k (map fst row) ->
          exists i v, In (i, k, v) pre))
    h ([], lil_new r c)) as [[bs a] [E HI]].
  - cbn [fst snd lil_new lrows lcols ldata]. splits; auto.
    + split; simpl; [apply repeat_length|].
      intros row Hr. apply repeat_spec in Hr; subst; constructor.
    + apply rows_match_nil.
    + intros row k Hr Hk; apply repeat_spec in Hr; subst; simpl in Hk; tauto.
  - intros pre [[i j] v] [bs a] [post Ep] (Hf & Hr & Hc & [Hl Hnd] & Hm & Hk).
    cbn [fst snd] in *.
    assert (Hi : i < length (ldata a)).
    { rewrite Hl, Hr. eapply Hb. rewrite Ep. apply in_app_iff; right; left; reflexivity. }
    destruct (rd_lt (ldata a) i Hi) as [row Hrow]. apply rd_Ok in Hrow as Hrow'.
    unfold lil_set. rewrite Hrow. cbn [bind].
    pose proof (row_set_flag row j v) as F1. pose proof (row_set_get zero row j v) as F2.
    pose proof (row_set_mem row j v) as F3.
    pose proof (row_set_NoDup row j v (Hnd row (nth_error_In _ _ Hrow'))) as F4.
    pose proof (row_set_keys row j v) as F5.
    destruct (row_set row j v) as [b row']; cbn [fst snd] in *. cbn [bind].
    eexists; split; [reflexivity|]. cbn [fst snd lrows lcols ldata].
    splits; auto.
    + rewrite flags_snoc, Hf, F1. destruct (Hm i row Hrow' j) as [_ ->]. reflexivity.
    + split; cbn [ldata lrows]; [rewrite upd_length; auto|].
      intros r0 Hr0. rewrite (upd_split _ _ _ _ Hrow') in Hr0.
      apply in_app_iff in Hr0. destruct Hr0 as [Hr0|[<-|Hr0]]; auto.
      * apply Hnd. rewrite <- (firstn_skipn i). apply in_app_iff; auto.
      * apply Hnd. rewrite <- (firstn_skipn (S i)). apply in_app_iff; auto.
    + eapply rows_match_step; eauto.
    + intros r0 k Hr0 Hk0. rewrite (upd_split _ _ _ _ Hrow') in Hr0.
      assert (Hcase : r0 = row' \/ In r0 (ldata a)).
      { apply in_app_iff in Hr0. destruct Hr0 as [Hr0|[<-|Hr0]]; auto.
        - right. rewrite <- (firstn_skipn i). apply in_app_iff; auto.
        - right. rewrite <- (firstn_skipn (S i)). apply in_app_iff; auto. }
      assert (Hold : forall r1, In r1 (ldata a) -> In k (map fst r1) ->
                exists i0 v0, In (i0, k, v0) (pre ++ [(i, j, v)])).
      { intros r1 H1 H2. destruct (Hk r1 k H1 H2) as [i0 [v0 H3]].
        exists i0, v0. apply in_app_iff; auto. }
      destruct Hcase as [->|Hin]; [|eauto].
      rewrite F5 in Hk0. destruct (row_mem row j).
      * eapply Hold; eauto. eapply nth_error_In; eauto.
      * apply in_app_iff in Hk0. destruct Hk0 as [Hk0|[<-|[]]].
        -- eapply Hold; eauto. eapply nth_error_In; eauto.
        -- exists i, v. apply in_app_iff; right; left; reflexivity.
  - cbn [fst snd] in HI. destruct HI as (-> & HI). exists a; auto.
Qed.

Lemma lil_get_match a h i j :
  rows_match (ldata a) h -> i < length (ldata a) ->
  lil_get zero a i j = Ok (value_or zero (last_write h i j)).
Proof.
  intros Hm Hi. unfold lil_get. destruct (rd_lt (ldata a) i Hi) as [row Hr]. rewrite Hr.
  cbn [bind]. f_equal. apply rd_Ok in Hr. apply (Hm i row Hr j).
Qed.

Lemma run_csr_ok h r c :
  (forall i j v, In (i, j, v) h -> i < r) ->
  exists m rows, run_csr h (csr_new r c) = Ok (flags h, m) /\
    crows m = r /\ ccols m = c /\ repr m rows /\ rows_match rows h /\
    (forall row k, In row rows -> In k (map fst row) ->
       exists i v, In (i, k, v) h).
Proof.
  intros Hb. unfold run_csr.
  destruct (foldM_inv
    (fun '(bs, m) '(i, j, v) => '(b, m') <- csr_set m i j v ;; Ok (bs ++ [b], m'))
    (fun pre s => exists rows, fst s = flags pre /\ crows (snd s) = r /\ ccols (snd s) = c /\
       repr (snd s) rows /\ rows_match rows pre /\
       (forall row k, In row rows -> In k (map fst row) ->
          exists i v, In (i, k, v) pre))
    h ([], csr_new r c)) as [[bs a] [E HI]].
  - exists (repeat [] r). cbn [fst snd]. split; [reflexivity|]. split; [reflexivity|].
    split; [reflexivity|]. split; [apply csr_new_repr|]. split; [apply rows_match_nil|].
    intros row k Hr Hk; apply repeat_spec in Hr; subst; simpl in Hk; tauto.
  - intros pre [[i j] v] [bs m] [post Ep] (rows & Hf & Hr & Hc & Hrep & Hm & Hk).
    cbn [fst snd] in *.
    assert (Hi : i < length rows).
    { destruct Hrep as (H1 & _). rewrite <- H1, Hr. eapply Hb. rewrite Ep.
      apply in_app_iff; right; left; reflexivity. }
    destruct (rd_lt rows i Hi) as [row Hrow]. apply rd_Ok in Hrow.
    destruct (csr_set_repr m rows i row j v Hrep Hrow) as [m' [Em [D1 [D2 Hrep']]]].
    rewrite Em. cbn [bind]. eexists; split; [reflexivity|].
    assert (Hs : srow row).
    { destruct Hrep as (_ & _ & _ & _ & H5). rewrite Forall_forall in H5.
      apply H5. eapply nth_error_In; eauto. }
    exists (upd rows i (snd (srow_set row j v))). cbn [fst snd].
    split; [|split; [congruence|split; [congruence|split; [exact Hrep'|split]]]].
    + rewrite flags_snoc, Hf, srow_set_flag by auto.
      destruct (Hm i row Hrow j) as [_ ->]. reflexivity.
    + eapply rows_match_step; eauto.
      * intros; now apply srow_set_get.
      * intros; now apply srow_set_mem.
    + intros r0 k Hr0 Hk0. rewrite (upd_split _ _ _ _ Hrow) in Hr0.
      assert (Hcase : r0 = snd (srow_set row j v) \/ In r0 rows).
      { apply in_app_iff in Hr0. destruct Hr0 as [Hr0|[<-|Hr0]]; auto.
        - right. rewrite <- (firstn_skipn i). apply in_app_iff; auto.
        - right. rewrite <- (firstn_skipn (S i)). apply in_app_iff; auto. }
      assert (Hold : forall r1, In r1 rows -> In k (map fst r1) ->
                exists i0 v0, In (i0, k, v0) (pre ++ [(i, j, v)])).
      { intros r1 H1 H2. destruct (Hk r1 k H1 H2) as [i0 [v0 H3]].
        exists i0, v0. apply in_app_iff; auto. }
      destruct Hcase as [->|Hin]; [|eauto].
      apply srow_set_keys_in in Hk0. destruct Hk0 as [->|Hk0].
      * exists i, v. apply in_app_iff; right; left; reflexivity.
      * eapply Hold; eauto. eapply nth_error_In; eauto.
  - cbn [fst snd] in HI. destruct HI as (rows & -> & HI). exists a, rows; auto.
Qed.

Lemma csr_get_match m rows h i j :
  repr m rows -> rows_match rows h -> i < crows m ->
  csr_get zero m i j = Ok (value_or zero (last_write h i j)).
Proof.
  intros Hr Hm Hi. pose proof Hr as (H1 & _). rewrite H1 in Hi.
  destruct (rd_lt rows i Hi) as [row Hrow]. apply rd_Ok in Hrow.
  rewrite (csr_get_repr zero m rows i row j Hr Hrow). f_equal. apply (Hm i row Hrow j).
Qed.

Lemma repr_cols m rows :
  repr m rows -> (forall row k, In row rows -> In k (map fst row) -> k < ccols m) ->
  csr_cols_ok m.
Proof.
  intros (_ & _ & H3 & _) H c Hc. rewrite H3 in Hc. apply in_map_iff in Hc.
  destruct Hc as [p [<- Hp]]. apply in_concat in Hp. destruct Hp as [row [Hr Hp]].
  eapply H; eauto. now apply in_map.
Qed.

Lemma repr_cols_inv m rows :
  repr m rows -> csr_cols_ok m ->
  forall row k, In row rows -> In k (map fst row) -> k < ccols m.
Proof.
  intros (_ & _ & H3 & _) H row k Hr Hk. apply H. rewrite H3.
  apply in_map_iff in Hk. destruct Hk as [p [<- Hp]]. apply in_map.
  apply in_concat; eauto.
Qed.

(** * Conversions *)
Lemma csr_of_lil_repr a :
  lil_wf a ->
  exists m, csr_of_lil a = Ok (m, mkLil (lrows a) (lcols a) (map sort_row (ldata a))) /\
    crows m = lrows a /\ ccols m = lcols a /\ repr m (map sort_row (ldata a)).
Proof.
  intros [Hl Hnd]. unfold csr_of_lil.
  set (rows := ldata a). set (srt := map sort_row rows).
  assert (Hsl : length srt = lrows a) by (unfold srt; rewrite map_length; auto).
  destruct (foldM_inv csr_of_lil_step
    (fun pre s => exists i, i <= lrows a /\ pre = seq 0 i /\
       crows (fst s) = lrows a /\ ccols (fst s) = lcols a /\
       length (indptr (fst s)) = S (lrows a) /\
       (forall k, k <= i -> nth_error (indptr (fst s)) k = Some (offs srt k)) /\
       indices (fst s) = map fst (concat (firstn i srt)) /\
       cdata (fst s) = map snd (concat (firstn i srt)) /\
       snd s = firstn i srt ++ skipn i rows)
    (seq 0 (lrows a)) (csr_new (lrows a) (lcols a), rows)) as [[m src] [E HI]].
  - exists 0. cbn [fst snd csr_new crows ccols indptr indices cdata]. splits; auto; try lia.
    + apply repeat_length.
    + intros k Hk. assert (k = 0) by lia; subst. reflexivity.
  - intros pre x [m src] [post Ep] (i & Hi & Hpre & D1 & D2 & Hpl & Hptr & Hix & Hdt & Hsrc).
    cbn [fst snd] in *. subst pre.
    assert (Hx : x = i /\ i < lrows a).
    { assert (Hn : nth_error (seq 0 (lrows a)) i = Some x).
      { rewrite Ep, nth_error_app2; rewrite seq_length; [|lia]. now rewrite Nat.sub_diag. }
      assert (i < lrows a).
      { assert (i < length (seq 0 (lrows a))) by (apply nth_error_Some; congruence).
        rewrite seq_length in H; auto. }
      split; auto. rewrite (nth_error_nth' _ 0) in Hn by (rewrite seq_length; auto).
      rewrite seq_nth in Hn by auto. simpl in Hn; congruence. }
    destruct Hx as [-> Hi'].
    assert (Hil : i < length rows) by (unfold rows; lia).
    destruct (rd_lt rows i Hil) as [row Hrow]. apply rd_Ok in Hrow.
    assert (Hfl : length (firstn i srt) = i) by (rewrite firstn_length; lia).
    assert (Hsk : skipn i rows = row :: skipn (S i) rows).
    { clear - Hrow. revert i Hrow. generalize rows. induction rows0 as [|r rs IH]; intros [|i] H;
        simpl in *; try discriminate; [now inversion H|]. now apply IH. }
    assert (Hsrt : nth_error srt i = Some (sort_row row)).
    { unfold srt. now rewrite nth_error_map, Hrow. }
    unfold csr_of_lil_step.
    rewrite (proj2 (rd_Ok _ _ _) (Hptr i (le_n _))). cbn [bind].
    assert (Hrs : rd src i = Ok row).
    { apply rd_Ok. rewrite Hsrc, Hsk, nth_error_app2, Hfl, Nat.sub_diag; [reflexivity|lia]. }
    rewrite Hrs; cbn [bind]. rewrite wr_Ok by lia. cbn [bind].
    eexists; split; [reflexivity|].
    assert (Hlr : length (sort_row row) = length row).
    { apply Permutation_length, sort_row_perm. }
    exists (S i). cbn [fst snd crows ccols indptr indices cdata]. splits; auto.
    + rewrite seq_S. reflexivity.
    + rewrite upd_length; auto.
    + intros k Hk. rewrite nth_error_upd.
      destruct (Nat.eqb_spec (S i) k) as [<-|Hne]; cbn [andb].
      * destruct (Nat.ltb_spec (S i) (length (indptr m))); [|lia].
        rewrite (offs_S srt i _ Hsrt), Hlr. reflexivity.
      * apply Hptr; lia.
    + rewrite (concat_firstn_S srt i _ Hsrt), map_app, Hix. reflexivity.
    + rewrite (concat_firstn_S srt i _ Hsrt), map_app, Hdt. reflexivity.
    + rewrite Hsrc, Hsk.
      replace i with (length (firstn i srt)) at 3 by auto. rewrite upd_mid.
      assert (Hf : firstn (S i) srt = firstn i srt ++ [sort_row row]).
      { clear - Hsrt. revert i Hsrt. generalize srt. induction srt0 as [|r rs IH]; intros [|i] H;
          simpl in *; try discriminate; [now inversion H|]. now rewrite IH. }
      rewrite Hf, <- app_assoc. reflexivity.
  - destruct HI as (i & Hi & Hpre & D1 & D2 & Hpl & Hptr & Hix & Hdt & Hsrc).
    cbn [fst snd] in *.
    assert (i = lrows a).
    { apply (f_equal (@length nat)) in Hpre. rewrite !seq_length in Hpre. auto. }
    subst i.
    assert (Hfa : firstn (lrows a) srt = srt) by (apply firstn_all2; lia).
    rewrite Hfa in *.
    rewrite skipn_all2, app_nil_r in Hsrc by (unfold rows; lia).
    rewrite E. cbn [bind]. exists m. split; [now rewrite Hsrc|]. split; [auto|]. split; [auto|].
    unfold repr. split; [congruence|]. split; [|split; [exact Hix|split; [exact Hdt|]]].
    + apply nth_ext with (d := 0) (d' := 0).
      * rewrite Hpl, map_length, seq_length; congruence.
      * intros n Hn. rewrite Hpl in Hn. rewrite (nth_error_nth _ _ _ (Hptr n ltac:(lia))).
        symmetry. apply nth_error_nth. rewrite nth_error_map_seq.
        destruct (Nat.ltb_spec n (S (length srt))); auto; lia.
    + apply Forall_forall. intros r Hr. unfold srt in Hr. apply in_map_iff in Hr.
      destruct Hr as [r0 [<- Hr0]]. apply sort_row_srow. apply Hnd; auto.
Qed.

Lemma mapM_map {A B} (f : A -> res B) (g : A -> B) l :
  (forall x, In x l -> f x = Ok (g x)) -> mapM f l = Ok (map g l).
Proof.
  induction l as [|x l IH]; intros H; simpl; auto.
  rewrite H by (left; auto). cbn [bind]. rewrite IH by (intros; apply H; right; auto). reflexivity.
Qed.

Lemma lil_of_csr_repr m rows :
  repr m rows -> lil_of_csr m = Ok (mkLil (crows m) (ccols m) rows).
Proof.
  intros Hr. pose proof Hr as (H1 & H2 & H3 & H4 & H5). unfold lil_of_csr.
  assert (E : mapM (lil_of_csr_row m) (seq 0 (crows m)) = Ok rows).
  { rewrite (mapM_map _ (fun i => nth i rows [])).
    - f_equal. rewrite H1. clear. induction rows as [|r rows IH]; simpl; auto.
      f_equal. rewrite <- IH at 2. rewrite <- seq_shift, map_map. reflexivity.
    - intros i Hi. apply in_seq in Hi.
      destruct (nth_error rows i) as [row|] eqn:En; [|apply nth_error_None in En; lia].
      rewrite (nth_error_nth _ _ _ En).
      unfold lil_of_csr_row. rewrite (repr_indptr m rows i), (repr_indptr m rows (S i)) by (auto; lia).
      cbn [bind]. rewrite (offs_S rows i row En).
      replace (offs rows i + length row - offs rows i) with (length row) by lia.
      assert (Hcell : forall k p, nth_error row k = Some p ->
                nth_error (concat rows) (offs rows i + k) = Some p).
      { intros k p Hk. rewrite (concat_split rows i row En).
        assert (k < length row) by (apply nth_error_Some; congruence).
        unfold offs. rewrite nth_error_mid by lia. rewrite <- Hk. f_equal. lia. }
      assert (G : forall s post, (forall k p, nth_error post k = Some p ->
                nth_error (concat rows) (s + k) = Some p) ->
              mapM (fun k => c <- rd (indices m) k ;; d <- rd (cdata m) k ;; Ok (c, d))
                (seq s (length post)) = Ok post).
      { intros s post; revert s; induction post as [|[c d] post IH]; intros s Hp; simpl; auto.
        assert (Ha : nth_error (concat rows) s = Some (c, d)).
        { rewrite <- (Hp 0 (c, d) eq_refl). f_equal; lia. }
        assert (Hb1 : rd (indices m) s = Ok c) by (apply rd_Ok; rewrite H3, nth_error_map, Ha; reflexivity).
        assert (Hb2 : rd (cdata m) s = Ok d) by (apply rd_Ok; rewrite H4, nth_error_map, Ha; reflexivity).
        rewrite Hb1, Hb2; cbn [bind]. rewrite IH; [reflexivity|].
        intros k p Hk. rewrite <- (Hp (S k) p Hk). f_equal; lia. }
      apply G. exact Hcell. }
  rewrite E. reflexivity.
Qed.

(** a representation determines the arrays *)
Lemma repr_unique m1 m2 rows :
  repr m1 rows -> repr m2 rows -> ccols m1 = ccols m2 -> m1 = m2.
Proof.
  destruct m1, m2; unfold repr; simpl. intros (-> & -> & -> & -> & _) (-> & -> & -> & -> & _) ->.
  reflexivity.
Qed.

Lemma map_sort_id (rows : list (list (nat * T))) :
  Forall (@srow T) rows -> map sort_row rows = rows.
Proof.
  induction 1; simpl; auto. rewrite sort_row_id by auto. now f_equal.
Qed.

Lemma repr_lil_wf m rows : repr m rows -> lil_wf (mkLil (crows m) (ccols m) rows).
Proof.
  intros (H1 & _ & _ & _ & H5). split; simpl; auto.
  intros row Hr. rewrite Forall_forall in H5. apply srow_NoDup; auto.
Qed.

Lemma csr_lil_csr m rows :
  repr m rows ->
  csr_of_lil (mkLil (crows m) (ccols m) rows) = Ok (m, mkLil (crows m) (ccols m) rows).
Proof.
  intros Hr. destruct (csr_of_lil_repr (mkLil (crows m) (ccols m) rows)) as [m' [E [D1 [D2 Hr']]]].
  - now apply repr_lil_wf.
  - rewrite E. simpl in *. pose proof Hr as (_ & _ & _ & _ & H5).
    rewrite map_sort_id in * by auto. f_equal. f_equal.
    eapply repr_unique; eauto.
Qed.

(** * Entry-wise arithmetic *)
(** effect on one row of the inner loop of operator+/- *)
Definition zip_row (op : T -> T -> T) (row : list (nat * T)) (b : list (nat * T)) (set : list (nat * T) -> nat -> T -> list (nat * T)) : list (nat * T) :=
  fold_left (fun r p => set r (fst p) (op (row_get zero r (fst p)) (snd p))) b row.

Lemma zip_row_get op row b (P : list (nat * T) -> Prop) set :
  (forall r c v, P r -> P (set r c v)) ->
  (forall r c v c', P r -> row_get zero (set r c v) c' = if c =? c' then v else row_get zero r c') ->
  P row -> NoDup (map fst b) -> (forall x, op x zero = x) ->
  forall c, row_get zero (zip_row op row b set) c = op (row_get zero row c) (row_get zero b c).
Proof.
  intros HP Hg. revert row; induction b as [|[c0 d0] b IH]; intros row Hrow Hnd Hz c; simpl.
  - now rewrite Hz.
  - inversion Hnd; subst. cbn [zip_row fold_left fst snd] in *.
    unfold zip_row in *; simpl. rewrite IH; auto. rewrite Hg by auto.
    destruct (Nat.eqb_spec c0 c) as [->|]; auto.
    rewrite (row_get_notin zero b c) by auto. apply Hz.
Qed.

Lemma lil_zip_ok op a b :
  lil_wf a -> lil_wf b -> lrows a = lrows b -> lcols a = lcols b ->
  (forall x, op x zero = x) ->
  exists m : lil T, lil_zip zero op a b = Ok m /\ lil_wf m /\
    lrows m = lrows a /\ lcols m = lcols a /\
    forall i j, i < lrows a ->
      lil_get zero m i j = (x <- lil_get zero a i j ;; y <- lil_get zero b i j ;; Ok (op x y)).
Proof.
  intros Ha Hb Hr Hc Hz. unfold lil_zip.
  rewrite Hr, Hc, !Nat.eqb_refl. cbn [andb assert_ bind].
  destruct (foldM_inv
    (fun (m : lil T) i => row <- rd (ldata b) i ;;
       foldM (fun (m : lil T) '(j, d) => g <- lil_get zero m i j ;; '(_, m') <- lil_set m i j (op g d) ;; Ok m') row m)
    (fun pre (m : lil T) => exists i, pre = seq 0 i /\ i <= lrows b /\ lil_wf m /\ lrows m = lrows a /\ lcols m = lcols a /\
       (forall k rm ra rb, nth_error (ldata m) k = Some rm -> nth_error (ldata a) k = Some ra ->
          nth_error (ldata b) k = Some rb ->
          forall c, row_get zero rm c = if k <? i then op (row_get zero ra c) (row_get zero rb c)
                                        else row_get zero ra c))
    (seq 0 (lrows b)) a) as [m [E HI]].
  - exists 0. splits; auto; try lia; try apply Ha. intros k rm ra rb H1 H2 _ c.
    rewrite H1 in H2; inversion H2; reflexivity.
  - intros pre x m [post Ep] (i & -> & Hi & Hm & D1 & D2 & Hrows).
    assert (Hx : x = i /\ i < lrows b).
    { assert (Hn : nth_error (seq 0 (lrows b)) i = Some x).
      { rewrite Ep, nth_error_app2; rewrite seq_length; [|lia]. now rewrite Nat.sub_diag. }
      assert (i < lrows b).
      { assert (i < length (seq 0 (lrows b))) by (apply nth_error_Some; congruence).
        rewrite seq_length in H; auto. }
      split; auto. rewrite (nth_error_nth' _ 0) in Hn by (rewrite seq_length; auto).
      rewrite seq_nth in Hn by auto. simpl in Hn; congruence. }
    destruct Hx as [-> Hi'].
    destruct Ha as [Hla Hnda]. destruct Hb as [Hlb Hndb]. destruct Hm as [Hlm Hndm].
    destruct (rd_lt (ldata b) i ltac:(lia)) as [rb Hrb]. rewrite Hrb. cbn [bind]. apply rd_Ok in Hrb.
    destruct (rd_lt (ldata m) i ltac:(lia)) as [rm Hrm]. apply rd_Ok in Hrm.
    destruct (rd_lt (ldata a) i ltac:(lia)) as [ra Hra]. apply rd_Ok in Hra.
    assert (Hin : forall bs (m0 : lil T) rm0, nth_error (ldata m0) i = Some rm0 ->
      foldM (fun (m : lil T) '(j, d) => g <- lil_get zero m i j ;; '(_, m') <- lil_set m i j (op g d) ;; Ok m') bs m0
      = Ok (mkLil (lrows m0) (lcols m0) (upd (ldata m0) i (zip_row op rm0 bs (fun r c v => snd (row_set r c v)))))).
    { induction bs as [|[j d] bs IHb]; intros m0 rm0 Hn; cbn [foldM].
      - unfold zip_row; simpl. destruct m0 as [r0 c0 d0]; simpl in *. f_equal. f_equal.
        clear - Hn. revert i Hn. induction d0 as [|y d0 IH]; intros [|i] Hn; simpl in *; try discriminate.
        + now inversion Hn.
        + f_equal; auto.
      - unfold lil_get at 1, lil_set at 1. rewrite (proj2 (rd_Ok _ _ _) Hn). cbn [bind].
        destruct (row_set rm0 j (op (row_get zero rm0 j) d)) as [fl r'] eqn:Es. cbn [bind].
        rewrite (IHb _ r').
        + cbn [lrows lcols ldata]. f_equal. f_equal.
          assert (Hu : forall x y (l : list (list (nat * T))), upd (upd l i x) i y = upd l i y).
          { intros x y l. clear. revert i. induction l; intros [|i]; simpl; auto. now rewrite IHl. }
          rewrite Hu. unfold zip_row; simpl. now rewrite Es.
        + cbn [ldata]. apply nth_error_upd_eq. apply nth_error_Some; congruence. }
    rewrite (Hin rb m rm Hrm). eexists; split; [reflexivity|].
    exists (S i). cbn [lrows lcols ldata].
    assert (Hndz : forall bs r, NoDup (map fst r) -> NoDup (map fst (zip_row op r bs (fun r c v => snd (row_set r c v))))).
    { induction bs as [|p bs IHb]; intros r H; unfold zip_row; simpl; auto. apply IHb, row_set_NoDup, H. }
    split; [now rewrite seq_S|]. split; [lia|]. split; [|split; [auto|split; [auto|]]].
    + split; cbn [ldata lrows]; [now rewrite upd_length|]. intros r0 Hr0.
      rewrite (upd_split _ _ _ _ Hrm) in Hr0.
      apply in_app_iff in Hr0. destruct Hr0 as [Hr0|[<-|Hr0]].
      * apply Hndm. rewrite <- (firstn_skipn i). apply in_app_iff; auto.
      * apply Hndz. apply Hndm. eapply nth_error_In; eauto.
      * apply Hndm. rewrite <- (firstn_skipn (S i)). apply in_app_iff; auto.
    + intros k rm' ra' rb' E1 E2 E3 c. rewrite nth_error_upd in E1.
      destruct (Nat.eqb_spec i k) as [<-|Hne]; cbn [andb] in E1.
      * destruct (Nat.ltb_spec i (length (ldata m))); [|lia]. inversion E1; subst rm'.
        destruct (Nat.ltb_spec i (S i)); [|lia].
        rewrite (zip_row_get op rm rb (fun r => True)); auto.
        -- assert (E : ra = ra') by congruence. assert (E' : rb = rb') by congruence. subst.
           rewrite (Hrows i rm ra' rb' Hrm Hra Hrb c).
           destruct (Nat.ltb_spec i i); [lia|reflexivity].
        -- intros; apply row_set_get.
        -- apply Hndb. eapply nth_error_In; eauto.
      * rewrite (Hrows k rm' ra' rb' E1 E2 E3 c).
        destruct (Nat.ltb_spec k i), (Nat.ltb_spec k (S i)); auto; lia.
  - destruct HI as (i & Hpre & Hi & Hm & D1 & D2 & Hrows).
    assert (i = lrows b).
    { apply (f_equal (@length nat)) in Hpre. rewrite !seq_length in Hpre. auto. }
    subst i. rewrite E. exists m. splits; auto; try apply Hm; try congruence.
    intros i j Hij. destruct Ha as [Hla _], Hb as [Hlb _], Hm as [Hlm _]. unfold lil_get.
    destruct (rd_lt (ldata b) i ltac:(lia)) as [rb Hrb].
    destruct (rd_lt (ldata m) i ltac:(lia)) as [rm Hrm].
    destruct (rd_lt (ldata a) i ltac:(lia)) as [ra Hra].
    rewrite Hra, Hrb, Hrm. cbn [bind]. apply rd_Ok in Hra, Hrb, Hrm.
    rewrite (Hrows i rm ra rb Hrm Hra Hrb j). destruct (Nat.ltb_spec i (lrows b)); auto; lia.
Qed.

Lemma csr_zip_ok op (a b : csr T) :
  csr_wf a -> csr_wf b -> crows a = crows b -> ccols a = ccols b ->
  (forall x, op x zero = x) ->
  exists m, csr_zip zero op a b = Ok m /\ csr_wf m /\
    crows m = crows a /\ ccols m = ccols a /\
    forall i j, i < crows a ->
      csr_get zero m i j = (x <- csr_get zero a i j ;; y <- csr_get zero b i j ;; Ok (op x y)).
Proof.
  intros Ha Hb Hr Hc Hz. unfold csr_zip.
  apply wf_repr in Ha, Hb. destruct Ha as [rowsa Ra], Hb as [rowsb Rb].
  rewrite Hr, Hc, !Nat.eqb_refl. cbn [andb assert_ bind].
  pose proof Ra as (La & _ & _ & _ & Sa). pose proof Rb as (Lb & _ & Ixb & Dtb & Sb).
  destruct (foldM_inv
    (fun (m : csr T) i =>
           lo <- rd (indptr b) i ;; hi <- rd (indptr b) (S i) ;;
           foldM (fun m k => j <- rd (indices b) k ;; d <- rd (cdata b) k ;;
                    g <- csr_get zero m i j ;; '(_, m') <- csr_set m i j (op g d) ;; Ok m')
             (seq lo (hi - lo)) m)
    (fun pre m => exists i rows, pre = seq 0 i /\ i <= crows b /\ repr m rows /\
       crows m = crows a /\ ccols m = ccols a /\
       (forall k rm ra rb, nth_error rows k = Some rm -> nth_error rowsa k = Some ra ->
          nth_error rowsb k = Some rb ->
          forall c, row_get zero rm c = if k <? i then op (row_get zero ra c) (row_get zero rb c)
                                        else row_get zero ra c))
    (seq 0 (crows b)) a) as [m [E HI]].
  - exists 0, rowsa. split; [reflexivity|]. split; [lia|]. split; [exact Ra|].
    split; [reflexivity|]. split; [reflexivity|]. intros k rm ra rb H1 H2 _ c.
    rewrite H1 in H2; inversion H2; reflexivity.
  - intros pre x m [post Ep] (i & rows & -> & Hi & Rm & D1 & D2 & Hrows).
    assert (Hx : x = i /\ i < crows b).
    { assert (Hn : nth_error (seq 0 (crows b)) i = Some x).
      { rewrite Ep, nth_error_app2; rewrite seq_length; [|lia]. now rewrite Nat.sub_diag. }
      assert (i < crows b).
      { assert (i < length (seq 0 (crows b))) by (apply nth_error_Some; congruence).
        rewrite seq_length in H; auto. }
      split; auto. rewrite (nth_error_nth' _ 0) in Hn by (rewrite seq_length; auto).
      rewrite seq_nth in Hn by auto. simpl in Hn; congruence. }
    destruct Hx as [-> Hi'].
    pose proof Rm as (Lm & _ & _ & _ & Sm).
    destruct (rd_lt rowsb i ltac:(lia)) as [rb Hrb]. apply rd_Ok in Hrb.
    destruct (rd_lt rows i ltac:(lia)) as [rm Hrm]. apply rd_Ok in Hrm.
    destruct (rd_lt rowsa i ltac:(lia)) as [ra Hra]. apply rd_Ok in Hra.
    rewrite (repr_indptr b rowsb i), (repr_indptr b rowsb (S i)) by (auto; lia). cbn [bind].
    rewrite (offs_S rowsb i rb Hrb).
    replace (offs rowsb i + length rb - offs rowsb i) with (length rb) by lia.
    assert (Hin : forall bs s m0 rows0 rm0, repr m0 rows0 -> nth_error rows0 i = Some rm0 ->
      (forall k p, nth_error bs k = Some p -> nth_error (concat rowsb) (s + k) = Some p) ->
      exists m1, foldM (fun m k => j <- rd (indices b) k ;; d <- rd (cdata b) k ;;
                    g <- csr_get zero m i j ;; '(_, m') <- csr_set m i j (op g d) ;; Ok m')
             (seq s (length bs)) m0 = Ok m1 /\ crows m1 = crows m0 /\ ccols m1 = ccols m0 /\
      repr m1 (upd rows0 i (zip_row op rm0 bs (fun r c v => snd (srow_set r c v))))).
    { induction bs as [|[j d] bs IHb]; intros s m0 rows0 rm0 R0 Hn Hcell; cbn [length seq foldM].
      - exists m0. split; [reflexivity|]. split; [reflexivity|]. split; [reflexivity|].
        unfold zip_row; simpl.
        assert (Hid : upd rows0 i rm0 = rows0).
        { clear - Hn. revert i Hn. induction rows0 as [|y d0 IH]; intros [|i] Hn; simpl in *; try discriminate.
          + now inversion Hn.
          + f_equal; auto. }
        now rewrite Hid.
      - assert (H0 : nth_error (concat rowsb) s = Some (j, d)).
        { rewrite <- (Hcell 0 (j, d) eq_refl). f_equal; lia. }
        assert (B1 : rd (indices b) s = Ok j) by (apply rd_Ok; rewrite Ixb, nth_error_map, H0; reflexivity).
        assert (B2 : rd (cdata b) s = Ok d) by (apply rd_Ok; rewrite Dtb, nth_error_map, H0; reflexivity).
        rewrite B1, B2. cbn [bind]. rewrite (csr_get_repr zero m0 rows0 i rm0 j R0 Hn). cbn [bind].
        destruct (csr_set_repr m0 rows0 i rm0 j (op (row_get zero rm0 j) d) R0 Hn) as [m1 [E1 [F1 [F2 R1]]]].
        rewrite E1. cbn [bind].
        destruct (IHb (S s) m1 _ (snd (srow_set rm0 j (op (row_get zero rm0 j) d))) R1) as [m2 [E2 [G1 [G2 R2]]]].
        + apply nth_error_upd_eq. apply nth_error_Some; congruence.
        + intros k p Hk. rewrite <- (Hcell (S k) p Hk). f_equal; lia.
        + exists m2. split; [exact E2|]. split; [congruence|]. split; [congruence|].
          assert (Hu : forall x y (l : list (list (nat * T))), upd (upd l i x) i y = upd l i y).
          { intros x y l. clear. revert i. induction l; intros [|i]; simpl; auto. now rewrite IHl. }
          rewrite Hu in R2. exact R2. }
    destruct (Hin rb (offs rowsb i) m rows rm Rm Hrm) as [m1 [E1 [F1 [F2 R1]]]].
    { intros k p Hk. rewrite (concat_split rowsb i rb Hrb).
      assert (k < length rb) by (apply nth_error_Some; congruence).
      unfold offs. rewrite nth_error_mid by lia. rewrite <- Hk. f_equal. lia. }
    rewrite E1. exists m1; split; [reflexivity|].
    eexists (S i), _. split; [now rewrite seq_S|]. split; [lia|]. split; [exact R1|].
    split; [congruence|]. split; [congruence|].
    intros k rm' ra' rb' E1' E2 E3 c. rewrite nth_error_upd in E1'.
    destruct (Nat.eqb_spec i k) as [<-|Hne]; cbn [andb] in E1'.
    + destruct (Nat.ltb_spec i (length rows)); [|lia]. inversion E1'; subst rm'.
      destruct (Nat.ltb_spec i (S i)); [|lia].
      rewrite Forall_forall in Sm, Sb.
      rewrite (zip_row_get op rm rb (@srow T)); auto.
      * assert (Ee : ra = ra') by congruence. assert (E' : rb = rb') by congruence. subst.
        rewrite (Hrows i rm ra' rb' Hrm Hra Hrb c).
        destruct (Nat.ltb_spec i i); [lia|reflexivity].
      * intros; now apply srow_set_sorted.
      * intros; now apply srow_set_get.
      * apply Sm. eapply nth_error_In; eauto.
      * apply srow_NoDup, Sb. eapply nth_error_In; eauto.
    + rewrite (Hrows k rm' ra' rb' E1' E2 E3 c).
      destruct (Nat.ltb_spec k i), (Nat.ltb_spec k (S i)); auto; lia.
  - destruct HI as (i & rows & Hpre & Hi & Rm & D1 & D2 & Hrows).
    assert (i = crows b).
    { apply (f_equal (@length nat)) in Hpre. rewrite !seq_length in Hpre. auto. }
    subst i. rewrite E. exists m. split; [reflexivity|]. split; [eapply repr_wf; eauto|].
    split; [congruence|]. split; [congruence|].
    intros i j Hij. pose proof Rm as (Lm & _).
    destruct (rd_lt rowsb i ltac:(lia)) as [rb Hrb]. apply rd_Ok in Hrb.
    destruct (rd_lt rows i ltac:(lia)) as [rm Hrm]. apply rd_Ok in Hrm.
    destruct (rd_lt rowsa i ltac:(lia)) as [ra Hra]. apply rd_Ok in Hra.
    rewrite (csr_get_repr zero m rows i rm), (csr_get_repr zero a rowsa i ra),
      (csr_get_repr zero b rowsb i rb) by auto. cbn [bind].
    rewrite (Hrows i rm ra rb Hrm Hra Hrb j). destruct (Nat.ltb_spec i (crows b)); auto; lia.
Qed.

Lemma row_get_map f (row : list (nat * T)) c :
  f zero = zero ->
  row_get zero (map (fun p => (fst p, f (snd p))) row) c = f (row_get zero row c).
Proof.
  intros Hf. induction row as [|[c0 v0] row IH]; simpl; auto. destruct (c0 =? c); auto.
Qed.

Lemma lil_map_get f a i j :
  f zero = zero ->
  lil_get zero (lil_map f a) i j = (x <- lil_get zero a i j ;; Ok (f x)).
Proof.
  intros Hf. unfold lil_get, lil_map, rd. cbn [ldata]. rewrite nth_error_map.
  destruct (nth_error (ldata a) i); cbn [option_map bind]; auto. now rewrite row_get_map.
Qed.

Lemma lil_map_wf f a : lil_wf a -> lil_wf (lil_map f a).
Proof.
  intros [H1 H2]; split; simpl; [now rewrite map_length|].
  intros row Hr. apply in_map_iff in Hr. destruct Hr as [r [<- Hr]]. rewrite map_map. simpl. auto.
Qed.

Lemma csr_map_repr f m rows :
  repr m rows -> repr (csr_map f m) (map (map (fun p => (fst p, f (snd p)))) rows).
Proof.
  intros (H1 & H2 & H3 & H4 & H5). unfold repr, csr_map; cbn [crows ccols indptr indices cdata].
  rewrite map_length. split; [auto|]. split; [|split; [|split]].
  - rewrite H2. apply map_ext. intros k. unfold offs.

    clear. revert k; induction rows as [|r rows IH]; intros [|k]; simpl; auto.
    rewrite !app_length, map_length. f_equal. apply IH.
  - rewrite H3. rewrite <- concat_map, map_map. reflexivity.
  - rewrite H4. rewrite <- concat_map, !map_map. reflexivity.
  - rewrite Forall_forall in *. intros r Hr. apply in_map_iff in Hr. destruct Hr as [r0 [<- Hr0]].
    unfold srow in *. rewrite map_map. simpl. apply H5; auto.
Qed.

(** * Products *)
Variables (add mul : T -> T -> T).

Definition row_dot (x : list T) (row : list (nat * T)) : T :=
  fold_left (fun acc p => add acc (mul (snd p) (nth (fst p) x zero))) row zero.

Lemma upd_repeat_snoc {A} (l : list A) (z y : A) n :
  upd (l ++ repeat z (S n)) (length l) y = (l ++ [y]) ++ repeat z n.
Proof. simpl repeat. rewrite upd_mid, <- app_assoc. reflexivity. Qed.

Lemma lil_mulvec_ok a x :
  lil_wf a -> lil_cols_ok a -> length x = lcols a ->
  lil_mulvec zero add mul a x = Ok (map (row_dot x) (ldata a)).
Proof.
  intros [Hl Hnd] Hc Hx. unfold lil_mulvec. rewrite Hx, Nat.eqb_refl. cbn [assert_ bind].
  rewrite <- Hl.
  assert (Hrow : forall row i pre post acc, i = length pre ->
    (forall c, In c (map fst row) -> c < length x) ->
    foldM (fun v '(c, d) => xc <- rd x c ;; vi <- rd v i ;; wr v i (add vi (mul d xc)))
      row (pre ++ acc :: post)
    = Ok (pre ++ fold_left (fun acc p => add acc (mul (snd p) (nth (fst p) x zero))) row acc :: post)).
  { induction row as [|[c d] row IH]; intros i pre post acc Hip Hb; cbn [foldM fold_left]; auto.
    rewrite (rd_nth x c zero) by (apply Hb; left; reflexivity). cbn [bind].
    assert (Hvi : rd (pre ++ acc :: post) i = Ok acc).
    { subst i. apply rd_Ok. rewrite nth_error_app2, Nat.sub_diag by lia. reflexivity. }
    rewrite Hvi. cbn [bind]. rewrite wr_Ok by (rewrite app_length; simpl; lia). cbn [bind].
    rewrite Hip, upd_mid. rewrite IH by (auto; intros; apply Hb; right; auto). reflexivity. }
  assert (G : forall post pre, ldata a = pre ++ post ->
    foldM (fun v i => row <- rd (ldata a) i ;;
       foldM (fun v '(c, d) => xc <- rd x c ;; vi <- rd v i ;; wr v i (add vi (mul d xc))) row v)
     (seq (length pre) (length post)) (map (row_dot x) pre ++ repeat zero (length post))
    = Ok (map (row_dot x) (ldata a))).
  { induction post as [|row post IH]; intros pre E; cbn [length seq foldM].
    - rewrite app_nil_r in *. now subst.
    - assert (Hr : rd (ldata a) (length pre) = Ok row).
      { apply rd_Ok. rewrite E, nth_error_app2, Nat.sub_diag by lia. reflexivity. }
      rewrite Hr. cbn [bind repeat].
      rewrite Hrow; [cbn [bind]|now rewrite map_length|..].
      + specialize (IH (pre ++ [row])). rewrite app_length, map_app in IH. cbn [length map] in IH.
        rewrite Nat.add_1_r, <- !app_assoc in IH. cbn [app] in IH. rewrite <- (IH E).
        reflexivity.
      + intros c Hcin. rewrite Hx. eapply (Hc row); auto. rewrite E. apply in_app_iff; right; left; auto. }
  apply (G (ldata a) []). reflexivity.
Qed.

Lemma csr_mulvec_ok m rows x :
  repr m rows -> csr_cols_ok m -> length x = ccols m ->
  csr_mulvec zero add mul m x = Ok (map (row_dot x) rows).
Proof.
  intros Hr Hc Hx. pose proof Hr as (H1 & H2 & H3 & H4 & H5).
  pose proof (repr_cols_inv m rows Hr Hc) as Hc'.
  unfold csr_mulvec. rewrite H1.
  assert (Hrow : forall row i s pre post acc, i = length pre ->
    (forall k p, nth_error row k = Some p -> nth_error (concat rows) (s + k) = Some p) ->
    (forall c, In c (map fst row) -> c < length x) ->
    foldM (fun v j => d <- rd (cdata m) j ;; c <- rd (indices m) j ;; xc <- rd x c ;;
             vi <- rd v i ;; wr v i (add vi (mul d xc)))
      (seq s (length row)) (pre ++ acc :: post)
    = Ok (pre ++ fold_left (fun acc p => add acc (mul (snd p) (nth (fst p) x zero))) row acc :: post)).
  { induction row as [|[c d] row IH]; intros i s pre post acc Hip Hcell Hb; cbn [length seq foldM fold_left]; auto.
    assert (H0 : nth_error (concat rows) s = Some (c, d)).
    { rewrite <- (Hcell 0 (c, d) eq_refl). f_equal; lia. }
    assert (B1 : rd (indices m) s = Ok c) by (apply rd_Ok; rewrite H3, nth_error_map, H0; reflexivity).
    assert (B2 : rd (cdata m) s = Ok d) by (apply rd_Ok; rewrite H4, nth_error_map, H0; reflexivity).
    rewrite B1, B2. cbn [bind].
    rewrite (rd_nth x c zero) by (apply Hb; left; reflexivity). cbn [bind].
    assert (Hvi : rd (pre ++ acc :: post) i = Ok acc).
    { subst i. apply rd_Ok. rewrite nth_error_app2, Nat.sub_diag by lia. reflexivity. }
    rewrite Hvi. cbn [bind]. rewrite wr_Ok by (rewrite app_length; simpl; lia). cbn [bind].
    rewrite Hip, upd_mid. rewrite IH; [reflexivity|reflexivity| |].
    - intros k p Hk. rewrite <- (Hcell (S k) p Hk). f_equal; lia.
    - intros; apply Hb; right; auto. }
  assert (G : forall post pre, rows = pre ++ post ->
    foldM (csr_mulvec_row add mul m x)
     (seq (length pre) (length post)) (map (row_dot x) pre ++ repeat zero (length post))
    = Ok (map (row_dot x) rows)).
  { induction post as [|row post IH]; intros pre E; cbn [length seq foldM].
    - rewrite app_nil_r in *. now subst.
    - assert (Hn : nth_error rows (length pre) = Some row).
      { rewrite E, nth_error_app2, Nat.sub_diag by lia. reflexivity. }
      assert (Hlt : length pre < length rows) by (apply nth_error_Some; congruence).
      unfold csr_mulvec_row at 1.
      rewrite (repr_indptr m rows (length pre)), (repr_indptr m rows (S (length pre))) by (auto; lia).
      cbn [bind repeat]. rewrite (offs_S rows _ row Hn).
      replace (offs rows (length pre) + length row - offs rows (length pre)) with (length row) by lia.
      rewrite Hrow; [cbn [bind]|now rewrite map_length|..].
      + specialize (IH (pre ++ [row])). rewrite app_length, map_app in IH. cbn [length map] in IH.
        rewrite Nat.add_1_r, <- !app_assoc in IH. cbn [app] in IH. rewrite <- (IH E).
        reflexivity.
      + intros k p Hk. rewrite (concat_split rows _ row Hn).
        assert (k < length row) by (apply nth_error_Some; congruence).
        unfold offs. rewrite nth_error_mid by lia. rewrite <- Hk. f_equal. lia.
      + intros c Hcin. rewrite Hx. eapply (Hc' row); auto. rewrite E. apply in_app_iff; right; left; auto. }
  apply (G rows []). reflexivity.
Qed.

End Histories.

(** the row product over the reals is the textbook sum *)
Lemma row_dot_R (x : list R) (row : list (nat * R)) n :
  NoDup (map fst row) -> (forall c, In c (map fst row) -> c < n) ->
  row_dot 0%R Rplus Rmult x row = bigsum n (fun j => row_get 0 row j * nth j x 0)%R.
Proof.
  intros Hnd Hb. unfold row_dot.
  assert (G : forall acc, fold_left (fun acc p => (acc + snd p * nth (fst p) x 0)%R) row acc
     = (acc + bigsum n (fun j => row_get 0 row j * nth j x 0))%R).
  { induction row as [|[c d] row IH]; intros acc; simpl.
    - rewrite (bigsum_ext _ _ (fun _ => 0%R)) by (intros; ring). rewrite bigsum_0. ring.
    - inversion Hnd; subst. rewrite IH; auto.
      2:{ intros; apply Hb; right; auto. }
      rewrite Rplus_assoc. f_equal.
      rewrite <- (bigsum_delta n c (fun _ => (d * nth c x 0)%R)) by (apply Hb; left; auto).
      rewrite <- bigsum_plus. apply bigsum_ext. intros j Hj.
      destruct (Nat.eqb_spec c j) as [->|].
      + rewrite row_get_notin by auto. rewrite delta_refl. ring.
      + rewrite delta_ne by auto. ring. }
  rewrite G. ring.
Qed.
