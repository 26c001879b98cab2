(** Proofs about the sparse containers. *)
From Coq Require Import List Arith Lia Bool Sorting.Sorted Permutation Reals Lra.
From Verif Require Import Res SumR SparseModel SparseSpec.
Import ListNotations.

(** * Generic list facts *)
Section ListFacts.
Context {A : Type}.

Lemma concat_split (rows : list (list A)) i row :
  nth_error rows i = Some row ->
  concat rows = concat (firstn i rows) ++ row ++ concat (skipn (S i) rows).
Proof.
  revert i; induction rows as [|r rows IH]; intros [|i] H; simpl in H; try discriminate.
  - inversion H; subst; simpl; reflexivity.
  - simpl. rewrite (IH i H). now rewrite <- app_assoc.
Qed.

Lemma upd_split (rows : list A) i row x :
  nth_error rows i = Some row ->
  upd rows i x = firstn i rows ++ x :: skipn (S i) rows.
Proof.
  revert i; induction rows as [|r rows IH]; intros [|i] H; simpl in H; try discriminate.
  - reflexivity.
  - simpl. now rewrite (IH i H).
Qed.

Lemma upd_mid (p q : list A) y v : upd (p ++ y :: q) (length p) v = p ++ v :: q.
Proof. induction p as [|x p IH]; simpl; auto. now rewrite IH. Qed.

Lemma firstn_upd_le (rows : list A) i x k :
  k <= i -> firstn k (upd rows i x) = firstn k rows.
Proof.
  revert i k; induction rows as [|r rows IH]; intros [|i] [|k] H; simpl; auto; try lia.
  rewrite IH by lia; reflexivity.
Qed.

Lemma concat_firstn_S (rows : list (list A)) i row :
  nth_error rows i = Some row ->
  concat (firstn (S i) rows) = concat (firstn i rows) ++ row.
Proof.
  revert i; induction rows as [|r rows IH]; intros [|i] H; simpl in H; try discriminate.
  - inversion H; subst; simpl. now rewrite app_nil_r.
  - change (firstn (S (S i)) (r :: rows)) with (r :: firstn (S i) rows).
    change (firstn (S i) (r :: rows)) with (r :: firstn i rows).
    cbn [concat]. rewrite (IH i H). now rewrite app_assoc.
Qed.
End ListFacts.

Lemma nth_error_map_seq {B} (f : nat -> B) n i :
  nth_error (map f (seq 0 n)) i = if i <? n then Some (f i) else None.
Proof.
  destruct (Nat.ltb_spec i n) as [H|H].
  - rewrite (map_nth_error f i (seq 0 n) (d := i)); auto.
    rewrite (nth_error_nth' (seq 0 n) 0) by (rewrite seq_length; lia).
    now rewrite seq_nth by lia.
  - apply nth_error_None. rewrite map_length, seq_length; lia.
Qed.

Lemma in_nth_error {A} (l : list A) x : In x l <-> exists i, nth_error l i = Some x.
Proof.
  split; [apply In_nth_error|]. intros [i H]; eapply nth_error_In; eauto.
Qed.

(** * Rows *)
Section Rows.
Context {T : Type}.
Variable zero : T.
Notation row_get := (row_get zero).
Implicit Types (row : list (nat * T)) (v : T).

Lemma row_set_get row c v c' :
  row_get (snd (row_set row c v)) c' = if c =? c' then v else row_get row c'.
Proof.
  induction row as [|[c0 v0] row IH]; simpl.
  - reflexivity.
  - destruct (Nat.eqb_spec c0 c) as [->|Hne]; simpl.
    + destruct (c =? c'); reflexivity.
    + destruct (row_set row c v) as [b t]; simpl in *. rewrite IH.
      destruct (Nat.eqb_spec c0 c') as [->|]; auto.
      destruct (Nat.eqb_spec c c'); auto; congruence.
Qed.

Definition row_mem (row : list (nat * T)) (c : nat) : bool :=
  existsb (fun p => fst p =? c) row.

Lemma row_mem_In row c : row_mem row c = true <-> In c (map fst row).
Proof.
  unfold row_mem; rewrite existsb_exists, in_map_iff. split.
  - intros [p [H1 H2]]; exists p; apply Nat.eqb_eq in H2; auto.
  - intros [p [H1 H2]]; exists p; rewrite H1, Nat.eqb_refl; auto.
Qed.

Lemma row_mem_false row c : row_mem row c = false <-> ~ In c (map fst row).
Proof. rewrite <- row_mem_In; destruct (row_mem row c); intuition congruence. Qed.

Lemma row_set_flag row c v : fst (row_set row c v) = row_mem row c.
Proof.
  unfold row_mem; induction row as [|[c0 v0] row IH]; simpl; auto.
  destruct (c0 =? c); simpl; auto.
  destruct (row_set row c v) as [b t]; simpl in *; auto.
Qed.

Lemma row_set_mem row c v c' :
  row_mem (snd (row_set row c v)) c' = (c =? c') || row_mem row c'.
Proof.
  unfold row_mem; induction row as [|[c0 v0] row IH]; simpl.
  - now rewrite orb_false_r.
  - destruct (Nat.eqb_spec c0 c) as [->|Hne]; simpl.
    + destruct (c =? c'); reflexivity.
    + destruct (row_set row c v) as [b t]; simpl in *. rewrite IH.
      destruct (c0 =? c'), (c =? c'); reflexivity.
Qed.

Lemma row_set_keys row c v :
  map fst (snd (row_set row c v)) =
  if row_mem row c then map fst row else map fst row ++ [c].
Proof.
  unfold row_mem; induction row as [|[c0 v0] row IH]; simpl; auto.
  destruct (Nat.eqb_spec c0 c) as [->|Hne]; simpl; auto.
  destruct (row_set row c v) as [b t]; simpl in *. rewrite IH.
  destruct (existsb _ row); reflexivity.
Qed.

Lemma row_set_NoDup row c v :
  NoDup (map fst row) -> NoDup (map fst (snd (row_set row c v))).
Proof.
  intros H; rewrite row_set_keys. destruct (row_mem row c) eqn:E; auto.
  apply row_mem_false in E.
  apply (Permutation_NoDup (l := c :: map fst row)).
  - apply Permutation_cons_append.
  - constructor; auto.
Qed.

Lemma row_get_notin row c : ~ In c (map fst row) -> row_get row c = zero.
Proof.
  induction row as [|[c0 v0] row IH]; simpl; auto; intros H.
  destruct (Nat.eqb_spec c0 c) as [->|]; [tauto|]. apply IH; tauto.
Qed.

Lemma row_get_in row c v :
  NoDup (map fst row) -> In (c, v) row -> row_get row c = v.
Proof.
  induction row as [|[c0 v0] row IH]; simpl; [tauto|]; intros Hnd [H|H].
  - inversion H; subst. now rewrite Nat.eqb_refl.
  - inversion Hnd; subst. destruct (Nat.eqb_spec c0 c) as [->|].
    + exfalso; apply H2. change c with (fst (c, v)). now apply in_map.
    + now apply IH.
Qed.

Lemma row_get_perm row1 row2 c :
  NoDup (map fst row1) -> Permutation row1 row2 -> row_get row1 c = row_get row2 c.
Proof.
  intros Hnd Hp.
  assert (Hnd2 : NoDup (map fst row2))
    by (eapply Permutation_NoDup; [apply Permutation_map; exact Hp|exact Hnd]).
  destruct (in_dec Nat.eq_dec c (map fst row1)) as [H|H].
  - apply in_map_iff in H. destruct H as [[c' v] [E Hin]]; simpl in E; subst c'.
    rewrite (row_get_in row1 c v), (row_get_in row2 c v); auto.
    eapply Permutation_in; eauto.
  - rewrite !row_get_notin; auto. intros H'; apply H.
    eapply Permutation_in; [apply Permutation_sym, Permutation_map; exact Hp|exact H'].
Qed.

(** sorted rows *)
Definition srow (row : list (nat * T)) : Prop := StronglySorted lt (map fst row).

Lemma srow_NoDup row : srow row -> NoDup (map fst row).
Proof.
  unfold srow. generalize (map fst row); intros l H.
  induction H as [|a l Hs IH Hf]; constructor; auto.
  intros Hin. rewrite Forall_forall in Hf. specialize (Hf a Hin). lia.
Qed.

(** insertion in a sorted row, the specification of CSR::set on one row *)
Fixpoint srow_set (row : list (nat * T)) (c : nat) (v : T) : bool * list (nat * T) :=
  match row with
  | [] => (false, [(c, v)])
  | (c', v') :: t =>
      if c' <? c then let (b, t') := srow_set t c v in (b, (c', v') :: t')
      else if c' =? c then (true, (c, v) :: t)
      else (false, (c, v) :: (c', v') :: t)
  end.

Lemma srow_set_keys_in row c v x :
  In x (map fst (snd (srow_set row c v))) <-> x = c \/ In x (map fst row).
Proof.
  induction row as [|[c0 v0] row IH]; simpl; [intuition|].
  destruct (Nat.ltb_spec c0 c); simpl.
  - destruct (srow_set row c v) as [b t]; simpl in *. rewrite IH. intuition.
  - destruct (Nat.eqb_spec c0 c); subst; simpl; intuition.
Qed.

Lemma srow_set_sorted row c v : srow row -> srow (snd (srow_set row c v)).
Proof.
  unfold srow; induction row as [|[c0 v0] row IH]; simpl; intros H.
  - repeat constructor.
  - inversion H as [|? ? Hs Hf]; subst.
    destruct (Nat.ltb_spec c0 c); simpl.
    + pose proof (srow_set_keys_in row c v) as Hk.
      destruct (srow_set row c v) as [b t]; simpl in *.
      constructor; auto. rewrite Forall_forall in *. intros x Hx.
      apply Hk in Hx. destruct Hx as [->|Hx]; auto.
    + destruct (Nat.eqb_spec c0 c); subst; simpl.
      * constructor; auto.
      * constructor; [constructor; auto|].
        rewrite Forall_forall in *. simpl; intros x [<-|Hx]; [lia|].
        specialize (Hf x Hx). lia.
Qed.

Lemma srow_set_flag row c v : srow row -> fst (srow_set row c v) = row_mem row c.
Proof.
  unfold srow, row_mem; induction row as [|[c0 v0] row IH]; simpl; intros H; auto.
  inversion H as [|? ? Hs Hf]; subst.
  destruct (Nat.ltb_spec c0 c); simpl.
  - destruct (Nat.eqb_spec c0 c); [lia|]. simpl.
    destruct (srow_set row c v) as [b t]; simpl in *; auto.
  - destruct (Nat.eqb_spec c0 c); simpl; auto.
    symmetry. apply row_mem_false. intros Hin.
    rewrite Forall_forall in Hf. specialize (Hf c Hin). lia.
Qed.

Lemma srow_set_get row c v c' :
  srow row -> row_get (snd (srow_set row c v)) c' = if c =? c' then v else row_get row c'.
Proof.
  unfold srow; induction row as [|[c0 v0] row IH]; simpl; intros H; auto.
  inversion H as [|? ? Hs Hf]; subst. specialize (IH Hs).
  destruct (Nat.ltb_spec c0 c); simpl.
  - destruct (srow_set row c v) as [b t]; simpl in *.
    destruct (Nat.eqb_spec c0 c'); subst; auto.
    destruct (Nat.eqb_spec c c'); auto; lia.
  - destruct (Nat.eqb_spec c0 c); subst; simpl; destruct (c =? c'); reflexivity.
Qed.

Lemma srow_set_mem row c v c' :
  row_mem (snd (srow_set row c v)) c' = (c =? c') || row_mem row c'.
Proof.
  destruct (row_mem (snd (srow_set row c v)) c') eqn:E.
  - apply row_mem_In, srow_set_keys_in in E. destruct E as [->|E].
    + now rewrite Nat.eqb_refl.
    + apply row_mem_In in E; rewrite E. now rewrite orb_true_r.
  - apply row_mem_false in E. symmetry; apply orb_false_iff; split.
    + apply Nat.eqb_neq; intros ->; apply E, srow_set_keys_in; auto.
    + apply row_mem_false; intros H; apply E, srow_set_keys_in; auto.
Qed.

(** splitting a sorted row at a column *)
Lemma srow_set_split l1 l2 c v :
  Forall (fun p => fst p < c) l1 ->
  snd (srow_set (l1 ++ l2) c v) = l1 ++ snd (srow_set l2 c v) /\
  fst (srow_set (l1 ++ l2) c v) = fst (srow_set l2 c v).
Proof.
  induction 1 as [|[c0 v0] l1 H Hf IH]; simpl; auto.
  simpl in H. destruct (Nat.ltb_spec c0 c); [|lia].
  destruct (srow_set (l1 ++ l2) c v) as [b t]; simpl in *. destruct IH as [-> ->]; auto.
Qed.

Lemma row_get_split l1 l2 c :
  Forall (fun p => fst p < c) l1 -> row_get (l1 ++ l2) c = row_get l2 c.
Proof.
  induction 1 as [|[c0 v0] l1 H Hf IH]; simpl; auto.
  simpl in H. destruct (Nat.eqb_spec c0 c); [lia|]; auto.
Qed.

(** sorting *)
Lemma ins_sorted_perm (p : nat * T) l : Permutation (ins_sorted p l) (p :: l).
Proof.
  induction l as [|q l IH]; simpl; auto.
  destruct (fst p <=? fst q); auto.
  eapply Permutation_trans; [apply perm_skip, IH|]. apply perm_swap.
Qed.

Lemma sort_row_perm (l : list (nat * T)) : Permutation (sort_row l) l.
Proof.
  induction l as [|p l IH]; simpl; auto.
  eapply Permutation_trans; [apply ins_sorted_perm|]. now apply perm_skip.
Qed.

Lemma ins_sorted_sorted (p : nat * T) l :
  StronglySorted le (map fst l) -> StronglySorted le (map fst (ins_sorted p l)).
Proof.
  induction l as [|q l IH]; simpl; intros H.
  - repeat constructor.
  - inversion H as [|? ? Hs Hf]; subst.
    destruct (Nat.leb_spec (fst p) (fst q)); simpl.
    + constructor; auto. constructor; auto.
      rewrite Forall_forall in *; intros x Hx; specialize (Hf x Hx); lia.
    + constructor; auto. rewrite Forall_forall in *; intros x Hx.
      assert (Hx' : In x (map fst (p :: l))).
      { eapply Permutation_in; [|exact Hx]. apply Permutation_map, ins_sorted_perm. }
      simpl in Hx'. destruct Hx' as [<-|Hx']; [lia|auto].
Qed.

Lemma sort_row_sorted_le (l : list (nat * T)) : StronglySorted le (map fst (sort_row l)).
Proof.
  induction l as [|p l IH]; simpl; [constructor|]. now apply ins_sorted_sorted.
Qed.

Lemma sorted_le_NoDup_lt l : StronglySorted le l -> NoDup l -> StronglySorted lt l.
Proof.
  induction 1 as [|a l Hs IH Hf]; intros Hnd; constructor.
  - apply IH; now inversion Hnd.
  - rewrite Forall_forall in *. inversion Hnd; subst. intros x Hx.
    specialize (Hf x Hx). assert (a <> x) by congruence. lia.
Qed.

Lemma sort_row_srow (l : list (nat * T)) : NoDup (map fst l) -> srow (sort_row l).
Proof.
  intros H. apply sorted_le_NoDup_lt; [apply sort_row_sorted_le|].
  eapply Permutation_NoDup; [|exact H]. apply Permutation_map, Permutation_sym, sort_row_perm.
Qed.

Lemma sort_row_id (l : list (nat * T)) : srow l -> sort_row l = l.
Proof.
  unfold srow; induction l as [|p l IH]; simpl; intros H; auto.
  inversion H as [|? ? Hs Hf]; subst. rewrite IH by auto.
  destruct l as [|q l]; auto. simpl. inversion Hf; subst.
  destruct (Nat.leb_spec (fst p) (fst q)); auto; lia.
Qed.

(** any other sorting procedure gives the same row: the sorted permutation of
    a row with distinct columns is unique *)
Lemma srow_unique (l1 l2 : list (nat * T)) :
  srow l1 -> srow l2 -> Permutation l1 l2 -> l1 = l2.
Proof.
  revert l2; induction l1 as [|p l1 IH]; intros l2 H1 H2 Hp.
  - apply Permutation_nil in Hp; auto.
  - destruct l2 as [|q l2]; [symmetry in Hp; apply Permutation_nil in Hp; discriminate|].
    unfold srow in *; simpl in *. inversion H1 as [|? ? Hs1 Hf1]; inversion H2 as [|? ? Hs2 Hf2]; subst.
    rewrite Forall_forall in Hf1, Hf2.
    assert (p = q).
    { assert (Hin : In p (q :: l2)) by (eapply Permutation_in; [exact Hp|left; auto]).
      assert (Hin' : In q (p :: l1)) by (eapply Permutation_in; [symmetry; exact Hp|left; auto]).
      destruct Hin as [|Hin]; auto. destruct Hin' as [|Hin']; auto.
      apply (in_map fst) in Hin, Hin'. specialize (Hf1 _ Hin'). specialize (Hf2 _ Hin). lia. }
    subst q. f_equal. apply IH; auto. eapply Permutation_cons_inv; eauto.
Qed.
End Rows.

(** * Bisection *)
Lemma lower_bound_spec a v : forall fuel first len,
  len <= fuel -> first + len <= length a ->
  (forall k1 k2 x1 x2, first <= k1 -> k1 < k2 -> k2 < first + len ->
     nth_error a k1 = Some x1 -> nth_error a k2 = Some x2 -> x1 < x2) ->
  exists k, lower_bound fuel a first len v = Ok k /\ first <= k <= first + len /\
    (forall j x, first <= j < k -> nth_error a j = Some x -> x < v) /\
    (forall j x, k <= j < first + len -> nth_error a j = Some x -> v <= x).
Proof.
  induction fuel as [|fuel IH]; intros first len Hf Hl Hs.
  - assert (len = 0) by lia; subst. simpl. exists first. repeat split; try lia; intros; lia.
  - cbn [lower_bound]. destruct (Nat.eqb_spec len 0) as [->|Hne].
    + exists first; repeat split; try lia; intros; lia.
    + set (half := len / 2).
      assert (Hhalf : half < len) by (apply Nat.div_lt; lia).
      destruct (rd_lt a (first + half)) as [x Hx]; [lia|]. rewrite Hx; cbn [bind].
      apply rd_Ok in Hx.
      destruct (Nat.ltb_spec x v) as [Hlt|Hge].
      * destruct (IH (S (first + half)) (len - half - 1)) as [k [Hk [Hr [H1 H2]]]]; try lia.
        { intros; eapply (Hs k1 k2); eauto; lia. }
        exists k; split; [exact Hk|]. split; [lia|]. split.
        -- intros j y Hj Hy. destruct (lt_eq_lt_dec j (first + half)) as [[Hj'|Hj']|Hj'].
           ++ assert (y < x) by (eapply (Hs j (first + half)); eauto; lia). lia.
           ++ subst j; congruence.
           ++ apply (H1 j); auto; lia.
        -- intros j y Hj Hy. apply (H2 j); auto; lia.
      * destruct (IH first half) as [k [Hk [Hr [H1 H2]]]]; try lia.
        { intros; eapply (Hs k1 k2); eauto; lia. }
        exists k; split; [exact Hk|]. split; [lia|]. split; [exact H1|].
        intros j y Hj Hy. destruct (lt_eq_lt_dec j (first + half)) as [[Hj'|Hj']|Hj'].
        -- apply (H2 j); auto; lia.
        -- subst j; assert (y = x) by congruence; lia.
        -- assert (x < y) by (eapply (Hs (first + half) j); eauto; lia). lia.
Qed.

(** * Representation of a CSR by its rows *)
Section Repr.
Context {T : Type}.
Variable zero : T.

Definition offs (rows : list (list (nat * T))) (i : nat) : nat :=
  length (concat (firstn i rows)).

Definition repr (m : csr T) (rows : list (list (nat * T))) : Prop :=
  crows m = length rows /\
  indptr m = map (offs rows) (seq 0 (S (length rows))) /\
  indices m = map fst (concat rows) /\
  cdata m = map snd (concat rows) /\
  Forall (@srow T) rows.

Lemma offs_S rows i row :
  nth_error rows i = Some row -> offs rows (S i) = offs rows i + length row.
Proof. intros H; unfold offs. rewrite (concat_firstn_S rows i row H), app_length; auto. Qed.

Lemma offs_all rows : offs rows (length rows) = length (concat rows).
Proof. unfold offs; now rewrite firstn_all. Qed.

Lemma repr_indptr m rows i :
  repr m rows -> i <= length rows -> rd (indptr m) i = Ok (offs rows i).
Proof.
  intros (_ & H & _) Hi. rewrite H. apply rd_Ok. rewrite nth_error_map_seq.
  destruct (Nat.ltb_spec i (S (length rows))); auto; lia.
Qed.

Lemma repr_range m rows i row :
  repr m rows -> nth_error rows i = Some row ->
  row_range m i = Ok (offs rows i, offs rows i + length row).
Proof.
  intros Hr Hn.
  assert (Hi : i < length rows) by (apply nth_error_Some; congruence).
  unfold row_range. rewrite (repr_indptr m rows i), (repr_indptr m rows (S i)); auto; try lia.
  cbn [bind]. rewrite (offs_S rows i row Hn).
  destruct Hr as (_ & _ & Hx & _). rewrite Hx, map_length.
  rewrite (concat_split rows i row Hn), !app_length.
  change (length (concat (firstn i rows))) with (offs rows i).
  destruct (Nat.leb_spec (offs rows i) (offs rows i + length row)); [|lia].
  destruct (Nat.leb_spec (offs rows i + length row)
     (offs rows i + (length row + length (concat (skipn (S i) rows))))); [|lia].
  reflexivity.
Qed.

Lemma nth_error_mid {A} (l1 l2 l3 : list A) k :
  length l1 <= k -> k < length l1 + length l2 ->
  nth_error (l1 ++ l2 ++ l3) k = nth_error l2 (k - length l1).
Proof.
  intros H1 H2. rewrite nth_error_app2 by lia. rewrite nth_error_app1 by lia. reflexivity.
Qed.

Lemma srow_nth_lt (row : list (nat * T)) k1 k2 p1 p2 :
  srow row -> k1 < k2 -> nth_error row k1 = Some p1 -> nth_error row k2 = Some p2 ->
  fst p1 < fst p2.
Proof.
  unfold srow. revert k1 k2; induction row as [|p row IH]; intros [|k1] [|k2] Hs Hlt H1 H2;
    simpl in *; try discriminate; try lia.
  - inversion H1; subst. inversion Hs as [|? ? Hs' Hf]; subst.
    rewrite Forall_forall in Hf. apply Hf. apply in_map. eapply nth_error_In; eauto.
  - inversion Hs; subst. eapply (IH k1 k2); eauto; lia.
Qed.

Lemma repr_lower_bound m rows i row c :
  repr m rows -> nth_error rows i = Some row ->
  exists l1 l2, row = l1 ++ l2 /\
    lower_bound (length row) (indices m) (offs rows i) (length row) c = Ok (offs rows i + length l1) /\
    Forall (fun p => fst p < c) l1 /\ Forall (fun p => c <= fst p) l2.
Proof.
  intros Hr Hn. pose proof Hr as (_ & _ & Hx & _ & Hsorted).
  assert (Hs : srow row).
  { rewrite Forall_forall in Hsorted. apply Hsorted. eapply nth_error_In; eauto. }
  assert (Hix : forall k, offs rows i <= k < offs rows i + length row ->
            nth_error (indices m) k = option_map fst (nth_error row (k - offs rows i))).
  { intros k Hk. rewrite Hx, (concat_split rows i row Hn), nth_error_map.
    unfold offs in *. rewrite nth_error_mid by lia. reflexivity. }
  assert (Hlen : offs rows i + length row <= length (indices m)).
  { rewrite Hx, map_length, (concat_split rows i row Hn), !app_length. unfold offs. lia. }
  destruct (lower_bound_spec (indices m) c (length row) (offs rows i) (length row))
    as [k [Hk [Hrange [H1 H2]]]]; auto.
  { intros k1 k2 x1 x2 Ha Hb Hc E1 E2.
    rewrite Hix in E1 by lia. rewrite Hix in E2 by lia.
    destruct (nth_error row (k1 - offs rows i)) as [p1|] eqn:F1; [|discriminate].
    destruct (nth_error row (k2 - offs rows i)) as [p2|] eqn:F2; [|discriminate].
    simpl in E1, E2. inversion E1; inversion E2; subst.
    eapply srow_nth_lt; [exact Hs| |exact F1|exact F2]; lia. }
  exists (firstn (k - offs rows i) row), (skipn (k - offs rows i) row).
  split; [symmetry; apply firstn_skipn|]. split.
  - rewrite Hk, firstn_length. f_equal. lia.
  - split; apply Forall_forall; intros p Hp; apply in_nth_error in Hp; destruct Hp as [j Hj].
    + assert (j < k - offs rows i).
      { assert (j < length (firstn (k - offs rows i) row)) by (apply nth_error_Some; congruence).
        rewrite firstn_length in H; lia. }
      assert (Hj' : nth_error row j = Some p).
      { rewrite <- Hj. rewrite <- (firstn_skipn (k - offs rows i) row) at 1.
        rewrite nth_error_app1; auto. apply nth_error_Some; congruence. }
      apply (H1 (offs rows i + j)); [lia|].
      rewrite Hix by lia. replace (offs rows i + j - offs rows i) with j by lia.
      rewrite Hj'; reflexivity.
    + rewrite nth_error_skipn in Hj || idtac.
      assert (Hj' : nth_error row (k - offs rows i + j) = Some p).
      { rewrite <- Hj. rewrite <- (firstn_skipn (k - offs rows i) row) at 1.
        rewrite nth_error_app2; rewrite firstn_length; [f_equal; lia|lia]. }
      assert (k - offs rows i + j < length row) by (apply nth_error_Some; congruence).
      apply (H2 (k + j)); [lia|].
      rewrite Hix by lia. replace (k + j - offs rows i) with (k - offs rows i + j) by lia.
      rewrite Hj'; reflexivity.
Qed.

Lemma csr_get_repr m rows i row c :
  repr m rows -> nth_error rows i = Some row ->
  csr_get zero m i c = Ok (row_get zero row c).
Proof.
  intros Hr Hn. unfold csr_get. rewrite (repr_range m rows i row Hr Hn). cbn [bind].
  replace (offs rows i + length row - offs rows i) with (length row) by lia.
  destruct (repr_lower_bound m rows i row c Hr Hn) as [l1 [l2 [E [Hk [H1 H2]]]]].
  rewrite Hk; cbn [bind]. pose proof Hr as (_ & _ & Hx & Hd & _).
  rewrite E, app_length at 1.
  rewrite E, row_get_split by auto.
  destruct l2 as [|[c' v'] l2]; simpl length.
  - destruct (Nat.eqb_spec (offs rows i + length l1) (offs rows i + (length l1 + 0))); [reflexivity|lia].
  - destruct (Nat.eqb_spec (offs rows i + length l1) (offs rows i + (length l1 + S (length l2)))); [lia|].
    assert (Hcat : nth_error (concat rows) (offs rows i + length l1) = Some (c', v')).
    { rewrite (concat_split rows i row Hn), E. unfold offs.
      rewrite nth_error_mid; try lia; [|rewrite app_length; simpl; lia].
      replace (length (concat (firstn i rows)) + length l1 - length (concat (firstn i rows)))
        with (length l1) by lia.
      rewrite nth_error_app2 by lia. now rewrite Nat.sub_diag. }
    assert (Hc : rd (indices m) (offs rows i + length l1) = Ok c').
    { apply rd_Ok. rewrite Hx, nth_error_map, Hcat; reflexivity. }
    rewrite Hc; cbn [bind]. simpl.
    destruct (Nat.eqb_spec c' c).
    + apply rd_Ok. rewrite Hd, nth_error_map, Hcat; reflexivity.
    + rewrite row_get_notin; auto.
      (* all later columns are larger *)
      assert (Hs : srow row).
      { destruct Hr as (_ & _ & _ & _ & Hr). rewrite Forall_forall in Hr.
        apply Hr. eapply nth_error_In; eauto. }
      intros Hin. apply in_map_iff in Hin. destruct Hin as [[c2 v2] [Ec Hin]]; simpl in Ec; subst c2.
      inversion H2 as [|? ? Hge Hrest]; subst; simpl in *.
      apply in_nth_error in Hin. destruct Hin as [j Hj].
      assert (fst (c', v') < fst (c, v2)).
      { eapply (srow_nth_lt (l1 ++ (c', v') :: l2) (length l1) (length l1 + S j)); auto; try lia.
        - rewrite nth_error_app2 by lia. rewrite Nat.sub_diag; reflexivity.
        - rewrite nth_error_app2 by lia.
          replace (length l1 + S j - length l1) with (S j) by lia. exact Hj. }
      simpl in *; lia.
Qed.

Lemma bump_from_map f g : forall (n i s : nat),
  (forall k, s <= k < s + n -> k < i + s -> f k = g k) ->
  (forall k, s <= k < s + n -> i + s <= k -> g k = S (f k)) ->
  bump_from i (map f (seq s n)) = map g (seq s n).
Proof.
  induction n as [|n IH]; intros i s H H0; simpl; auto.
  destruct i as [|i].
  - rewrite H0 by lia. f_equal. apply (IH 0); intros; [lia|apply H0; lia].
  - rewrite <- H by lia. f_equal. apply IH; intros; [apply H; lia|apply H0; lia].
Qed.

Lemma offs_upd rows i row row' k :
  nth_error rows i = Some row ->
  offs (upd rows i row') k =
  if k <=? i then offs rows k else offs rows k + length row' - length row.
Proof.
  intros Hn. destruct (Nat.leb_spec k i).
  - unfold offs. now rewrite firstn_upd_le.
  - unfold offs. rewrite (upd_split rows i row row' Hn).
    assert (Hi : i < length rows) by (apply nth_error_Some; congruence).
    assert (Hf : length (firstn i rows) = i) by (rewrite firstn_length; lia).
    rewrite firstn_app, Hf, (firstn_all2 (firstn i rows)) by lia.
    replace (k - i) with (S (k - S i)) by lia. cbn [firstn].
    rewrite concat_app. cbn [concat]. rewrite !app_length.
    assert (E : rows = firstn i rows ++ row :: skipn (S i) rows).
    { rewrite <- (upd_split rows i row row Hn). clear -Hn.
      revert i Hn; induction rows as [|r rows IH]; intros [|i] Hn; simpl in *; try discriminate.
      - now inversion Hn.
      - f_equal; auto. }
    assert (E2 : concat (firstn k rows) = concat (firstn i rows) ++ row ++
              concat (firstn (k - S i) (skipn (S i) rows))).
    { rewrite E at 1. rewrite firstn_app, Hf, (firstn_all2 (firstn i rows)) by lia.
      replace (k - i) with (S (k - S i)) by lia. cbn [firstn].
      rewrite concat_app. reflexivity. }
    rewrite E2, !app_length. lia.
Qed.

Lemma repr_upd_same_len m rows i row row' data' :
  repr m rows -> nth_error rows i = Some row ->
  length row' = length row -> map fst row' = map fst row -> srow row' ->
  data' = map snd (concat (upd rows i row')) ->
  repr (mkCsr (crows m) (ccols m) (indptr m) (indices m) data') (upd rows i row').
Proof.
  intros (H1 & H2 & H3 & H4 & H5) Hn Hl Hk Hs ->.
  unfold repr; cbn [crows ccols indptr indices cdata]. rewrite upd_length. split; [exact H1|]. split; [|split; [|split; [reflexivity|]]].
  - rewrite H2. apply map_ext_in. intros k Hk'. rewrite (offs_upd rows i row row' k Hn), Hl.
    destruct (k <=? i); lia.
  - rewrite H3, (upd_split rows i row row' Hn), (concat_split rows i row Hn).
    rewrite concat_app; simpl. rewrite !map_app. now rewrite Hk.
  - rewrite (upd_split rows i row row' Hn).
    rewrite Forall_forall in *. intros r Hr. apply in_app_iff in Hr. destruct Hr as [Hr|[<-|Hr]]; auto.
    + apply H5. rewrite <- (firstn_skipn i rows). apply in_app_iff; auto.
    + apply H5. rewrite <- (firstn_skipn (S i) rows). apply in_app_iff; auto.
Qed.

Lemma insert_at_app {A} (a b : list A) x :
  insert_at (a ++ b) (length a) x = Ok (a ++ x :: b).
Proof.
  unfold insert_at. rewrite app_length.
  destruct (Nat.leb_spec (length a) (length a + length b)); [|lia].
  rewrite firstn_app, Nat.sub_diag, firstn_all, firstn_O, app_nil_r.
  rewrite skipn_app, Nat.sub_diag, skipn_all. reflexivity.
Qed.

Lemma insert_at_app' {A} (a b : list A) x k :
  k = length a -> insert_at (a ++ b) k x = Ok (a ++ x :: b).
Proof. intros ->; apply insert_at_app. Qed.

Lemma csr_insert_repr m rows i l1 l2 c v :
  repr m rows -> nth_error rows i = Some (l1 ++ l2) -> srow (l1 ++ (c, v) :: l2) ->
  exists m', csr_insert m i (offs rows i + length l1) c v = Ok m' /\
    crows m' = crows m /\ ccols m' = ccols m /\
    repr m' (upd rows i (l1 ++ (c, v) :: l2)).
Proof.
  intros (H1 & H2 & H3 & H4 & H5) Hn Hs. unfold csr_insert.
  set (pre := concat (firstn i rows) ++ l1).
  set (post := l2 ++ concat (skipn (S i) rows)).
  assert (Hc : concat rows = pre ++ post).
  { rewrite (concat_split rows i _ Hn). unfold pre, post. now rewrite <- !app_assoc. }
  assert (Hlen : offs rows i + length l1 = length pre).
  { unfold pre, offs; now rewrite app_length. }
  rewrite H4, H3, Hc, !map_app, Hlen.
  rewrite (insert_at_app' (map snd pre)) by (now rewrite map_length). cbn [bind].
  rewrite (insert_at_app' (map fst pre)) by (now rewrite map_length). cbn [bind].
  eexists; split; [reflexivity|]. split; [reflexivity|]. split; [reflexivity|].
  unfold repr; cbn [crows indptr indices cdata]. rewrite upd_length.
  assert (Hcu : concat (upd rows i (l1 ++ (c, v) :: l2)) = pre ++ (c, v) :: post).
  { rewrite (upd_split rows i _ _ Hn), concat_app. cbn [concat].
    unfold pre, post. rewrite <- !app_assoc. reflexivity. }
  split; [exact H1|]. split; [|split; [|split]].
  - rewrite H2. apply bump_from_map; intros k Hk1 Hk2; rewrite (offs_upd rows i _ _ k Hn);
      destruct (Nat.leb_spec k i); auto; try lia. rewrite !app_length; simpl; lia.
  - rewrite Hcu, map_app; reflexivity.
  - rewrite Hcu, map_app; reflexivity.
  - rewrite (upd_split rows i _ _ Hn).
    rewrite Forall_forall in *. intros r Hr. apply in_app_iff in Hr. destruct Hr as [Hr|[<-|Hr]]; auto.
    + apply H5. rewrite <- (firstn_skipn i rows). apply in_app_iff; auto.
    + apply H5. rewrite <- (firstn_skipn (S i) rows). apply in_app_iff; auto.
Qed.

Lemma csr_set_repr m rows i row c v :
  repr m rows -> nth_error rows i = Some row ->
  exists m', csr_set m i c v = Ok (fst (srow_set row c v), m') /\
    crows m' = crows m /\ ccols m' = ccols m /\
    repr m' (upd rows i (snd (srow_set row c v))).
Proof.
  intros Hr Hn. unfold csr_set. rewrite (repr_range m rows i row Hr Hn). cbn [bind].
  replace (offs rows i + length row - offs rows i) with (length row) by lia.
  destruct (repr_lower_bound m rows i row c Hr Hn) as [l1 [l2 [E [Hk [H1 H2]]]]].
  rewrite Hk; cbn [bind].
  assert (Hs : srow row).
  { destruct Hr as (_ & _ & _ & _ & Hr'). rewrite Forall_forall in Hr'.
    apply Hr'. eapply nth_error_In; eauto. }
  pose proof (srow_set_sorted row c v Hs) as Hs'.
  destruct (srow_set_split l1 l2 c v H1) as [S1 S2].
  rewrite E in Hs', Hn, Hs |- *. rewrite S1, S2 in *. rewrite app_length.
  destruct l2 as [|[c' v'] l2]; simpl length.
  - destruct (Nat.eqb_spec (offs rows i + length l1) (offs rows i + (length l1 + 0))); [|lia].
    destruct (csr_insert_repr m rows i l1 [] c v Hr Hn) as [m' [Em Hm]]; [exact Hs'|].
    rewrite Em; cbn [bind]. exists m'; split; auto.
  - destruct (Nat.eqb_spec (offs rows i + length l1) (offs rows i + (length l1 + S (length l2)))); [lia|].
    assert (Hcat : nth_error (concat rows) (offs rows i + length l1) = Some (c', v')).
    { rewrite (concat_split rows i _ Hn). unfold offs.
      rewrite nth_error_mid; try lia; [|rewrite app_length; simpl; lia].
      replace (length (concat (firstn i rows)) + length l1 - length (concat (firstn i rows)))
        with (length l1) by lia.
      rewrite nth_error_app2 by lia. now rewrite Nat.sub_diag. }
    pose proof Hr as (_ & _ & Hx & Hd & _).
    assert (Hc : rd (indices m) (offs rows i + length l1) = Ok c').
    { apply rd_Ok. rewrite Hx, nth_error_map, Hcat; reflexivity. }
    rewrite Hc; cbn [bind].
    inversion H2 as [|? ? Hge Hrest]; subst; simpl in Hge.
    cbn [srow_set] in *. destruct (Nat.ltb_spec c' c); [lia|].
    destruct (Nat.eqb_spec c' c) as [->|Hne].
    + rewrite wr_Ok.
      2:{ rewrite Hd, map_length. apply nth_error_Some. congruence. }
      cbn [bind fst snd]. eexists; split; [reflexivity|]. split; [reflexivity|]. split; [reflexivity|].
      eapply (repr_upd_same_len m rows i (l1 ++ (c, v') :: l2)); eauto.
      * rewrite !app_length; reflexivity.
      * rewrite !map_app; reflexivity.
      * rewrite Hd. rewrite (upd_split rows i _ _ Hn), (concat_split rows i _ Hn).
        rewrite concat_app. cbn [concat]. rewrite !map_app. cbn [map snd].
        assert (Hlen : offs rows i + length l1 = length (map snd (concat (firstn i rows)) ++ map snd l1)).
        { unfold offs. now rewrite app_length, !map_length. }
        rewrite Hlen. rewrite <- !app_assoc. cbn [app].
        rewrite (app_assoc (map snd (concat (firstn i rows))) (map snd l1)).
        rewrite (app_assoc (map snd (concat (firstn i rows))) (map snd l1)).
        rewrite upd_mid. reflexivity.
    + destruct (csr_insert_repr m rows i l1 ((c', v') :: l2) c v Hr Hn) as [m' [Em Hm]]; [exact Hs'|].
      rewrite Em; cbn [bind]. exists m'; split; auto.
Qed.

Lemma csr_new_repr r c : repr (csr_new r c : csr T) (repeat [] r).
Proof.
  unfold repr, csr_new; simpl crows; simpl indptr; simpl indices; simpl cdata.
  rewrite repeat_length.
  assert (Hc : forall k, concat (repeat ([] : list (nat * T)) k) = []).
  { induction k; simpl; auto. }
  repeat split; auto.
  - assert (Hall : forall n s, repeat 0 n = map (offs (repeat [] r)) (seq s n)).
    { induction n as [|n IH]; intros s; auto. cbn [repeat seq map]. rewrite <- IH. f_equal.
      unfold offs. assert (E : forall k s, concat (firstn s (repeat ([] : list (nat * T)) k)) = []).
      { clear; induction k; intros [|s]; simpl; auto. }
      now rewrite E. }
    change (0 :: repeat 0 r) with (repeat 0 (S r)). apply Hall.
  - now rewrite Hc.
  - now rewrite Hc.
  - apply Forall_forall. intros x Hx. apply repeat_spec in Hx; subst. constructor.
Qed.

(** * well-formedness is exactly representability *)
Lemma firstn_skipn_slice {A} (l : list A) a b :
  a <= b -> firstn b l = firstn a l ++ firstn (b - a) (skipn a l).
Proof.
  intros H. rewrite <- (firstn_skipn a (firstn b l)).
  rewrite firstn_firstn, Nat.min_l by lia. f_equal. rewrite skipn_firstn_comm. reflexivity.
Qed.

Lemma repr_wf m rows : repr m rows -> csr_wf m.
Proof.
  intros Hr. pose proof Hr as (H1 & H2 & H3 & H4 & H5).
  assert (Hp : forall i lo, nth_error (indptr m) i = Some lo -> i <= length rows /\ lo = offs rows i).
  { intros i lo E. rewrite H2, nth_error_map_seq in E.
    destruct (Nat.ltb_spec i (S (length rows))); inversion E; split; auto; lia. }
  unfold csr_wf. rewrite H1, H2, map_length, seq_length. repeat split.
  - rewrite nth_error_map_seq. destruct (Nat.ltb_spec (length rows) (S (length rows))); [|lia].
    rewrite offs_all, H3, map_length; reflexivity.
  - now rewrite H3, H4, !map_length.
  - intros i lo hi E1 E2. rewrite <- H2 in *. apply Hp in E1, E2.
    destruct E1 as [_ ->], E2 as [Hi ->].
    destruct (nth_error rows i) as [row|] eqn:En.
    + rewrite (offs_S rows i row En). lia.
    + apply nth_error_None in En. lia.
  - intros i lo hi k a b E1 E2 Hk1 Hk2 Ea Eb. rewrite <- H2 in *. apply Hp in E1, E2.
    destruct E1 as [_ ->], E2 as [Hi ->].
    destruct (nth_error rows i) as [row|] eqn:En; [|apply nth_error_None in En; lia].
    rewrite (offs_S rows i row En) in Hk2.
    rewrite H3, (concat_split rows i row En), nth_error_map in Ea, Eb.
    unfold offs in *. rewrite nth_error_mid in Ea, Eb by lia.
    destruct (nth_error row (k - length (concat (firstn i rows)))) as [p1|] eqn:F1; [|discriminate].
    destruct (nth_error row (S k - length (concat (firstn i rows)))) as [p2|] eqn:F2; [|discriminate].
    inversion Ea; inversion Eb; subst.
    assert (Hs : srow row).
    { rewrite Forall_forall in H5. apply H5. eapply nth_error_In; eauto. }
    eapply (srow_nth_lt row); [exact Hs| |exact F1|exact F2]; lia.
Qed.

Lemma sorted_adjacent (l : list nat) :
  (forall k a b, nth_error l k = Some a -> nth_error l (S k) = Some b -> a < b) ->
  StronglySorted lt l.
Proof.
  induction l as [|x l IH]; intros H; [constructor|].
  assert (Hs : StronglySorted lt l).
  { apply IH. intros k a b Ha Hb. apply (H (S k) a b); auto. }
  constructor; auto.
  destruct l as [|y l]; [constructor|].
  assert (x < y) by (apply (H 0); auto).
  inversion Hs; subst. constructor; auto.
  rewrite Forall_forall in *. intros z Hz. specialize (H4 z Hz). lia.
Qed.

Lemma wf_repr m : csr_wf m -> exists rows, repr m rows.
Proof.
  intros (Hlen & H0 & Hlast & Hd & Hmono & Hsort).
  set (cells := combine (indices m) (cdata m)).
  set (p := fun i => nth i (indptr m) 0).
  assert (Hp : forall i, i <= crows m -> nth_error (indptr m) i = Some (p i)).
  { intros i Hi. apply nth_error_nth'. lia. }
  assert (Hcl : length cells = length (indices m)).
  { unfold cells; rewrite combine_length; lia. }
  assert (Hm : forall i, i < crows m -> p i <= p (S i)).
  { intros i Hi. eapply (Hmono i); apply Hp; lia. }
  set (rows := map (fun i => firstn (p (S i) - p i) (skipn (p i) cells)) (seq 0 (crows m))).
  assert (Hrl : length rows = crows m) by (unfold rows; now rewrite map_length, seq_length).
  assert (Hp0 : p 0 = 0) by (unfold p; apply nth_error_nth; exact H0).
  assert (Hpl : p (crows m) = length (indices m)) by (unfold p; apply nth_error_nth; exact Hlast).
  assert (Hmono2 : forall i j, i <= j -> j <= crows m -> p i <= p j).
  { intros i j Hij; induction Hij as [|j Hij IHj]; intros Hj; auto.
    specialize (Hm j ltac:(lia)). specialize (IHj ltac:(lia)). lia. }
  assert (Hpre : forall i, i <= crows m -> concat (firstn i rows) = firstn (p i) cells).
  { induction i as [|i IH]; intros Hi.
    - rewrite Hp0. simpl. reflexivity.
    - rewrite (concat_firstn_S rows i (firstn (p (S i) - p i) (skipn (p i) cells))).
      + rewrite IH by lia. symmetry. apply firstn_skipn_slice. apply Hm; lia.
      + unfold rows. rewrite nth_error_map_seq. destruct (Nat.ltb_spec i (crows m)); auto; lia. }
  assert (Hoffs : forall i, i <= crows m -> offs rows i = p i).
  { intros i Hi. unfold offs. rewrite Hpre by auto. rewrite firstn_length, Hcl, <- Hpl.
    pose proof (Hmono2 i (crows m) Hi (le_n _)). lia. }
  assert (Hall : concat rows = cells).
  { rewrite <- (firstn_all rows), Hrl, Hpre, Hpl, <- Hcl by lia. apply firstn_all. }
  exists rows. unfold repr. rewrite Hrl, Hall. repeat split; auto.
  - apply nth_ext with (d := 0) (d' := 0).
    + now rewrite Hlen, map_length, seq_length.
    + intros n Hn. rewrite Hlen in Hn.
      erewrite (nth_error_nth (map _ _)); [|rewrite nth_error_map_seq;
         destruct (Nat.ltb_spec n (S (crows m))); [reflexivity|lia]].
      rewrite Hoffs by lia. reflexivity.
  - unfold cells. clear - Hd. revert Hd. generalize (cdata m).
    induction (indices m) as [|x l IH]; intros [|d l'] Hd; simpl in *; try discriminate; auto.
    f_equal. apply IH; congruence.
  - unfold cells. clear - Hd. revert Hd. generalize (cdata m).
    induction (indices m) as [|x l IH]; intros [|d l'] Hd; simpl in *; try discriminate; auto.
    f_equal. apply IH; congruence.
  - apply Forall_forall. intros row Hrow. unfold rows in Hrow.
    apply in_map_iff in Hrow. destruct Hrow as [i [<- Hi]]. apply in_seq in Hi.
    unfold srow. apply sorted_adjacent. intros k a b Ha Hb.
    assert (Hnth : forall k x, nth_error (map fst (firstn (p (S i) - p i) (skipn (p i) cells))) k = Some x ->
               k < p (S i) - p i /\ nth_error (indices m) (p i + k) = Some x).
    { clear k a b Ha Hb. intros k x E. rewrite nth_error_map in E.
      destruct (nth_error (firstn _ _) k) as [q|] eqn:F; [|discriminate]. simpl in E. inversion E; subst.
      assert (Hk : k < length (firstn (p (S i) - p i) (skipn (p i) cells))) by (apply nth_error_Some; congruence).
      rewrite firstn_length, skipn_length in Hk. split; [lia|].
      assert (F' : nth_error cells (p i + k) = Some q).
      { rewrite <- F. rewrite <- (firstn_skipn (p i) cells) at 1.
        rewrite nth_error_app2; rewrite firstn_length; [|lia].
        replace (p i + k - Nat.min (p i) (length cells)) with k by lia.
        rewrite <- (firstn_skipn (p (S i) - p i) (skipn (p i) cells)) at 1.
        rewrite nth_error_app1; auto. rewrite firstn_length, skipn_length. lia. }
      unfold cells in F'. clear - F' Hd. revert F'. generalize (p i + k). revert Hd.
      generalize (cdata m). induction (indices m) as [|y l IH]; intros [|d l'] Hd [|n] F';
        simpl in *; try discriminate; auto.
      - now inversion F'.
      - eapply IH; eauto. }
    destruct (Hnth k a Ha) as [Hk1 E1]. destruct (Hnth (S k) b Hb) as [Hk2 E2].
    eapply (Hsort i (p i) (p (S i)) (p i + k)); try (apply Hp; lia); try lia; auto.
    rewrite <- E2. f_equal; lia.
Qed.

End Repr.
