(** Proofs about the interleaving model of the OpenMP matrix-vector product. *)
From Coq Require Import List Arith Lia Bool Permutation.
From Verif Require Import Res SparseModel SparseSpec SparseProof SparseProof2 ParModel.
Import ListNotations.

Lemma NoDup_concat_disjoint {A} (ls : list (list A)) k1 k2 l1 l2 x :
  NoDup (concat ls) -> nth_error ls k1 = Some l1 -> nth_error ls k2 = Some l2 ->
  In x l1 -> In x l2 -> k1 = k2.
Proof.
  revert k1 k2; induction ls as [|l ls IH]; intros [|k1] [|k2] Hnd H1 H2 I1 I2; simpl in *;
    try discriminate; auto.
  - exfalso. inversion H1; subst. assert (In x (concat ls)).
    { apply in_concat. exists l2. split; auto. eapply nth_error_In; eauto. }
    clear - Hnd I1 H. induction l1 as [|y l1 IH]; simpl in *; [tauto|].
    inversion Hnd; subst. destruct I1 as [->|I1].
    + apply H2, in_app_iff; auto.
    + apply IH; auto.
  - exfalso. inversion H2; subst. assert (In x (concat ls)).
    { apply in_concat. exists l1. split; auto. eapply nth_error_In; eauto. }
    clear - Hnd I2 H. induction l2 as [|y l2 IH]; simpl in *; [tauto|].
    inversion Hnd; subst. destruct I2 as [->|I2].
    + apply H2, in_app_iff; auto.
    + apply IH; auto.
  - f_equal. eapply IH; eauto.
    clear - Hnd. induction l as [|y l IHl]; simpl in *; auto. inversion Hnd; auto.
Qed.

Lemma NoDup_concat_in {A} (ls : list (list A)) k l :
  NoDup (concat ls) -> nth_error ls k = Some l -> NoDup l.
Proof.
  revert k; induction ls as [|l0 ls IH]; intros [|k] Hnd H; simpl in *; try discriminate.
  - inversion H; subst. clear - Hnd. induction l as [|y l IHl]; simpl in *; constructor; inversion Hnd; subst; auto.
    intros Hin; apply H1, in_app_iff; auto.
  - eapply IH; eauto. clear - Hnd. induction l0 as [|y l IHl]; simpl in *; auto. inversion Hnd; auto.
Qed.

Section Par.
Context {T : Type}.
Variable zero : T.
Variables (add mul : T -> T -> T).
Variable m : csr T.
Variable x : list T.
Hypothesis Hwf : csr_wf m.
Hypothesis Hcols : csr_cols_ok m.
Hypothesis Hx : length x = ccols m.
Variable asg : list (list nat).
Hypothesis Hasg : distribution m asg.

Let p i := nth i (indptr m) 0.

(** value of v[i] once the entries before position j have been added *)
Definition partial (i j : nat) : T :=
  fold_left (fun acc k => add acc (mul (nth k (cdata m) zero) (nth (nth k (indices m) 0) x zero)))
    (seq (p i) (j - p i)) zero.

Lemma partial_start i : partial i (p i) = zero.
Proof. unfold partial. now rewrite Nat.sub_diag. Qed.

Lemma partial_S i j : p i <= j ->
  partial i (S j) = add (partial i j) (mul (nth j (cdata m) zero) (nth (nth j (indices m) 0) x zero)).
Proof.
  intros H. unfold partial. replace (S j - p i) with (S (j - p i)) by lia.
  rewrite seq_S, fold_left_app. simpl. do 3 f_equal; try f_equal; lia.
Qed.

Lemma p_rd i : i <= crows m -> rd (indptr m) i = Ok (p i).
Proof. intros H. apply rd_nth. destruct Hwf as [E _]. lia. Qed.

Lemma p_mono i : i < crows m -> p i <= p (S i).
Proof.
  intros H. destruct Hwf as (E & _ & _ & _ & Hm & _).
  eapply (Hm i); apply nth_error_nth'; lia.
Qed.

Lemma p_mono2 i j : i <= j -> j <= crows m -> p i <= p j.
Proof.
  induction 1 as [|j Hij IH]; intros Hj; auto.
  pose proof (p_mono j ltac:(lia)). specialize (IH ltac:(lia)). lia.
Qed.

Lemma p_last : p (crows m) = length (indices m).
Proof. destruct Hwf as (_ & _ & H & _). unfold p. now apply nth_error_nth. Qed.

Lemma asg_lt k rows i : nth_error asg k = Some rows -> In i rows -> i < crows m.
Proof.
  intros H Hi. assert (In i (concat asg)).
  { apply in_concat. exists rows. split; auto. eapply nth_error_In; eauto. }
  eapply Permutation_in in H0; [|exact Hasg]. apply in_seq in H0. lia.
Qed.

Lemma asg_NoDup : NoDup (concat asg).
Proof. eapply Permutation_NoDup; [symmetry; exact Hasg|apply seq_NoDup]. Qed.

Definition tinv (v : list T) (rows : list nat) (t : thread T) : Prop :=
  exists dn, (match at_ t with
    | Idle => rows = dn ++ todo t
    | At i j hi => rows = dn ++ i :: todo t /\ p i <= j <= hi /\ hi = p (S i) /\
        nth_error v i = Some (partial i j)
    | Loaded i j hi tmp => rows = dn ++ i :: todo t /\ p i <= j < hi /\ hi = p (S i) /\
        nth_error v i = Some (partial i j) /\ tmp = partial i j
    end) /\
    (forall k, In k dn -> nth_error v k = Some (partial k (p (S k)))) /\
    (forall k, In k (todo t) -> nth_error v k = Some zero).

Definition pinv (s : pstate) : Prop :=
  length (fst s) = crows m /\ length (snd s) = length asg /\
  forall k rows t, nth_error asg k = Some rows -> nth_error (snd s) k = Some t -> tinv (fst s) rows t.

Lemma tinv_frame v i y rows t : ~ In i rows -> tinv v rows t -> tinv (upd v i y) rows t.
Proof.
  intros Hni (dn & H1 & H2 & H3). exists dn.
  assert (Hr : forall k, In k rows -> nth_error (upd v i y) k = nth_error v k).
  { intros k Hk. apply nth_error_upd_ne. congruence. }
  assert (Hsub : (forall k, In k dn -> In k rows) /\ (forall k, In k (todo t) -> In k rows)).
  { destruct (at_ t); [subst rows|destruct H1 as [-> _]|destruct H1 as [-> _]];
      split; intros k Hk; apply in_app_iff; simpl; auto. }
  splits.
  - destruct (at_ t); auto.
    + destruct H1 as (E & ? & ? & ?). rewrite Hr by (rewrite E; apply in_app_iff; simpl; auto). auto.
    + destruct H1 as (E & ? & ? & ? & ?). rewrite Hr by (rewrite E; apply in_app_iff; simpl; auto). auto.
  - intros k Hk. rewrite Hr; [auto|]. apply (proj1 Hsub); auto.
  - intros k Hk. rewrite Hr; [auto|]. apply (proj2 Hsub); auto.
Qed.

Lemma pinv_init : pinv (pinit zero m asg).
Proof.
  unfold pinv, pinit; cbn [fst snd]. rewrite repeat_length, map_length. splits; auto.
  intros k rows t H1 H2. rewrite nth_error_map, H1 in H2. inversion H2; subst.
  exists []. cbn [at_ todo app]. splits; auto.
  - intros i [].
  - intros i Hi. pose proof (asg_lt _ _ _ H1 Hi).
    rewrite (nth_error_nth' _ zero) by (rewrite repeat_length; auto).
    f_equal. apply nth_repeat.
Qed.

(** a thread in a good state is finished or takes a fault-free step that
    changes at most its own current row *)
Lemma tstep_ok v rows k t :
  length v = crows m -> nth_error asg k = Some rows -> tinv v rows t ->
  (tstep add mul m x v t = None /\ at_ t = Idle /\ todo t = []) \/
  exists v' t', tstep add mul m x v t = Some (Ok (v', t')) /\ tinv v' rows t' /\
    (v' = v \/ exists i y, In i rows /\ v' = upd v i y).
Proof.
  intros Hv Hk (dn & H1 & H2 & H3).
  pose proof (NoDup_concat_in _ _ _ asg_NoDup Hk) as Hnd.
  unfold tstep. destruct (at_ t) as [|i j hi|i j hi tmp] eqn:Ea.
  - destruct (todo t) as [|i rest] eqn:Et; [left; auto|right].
    assert (Hi : i < crows m).
    { eapply asg_lt; eauto. rewrite H1. apply in_app_iff; simpl; auto. }
    rewrite (p_rd i), (p_rd (S i)) by lia. cbn [bind].
    do 2 eexists; split; [reflexivity|]. split; [|left; reflexivity].
    exists dn. cbn [at_ todo]. splits; auto.
    + apply p_mono; auto.
    + rewrite partial_start. apply H3; left; auto.
    + intros; apply H3; right; auto.
  - right. destruct H1 as (E & Hj & Hhi & Hvi).
    destruct (Nat.ltb_spec j hi) as [Hlt|Hge].
    + rewrite (proj2 (rd_Ok _ _ _) Hvi). cbn [bind].
      do 2 eexists; split; [reflexivity|]. split; [|left; reflexivity].
      exists dn. cbn [at_ todo]. splits; auto; lia.
    + do 2 eexists; split; [reflexivity|]. split; [|left; reflexivity].
      exists (dn ++ [i]). cbn [at_ todo]. splits; auto.
      * rewrite <- app_assoc; exact E.
      * intros k0 Hk0. apply in_app_iff in Hk0. destruct Hk0 as [Hk0|[<-|[]]]; auto.
        rewrite Hvi. do 2 f_equal. lia.
  - right. destruct H1 as (E & Hj & Hhi & Hvi & Htmp).
    assert (Hi : i < crows m).
    { eapply asg_lt; eauto. rewrite E. apply in_app_iff; simpl; auto. }
    assert (Hjl : j < length (indices m)).
    { rewrite <- p_last. pose proof (p_mono2 (S i) (crows m) ltac:(lia) ltac:(lia)). lia. }
    assert (Hdl : length (cdata m) = length (indices m)) by (apply Hwf).
    rewrite (rd_nth (cdata m) j zero), (rd_nth (indices m) j 0) by lia. cbn [bind].
    rewrite (rd_nth x _ zero).
    2:{ rewrite Hx. apply Hcols. apply nth_In; auto. }
    cbn [bind]. rewrite wr_Ok by lia. cbn [bind].
    do 2 eexists; split; [reflexivity|]. split.
    2:{ right. exists i. eexists. split; [|reflexivity]. rewrite E; apply in_app_iff; simpl; auto. }
    assert (Hnot : ~ In i (dn ++ todo t)).
    { rewrite E in Hnd. apply NoDup_remove_2 in Hnd. auto. }
    rewrite in_app_iff in Hnot.
    exists dn. cbn [at_ todo]. splits; auto; try lia.
    + rewrite nth_error_upd_eq by lia. rewrite partial_S, <- Htmp by lia. reflexivity.
    + intros k0 Hk0. rewrite nth_error_upd_ne; auto. intros ->; tauto.
    + intros k0 Hk0. rewrite nth_error_upd_ne; auto. intros ->; tauto.
Qed.

Lemma pinv_step s s' : pinv s -> pstep add mul m x s s' -> pinv s'.
Proof.
  intros (Hv & Hl & Hi) Hst. inversion Hst as [v ts k t v' t' Hk Ht]; subst. cbn [fst snd] in *.
  assert (Hka : k < length asg) by (rewrite <- Hl; apply nth_error_Some; congruence).
  destruct (rd_lt asg k Hka) as [rows Hrows]. apply rd_Ok in Hrows.
  destruct (tstep_ok v rows k t Hv Hrows (Hi _ _ _ Hrows Hk)) as [[E _]|(v2 & t2 & E & Hti & Hch)];
    rewrite Ht in E; [discriminate|]. inversion E; subst v2 t2.
  unfold pinv; cbn [fst snd]. splits.
  - destruct Hch as [->|(i & y & _ & ->)]; auto. now rewrite upd_length.
  - now rewrite upd_length.
  - intros k0 rows0 t0 H1 H2. rewrite nth_error_upd in H2.
    destruct (Nat.eqb_spec k k0) as [<-|Hne]; cbn [andb] in H2.
    + destruct (Nat.ltb_spec k (length ts)); [|lia]. inversion H2; subst.
      assert (rows0 = rows) by congruence. subst. auto.
    + specialize (Hi _ _ _ H1 H2). destruct Hch as [->|(i & y & Hin & ->)]; auto.
      apply tinv_frame; auto. intros Hin'. apply Hne.
      eapply (NoDup_concat_disjoint asg); eauto. apply asg_NoDup.
Qed.

Lemma pinv_steps s : psteps add mul m x (pinit zero m asg) s -> pinv s.
Proof.
  remember (pinit zero m asg) as s0 eqn:E0. induction 1; subst.
  - apply pinv_init.
  - eapply pinv_step; eauto.
Qed.

Lemma par_progress s : pinv s ->
  finished s \/ exists s', pstep add mul m x s s'.
Proof.
  intros (Hv & Hl & Hi). destruct s as [v ts]; cbn [fst snd] in *.
  assert (G : forall n, n <= length ts ->
     (forall k t, k < n -> nth_error ts k = Some t -> at_ t = Idle /\ todo t = []) \/
     exists s', pstep add mul m x (v, ts) s').
  { induction n as [|n IH]; intros Hn; [left; intros; lia|].
    destruct IH as [IH|IH]; [lia| |right; auto].
    destruct (rd_lt ts n ltac:(lia)) as [t Ht]. apply rd_Ok in Ht.
    destruct (rd_lt asg n ltac:(lia)) as [rows Hr]. apply rd_Ok in Hr.
    destruct (tstep_ok v rows n t Hv Hr (Hi _ _ _ Hr Ht)) as [[_ E]|(v2 & t2 & E & _)].
    - left. intros k t' Hk Ht'. destruct (Nat.eq_dec k n) as [->|]; [|apply (IH k); auto; lia].
      assert (t' = t) by congruence; subst; auto.
    - right. eexists. econstructor; eauto. }
  destruct (G (length ts) (le_n _)) as [G1|G1]; [left|right; auto].
  intros k t Hk. apply (G1 k t); auto. apply nth_error_Some; simpl in Hk; congruence.
Qed.

Lemma par_no_fault s k t f : pinv s -> nth_error (snd s) k = Some t ->
  tstep add mul m x (fst s) t <> Some (Fail f).
Proof.
  intros (Hv & Hl & Hi) Ht.
  assert (Hka : k < length asg) by (rewrite <- Hl; apply nth_error_Some; congruence).
  destruct (rd_lt asg k Hka) as [rows Hr]. apply rd_Ok in Hr.
  destruct (tstep_ok (fst s) rows k t Hv Hr (Hi _ _ _ Hr Ht)) as [[E _]|(v2 & t2 & E & _)];
    rewrite E; discriminate.
Qed.

(** the sequential loop computes the same values *)
Lemma csr_mulvec_partial :
  csr_mulvec zero add mul m x = Ok (map (fun i => partial i (p (S i))) (seq 0 (crows m))).
Proof.
  destruct (wf_repr m Hwf) as [rows Hr]. rewrite (csr_mulvec_ok zero add mul m rows x Hr Hcols Hx).
  f_equal. pose proof Hr as (H1 & H2 & H3 & H4 & H5).
  assert (Hp : forall i, i <= length rows -> p i = offs rows i).
  { intros i Hi. pose proof (repr_indptr m rows i Hr Hi) as E. rewrite p_rd in E by lia. congruence. }
  apply nth_ext with (d := zero) (d' := zero).
  - rewrite !map_length, seq_length. auto.
  - intros i Hi. rewrite map_length in Hi.
    destruct (nth_error rows i) as [row|] eqn:En; [|apply nth_error_None in En; lia].
    rewrite (nth_error_nth (map _ rows) i zero (x := row_dot zero add mul x row)).
    2:{ rewrite nth_error_map, En; reflexivity. }
    rewrite (nth_error_nth (map _ (seq _ _)) i zero (x := partial i (p (S i)))).
    2:{ rewrite nth_error_map_seq. destruct (Nat.ltb_spec i (crows m)); [reflexivity|lia]. }
    unfold partial, row_dot. rewrite (Hp i), (Hp (S i)) by lia. rewrite (offs_S rows i row En).
    replace (offs rows i + length row - offs rows i) with (length row) by lia.
    assert (Hcell : forall k q, nth_error row k = Some q -> nth_error (concat rows) (offs rows i + k) = Some q).
    { intros k q Hk. rewrite (concat_split rows i row En).
      assert (k < length row) by (apply nth_error_Some; congruence).
      unfold offs. rewrite nth_error_mid by lia. rewrite <- Hk. f_equal. lia. }
    clear - Hcell H3 H4. revert Hcell. generalize (offs rows i). generalize zero at 2 5.
    induction row as [|[c d] row IH]; intros acc s Hcell; simpl; auto.
    assert (H0 : nth_error (concat rows) s = Some (c, d)).
    { rewrite <- (Hcell 0 (c, d) eq_refl). f_equal; lia. }
    assert (B1 : nth s (indices m) 0 = c) by (apply nth_error_nth; rewrite H3, nth_error_map, H0; reflexivity).
    assert (B2 : nth s (cdata m) zero = d) by (apply nth_error_nth; rewrite H4, nth_error_map, H0; reflexivity).
    rewrite B1, B2. rewrite (IH _ (S s)); [reflexivity|].
    intros k q Hk. rewrite <- (Hcell (S k) q Hk). f_equal; lia.
Qed.

Lemma par_result s : pinv s -> finished s -> csr_mulvec zero add mul m x = Ok (fst s).
Proof.
  intros (Hv & Hl & Hi) Hf. rewrite csr_mulvec_partial. f_equal.
  apply nth_ext with (d := zero) (d' := zero).
  - now rewrite map_length, seq_length.
  - intros i Hil. rewrite map_length, seq_length in Hil.
    rewrite (nth_error_nth (map _ (seq _ _)) i zero (x := partial i (p (S i)))).
    2:{ rewrite nth_error_map_seq. destruct (Nat.ltb_spec i (crows m)); [reflexivity|lia]. }
    symmetry. apply nth_error_nth.
    assert (Hin : In i (concat asg)).
    { eapply Permutation_in; [symmetry; exact Hasg|]. apply in_seq; lia. }
    apply in_concat in Hin. destruct Hin as [rows [Hr Hir]].
    apply In_nth_error in Hr. destruct Hr as [k Hk].
    assert (Hks : k < length (snd s)) by (rewrite Hl; apply nth_error_Some; congruence).
    destruct (rd_lt (snd s) k Hks) as [t Ht]. apply rd_Ok in Ht.
    destruct (Hf k t Ht) as [Hidle Htodo].
    destruct (Hi _ _ _ Hk Ht) as (dn & H1 & H2 & _). rewrite Hidle, Htodo, app_nil_r in H1.
    apply H2. now subst.
Qed.

Lemma par_race_free s k1 k2 t1 t2 i1 i2 w1 w2 :
  pinv s -> k1 <> k2 -> nth_error (snd s) k1 = Some t1 -> nth_error (snd s) k2 = Some t2 ->
  access t1 = Some (i1, w1) -> access t2 = Some (i2, w2) -> i1 <> i2.
Proof.
  intros (Hv & Hl & Hi) Hne H1 H2 A1 A2 ->. apply Hne.
  assert (G : forall k t w, nth_error (snd s) k = Some t -> access t = Some (i2, w) ->
     exists rows, nth_error asg k = Some rows /\ In i2 rows).
  { intros k t w Hk Ha.
    assert (Hka : k < length asg) by (rewrite <- Hl; apply nth_error_Some; congruence).
    destruct (rd_lt asg k Hka) as [rows Hr]. apply rd_Ok in Hr. exists rows; split; auto.
    destruct (Hi _ _ _ Hr Hk) as (dn & Hc & _). unfold access in Ha.
    destruct (at_ t) as [|i j hi|i j hi tmp].
    - discriminate.
    - destruct (j <? hi); [|discriminate]. inversion Ha; subst. destruct Hc as [-> _].
      apply in_app_iff; simpl; auto.
    - inversion Ha; subst. destruct Hc as [-> _]. apply in_app_iff; simpl; auto. }
  destruct (G _ _ _ H1 A1) as [r1 [R1 I1]]. destruct (G _ _ _ H2 A2) as [r2 [R2 I2]].
  eapply (NoDup_concat_disjoint asg); eauto. apply asg_NoDup.
Qed.

(** termination *)
Definition row_cost (i : nat) : nat := 2 * (p (S i) - p i) + 2.
Definition tcost (t : thread T) : nat :=
  list_sum (map row_cost (todo t)) +
  match at_ t with
  | Idle => 0
  | At i j hi => 2 * (hi - j) + 1
  | Loaded i j hi _ => 2 * (hi - j)
  end.
Definition pcost (s : pstate) : nat := list_sum (map tcost (snd s)).

Lemma list_sum_upd {A} (f : A -> nat) l k a b :
  nth_error l k = Some a -> f b < f a -> list_sum (map f (upd l k b)) < list_sum (map f l).
Proof.
  revert k; induction l as [|y l IH]; intros [|k] H Hlt; simpl in *; try discriminate.
  - inversion H; subst. unfold list_sum; simpl. fold (list_sum (map f l)). lia.
  - specialize (IH k H Hlt). unfold list_sum in *; simpl in *. lia.
Qed.

Lemma pcost_step s s' : pinv s -> pstep add mul m x s s' -> pcost s' < pcost s.
Proof.
  intros (Hv & Hl & Hi) Hst. inversion Hst as [v ts k t v' t' Hk Ht]; subst. cbn [fst snd] in *.
  assert (Hka : k < length asg) by (rewrite <- Hl; apply nth_error_Some; congruence).
  destruct (rd_lt asg k Hka) as [rows Hrows]. apply rd_Ok in Hrows.
  destruct (Hi _ _ _ Hrows Hk) as (dn & Hc & _).
  unfold pcost; cbn [snd]. apply (list_sum_upd tcost ts k t); auto.
  unfold tstep in Ht. unfold tcost. destruct (at_ t) as [|i j hi|i j hi tmp].
  - destruct (todo t) as [|i rest] eqn:Et; [discriminate|].
    assert (Hir : i < crows m).
    { eapply asg_lt; eauto. rewrite Hc. apply in_app_iff; simpl; auto. }
    rewrite (p_rd i), (p_rd (S i)) in Ht by lia. cbn [bind] in Ht. inversion Ht; subst.
    cbn [at_ todo map]. unfold list_sum; simpl. fold (list_sum (map row_cost rest)).
    unfold row_cost. lia.
  - destruct (Nat.ltb_spec j hi).
    + destruct (rd v i); cbn [bind] in Ht; inversion Ht; subst. cbn [at_ todo]. lia.
    + inversion Ht; subst. cbn [at_ todo]. lia.
  - inversion Ht as [Ht']. repeat (apply bind_Ok in Ht'; destruct Ht' as [? [_ Ht']]).
    inversion Ht'; subst. cbn [at_ todo]. lia.
Qed.

Lemma par_terminates : ~ exists f : nat -> pstate,
  f 0 = pinit zero m asg /\ forall n, pstep add mul m x (f n) (f (S n)).
Proof.
  intros [f [H0 Hs]].
  assert (Hinv : forall n, pinv (f n)).
  { induction n; [rewrite H0; apply pinv_init|eapply pinv_step; eauto]. }
  assert (G : forall n, pcost (f n) + n <= pcost (f 0)).
  { induction n; [lia|]. pose proof (pcost_step _ _ (Hinv n) (Hs n)). lia. }
  specialize (G (S (pcost (f 0)))). lia.
Qed.
End Par.
