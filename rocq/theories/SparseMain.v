(** Properties C01-C08: sparse containers: the proofs. *)
From Coq Require Import List Arith Lia Bool Permutation Reals Lra.
From Verif Require Import Res SumR SparseModel SparseSpec SparseProof SparseProof2 ParModel ParProof.
Import ListNotations.

Lemma nth_error_nth_eq {A} (l : list A) i d x : nth_error l i = Some x -> nth i l d = x.
Proof. apply nth_error_nth. Qed.

Lemma C01_lil_is_map_pf : forall (T : Type) (zero : T) (r c : nat) (h : list (nat * nat * T)),
  (forall i j v, In (i, j, v) h -> i < r) ->
  exists m, run_lil h (lil_new r c) = Ok (flags h, m) /\
    lrows m = r /\ lcols m = c /\ lil_wf m /\
    (forall i j, i < r -> lil_get zero m i j = Ok (value_or zero (last_write h i j))) /\
    (forall i j, r <= i -> lil_get zero m i j = Fail OutOfBounds).
Proof.
  intros T zero r c h Hb.
  destruct (run_lil_ok zero h r c Hb) as (m & E & Hr & Hc & Hwf & Hm & _).
  exists m. splits; auto.
  - intros i j Hi. apply lil_get_match; auto. destruct Hwf as [-> _]. lia.
  - intros i j Hi. unfold lil_get, rd. destruct Hwf as [Hl _].
    rewrite (proj2 (nth_error_None _ _)) by lia. reflexivity.
Qed.

Lemma C02_csr_is_map_pf : forall (T : Type) (zero : T) (r c : nat) (h : list (nat * nat * T)),
  (forall i j v, In (i, j, v) h -> i < r) ->
  exists m, run_csr h (csr_new r c) = Ok (flags h, m) /\
    crows m = r /\ ccols m = c /\ csr_wf m /\
    (forall i j, i < r -> csr_get zero m i j = Ok (value_or zero (last_write h i j))).
Proof.
  intros T zero r c h Hb.
  destruct (run_csr_ok zero h r c Hb) as (m & rows & E & Hr & Hc & Hrep & Hm & _).
  exists m. splits; auto.
  - eapply repr_wf; eauto.
  - intros i j Hi. eapply csr_get_match; eauto. lia.
Qed.

Lemma C02_csr_set_step_pf : forall (T : Type) (zero : T) (m : csr T) (i j : nat) (v : T),
  csr_wf m -> i < crows m ->
  exists b m', csr_set m i j v = Ok (b, m') /\ csr_wf m' /\
    crows m' = crows m /\ ccols m' = ccols m /\
    length (indices m') = (if b then length (indices m) else S (length (indices m))) /\
    csr_get zero m' i j = Ok v /\
    (forall i' j', i' < crows m -> (i', j') <> (i, j) -> csr_get zero m' i' j' = csr_get zero m i' j').
Proof.
  intros T zero m i j v Hwf Hi. apply wf_repr in Hwf. destruct Hwf as [rows Hr].
  pose proof Hr as (Hl & _ & Hix & _ & Hs).
  destruct (rd_lt rows i ltac:(lia)) as [row Hrow]. apply rd_Ok in Hrow.
  assert (Hsr : srow row).
  { rewrite Forall_forall in Hs. apply Hs. eapply nth_error_In; eauto. }
  destruct (csr_set_repr m rows i row j v Hr Hrow) as (m' & E & D1 & D2 & R').
  do 2 eexists; split; [exact E|].
  assert (Hrow' : nth_error (upd rows i (snd (srow_set row j v))) i = Some (snd (srow_set row j v))).
  { apply nth_error_upd_eq; lia. }
  splits; auto.
  - eapply repr_wf; eauto.
  - pose proof R' as (_ & _ & Hix' & _). rewrite Hix, Hix', !map_length.
    rewrite (upd_split _ _ _ _ Hrow), concat_app, (concat_split rows i row Hrow). cbn [concat].
    rewrite !app_length.
    assert (Hlen : length (snd (srow_set row j v)) =
       if fst (srow_set row j v) then length row else S (length row)).
    { clear. induction row as [|[c0 v0] row IH]; simpl; auto.
      destruct (c0 <? j); simpl.
      - destruct (srow_set row j v) as [b t]; simpl in *. rewrite IH. destruct b; auto.
      - destruct (c0 =? j); reflexivity. }
    rewrite Hlen. destruct (fst (srow_set row j v)); lia.
  - rewrite (csr_get_repr zero m' _ i _ j R' Hrow'). f_equal.
    rewrite srow_set_get by auto. now rewrite Nat.eqb_refl.
  - intros i' j' Hi' Hne. destruct (Nat.eq_dec i i') as [<-|Hii].
    + rewrite (csr_get_repr zero m' _ i _ j' R' Hrow'), (csr_get_repr zero m rows i row j' Hr Hrow).
      f_equal. rewrite srow_set_get by auto. destruct (Nat.eqb_spec j j'); congruence.
    + destruct (rd_lt rows i' ltac:(lia)) as [row2 Hrow2]. apply rd_Ok in Hrow2.
      rewrite (csr_get_repr zero m rows i' row2 j' Hr Hrow2).
      rewrite (csr_get_repr zero m' _ i' row2 j' R'); auto.
      rewrite nth_error_upd_ne; auto.
Qed.

Lemma C03_lil_to_csr_pf : forall (T : Type) (zero : T) (a : lil T),
  lil_wf a ->
  exists m a', csr_of_lil a = Ok (m, a') /\ csr_wf m /\
    crows m = lrows a /\ ccols m = lcols a /\
    length (indices m) = length (concat (ldata a)) /\
    (forall i j, i < lrows a -> csr_get zero m i j = lil_get zero a i j) /\
    lil_wf a' /\ lrows a' = lrows a /\ lcols a' = lcols a /\
    (forall i j, lil_get zero a' i j = lil_get zero a i j).
Proof.
  intros T zero a Hwf. destruct (csr_of_lil_repr a Hwf) as (m & E & D1 & D2 & Hr).
  do 2 eexists; split; [exact E|]. destruct Hwf as [Hl Hnd].
  assert (Hget : forall i j row, nth_error (ldata a) i = Some row ->
            row_get zero (sort_row row) j = row_get zero row j).
  { intros i j row Hn. symmetry. apply row_get_perm.
    - apply Hnd. eapply nth_error_In; eauto.
    - apply Permutation_sym, sort_row_perm. }
  cbn [lrows lcols ldata]. splits; auto.
  - eapply repr_wf; eauto.
  - destruct Hr as (_ & _ & -> & _). rewrite map_length. clear.
    induction (ldata a) as [|r rs IH]; simpl; auto. rewrite !app_length, IH. f_equal.
    apply Permutation_length, sort_row_perm.
  - intros i j Hi. destruct (rd_lt (ldata a) i ltac:(lia)) as [row Hrow]. pose proof Hrow as Hrow2.
    apply rd_Ok in Hrow.
    rewrite (csr_get_repr zero m _ i (sort_row row) j Hr) by (rewrite nth_error_map, Hrow; reflexivity).
    unfold lil_get. rewrite Hrow2. cbn [bind]. f_equal. eapply Hget; eauto.
  - split; cbn [lrows ldata]; [now rewrite map_length|].
    intros row Hin. apply in_map_iff in Hin. destruct Hin as [r0 [<- Hin]].
    eapply Permutation_NoDup; [apply Permutation_map, Permutation_sym, sort_row_perm|auto].
  - intros i j. unfold lil_get, rd; cbn [ldata]. rewrite nth_error_map.
    destruct (nth_error (ldata a) i) as [row|] eqn:En; cbn [option_map bind]; auto.
    f_equal. eapply Hget; eauto.
Qed.

Lemma C04_csr_lil_csr_identity_pf : forall (T : Type) (zero : T) (m : csr T),
  csr_wf m ->
  exists a, lil_of_csr m = Ok a /\ lil_wf a /\ csr_of_lil a = Ok (m, a) /\
    (forall i j, i < crows m -> lil_get zero a i j = csr_get zero m i j).
Proof.
  intros T zero m Hwf. apply wf_repr in Hwf. destruct Hwf as [rows Hr].
  exists (mkLil (crows m) (ccols m) rows). splits.
  - now apply lil_of_csr_repr.
  - now apply repr_lil_wf.
  - now apply csr_lil_csr.
  - intros i j Hi. pose proof Hr as (Hl & _).
    destruct (rd_lt rows i ltac:(lia)) as [row Hrow]. unfold lil_get; cbn [ldata]. rewrite Hrow. cbn [bind].
    apply rd_Ok in Hrow. now rewrite (csr_get_repr zero m rows i row j Hr Hrow).
Qed.

Lemma C05_formats_agree_pf : forall (r c : nat) (h : list (nat * nat * R)),
  (forall i j v, In (i, j, v) h -> i < r) ->
  exists a m, run_lil h (lil_new r c) = Ok (flags h, a) /\ run_csr h (csr_new r c) = Ok (flags h, m) /\
    (forall i j, i < r -> lil_get 0%R a i j = csr_get 0%R m i j) /\
    ((forall i j v, In (i, j, v) h -> j < c) ->
     forall x, length x = c ->
       exists y, lil_mulvec 0%R Rplus Rmult a x = Ok y /\ csr_mulvec 0%R Rplus Rmult m x = Ok y).
Proof.
  intros r c h Hb.
  destruct (run_lil_ok 0%R h r c Hb) as (a & Ea & Hra & Hca & Hwfa & Hma & Hka).
  destruct (run_csr_ok 0%R h r c Hb) as (m & rows & E & Hr & Hc & Hrep & Hm & Hk).
  exists a, m. splits; auto.
  - intros i j Hi. rewrite (lil_get_match 0%R a h) by (auto; destruct Hwfa as [-> _]; lia).
    symmetry. eapply csr_get_match; eauto. lia.
  - intros Hcol x Hx.
    assert (Hca' : lil_cols_ok a).
    { intros row k H1 H2. destruct (Hka row k H1 H2) as (i & v & Hin). rewrite Hca. eauto. }
    assert (Hcm' : csr_cols_ok m).
    { eapply repr_cols; eauto. intros row k H1 H2. destruct (Hk row k H1 H2) as (i & v & Hin).
      rewrite Hc. eauto. }
    exists (map (row_dot 0%R Rplus Rmult x) (ldata a)). split.
    + apply lil_mulvec_ok; auto; congruence.
    + rewrite (csr_mulvec_ok 0%R Rplus Rmult m rows x) by (auto; congruence). f_equal.
      pose proof Hrep as (Hlr & _ & _ & _ & Hs). destruct Hwfa as [Hla Hnda].
      apply nth_ext with (d := 0%R) (d' := 0%R).
      * rewrite !map_length. congruence.
      * intros i Hi. rewrite map_length in Hi.
        destruct (nth_error rows i) as [rw|] eqn:En; [|apply nth_error_None in En; lia].
        destruct (nth_error (ldata a) i) as [ra|] eqn:Ena; [|apply nth_error_None in Ena; lia].
        rewrite (nth_error_nth (map _ rows) i 0%R (x := row_dot 0%R Rplus Rmult x rw))
          by (rewrite nth_error_map, En; reflexivity).
        rewrite (nth_error_nth (map _ (ldata a)) i 0%R (x := row_dot 0%R Rplus Rmult x ra))
          by (rewrite nth_error_map, Ena; reflexivity).
        rewrite (row_dot_R x rw c), (row_dot_R x ra c).
        -- apply bigsum_ext. intros j Hj.
           rewrite (proj1 (Hm i rw En j)), (proj1 (Hma i ra Ena j)). reflexivity.
        -- apply Hnda. eapply nth_error_In; eauto.
        -- intros k Hin. destruct (Hka ra k) as (i0 & v0 & Hin0); auto; [eapply nth_error_In; eauto|eauto].
        -- apply srow_NoDup. rewrite Forall_forall in Hs. apply Hs. eapply nth_error_In; eauto.
        -- intros k Hin. destruct (Hk rw k) as (i0 & v0 & Hin0); auto; [eapply nth_error_In; eauto|eauto].
Qed.

Lemma C06_spmv_csr_pf : forall (m : csr R) (x : list R),
  csr_wf m -> csr_cols_ok m -> length x = ccols m ->
  exists y, csr_mulvec 0%R Rplus Rmult m x = Ok y /\ length y = crows m /\
    forall i, i < crows m ->
      nth i y 0%R = matvec (ccols m) (csr_entry 0%R m) (fun j => nth j x 0%R) i.
Proof.
  intros m x Hwf Hc Hx. apply wf_repr in Hwf. destruct Hwf as [rows Hr].
  pose proof Hr as (Hl & _ & _ & _ & Hs).
  exists (map (row_dot 0%R Rplus Rmult x) rows). splits.
  - now apply csr_mulvec_ok.
  - now rewrite map_length.
  - intros i Hi. destruct (rd_lt rows i ltac:(lia)) as [row Hrow]. apply rd_Ok in Hrow.
    rewrite (nth_error_nth (map _ rows) i 0%R (x := row_dot 0%R Rplus Rmult x row))
      by (rewrite nth_error_map, Hrow; reflexivity).
    rewrite (row_dot_R x row (ccols m)).
    + unfold matvec. apply bigsum_ext. intros j Hj. unfold csr_entry.
      now rewrite (csr_get_repr 0%R m rows i row j Hr Hrow).
    + apply srow_NoDup. rewrite Forall_forall in Hs. apply Hs. eapply nth_error_In; eauto.
    + intros k Hk. eapply (repr_cols_inv m rows Hr Hc row); eauto. eapply nth_error_In; eauto.
Qed.

Lemma C06_spmv_lil_pf : forall (a : lil R) (x : list R),
  lil_wf a -> lil_cols_ok a -> length x = lcols a ->
  exists y, lil_mulvec 0%R Rplus Rmult a x = Ok y /\ length y = lrows a /\
    forall i, i < lrows a ->
      nth i y 0%R = matvec (lcols a) (lil_entry 0%R a) (fun j => nth j x 0%R) i.
Proof.
  intros a x Hwf Hc Hx. pose proof Hwf as [Hl Hnd].
  exists (map (row_dot 0%R Rplus Rmult x) (ldata a)). splits.
  - now apply lil_mulvec_ok.
  - now rewrite map_length.
  - intros i Hi. destruct (rd_lt (ldata a) i ltac:(lia)) as [row Hrow]. pose proof Hrow as Hrow2. apply rd_Ok in Hrow.
    rewrite (nth_error_nth (map _ _) i 0%R (x := row_dot 0%R Rplus Rmult x row))
      by (rewrite nth_error_map, Hrow; reflexivity).
    rewrite (row_dot_R x row (lcols a)).
    + unfold matvec. apply bigsum_ext. intros j Hj. unfold lil_entry, lil_get. rewrite Hrow2. reflexivity.
    + apply Hnd. eapply nth_error_In; eauto.
    + intros k Hk. eapply (Hc row); eauto. eapply nth_error_In; eauto.
Qed.

Lemma C07_parallel_spmv_pf : forall (T : Type) (zero : T) (add mul : T -> T -> T)
  (m : csr T) (x : list T) (asg : list (list nat)),
  csr_wf m -> csr_cols_ok m -> length x = ccols m -> distribution m asg ->
  (forall s, psteps add mul m x (pinit zero m asg) s ->
     (finished s -> csr_mulvec zero add mul m x = Ok (fst s)) /\
     (finished s \/ exists s', pstep add mul m x s s') /\
     (forall k t f, nth_error (snd s) k = Some t -> tstep add mul m x (fst s) t <> Some (Fail f)) /\
     (forall k1 k2 t1 t2 i1 i2 w1 w2, k1 <> k2 ->
        nth_error (snd s) k1 = Some t1 -> nth_error (snd s) k2 = Some t2 ->
        access t1 = Some (i1, w1) -> access t2 = Some (i2, w2) -> i1 <> i2)) /\
  ~ (exists f : nat -> pstate, f 0 = pinit zero m asg /\
       forall n, pstep add mul m x (f n) (f (S n))).
Proof.
  intros T zero add mul m x asg Hwf Hc Hx Hd. split.
  - intros s Hs. pose proof (pinv_steps zero add mul m x Hwf Hc Hx asg Hd s Hs) as Hi. splits.
    + intros Hf. eapply par_result; eauto.
    + eapply par_progress; eauto.
    + intros k t f Ht. eapply par_no_fault; eauto.
    + intros. eapply par_race_free; eauto.
  - eapply par_terminates; eauto.
Qed.

Lemma C08_csr_add_sub_pf : forall (op : R -> R -> R) (a b : csr R),
  op = Rplus \/ op = Rminus ->
  csr_wf a -> csr_wf b ->
  (crows a = crows b /\ ccols a = ccols b ->
   exists m, csr_zip 0%R op a b = Ok m /\ csr_wf m /\ crows m = crows a /\ ccols m = ccols a /\
    forall i j, i < crows a -> csr_entry 0%R m i j = op (csr_entry 0%R a i j) (csr_entry 0%R b i j)) /\
  (~ (crows a = crows b /\ ccols a = ccols b) -> csr_zip 0%R op a b = Fail AssertFail).
Proof.
  intros op a b Hop Ha Hb. split.
  - intros [Hr Hc]. destruct (csr_zip_ok 0%R op a b Ha Hb Hr Hc) as (m & E & Hwf & D1 & D2 & Hg).
    { intros x; destruct Hop; subst op; ring. }
    exists m. splits; auto. intros i j Hi. unfold csr_entry. rewrite (Hg i j Hi).
    apply wf_repr in Ha, Hb. destruct Ha as [ra Ra], Hb as [rb Rb].
    pose proof Ra as (La & _). pose proof Rb as (Lb & _).
    destruct (rd_lt ra i ltac:(lia)) as [rowa Hra]. destruct (rd_lt rb i ltac:(lia)) as [rowb Hrb].
    apply rd_Ok in Hra, Hrb.
    rewrite (csr_get_repr 0%R a ra i rowa), (csr_get_repr 0%R b rb i rowb) by auto. reflexivity.
  - intros H. unfold csr_zip.
    destruct (Nat.eqb_spec (crows a) (crows b)), (Nat.eqb_spec (ccols a) (ccols b)); cbn; auto. tauto.
Qed.

Lemma C08_lil_add_sub_pf : forall (op : R -> R -> R) (a b : lil R),
  op = Rplus \/ op = Rminus ->
  lil_wf a -> lil_wf b ->
  (lrows a = lrows b /\ lcols a = lcols b ->
   exists m, lil_zip 0%R op a b = Ok m /\ lil_wf m /\ lrows m = lrows a /\ lcols m = lcols a /\
    forall i j, i < lrows a -> lil_entry 0%R m i j = op (lil_entry 0%R a i j) (lil_entry 0%R b i j)) /\
  (~ (lrows a = lrows b /\ lcols a = lcols b) -> lil_zip 0%R op a b = Fail AssertFail).
Proof.
  intros op a b Hop Ha Hb. split.
  - intros [Hr Hc]. destruct (lil_zip_ok 0%R op a b Ha Hb Hr Hc) as (m & E & Hwf & D1 & D2 & Hg).
    { intros x; destruct Hop; subst op; ring. }
    exists m. splits; auto. intros i j Hi. unfold lil_entry. rewrite (Hg i j Hi).
    destruct Ha as [Hla _], Hb as [Hlb _]. unfold lil_get.
    destruct (rd_lt (ldata a) i ltac:(lia)) as [rowa Hra]. destruct (rd_lt (ldata b) i ltac:(lia)) as [rowb Hrb].
    rewrite Hra, Hrb. reflexivity.
  - intros H. unfold lil_zip.
    destruct (Nat.eqb_spec (lrows a) (lrows b)), (Nat.eqb_spec (lcols a) (lcols b)); cbn; auto. tauto.
Qed.

Lemma C08_scalars_pf : forall (s : R) (a : lil R) (m : csr R),
  csr_wf m -> s <> 0%R ->
  let mulR := (fun x => x * s)%R in let divR := (fun x => x / s)%R in
  (forall i j, i < crows m -> csr_entry 0%R (csr_map mulR m) i j = (csr_entry 0%R m i j * s)%R) /\
  (forall i j, i < crows m -> csr_entry 0%R (csr_map divR m) i j = (csr_entry 0%R m i j / s)%R) /\
  (forall i j, lil_entry 0%R (lil_map mulR a) i j = (lil_entry 0%R a i j * s)%R) /\
  (forall i j, lil_entry 0%R (lil_map divR a) i j = (lil_entry 0%R a i j / s)%R) /\
  csr_wf (csr_map mulR m) /\ csr_wf (csr_map divR m) /\
  indices (csr_map mulR m) = indices m /\ indices (csr_map divR m) = indices m.
Proof.
  intros s a m Hwf _ mulR divR. apply wf_repr in Hwf. destruct Hwf as [rows Hr].
  assert (H1 : mulR 0%R = 0%R) by (unfold mulR; ring).
  assert (H2 : divR 0%R = 0%R) by (unfold divR, Rdiv; ring).
  assert (G : forall f, f 0%R = 0%R -> forall i j, i < crows m ->
     csr_entry 0%R (csr_map f m) i j = f (csr_entry 0%R m i j)).
  { intros f Hf i j Hi. pose proof Hr as (Hl & _).
    destruct (rd_lt rows i ltac:(lia)) as [row Hrow]. apply rd_Ok in Hrow. unfold csr_entry.
    rewrite (csr_get_repr 0%R m rows i row j Hr Hrow).
    rewrite (csr_get_repr 0%R _ _ i (map (fun p => (fst p, f (snd p))) row) j (csr_map_repr f m rows Hr))
      by (rewrite nth_error_map, Hrow; reflexivity).
    now apply row_get_map. }
  assert (G2 : forall f, f 0%R = 0%R -> forall i j,
     lil_entry 0%R (lil_map f a) i j = f (lil_entry 0%R a i j)).
  { intros f Hf i j. unfold lil_entry. rewrite lil_map_get by auto.
    destruct (lil_get 0%R a i j); cbn [bind]; auto. }
  splits; try (eapply repr_wf, csr_map_repr; eauto); try reflexivity.
  - intros; now apply (G mulR).
  - intros; now apply (G divR).
  - intros; now apply (G2 mulR).
  - intros; now apply (G2 divR).
Qed.
