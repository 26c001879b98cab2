(** ILU0 and PreILU0. *)
From Coq Require Import List Arith Lia Bool Reals Lra Sorted.
From Verif Require Import Res SumR SparseModel SparseSpec SparseProof SparseProof2 SparseMain DenseModel DenseR LUModel LUProof KrylovModel KrylovSpec KrylovProof KrylovProof2.
Import ListNotations.
Local Open Scope R_scope.

(** *** rows of a square matrix *)
Section Rows.
Variables (n : nat) (A : csr R) (rows : list (list (nat * R))).
Hypothesis HA : square_csr n A.
Hypothesis Hrep : repr A rows.

Lemma rows_len : length rows = n.
Proof. destruct HA as (_ & _ & Hr & _). destruct Hrep as (H & _). lia. Qed.
Lemma row_at i : (i < n)%nat -> exists row, nth_error rows i = Some row.
Proof. intros H. destruct (nth_error rows i) eqn:E; eauto. apply nth_error_None in E. rewrite rows_len in E. lia. Qed.
Lemma row_sorted i row : nth_error rows i = Some row -> srow row.
Proof. intros H. destruct Hrep as (_ & _ & _ & _ & Hs). rewrite Forall_forall in Hs. apply Hs. eapply nth_error_In; eauto. Qed.
Lemma row_cols i row c : nth_error rows i = Some row -> In c (map fst row) -> (c < n)%nat.
Proof.
  intros H Hc. destruct HA as (_ & Hco & _ & Hcc). rewrite <- Hcc.
  eapply (repr_cols_inv A rows Hrep Hco row); eauto. eapply nth_error_In; eauto.
Qed.
Lemma entry_row i row j : nth_error rows i = Some row -> entry A i j = row_get 0 row j.
Proof. intros H. unfold entry, csr_entry. now rewrite (csr_get_repr 0 A rows i row j Hrep H). Qed.
Lemma row_lo i : (i < n)%nat -> rd (indptr A) i = Ok (offs rows i).
Proof. intros. apply repr_indptr; auto. rewrite rows_len. lia. Qed.
Lemma row_hi i row : nth_error rows i = Some row -> rd (indptr A) (S i) = Ok (offs rows i + length row)%nat.
Proof.
  intros H. assert (i < length rows)%nat by (apply nth_error_Some; congruence).
  rewrite (repr_indptr A rows) by (auto; lia). now rewrite (offs_S rows i row H).
Qed.
Lemma row_cell i row k p : nth_error rows i = Some row -> nth_error row k = Some p ->
  rd (indices A) (offs rows i + k) = Ok (fst p) /\ rd (cdata A) (offs rows i + k) = Ok (snd p).
Proof.
  intros H Hk. pose proof Hrep as (_ & _ & H3 & H4 & _).
  assert (Hlt : (k < length row)%nat) by (apply nth_error_Some; congruence).
  assert (C : nth_error (concat rows) (offs rows i + k) = Some p).
  { rewrite (concat_split rows i row H). unfold offs. rewrite nth_error_mid by lia. rewrite <- Hk. f_equal. lia. }
  split; apply rd_Ok.
  - rewrite H3, nth_error_map, C. reflexivity.
  - rewrite H4, nth_error_map, C. reflexivity.
Qed.
End Rows.

Lemma stored_row A rows i row j : repr A rows -> nth_error rows i = Some row -> stored A i j <-> In j (map fst row).
Proof.
  intros Hrep H. assert (Hi : (i < length rows)%nat) by (apply nth_error_Some; congruence).
  assert (E1 : nth_error (indptr A) i = Some (offs rows i)) by (apply rd_Ok, repr_indptr; auto; lia).
  assert (E2 : nth_error (indptr A) (S i) = Some (offs rows i + length row)%nat).
  { rewrite <- (offs_S rows i row H). apply rd_Ok, repr_indptr; auto; lia. }
  pose proof Hrep as (_ & _ & H3 & _).
  assert (C : forall k, (k < length row)%nat -> nth_error (indices A) (offs rows i + k) = nth_error (map fst row) k).
  { intros k Hk. rewrite H3, !nth_error_map. f_equal. rewrite (concat_split rows i row H). unfold offs.
    rewrite nth_error_mid by lia. f_equal. lia. }
  split.
  - intros (lo & hi & k & F1 & F2 & Hk & F3). rewrite E1 in F1. rewrite E2 in F2. injection F1 as <-. injection F2 as <-.
    replace k with (offs rows i + (k - offs rows i))%nat in F3 by lia. rewrite C in F3 by lia. eapply nth_error_In; eauto.
  - intros Hin. apply In_nth_error in Hin. destruct Hin as [k Hk].
    assert (k < length row)%nat by (rewrite <- (map_length fst); apply nth_error_Some; congruence).
    exists (offs rows i), (offs rows i + length row)%nat, (offs rows i + k)%nat. splits; auto; try lia. now rewrite C.
Qed.

(** *** sums over a row *)
Definition psum (f : nat -> R) (l : list (nat * R)) : R := sumlist (map (fun p => snd p * f (fst p)) l).
Lemma row_sum n (g : nat -> bool) f (row : list (nat * R)) : NoDup (map fst row) -> (forall c, In c (map fst row) -> (c < n)%nat) ->
  psum f (filter (fun p => g (fst p)) row) = bigsum n (fun j => (if g j then row_get 0 row j else 0) * f j).
Proof.
  intros Hnd Hb. unfold psum. induction row as [|[c d] row IH]; cbn [filter fst].
  - cbn [map sumlist fold_right]. symmetry. apply bigsum_zero. intros j Hj. cbn. destruct (g j); ring.
  - cbn [map fst] in Hnd. inversion Hnd; subst. cbn in Hb.
    assert (E : bigsum n (fun j => (if g j then row_get 0 ((c, d) :: row) j else 0) * f j) =
                (if g c then d * f c else 0) + bigsum n (fun j => (if g j then row_get 0 row j else 0) * f j)).
    { rewrite <- (bigsum_delta n c (fun j => if g j then d * f j else 0)) by (apply Hb; auto).
      rewrite <- bigsum_plus. apply bigsum_ext. intros j Hj. cbn [row_get].
      destruct (Nat.eqb_spec c j) as [E|Hne].
      - subst j. rewrite delta_refl. rewrite (row_get_notin 0 row c) by auto. destruct (g c); ring.
      - rewrite delta_ne by auto. destruct (g j); ring. }
    rewrite E. rewrite <- IH by (auto; intros; apply Hb; auto).
    destruct (g c); cbn [map sumlist fold_right fst snd]; unfold sumlist; ring.
Qed.
Lemma filter_none {X} (f : X -> bool) l : (forall x, In x l -> f x = false) -> filter f l = [].
Proof. induction l as [|x l IH]; cbn; intros H; auto. rewrite H by auto. apply IH. auto. Qed.
Lemma psum_ext f g l : (forall p, In p l -> f (fst p) = g (fst p)) -> psum f l = psum g l.
Proof. intros H. unfold psum. f_equal. apply map_ext_in. intros p Hp. now rewrite H. Qed.
Lemma ix_upd v i x j : (i < length v)%nat -> ix (upd v i x) j = if (j =? i)%nat then x else ix v j.
Proof.
  intros H. unfold ix. rewrite nth_upd. destruct (Nat.eqb_spec j i) as [->|Hne].
  - rewrite Nat.eqb_refl. destruct (Nat.ltb_spec i (length v)); [auto|lia].
  - destruct (Nat.eqb_spec i j); [congruence|auto].
Qed.
Lemma upd_upd {X} (l : list X) i a b : upd (upd l i a) i b = upd l i b.
Proof. revert i; induction l as [|x l IH]; intros [|i]; cbn; auto. now rewrite IH. Qed.
Lemma upd_same (v : list R) i : upd v i (ix v i) = v.
Proof. unfold ix. revert i; induction v as [|x l IH]; intros [|i]; cbn; auto. now rewrite IH. Qed.

Section Pre.
Variables (n : nat) (A : csr R) (rows : list (list (nat * R))).
Hypothesis HA : square_csr n A.
Hypothesis Hrep : repr A rows.
Notation e := (entry A).

Lemma pre_lower_run i row : nth_error rows i = Some row -> (i < n)%nat ->
  forall l pre v, row = pre ++ l -> length v = n ->
  pre_lower A i (length l) (offs rows i + length pre) v =
  Ok (upd v i (ix v i - psum (ix v) (filter (fun p => fst p <? i)%nat l))).
Proof.
  intros Hrow Hi. pose proof (row_sorted A rows Hrep i row Hrow) as Hs.
  induction l as [|[c d] l IH]; intros pre v E Lv; cbn [length pre_lower].
  - cbn. rewrite <- (upd_same v i) at 1. do 3 f_equal. unfold psum; cbn. ring.
  - assert (Hk : nth_error row (length pre) = Some (c, d)) by (rewrite E, nth_error_app2, Nat.sub_diag by lia; reflexivity).
    destruct (row_cell A rows Hrep i row _ _ Hrow Hk) as [C1 C2]. cbn [fst snd] in *.
    rewrite C1. cbn [bind]. cbn [filter fst].
    assert (Hcn : (c < n)%nat).
    { apply (row_cols n A rows HA Hrep i row); auto. rewrite E, map_app. apply in_or_app. right. now left. }
    destruct (Nat.ltb_spec c i) as [Hlt|Hge].
    + rewrite C2. cbn [bind]. rewrite (rd_nth v c 0), (rd_nth v i 0) by lia. cbn [bind]. rewrite wr_Ok by lia. cbn [bind].
      replace (S (offs rows i + length pre)) with (offs rows i + length (pre ++ [(c, d)]))%nat by (rewrite app_length; cbn; lia).
      rewrite IH by (try rewrite <- app_assoc; try rewrite upd_length; auto).
      rewrite upd_upd. do 2 f_equal. rewrite ix_upd, Nat.eqb_refl by lia.
      unfold psum at 2; cbn [map sumlist fold_right fst snd]. fold (sumlist (map (fun p => snd p * ix v (fst p)) (filter (fun p => fst p <? i)%nat l))).
      fold (psum (ix v) (filter (fun p => fst p <? i)%nat l)).
      rewrite (psum_ext _ (ix v)).
      * unfold ix. ring.
      * intros p Hp. apply filter_In in Hp. destruct Hp as [_ Hp]. apply Nat.ltb_lt in Hp. rewrite ix_upd by lia.
        destruct (Nat.eqb_spec (fst p) i); [lia|auto].
    + rewrite filter_none.
      * unfold psum; cbn. rewrite <- (upd_same v i) at 1. do 2 f_equal. ring.
      * intros p Hp. apply Nat.ltb_ge. unfold srow in Hs. rewrite E, map_app in Hs.
        assert (Hs2 : StronglySorted lt (map fst ((c, d) :: l))).
        { clear - Hs. induction (map fst pre) as [|x y IHy]; auto. cbn in Hs. inversion Hs; auto. }
        cbn in Hs2. inversion Hs2 as [|? ? ? Hf]; subst. rewrite Forall_forall in Hf. specialize (Hf (fst p) (in_map fst _ _ Hp)). lia.
Qed.

Lemma pre_upper_run i row : nth_error rows i = Some row -> (i < n)%nat ->
  forall l post v, row = l ++ post -> length v = n ->
  pre_upper A i (offs rows i) (length l) v =
  Ok (upd v i (ix v i - psum (ix v) (filter (fun p => i <? fst p)%nat l))).
Proof.
  intros Hrow Hi. pose proof (row_sorted A rows Hrep i row Hrow) as Hs.
  induction l as [|[c d] l IH] using rev_ind; intros post v E Lv.
  - cbn. rewrite <- (upd_same v i) at 1. do 3 f_equal. unfold psum; cbn. ring.
  - rewrite app_length, Nat.add_comm. cbn [length Nat.add pre_upper].
    assert (Hk : nth_error row (length l) = Some (c, d)).
    { rewrite E, <- app_assoc, nth_error_app2, Nat.sub_diag by lia; reflexivity. }
    destruct (row_cell A rows Hrep i row _ _ Hrow Hk) as [C1 C2]. cbn [fst snd] in *.
    rewrite C1. cbn [bind]. rewrite filter_app. cbn [filter fst].
    assert (Hcn : (c < n)%nat).
    { apply (row_cols n A rows HA Hrep i row); auto. rewrite E, <- app_assoc, map_app. apply in_or_app. right. now left. }
    destruct (Nat.ltb_spec i c) as [Hlt|Hge].
    + rewrite C2. cbn [bind]. rewrite (rd_nth v c 0), (rd_nth v i 0) by lia. cbn [bind]. rewrite wr_Ok by lia. cbn [bind].
      rewrite (IH ((c, d) :: post)) by (try rewrite upd_length; auto; rewrite E, <- app_assoc; reflexivity).
      rewrite upd_upd. do 2 f_equal. rewrite ix_upd, Nat.eqb_refl by lia.
      assert (Ps : psum (ix v) (filter (fun p => (i <? fst p)%nat) l ++ [(c, d)]) = psum (ix v) (filter (fun p => (i <? fst p)%nat) l) + d * ix v c).
      { unfold psum. rewrite map_app, sumlist_app. cbn. ring. }
      rewrite Ps. rewrite (psum_ext _ (ix v)).
      * unfold ix. ring.
      * intros p Hp. apply filter_In in Hp. destruct Hp as [_ Hp]. apply Nat.ltb_lt in Hp. rewrite ix_upd by lia.
        destruct (Nat.eqb_spec (fst p) i); [lia|auto].
    + rewrite app_nil_r. rewrite filter_none.
      * unfold psum; cbn. rewrite <- (upd_same v i) at 1. do 2 f_equal. ring.
      * intros p Hp. apply Nat.ltb_ge.
        apply In_nth_error in Hp. destruct Hp as [k Hp]. assert (k < length l)%nat by (apply nth_error_Some; congruence).
        assert (Hp2 : nth_error row k = Some p) by (rewrite E, <- app_assoc, nth_error_app1 by auto; auto).
        pose proof (srow_nth_lt row k (length l) p (c, d) Hs ltac:(lia) Hp2 Hk). cbn in *. lia.
Qed.

(** strict lower and upper sums *)
Definition low_sum (x : nat -> R) (i : nat) : R := bigsum n (fun j => (if (j <? i)%nat then e i j else 0) * x j).
Definition up_sum (x : nat -> R) (i : nat) : R := bigsum n (fun j => (if (i <? j)%nat then e i j else 0) * x j).

Lemma pre_lower_ok i v : (i < n)%nat -> length v = n ->
  (lo <- rd (indptr A) i ;; hi <- rd (indptr A) (S i) ;; pre_lower A i (hi - lo) lo v) =
  Ok (upd v i (ix v i - low_sum (ix v) i)).
Proof.
  intros Hi Lv. destruct (row_at n A rows HA Hrep i Hi) as [row Hrow].
  rewrite (row_lo n A rows HA Hrep i Hi). cbn [bind]. rewrite (row_hi A rows Hrep i row Hrow). cbn [bind].
  replace (offs rows i + length row - offs rows i)%nat with (length row) by lia.
  pose proof (pre_lower_run i row Hrow Hi row [] v eq_refl Lv) as E. cbn [length] in E. rewrite Nat.add_0_r in E. rewrite E.
  do 3 f_equal. rewrite (row_sum n (fun c => (c <? i)%nat)).
  - unfold low_sum. apply bigsum_ext. intros j Hj. now rewrite (entry_row A rows Hrep i row j Hrow).
  - apply srow_NoDup. eapply row_sorted; eauto.
  - intros c. eapply row_cols; eauto.
Qed.
Lemma pre_upper_ok i v : (i < n)%nat -> length v = n ->
  exists lo hi, rd (indptr A) i = Ok lo /\ rd (indptr A) (S i) = Ok hi /\ pre_upper A i lo (hi - lo) v =
  Ok (upd v i (ix v i - up_sum (ix v) i)).
Proof.
  intros Hi Lv. destruct (row_at n A rows HA Hrep i Hi) as [row Hrow].
  exists (offs rows i), (offs rows i + length row)%nat. splits.
  - apply (row_lo n A rows HA Hrep i Hi).
  - apply (row_hi A rows Hrep i row Hrow).
  - replace (offs rows i + length row - offs rows i)%nat with (length row) by lia.
    rewrite (pre_upper_run i row Hrow Hi row [] v) by (rewrite ?app_nil_r; auto).
    do 3 f_equal. rewrite (row_sum n (fun c => (i <? c)%nat)).
    + unfold up_sum. apply bigsum_ext. intros j Hj. now rewrite (entry_row A rows Hrep i row j Hrow).
    + apply srow_NoDup. eapply row_sorted; eauto.
    + intros c. eapply row_cols; eauto.
Qed.

Lemma low_sum_ext x y i : (forall j, (j < i)%nat -> x j = y j) -> low_sum x i = low_sum y i.
Proof.
  intros H. apply bigsum_ext. intros j Hj. destruct (Nat.ltb_spec j i); [now rewrite H|ring].
Qed.
Lemma up_sum_ext x y i : (forall j, (i < j < n)%nat -> x j = y j) -> up_sum x i = up_sum y i.
Proof.
  intros H. apply bigsum_ext. intros j Hj. destruct (Nat.ltb_spec i j); [now rewrite H|ring].
Qed.

(** forward substitution *)
Lemma forward_ok b : length b = n ->
  exists y, foldM (fun v i => lo <- rd (indptr A) i ;; hi <- rd (indptr A) (S i) ;; pre_lower A i (hi - lo) lo v)
         (seq 0 n) b = Ok y /\ length y = n /\ forall i, (i < n)%nat -> ix y i + low_sum (ix y) i = ix b i.
Proof.
  intros Lb.
  assert (G : forall m, (m <= n)%nat -> exists y,
    foldM (fun v i => lo <- rd (indptr A) i ;; hi <- rd (indptr A) (S i) ;; pre_lower A i (hi - lo) lo v) (seq 0 m) b = Ok y /\
    length y = n /\ (forall i, (i < m)%nat -> ix y i + low_sum (ix y) i = ix b i) /\
    (forall i, (m <= i < n)%nat -> ix y i = ix b i)).
  { induction m as [|m IH]; intros Hm.
    - exists b. splits; auto. intros; lia.
    - destruct (IH ltac:(lia)) as (y & E & Ly & H1 & H2). rewrite seq_S, foldM_app, E. cbn [bind foldM Nat.add].
      rewrite pre_lower_ok by (auto; lia). cbn [bind]. eexists. split; [reflexivity|]. rewrite upd_length. splits; auto.
      + intros i Hi. rewrite ix_upd by lia.
        rewrite (low_sum_ext (ix (upd y m _)) (ix y) i).
        2:{ intros j Hj. rewrite ix_upd by lia. destruct (Nat.eqb_spec j m); [lia|auto]. }
        destruct (Nat.eqb_spec i m) as [->|]; [|apply H1; lia]. rewrite H2 by lia. ring.
      + intros i Hi. rewrite ix_upd by lia. destruct (Nat.eqb_spec i m); [lia|]. apply H2. lia. }
  destruct (G n ltac:(lia)) as (y & E & Ly & H1 & _). exists y. auto.
Qed.

Definition back_step (v : list R) (i : nat) : res (list R) :=
  hi <- rd (indptr A) (S i) ;; lo <- rd (indptr A) i ;;
  v <- pre_upper A i lo (hi - lo) v ;;
  vi <- rd v i ;; d <- csr_get 0 A i i ;; q <- Rdiv_res vi d ;; wr v i q.

Lemma back_step_ok i v : (i < n)%nat -> length v = n ->
  back_step v i = if Req_EM_T (e i i) 0 then Fail DivByZero else Ok (upd v i ((ix v i - up_sum (ix v) i) / e i i)).
Proof.
  intros Hi Lv. unfold back_step. destruct (pre_upper_ok i v Hi Lv) as (lo & hi & E1 & E2 & E3).
  rewrite E1, E2. cbn [bind]. rewrite E3. cbn [bind]. rewrite (rd_nth _ i 0) by (rewrite upd_length; lia). cbn [bind].
  rewrite (csr_get_total n A i i HA Hi). cbn [bind]. unfold Rdiv_res.
  destruct (Req_EM_T (e i i) 0); cbn [bind]; auto. rewrite wr_Ok by (rewrite upd_length; lia). rewrite upd_upd.
  fold (ix (upd v i (ix v i - up_sum (ix v) i)) i). rewrite ix_upd, Nat.eqb_refl by lia. reflexivity.
Qed.

Lemma backward_ok y : length y = n -> (forall i, (i < n)%nat -> e i i <> 0) ->
  exists x, foldM back_step (rev (seq 0 n)) y = Ok x /\ length x = n /\
    forall i, (i < n)%nat -> e i i * ix x i + up_sum (ix x) i = ix y i.
Proof.
  intros Ly Hd.
  assert (G : forall m, (m <= n)%nat -> exists x,
    foldM back_step (rev (seq (n - m) m)) y = Ok x /\ length x = n /\
    (forall i, (n - m <= i < n)%nat -> e i i * ix x i + up_sum (ix x) i = ix y i) /\
    (forall i, (i < n - m)%nat -> ix x i = ix y i)).
  { induction m as [|m IH]; intros Hm.
    - exists y. splits; auto. intros; lia.
    - destruct (IH ltac:(lia)) as (x & E & Lx & H1 & H2).
      remember (n - S m)%nat as i0. replace (n - m)%nat with (S i0) in * by lia. cbn [seq rev].
      rewrite foldM_app, E. cbn [bind foldM]. rewrite back_step_ok by (auto; lia).
      destruct (Req_EM_T (e i0 i0) 0) as [Z|Nz]; [exfalso; apply (Hd i0); auto; lia|]. cbn [bind].
      eexists. split; [reflexivity|]. rewrite upd_length. splits; auto.
      + intros i Hi. rewrite (up_sum_ext (ix (upd x i0 _)) (ix x) i).
        2:{ intros j Hj. rewrite ix_upd by lia. destruct (Nat.eqb_spec j i0); [lia|auto]. }
        rewrite ix_upd by lia. destruct (Nat.eqb_spec i i0) as [->|]; [|apply H1; lia].
        rewrite (H2 i0) by lia. field. auto.
      + intros i Hi. rewrite ix_upd by lia. destruct (Nat.eqb_spec i i0); [lia|]. apply H2. lia. }
  destruct (G n ltac:(lia)) as (x & E & Lx & H1 & _). rewrite Nat.sub_diag in *. exists x. splits; auto. intros. apply H1. lia.
Qed.

Lemma low_sum_L x i : (i < n)%nat -> matvec n (lower_part e) x i = x i + low_sum x i.
Proof.
  intros Hi. unfold matvec, low_sum. rewrite <- (bigsum_delta n i x) by auto. rewrite <- bigsum_plus.
  apply bigsum_ext. intros j Hj. unfold lower_part.
  destruct (Nat.eqb_spec i j) as [->|Hne].
  - rewrite delta_refl. destruct (Nat.ltb_spec j j); [lia|]. ring.
  - rewrite delta_ne by auto. destruct (j <? i)%nat; ring.
Qed.
Lemma up_sum_U x i : (i < n)%nat -> matvec n (upper_part e) x i = e i i * x i + up_sum x i.
Proof.
  intros Hi. unfold matvec, up_sum. rewrite <- (bigsum_delta n i (fun j => e j j * x j)) by auto. rewrite <- bigsum_plus.
  apply bigsum_ext. intros j Hj. unfold upper_part.
  destruct (Nat.eq_dec i j) as [->|Hne].
  - rewrite delta_refl, Nat.leb_refl. destruct (Nat.ltb_spec j j); [lia|]. ring.
  - rewrite delta_ne by auto. destruct (Nat.leb_spec i j), (Nat.ltb_spec i j); try lia; ring.
Qed.
Lemma matmul_matvec P Q x i : matvec n (matmul n P Q) x i = matvec n P (matvec n Q x) i.
Proof.
  unfold matvec, matmul.
  rewrite (bigsum_ext n _ (fun j => bigsum n (fun k => P i k * (Q k j * x j)))).
  2:{ intros. rewrite <- bigsum_scal_r. apply bigsum_ext; intros; ring. }
  rewrite bigsum_swap. apply bigsum_ext. intros k Hk. now rewrite <- bigsum_scal.
Qed.

Lemma pre_ilu0_ok b : length b = n -> (forall i, (i < n)%nat -> e i i <> 0) ->
  exists x, pre_ilu0 A b = Ok x /\ length x = n /\
    forall i, (i < n)%nat -> matvec n (matmul n (lower_part e) (upper_part e)) (ix x) i = ix b i.
Proof.
  intros Lb Hd. unfold pre_ilu0. rewrite Lb. destruct (forward_ok b Lb) as (y & E & Ly & Hy). rewrite E. cbn [bind].
  destruct (backward_ok y Ly Hd) as (x & E2 & Lx & Hx). exists x. splits; auto.
  intros i Hi. rewrite matmul_matvec.
  rewrite (matvec_ext n _ _ (ix y)) by (intros j Hj; rewrite up_sum_U by auto; auto).
  rewrite low_sum_L by auto. auto.
Qed.

Lemma pre_ilu0_zero b i : length b = n -> (i < n)%nat -> e i i = 0 -> pre_ilu0 A b = Fail DivByZero.
Proof.
  intros Lb Hi Hz. unfold pre_ilu0. rewrite Lb. destruct (forward_ok b Lb) as (y & E & Ly & Hy). rewrite E. cbn [bind].
  change (foldM back_step (rev (seq 0 n)) y = Fail DivByZero).
  assert (G : forall l v, (forall k, In k l -> (k < n)%nat) -> In i l -> length v = n -> foldM back_step l v = Fail DivByZero).
  { induction l as [|k l IH]; intros v Hl Hin Lv; [destruct Hin|]. cbn [foldM].
    rewrite back_step_ok by (auto; apply Hl; now left).
    destruct (Req_EM_T (e k k) 0) as [|Hne]; cbn [bind]; auto.
    destruct Hin as [->|Hin]; [contradiction|]. apply IH; auto; [intros; apply Hl; now right|now rewrite upd_length]. }
  apply G; auto.
  - intros k Hk. apply in_rev in Hk. apply in_seq in Hk. lia.
  - apply -> in_rev. apply in_seq. lia.
Qed.
End Pre.
