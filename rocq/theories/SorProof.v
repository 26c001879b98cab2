(** SOR: the sweep is the textbook update; fixed points; energy. *)
From Coq Require Import List Arith Lia Bool Reals Lra Sorted.
From Verif Require Import Res SumR SparseModel SparseSpec SparseProof SparseProof2 SparseMain DenseModel DenseR LUModel LUProof KrylovModel KrylovSpec KrylovProof CGMath KrylovProof2 IluProof.
Import ListNotations.
Local Open Scope R_scope.

(** b_i - sum over j <> i of A_ij x_j, divided by A_ii, relaxed *)
Definition sor_update (n : nat) (e : nat -> nat -> R) (b : nat -> R) (w : R) (x : nat -> R) (i : nat) : R :=
  x i + w * ((b i - bigsum n (fun j => if (j =? i)%nat then 0 else e i j * x j)) / e i i - x i).

(** energy of a vector *)
Definition energy2 (n : nat) (e : nat -> nat -> R) (b x : nat -> R) : R :=
  dot n x (matvec n e x) / 2 - dot n b x.

Section Sor.
Variables (n : nat) (A : csr R) (b : list R) (w : R).
Hypothesis HA : square_csr n A.
Hypothesis Hb : length b = n.
Notation e := (entry A).
Notation upd1 := (sor_update n e (ix b) w).

Lemma sor_entries rows i row : repr A rows -> nth_error rows i = Some row -> (i < n)%nat ->
  forall l pre x a, row = pre ++ l -> length x = n ->
  foldM (sor_entry A i) (seq (offs rows i + length pre) (length l)) (x, a) =
  Ok (upd x i (ix x i - psum (ix x) (filter (fun p => negb (fst p =? i)%nat) l)),
      if row_mem l i then row_get 0 l i else a).
Proof.
  intros Hrep Hrow Hi. pose proof (row_sorted A rows Hrep i row Hrow) as Hs. apply srow_NoDup in Hs.
  induction l as [|[c d] l IH]; intros pre x a E Lx; cbn [length seq foldM].
  - cbn. rewrite <- (upd_same x i) at 1. do 3 f_equal. unfold psum; cbn. ring.
  - assert (Hk : nth_error row (length pre) = Some (c, d)) by (rewrite E, nth_error_app2, Nat.sub_diag by lia; reflexivity).
    destruct (row_cell A rows Hrep i row _ _ Hrow Hk) as [C1 C2]. cbn [fst snd] in *.
    assert (Hcn : (c < n)%nat).
    { apply (row_cols n A rows HA Hrep i row); auto. rewrite E, map_app. apply in_or_app. right. now left. }
    unfold sor_entry at 1. rewrite C1. cbn [bind]. rewrite (Nat.eqb_sym i c).
    replace (S (offs rows i + length pre)) with (offs rows i + length (pre ++ [(c, d)]))%nat by (rewrite app_length; cbn; lia).
    cbn [filter fst]. unfold row_mem; cbn [existsb fst row_get]. fold (row_mem l i).
    destruct (Nat.eqb_spec c i) as [Ec|Hne]; cbn [negb orb].
    + subst c. rewrite C2. cbn [bind]. rewrite IH by (try rewrite <- app_assoc; auto). do 2 f_equal.
      assert (Hm : row_mem l i = false); [|now rewrite Hm].
      apply row_mem_false. rewrite E, map_app in Hs. apply NoDup_remove_2 in Hs. intros Hin. apply Hs.
      apply in_or_app. now right.
    + rewrite C2. cbn [bind]. rewrite (rd_nth x c 0), (rd_nth x i 0) by lia. cbn [bind]. rewrite wr_Ok by lia. cbn [bind].
      rewrite IH by (try rewrite <- app_assoc; try rewrite upd_length; auto).
      rewrite upd_upd. do 3 f_equal. rewrite ix_upd, Nat.eqb_refl by lia.
      unfold psum at 2; cbn [map sumlist fold_right fst snd].
      fold (sumlist (map (fun p => snd p * ix x (fst p)) (filter (fun p => negb (fst p =? i)%nat) l))).
      fold (psum (ix x) (filter (fun p => negb (fst p =? i)%nat) l)).
      rewrite (psum_ext _ (ix x)).
      * unfold ix. ring.
      * intros p Hp. apply filter_In in Hp. destruct Hp as [_ Hp]. rewrite ix_upd by lia.
        destruct (Nat.eqb_spec (fst p) i); [discriminate|auto].
Qed.

Lemma sor_row_ok x i : (i < n)%nat -> length x = n ->
  sor_row A b w x i = if Req_EM_T (e i i) 0 then Fail DivByZero else Ok (upd x i (upd1 (ix x) i), ix x i).
Proof.
  intros Hi Lx. pose proof HA as (Hw & _). apply wf_repr in Hw. destruct Hw as [rows Hrep].
  destruct (row_at n A rows HA Hrep i Hi) as [row Hrow].
  unfold sor_row. rewrite (rd_nth x i 0), (rd_nth b i 0) by lia. cbn [bind]. rewrite wr_Ok by lia. cbn [bind].
  rewrite (row_lo n A rows HA Hrep i Hi). cbn [bind]. rewrite (row_hi A rows Hrep i row Hrow). cbn [bind].
  replace (offs rows i + length row - offs rows i)%nat with (length row) by lia.
  pose proof (sor_entries rows i row Hrep Hrow Hi row [] (upd x i (nth i b 0)) 0 eq_refl ltac:(now rewrite upd_length)) as E.
  cbn [length] in E. rewrite Nat.add_0_r in E. rewrite E. cbn [bind]. rewrite upd_upd.
  assert (Ea : (if row_mem row i then row_get 0 row i else 0) = e i i).
  { rewrite (entry_row A rows Hrep i row i Hrow). destruct (row_mem row i) eqn:Em; auto.
    symmetry. apply row_get_notin. now apply row_mem_false. }
  rewrite Ea. rewrite (rd_nth _ i 0) by (rewrite upd_length; lia). cbn [bind].
  unfold Rdiv_res. destruct (Req_EM_T (e i i) 0); cbn [bind]; auto. rewrite wr_Ok by (rewrite upd_length; lia). cbn [bind].
  rewrite upd_upd. do 3 f_equal. fold (ix (upd x i (nth i b 0))). fold (ix x i).
  match goal with |- context [nth i (upd x i ?v) 0] => fold (ix (upd x i v) i) end.
  rewrite ix_upd, Nat.eqb_refl by lia.
  unfold sor_update. do 4 f_equal. rewrite ix_upd, Nat.eqb_refl by lia. unfold ix at 1. f_equal.
  rewrite (row_sum n (fun c => negb (c =? i)%nat)).
  - apply bigsum_ext. intros j Hj. fold (ix (upd x i (nth i b 0)) j). rewrite ix_upd by lia. destruct (Nat.eqb_spec j i); cbn [negb]; [ring|].
    now rewrite (entry_row A rows Hrep i row j Hrow).
  - apply srow_NoDup. eapply row_sorted; eauto.
  - intros c. eapply row_cols; eauto.
Qed.

(** one sweep *)
Definition sor_body : list R * option R -> nat -> res (list R * option R) :=
  fun '(x, er) i => '(x, old) <- sor_row A b w x i ;; new <- rd x i ;; Ok (x, sor_err er old new).

Definition err_ok (m : nat) (x x' : nat -> R) (er : option R) : Prop :=
  match er with
  | Some v => (forall i, (i < m)%nat -> x i <> 0) /\ v = bigsum m (fun i => Rabs ((x i - x' i) / x i))
  | None => exists i, (i < m)%nat /\ x i = 0
  end.

Lemma sweep_ok x : length x = n -> (forall i, (i < n)%nat -> e i i <> 0) ->
  exists x' er, sor_sweep A b w x = Ok (x', er) /\ length x' = n /\
    (forall i, (i < n)%nat -> ix x' i = upd1 (fun j => if (j <? i)%nat then ix x' j else ix x j) i) /\
    err_ok n (ix x) (ix x') er.
Proof.
  intros Lx Hd. unfold sor_sweep. destruct HA as (_ & _ & Hr & _). rewrite Hr.
  assert (G : forall m, (m <= n)%nat -> exists x' er, foldM sor_body (seq 0 m) (x, Some 0) = Ok (x', er) /\ length x' = n /\
    (forall i, (i < m)%nat -> ix x' i = upd1 (fun j => if (j <? i)%nat then ix x' j else ix x j) i) /\
    (forall i, (m <= i)%nat -> ix x' i = ix x i) /\ err_ok m (ix x) (ix x') er).
  { induction m as [|m IH]; intros Hm.
    - exists x, (Some 0). splits; auto; try (intros; lia). split; [intros; lia|reflexivity].
    - destruct (IH ltac:(lia)) as (x1 & er & E & L1 & H1 & H2 & H3). rewrite seq_S, foldM_app, E. cbn [bind foldM Nat.add].
      unfold sor_body at 1. rewrite sor_row_ok by (auto; lia).
      destruct (Req_EM_T (e m m) 0) as [Z|Nz]; [exfalso; apply (Hd m); auto; lia|]. cbn [bind].
      rewrite (rd_nth _ m 0) by (rewrite upd_length; lia). cbn [bind].
      match goal with |- context [nth m (upd x1 m ?v) 0] => fold (ix (upd x1 m v) m) end.
      rewrite ix_upd, Nat.eqb_refl by lia. rewrite (H2 m) by lia.
      eexists _, _. split; [reflexivity|]. rewrite upd_length.
      assert (Hx : forall j, ix (upd x1 m (upd1 (ix x1) m)) j = if (j =? m)%nat then upd1 (ix x1) m else ix x1 j).
      { intros j. apply ix_upd. lia. }
      assert (Hu : upd1 (ix x1) m = upd1 (fun j => if (j <? m)%nat then ix x1 j else ix x j) m).
      { unfold sor_update. rewrite (H2 m) by lia. destruct (Nat.ltb_spec m m); [lia|]. do 5 f_equal.
        apply bigsum_ext. intros j Hj. destruct (Nat.eqb_spec j m); auto. destruct (Nat.ltb_spec j m); auto.
        now rewrite H2 by lia. }
      remember (upd x1 m (upd1 (ix x1) m)) as y eqn:Ey. clear Ey.
      splits; auto.
      + intros i Hi. rewrite Hx. destruct (Nat.eqb_spec i m) as [->|Hne].
        * rewrite Hu. unfold sor_update. destruct (Nat.ltb_spec m m); [lia|]. do 5 f_equal. apply bigsum_ext. intros j Hj.
          destruct (Nat.eqb_spec j m); auto. destruct (Nat.ltb_spec j m); auto. rewrite Hx. destruct (Nat.eqb_spec j m); [lia|auto].
        * rewrite H1 by lia. unfold sor_update. destruct (Nat.ltb_spec i i); [lia|]. do 5 f_equal. apply bigsum_ext. intros j Hj.
          destruct (Nat.eqb_spec j i); auto. destruct (Nat.ltb_spec j i); auto. rewrite Hx. destruct (Nat.eqb_spec j m); [lia|auto].
      + intros i Hi. rewrite Hx. destruct (Nat.eqb_spec i m); [lia|]. apply H2. lia.
      + unfold sor_err, err_ok in *. destruct er as [v|].
        * destruct H3 as [H3 H4]. destruct (Req_EM_T (ix x m) 0) as [Z|Nz'].
          -- exists m. split; auto.
          -- split.
             ++ intros i Hi. destruct (Nat.eq_dec i m) as [->|]; auto. apply H3. lia.
             ++ cbn [bigsum]. rewrite Hx, Nat.eqb_refl. rewrite H4. f_equal. apply bigsum_ext. intros i Hi.
                rewrite Hx. destruct (Nat.eqb_spec i m); [lia|auto].
        * destruct H3 as (i & Hi & H3). exists i. split; auto. }
  destruct (G n ltac:(lia)) as (x' & er & E & L & H1 & _ & H3). exists x', er. splits; auto.
Qed.

Lemma sweep_zero_diag x i : length x = n -> (i < n)%nat -> e i i = 0 -> sor_sweep A b w x = Fail DivByZero.
Proof.
  intros Lx Hi Hz. unfold sor_sweep. destruct HA as (_ & _ & Hr & _). rewrite Hr.
  change (foldM sor_body (seq 0 n) (x, Some 0) = Fail DivByZero).
  assert (G : forall l x er, (forall k, In k l -> (k < n)%nat) -> In i l -> length x = n -> foldM sor_body l (x, er) = Fail DivByZero).
  { induction l as [|k l IH]; intros y er Hl Hin Ly; [destruct Hin|]. cbn [foldM]. unfold sor_body at 1.
    rewrite sor_row_ok by (auto; apply Hl; now left).
    destruct (Req_EM_T (e k k) 0) as [|Hne]; cbn [bind]; auto.
    rewrite (rd_nth _ k 0) by (rewrite upd_length; specialize (Hl k (or_introl eq_refl)); lia). cbn [bind].
    destruct Hin as [->|Hin]; [contradiction|]. apply IH; auto; [intros; apply Hl; now right|now rewrite upd_length]. }
  apply G; auto.
  - intros k Hk. apply in_seq in Hk. lia.
  - apply in_seq. lia.
Qed.

(** residual form of the update *)
Lemma update_residual x i : (i < n)%nat -> e i i <> 0 ->
  upd1 x i = x i + w * ((ix b i - matvec n e x i) / e i i).
Proof.
  intros Hi Hd. unfold sor_update.
  assert (E : matvec n e x i = bigsum n (fun j => if (j =? i)%nat then 0 else e i j * x j) + e i i * x i).
  { unfold matvec. rewrite <- (bigsum_delta n i (fun j => e i j * x j)) by auto. rewrite <- bigsum_plus.
    apply bigsum_ext. intros j Hj. destruct (Nat.eqb_spec j i) as [->|Hne].
    - rewrite delta_refl. ring.
    - rewrite delta_ne by auto. ring. }
  rewrite E. field. auto.
Qed.

(** energy along one component *)
Lemma energy_step x y i : symmetric n e -> (i < n)%nat -> e i i <> 0 -> w <> 0 ->
  (forall j, (j < n)%nat -> y j = if (j =? i)%nat then upd1 x i else x j) ->
  energy2 n e (ix b) y = energy2 n e (ix b) x - (/ w - / 2) * e i i * (upd1 x i - x i) ^ 2.
Proof.
  intros Hs Hi Hd Hw Hy. set (d := upd1 x i - x i).
  assert (Hd' : ix b i - matvec n e x i = e i i * d / w).
  { unfold d. rewrite update_residual by auto. field. auto. }
  assert (Hy' : forall j, (j < n)%nat -> y j = 1 * x j + d * delta j i).
  { intros j Hj. rewrite Hy by auto. destruct (Nat.eqb_spec j i) as [->|Hne].
    - rewrite delta_refl. unfold d. ring.
    - rewrite delta_ne by auto. ring. }
  unfold energy2.
  rewrite (dot_ext n (ix b) (ix b) y (fun j => 1 * x j + d * delta j i)) by auto.
  rewrite (dot_ext n y (fun j => 1 * x j + d * delta j i) (matvec n e y)
             (fun j => 1 * matvec n e x j + d * matvec n e (fun k => delta k i) j)); auto.
  2:{ intros j Hj. rewrite (matvec_ext n _ y _ j Hy'). apply matvec_lin. }
  rewrite !dot_lin_l, !dot_lin_r.
  assert (D1 : forall u, dot n (fun j => delta j i) u = u i) by (intros u; apply bigsum_delta; auto).
  assert (D2 : forall u, dot n u (fun j => delta j i) = u i) by (intros u; apply bigsum_delta_r; auto).
  rewrite !D1, !D2.
  rewrite (matvec_sym n e x (fun k => delta k i)) by auto. rewrite D2.
  assert (D3 : matvec n e (fun k => delta k i) i = e i i) by (apply (bigsum_delta_r n i (fun j => e i j)); auto).
  rewrite D3.
  assert (E : ix b i = matvec n e x i + e i i * d / w) by lra.
  rewrite E. field. auto.
Qed.

Definition mix (m : nat) (x x' : nat -> R) (j : nat) : R := if (j <? m)%nat then x' j else x j.

Lemma energy_sweep x x' : symmetric n e -> (forall i, (i < n)%nat -> e i i <> 0) -> w <> 0 ->
  (forall i, (i < n)%nat -> x' i = upd1 (mix i x x') i) ->
  energy2 n e (ix b) x' = energy2 n e (ix b) x - (/ w - / 2) * bigsum n (fun i => e i i * (x' i - x i) ^ 2).
Proof.
  intros Hs Hd Hw Hx.
  assert (G : forall m, (m <= n)%nat -> energy2 n e (ix b) (mix m x x') =
     energy2 n e (ix b) x - (/ w - / 2) * bigsum m (fun i => e i i * (x' i - x i) ^ 2)).
  { induction m as [|m IH]; intros Hm.
    - cbn [bigsum]. unfold energy2, mix. rewrite (dot_ext n _ x _ (matvec n e x)).
      + rewrite (dot_ext n (ix b) (ix b) _ x); auto. ring.
      + auto.
      + intros. apply matvec_ext. auto.
    - rewrite (energy_step (mix m x x') (mix (S m) x x') m Hs) by (auto; try lia;
        intros j Hj; unfold mix at 1; rewrite <- Hx by lia; unfold mix;
        destruct (Nat.ltb_spec j (S m)), (Nat.ltb_spec j m), (Nat.eqb_spec j m) as [Ej|]; try rewrite Ej; auto; lia).
      rewrite IH by lia. cbn [bigsum]. rewrite <- Hx by lia.
      assert (Hmm : mix m x x' m = x m) by (unfold mix; destruct (Nat.ltb_spec m m); [lia|auto]).
      rewrite Hmm. ring. }
  rewrite <- (G n ltac:(lia)). unfold energy2, mix. f_equal.
  - f_equal. apply dot_ext; [|intros; apply matvec_ext]; intros j Hj; destruct (Nat.ltb_spec j n); auto; lia.
  - apply dot_ext; auto. intros j Hj; destruct (Nat.ltb_spec j n); auto; lia.
Qed.

(** true residual after a sweep, in terms of the increments *)
Lemma residual_sweep x x' i : (forall i, (i < n)%nat -> e i i <> 0) -> w <> 0 ->
  (forall i, (i < n)%nat -> x' i = upd1 (mix i x x') i) -> (i < n)%nat ->
  ix b i - matvec n e x' i =
  e i i * (x' i - x i) / w - bigsum n (fun j => if (j <? i)%nat then 0 else e i j * (x' j - x j)).
Proof.
  intros Hd Hw Hx Hi. specialize (Hx i Hi) as E. rewrite update_residual in E by auto.
  assert (Em : mix i x x' i = x i) by (unfold mix; destruct (Nat.ltb_spec i i); [lia|auto]). rewrite Em in E.
  assert (E2 : ix b i - matvec n e (mix i x x') i = e i i * (x' i - x i) / w) by (rewrite E; field; auto).
  rewrite <- E2. assert (E3 : matvec n e x' i = matvec n e (mix i x x') i + bigsum n (fun j => if (j <? i)%nat then 0 else e i j * (x' j - x j))); [|lra].
  unfold matvec. rewrite <- bigsum_plus. apply bigsum_ext. intros j Hj. unfold mix. destruct (j <? i)%nat; ring.
Qed.
End Sor.
