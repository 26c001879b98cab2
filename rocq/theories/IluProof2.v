(** ILU0: the returned factors reproduce A on its pattern. *)
From Coq Require Import List Arith Lia Bool Reals Lra Sorted.
From Verif Require Import Res SumR SparseModel SparseSpec SparseProof SparseProof2 SparseMain DenseModel DenseR LUModel LUProof KrylovModel KrylovSpec KrylovProof KrylovProof2 IluProof.
Import ListNotations.
Local Open Scope R_scope.

Section Ilu.
Variables (n : nat) (A : csr R) (rows : list (list (nat * R))).
Hypothesis HA : square_csr n A.
Hypothesis Hrep : repr A rows.
Notation e := (entry A).
Definition has (i j : nat) : bool := row_mem (nth i rows []) j.

Lemma nth_row i : (i < n)%nat -> nth_error rows i = Some (nth i rows []).
Proof. intros H. apply nth_error_nth'. rewrite (rows_len n A rows HA Hrep). auto. Qed.

Lemma row_has_ok i c : (i < n)%nat -> row_has A i c = Ok (has i c).
Proof.
  intros Hi. pose proof (nth_row i Hi) as Hn. set (row := nth i rows []) in *. unfold row_has, has. fold row.
  rewrite (repr_range A rows i row Hrep Hn). cbn [bind].
  replace (offs rows i + length row - offs rows i)%nat with (length row) by lia.
  destruct (repr_lower_bound A rows i row c Hrep Hn) as [l1 [l2 [E [Hk [H1 H2]]]]].
  rewrite Hk; cbn [bind].
  assert (N1 : ~ In c (map fst l1)).
  { intros Hin. apply in_map_iff in Hin. destruct Hin as (p & Ep & Hp). rewrite Forall_forall in H1. specialize (H1 p Hp). lia. }
  destruct l2 as [|[c' v'] l2].
  - rewrite app_nil_r in E. subst l1.
    destruct (Nat.eqb_spec (offs rows i + length row) (offs rows i + length row)); [|lia].
    f_equal. symmetry. now apply row_mem_false.
  - assert (Hc : nth_error row (length l1) = Some (c', v')) by (rewrite E, nth_error_app2, Nat.sub_diag by lia; reflexivity).
    destruct (Nat.eqb_spec (offs rows i + length l1) (offs rows i + length row)) as [Heq|Hne].
    { assert (length l1 < length row)%nat by (apply nth_error_Some; congruence). lia. }
    destruct (row_cell A rows Hrep i row _ _ Hn Hc) as [C1 _]. cbn [fst] in C1. rewrite C1. cbn [bind].
    inversion H2 as [|? ? Hge Hrest]; subst. cbn in Hge.
    destruct (Nat.ltb_spec c c') as [Hlt|Hle]; cbn [negb]; f_equal; symmetry.
    + apply row_mem_false. rewrite E, map_app. intros Hin. apply in_app_or in Hin. destruct Hin as [Hin|[Hin|Hin]].
      * contradiction.
      * cbn in Hin. lia.
      * apply in_map_iff in Hin. destruct Hin as (p & Ep & Hp).
        apply In_nth_error in Hp. destruct Hp as [k Hp].
        assert (Hp2 : nth_error row (length l1 + S k) = Some p).
        { rewrite E, nth_error_app2 by lia. replace (length l1 + S k - length l1)%nat with (S k) by lia. exact Hp. }
        pose proof (srow_nth_lt row (length l1) (length l1 + S k) (c', v') p (row_sorted A rows Hrep i row Hn) ltac:(lia) Hc Hp2).
        cbn in *. lia.
    + apply row_mem_In. assert (c' = c) by lia. subst. rewrite E, map_app. apply in_or_app. right. now left.
Qed.

(** the working LIL matrix *)
Definition qe (q : lil R) (i j : nat) : R := row_get 0 (nth i (ldata q) []) j.
Definition shape (q : lil R) : Prop :=
  lrows q = n /\ lcols q = n /\ map (map fst) (ldata q) = map (map fst) rows.

Lemma shape_len q : shape q -> length (ldata q) = n.
Proof. intros (_ & _ & H). rewrite <- (rows_len n A rows HA Hrep), <- (map_length (map fst)), H, map_length. reflexivity. Qed.
Lemma shape_keys q i : shape q -> map fst (nth i (ldata q) []) = map fst (nth i rows []).
Proof.
  intros (_ & _ & H). change (@nil nat) with (map (@fst nat R) []).
  rewrite <- (map_nth (map fst) (ldata q) [] i), <- (map_nth (map fst) rows [] i). cbn [map]. now rewrite H.
Qed.
Lemma qe_notin q i j : shape q -> has i j = false -> qe q i j = 0.
Proof.
  intros Hq H. unfold qe. apply row_get_notin. rewrite (shape_keys q i Hq). now apply row_mem_false.
Qed.
Lemma lil_get_qe q i j : shape q -> (i < n)%nat -> lil_get 0 q i j = Ok (qe q i j).
Proof.
  intros Hq Hi. unfold lil_get, qe. rewrite (rd_nth (ldata q) i []) by (rewrite shape_len by auto; auto). reflexivity.
Qed.
Lemma lil_set_qe q i j v : shape q -> (i < n)%nat -> has i j = true ->
  exists q', (exists f, lil_set q i j v = Ok (f, q')) /\ shape q' /\
    forall a c, qe q' a c = if ((a =? i) && (c =? j))%nat then v else qe q a c.
Proof.
  intros Hq Hi Hh. pose proof (shape_len q Hq) as Hl. unfold lil_set.
  rewrite (rd_nth (ldata q) i []) by lia. cbn [bind].
  destruct (row_set (nth i (ldata q) []) j v) as [f row'] eqn:E.
  assert (Er : row' = snd (row_set (nth i (ldata q) []) j v)) by now rewrite E.
  eexists. split; [eexists; reflexivity|].
  assert (K : map fst row' = map fst (nth i (ldata q) [])).
  { rewrite Er, row_set_keys. destruct (row_mem (nth i (ldata q) []) j) eqn:Em; auto.
    apply row_mem_false in Em. rewrite (shape_keys q i Hq) in Em. apply row_mem_In in Hh. contradiction. }
  split.
  - destruct Hq as (H1 & H2 & H3). unfold shape; cbn [lrows lcols ldata]. splits; auto. rewrite <- H3.
    clear - K Hi Hl. assert (Hi' : (i < length (ldata q))%nat) by lia. clear Hi Hl. revert i K Hi'.
    induction (ldata q) as [|r l IH]; intros i K Hi; cbn in *; [lia|]. destruct i as [|i]; cbn in *; [now rewrite K|].
    f_equal. apply IH; auto. lia.
  - intros a c. unfold qe; cbn [ldata]. rewrite nth_upd.
    destruct (Nat.eqb_spec a i) as [->|Hne].
    + rewrite Nat.eqb_refl. destruct (Nat.ltb_spec i (length (ldata q))); [|lia]. cbn [andb]. rewrite Er, row_set_get.
      rewrite (Nat.eqb_sym c j). reflexivity.
    + destruct (Nat.eqb_spec i a); [congruence|]. reflexivity.
Qed.

(** the inner sum *)
Definition ksum (q : nat -> nat -> R) (i j k0 : nat) : R :=
  bigsum n (fun k => if ((k0 <=? k) && (k <? Nat.min i j))%nat then q i k * q k j else 0).

Lemma ksum_step q i j k : (k < n)%nat ->
  ksum q i j k = (if (k <? Nat.min i j)%nat then q i k * q k j else 0) + ksum q i j (S k).
Proof.
  intros Hk. unfold ksum. rewrite <- (bigsum_delta n k (fun k => if (k <? Nat.min i j)%nat then q i k * q k j else 0)) by auto.
  rewrite <- bigsum_plus. apply bigsum_ext. intros l Hl.
  destruct (Nat.eq_dec l k) as [->|Hne].
  - rewrite delta_refl, Nat.leb_refl. destruct (Nat.leb_spec (S k) k); [lia|]. cbn [andb]. ring.
  - rewrite delta_ne by auto. destruct (Nat.leb_spec k l), (Nat.leb_spec (S k) l); try lia; cbn [andb]; ring.
Qed.
Lemma ksum_end q i j k : (Nat.min i j <= k)%nat -> ksum q i j k = 0.
Proof.
  intros H. apply bigsum_zero. intros l Hl. destruct (Nat.leb_spec k l), (Nat.ltb_spec l (Nat.min i j)); try lia; reflexivity.
Qed.
Lemma ksum_ext q q' i j : (forall k, (k < Nat.min i j)%nat -> q i k * q k j = q' i k * q' k j) -> ksum q i j 0 = ksum q' i j 0.
Proof.
  intros H. apply bigsum_ext. intros k Hk. cbn [Nat.leb andb]. destruct (Nat.ltb_spec k (Nat.min i j)); auto.
Qed.

Lemma ilu_k_ok q i j : shape q -> (i < n)%nat -> (j < n)%nat -> forall left k acc, (k + left = n)%nat ->
  ilu_k A i j q left k acc = Ok (acc - ksum (qe q) i j k).
Proof.
  intros Hq Hi Hj. induction left as [|left IH]; intros k acc Hk; cbn [ilu_k].
  - rewrite ksum_end by lia. f_equal. ring.
  - rewrite row_has_ok by auto. cbn [bind]. rewrite (ksum_step (qe q) i j k) by lia.
    destruct (has i k) eqn:H1.
    2:{ rewrite IH by lia. f_equal. rewrite (qe_notin q i k) by auto. destruct (k <? Nat.min i j)%nat; ring. }
    rewrite row_has_ok by lia. cbn [bind]. destruct (has k j) eqn:H2.
    2:{ rewrite IH by lia. f_equal. rewrite (qe_notin q k j) by auto. destruct (k <? Nat.min i j)%nat; ring. }
    assert (T : ((i <=? j) && (k <? i) || (j <? i) && (k <? j))%nat = (k <? Nat.min i j)%nat).
    { destruct (Nat.leb_spec i j), (Nat.ltb_spec k i), (Nat.ltb_spec j i), (Nat.ltb_spec k j), (Nat.ltb_spec k (Nat.min i j));
        cbn; auto; lia. }
    rewrite T. destruct (Nat.ltb_spec k (Nat.min i j)) as [Hlt|Hge].
    + rewrite !lil_get_qe by (auto; lia). cbn [bind]. rewrite IH by lia. f_equal. ring.
    + rewrite ksum_end by lia. f_equal. ring.
Qed.

(** one entry *)
Definition newval (q : nat -> nat -> R) (i j : nat) : R :=
  if (j <? i)%nat then (e i j - ksum q i j 0) / q j j else e i j - ksum q i j 0.

Lemma ilu_entry_ok q i k p : shape q -> (i < n)%nat -> nth_error (nth i rows []) k = Some p ->
  (((fst p < i)%nat /\ qe q (fst p) (fst p) = 0) /\ ilu_entry A i q (offs rows i + k) = Fail DivByZero) \/
  (~ ((fst p < i)%nat /\ qe q (fst p) (fst p) = 0) /\
   exists q', ilu_entry A i q (offs rows i + k) = Ok q' /\ shape q' /\
     forall a c, qe q' a c = if ((a =? i) && (c =? fst p))%nat then newval (qe q) i (fst p) else qe q a c).
Proof.
  intros Hq Hi Hk. destruct (row_cell A rows Hrep i _ _ _ (nth_row i Hi) Hk) as [C1 C2].
  destruct p as [j d]; cbn [fst snd] in *. unfold ilu_entry. rewrite C1, C2. cbn [bind].
  assert (Hin : In j (map fst (nth i rows []))) by (apply in_map_iff; exists (j, d); split; auto; eapply nth_error_In; eauto).
  assert (Hj : (j < n)%nat) by (eapply (row_cols n A rows HA Hrep i); eauto; apply nth_row; auto).
  assert (Ed : e i j = d).
  { rewrite (entry_row A rows Hrep i _ j (nth_row i Hi)). apply row_get_in; [|eapply nth_error_In; eauto].
    apply srow_NoDup. eapply row_sorted; eauto. apply nth_row; auto. }
  destruct HA as (_ & _ & Hr & _). rewrite Hr.
  rewrite (ilu_k_ok q i j Hq Hi Hj n 0 d) by lia. cbn [bind].
  assert (Set' : forall v, v = newval (qe q) i j -> exists q', (bind (lil_set q i j v) (fun '(_, q) => Ok q)) = Ok q' /\ shape q' /\
     forall a c, qe q' a c = if ((a =? i) && (c =? j))%nat then newval (qe q) i j else qe q a c).
  { intros v Hv. destruct (lil_set_qe q i j v Hq Hi) as (q' & (f & E) & Hs & Hqe); [now apply row_mem_In|].
    exists q'. rewrite E. cbn [bind]. splits; auto. intros. rewrite Hqe, Hv. reflexivity. }
  unfold newval in Set' at 1. rewrite Ed in Set'.
  destruct (Nat.ltb_spec j i) as [Hlt|Hge].
  - rewrite lil_get_qe by auto. cbn [bind]. unfold Rdiv_res.
    destruct (Req_EM_T (qe q j j) 0) as [Z|Nz]; cbn [bind].
    + left. split; auto.
    + right. split; [tauto|]. apply Set'. reflexivity.
  - cbn [bind]. right. split; [lia|]. apply Set'. reflexivity.
Qed.

(** *** run with an invariant over the processed entries *)
Definition eqn (q : nat -> nat -> R) (i j : nat) : Prop :=
  q i j * (if (j <? i)%nat then q j j else 1) + ksum q i j 0 = e i j.

Lemma eqn_ext q q' i j i0 j0 : ((i < i0)%nat \/ (i = i0 /\ (j < j0)%nat)) ->
  (forall a c, (a <> i0 \/ c <> j0) -> q' a c = q a c) -> eqn q i j -> eqn q' i j.
Proof.
  intros Hlt Hs H. unfold eqn in *. rewrite (ksum_ext q' q).
  - rewrite Hs by lia. destruct (Nat.ltb_spec j i); auto. rewrite Hs by lia. auto.
  - intros k Hk. rewrite !Hs by lia. auto.
Qed.

Lemma new_eqn q q' i j : (~ ((j < i)%nat /\ q j j = 0)) ->
  (forall a c, q' a c = if ((a =? i) && (c =? j))%nat then newval q i j else q a c) -> eqn q' i j.
Proof.
  intros Hnz Hs. unfold eqn. rewrite (ksum_ext q' q).
  - rewrite (Hs i j), !Nat.eqb_refl. cbn [andb]. unfold newval. destruct (Nat.ltb_spec j i).
    + rewrite (Hs j j). destruct (Nat.eqb_spec j i); [lia|]. cbn [andb]. field. tauto.
    + ring.
  - intros k Hk. rewrite (Hs i k), (Hs k j). destruct (Nat.eqb_spec k j); [lia|]. destruct (Nat.eqb_spec k i); [lia|].
    rewrite andb_false_r. reflexivity.
Qed.

Variable G : nat -> nat -> R -> Prop.  (* extra fact established for each processed entry *)
Hypothesis HG : forall q i j, (i < n)%nat -> has i j = true ->
  (forall a c, has a c = false -> q a c = 0) ->
  (forall a c, ((a < i)%nat \/ (a = i /\ (c < j)%nat)) -> has a c = true -> (a < n)%nat -> G a c (q a c)) ->
  G i j (newval q i j).

Definition done_upto (q : lil R) (i j : nat) : Prop :=
  forall a c, (a < n)%nat -> has a c = true -> ((a < i)%nat \/ (a = i /\ (c < j)%nat)) -> eqn (qe q) a c /\ G a c (qe q a c).

Lemma row_prefix_lt i row pre p l : nth_error rows i = Some row -> row = pre ++ p :: l ->
  forall c, In c (map fst row) -> (c < fst p)%nat <-> In c (map fst pre).
Proof.
  intros Hn E c Hc. pose proof (row_sorted A rows Hrep i row Hn) as Hs.
  assert (Hp : nth_error row (length pre) = Some p) by (rewrite E, nth_error_app2, Nat.sub_diag by lia; reflexivity).
  split.
  - intros Hlt. apply in_map_iff in Hc. destruct Hc as (p' & Ec & Hc). apply In_nth_error in Hc. destruct Hc as [k Hk].
    destruct (Nat.lt_ge_cases k (length pre)) as [Hl|Hg].
    + rewrite E, nth_error_app1 in Hk by auto. subst c. apply in_map. eapply nth_error_In; eauto.
    + destruct (Nat.eq_dec k (length pre)) as [->|]; [rewrite Hp in Hk; injection Hk as <-; lia|].
      pose proof (srow_nth_lt row (length pre) k p p' Hs ltac:(lia) Hp Hk). lia.
  - intros Hin. apply in_map_iff in Hin. destruct Hin as (p' & Ec & Hin). apply In_nth_error in Hin. destruct Hin as [k Hk].
    assert (k < length pre)%nat by (apply nth_error_Some; congruence).
    assert (Hk' : nth_error row k = Some p') by (rewrite E, nth_error_app1 by auto; auto).
    pose proof (srow_nth_lt row k (length pre) p' p Hs ltac:(lia) Hk' Hp). lia.
Qed.

Definition zero_pivot (q : lil R) : Prop := exists i j, (i < n)%nat /\ has i j = true /\ (j < i)%nat /\ qe q j j = 0 /\ done_upto q i j.

Lemma row_loop i : (i < n)%nat -> forall l pre q, nth i rows [] = pre ++ l -> shape q ->
  (forall p, hd_error l = Some p -> done_upto q i (fst p)) ->
  (l = [] -> done_upto q (S i) 0) ->
  (exists q', foldM (ilu_entry A i) (seq (offs rows i + length pre) (length l)) q = Ok q' /\ shape q' /\ done_upto q' (S i) 0) \/
  (foldM (ilu_entry A i) (seq (offs rows i + length pre) (length l)) q = Fail DivByZero /\ exists q', zero_pivot q').
Proof.
  intros Hi. induction l as [|p l IH]; intros pre q E Hq H1 H2; cbn [length seq foldM].
  - left. exists q. splits; auto.
  - assert (Hk : nth_error (nth i rows []) (length pre) = Some p) by (rewrite E, nth_error_app2, Nat.sub_diag by lia; reflexivity).
    specialize (H1 p eq_refl).
    assert (Hh : has i (fst p) = true) by (apply row_mem_In, in_map; rewrite E; apply in_or_app; right; now left).
    destruct (ilu_entry_ok q i (length pre) p Hq Hi Hk) as [[[Hlt Hz] F]|(Hnz & q' & F & Hq' & Hs)]; rewrite F; cbn [bind].
    + right. split; auto. exists q, i, (fst p). splits; auto.
    + replace (S (offs rows i + length pre)) with (offs rows i + length (pre ++ [p]))%nat by (rewrite app_length; cbn; lia).
      assert (Hs' : forall a c, a <> i \/ c <> fst p -> qe q' a c = qe q a c).
      { intros a c Hac. rewrite Hs. destruct (Nat.eqb_spec a i), (Nat.eqb_spec c (fst p)); cbn [andb]; auto; lia. }
      assert (D : forall a c, (a < n)%nat -> has a c = true -> ((a < i)%nat \/ (a = i /\ In c (map fst (pre ++ [p])))) ->
                 eqn (qe q') a c /\ G a c (qe q' a c)).
      { intros a c Ha Hac Hor. destruct (Nat.eq_dec a i) as [->|Hai].
        - destruct Hor as [|[_ Hin]]; [lia|]. rewrite map_app in Hin. apply in_app_or in Hin.
          destruct (Nat.eq_dec c (fst p)) as [->|Hc].
          + split; [apply (new_eqn (qe q)); auto|]. rewrite Hs, !Nat.eqb_refl. cbn [andb]. apply HG; auto.
            * intros; now apply qe_notin.
            * intros a c Hac' Hh' Ha'. apply H1; auto.
          + destruct Hin as [Hin|[Hin|[]]]; [|cbn in Hin; congruence].
            assert (Hlt : (c < fst p)%nat).
            { apply (row_prefix_lt i (nth i rows []) pre p l (nth_row i Hi) E); auto. now apply row_mem_In. }
            destruct (H1 i c Hi Hac ltac:(auto)) as [H3 H4]. split; [|now rewrite Hs' by auto].
            eapply (eqn_ext (qe q) (qe q') i c i (fst p)); auto.
        - destruct (H1 a c Ha Hac ltac:(lia)) as [H3 H4]. split; [|now rewrite Hs' by auto].
          eapply (eqn_ext (qe q) (qe q') a c i (fst p)); auto. lia. }
      apply IH; auto.
      * rewrite E, <- app_assoc. reflexivity.
      * intros p' Hp' a c Ha Hac Hor. apply D; auto. destruct Hor as [|[-> Hlt]]; auto. right. split; auto.
        destruct l as [|p1 l]; [discriminate|]. injection Hp' as ->.
        apply (row_prefix_lt i (nth i rows []) (pre ++ [p]) p' l (nth_row i Hi)); auto.
        -- rewrite E, <- app_assoc. reflexivity.
        -- now apply row_mem_In.
      * intros -> a c Ha Hac Hor. apply D; auto. destruct (Nat.eq_dec a i) as [->|]; [right|left; lia]. split; auto.
        rewrite <- E. now apply row_mem_In.
Qed.

Definition ilu_row (q : lil R) (i : nat) : res (lil R) :=
  lo <- rd (indptr A) i ;; hi <- rd (indptr A) (S i) ;; foldM (ilu_entry A i) (seq lo (hi - lo)) q.

Lemma ilu_rows : forall m q, (m <= n)%nat -> shape q ->
  (exists q', foldM ilu_row (seq 0 m) q = Ok q' /\ shape q' /\ done_upto q' m 0) \/
  (foldM ilu_row (seq 0 m) q = Fail DivByZero /\ exists q', zero_pivot q').
Proof.
  induction m as [|m IH]; intros q Hm Hq.
  - left. exists q. splits; auto. intros a c Ha Hh Hor. lia.
  - rewrite seq_S, foldM_app. cbn [Nat.add].
    destruct (IH q ltac:(lia) Hq) as [(q1 & E & Hq1 & D)|[E Hz]]; rewrite E; cbn [bind foldM].
    2:{ right. split; auto. }
    assert (Er : ilu_row q1 m = foldM (ilu_entry A m) (seq (offs rows m) (length (nth m rows []))) q1).
    { unfold ilu_row. rewrite (row_lo n A rows HA Hrep m) by lia. cbn [bind].
      rewrite (row_hi A rows Hrep m _ (nth_row m ltac:(lia))). cbn [bind].
      replace (offs rows m + length (nth m rows []) - offs rows m)%nat with (length (nth m rows [])) by lia. reflexivity. }
    rewrite Er.
    pose proof (row_loop m ltac:(lia) (nth m rows []) [] q1 eq_refl Hq1) as L.
    cbn [length] in L. rewrite Nat.add_0_r in L.
    destruct L as [(q2 & E2 & Hq2 & D2)|[E2 Hz]].
    + intros p Hp a c Ha Hac Hor. apply D; auto. destruct Hor as [|[-> Hlt]]; auto. exfalso.
      apply row_mem_In in Hac. destruct (nth m rows []) as [|p0 l] eqn:En; [discriminate|]. injection Hp as ->.
      apply (row_prefix_lt m (p :: l) [] p l) in Hlt; auto. rewrite <- En. apply nth_row. lia.
    + intros Hnil a c Ha Hac Hor. apply D; auto. left. destruct (Nat.eq_dec a m) as [->|]; [|lia].
      exfalso. unfold has in Hac. rewrite Hnil in Hac. discriminate.
    + rewrite E2. cbn [bind]. left. exists q2. splits; auto.
    + rewrite E2. cbn [bind]. right. split; auto.
Qed.

Lemma shape_0 : shape (mkLil (crows A) (ccols A) rows).
Proof. destruct HA as (_ & _ & Hr & Hc). unfold shape; cbn. splits; auto. Qed.

Lemma shape_csr q : shape q -> exists m, csr_of_lil q = Ok (m, q) /\ square_csr n m /\ repr m (ldata q).
Proof.
  intros Hq. pose proof Hq as (H1 & H2 & H3).
  assert (Hs : Forall (@srow R) (ldata q)).
  { apply Forall_forall. intros row Hin. apply In_nth_error in Hin. destruct Hin as [i Hi].
    unfold srow. assert (E : row = nth i (ldata q) []) by (symmetry; eapply nth_error_nth; eauto).
    assert (Hlt : (i < n)%nat) by (rewrite <- (shape_len q Hq); apply nth_error_Some; congruence).
    rewrite E, (shape_keys q i Hq). apply (row_sorted A rows Hrep i). apply nth_row; auto. }
  assert (Hwf : lil_wf q).
  { split; [rewrite shape_len by auto; auto|]. intros row Hin. apply srow_NoDup. rewrite Forall_forall in Hs. auto. }
  destruct (csr_of_lil_repr q Hwf) as (m & E & E1 & E2 & Hr). rewrite map_sort_id in * by auto.
  exists m. splits; auto.
  - destruct q; cbn in *. exact E.
  - unfold square_csr. splits.
    + eapply repr_wf; eauto.
    + eapply repr_cols; eauto. intros row k Hin Hk. apply In_nth_error in Hin. destruct Hin as [i Hi].
      assert (Er : row = nth i (ldata q) []) by (symmetry; eapply nth_error_nth; eauto).
      assert (Hlt : (i < n)%nat) by (rewrite <- (shape_len q Hq); apply nth_error_Some; congruence).
      rewrite E2, H2. rewrite Er, (shape_keys q i Hq) in Hk. eapply (row_cols n A rows HA Hrep i); eauto. apply nth_row; auto.
    + lia.
    + lia.
Qed.

Lemma ilu0_run :
  (exists m q, ilu0 A = Ok m /\ square_csr n m /\ repr m (ldata q) /\ shape q /\ done_upto q n 0) \/
  (ilu0 A = Fail DivByZero /\ exists q, zero_pivot q).
Proof.
  unfold ilu0. rewrite (lil_of_csr_repr A rows Hrep). cbn [bind].
  pose proof shape_0 as S0. remember (mkLil (crows A) (ccols A) rows) as q0 eqn:Eq0. clear Eq0.
  pose proof HA as (_ & _ & Hr & _). rewrite Hr.
  destruct (ilu_rows n q0 ltac:(lia) S0) as [(q & E & Hq & D)|[E Hz]];
    change (foldM ilu_row (seq 0 n) q0) with (foldM (fun q i => lo <- rd (indptr A) i ;; hi <- rd (indptr A) (S i) ;;
        foldM (ilu_entry A i) (seq lo (hi - lo)) q) (seq 0 n) q0) in E; rewrite E; cbn [bind].
  - destruct (shape_csr q Hq) as (m & Em & Hsq & Hrm). rewrite Em. cbn [bind]. left. exists m, q. splits; auto; apply Hsq.
  - right. split; auto.
Qed.
End Ilu.

Section IluMain.
Variables (n : nat) (A : csr R).
Hypothesis HA : square_csr n A.
Notation e := (entry A).

Lemma stored_has rows i j : repr A rows -> (i < n)%nat -> stored A i j <-> has rows i j = true.
Proof.
  intros Hrep Hi. rewrite (stored_row A rows i (nth i rows []) j Hrep (nth_row n A rows HA Hrep i Hi)).
  unfold has. symmetry. apply row_mem_In.
Qed.

Lemma entry_unstored i j : (i < n)%nat -> ~ stored A i j -> e i j = 0.
Proof.
  intros Hi H. pose proof HA as (Hw & _). apply wf_repr in Hw. destruct Hw as [rows Hrep].
  rewrite (entry_row A rows Hrep i _ j (nth_row n A rows HA Hrep i Hi)). apply row_get_notin.
  intros Hin. apply H. apply (stored_row A rows i (nth i rows []) j Hrep (nth_row n A rows HA Hrep i Hi)). auto.
Qed.

Lemma lu_entry (q : nat -> nat -> R) i j : (i < n)%nat -> (j < n)%nat ->
  matmul n (lower_part q) (upper_part q) i j = q i j * (if (j <? i)%nat then q j j else 1) + ksum n q i j 0.
Proof.
  intros Hi Hj. unfold matmul, ksum.
  rewrite <- (bigsum_delta n (Nat.min i j) (fun _ => q i j * (if (j <? i)%nat then q j j else 1))) by lia.
  rewrite <- bigsum_plus. apply bigsum_ext. intros k Hk. cbn [Nat.leb andb]. unfold lower_part, upper_part.
  destruct (Nat.eq_dec k (Nat.min i j)) as [E|Hne].
  - assert (Dl : delta k (Nat.min i j) = 1) by (rewrite E; apply delta_refl). rewrite Dl. destruct (Nat.ltb_spec k (Nat.min i j)); [lia|].
    destruct (Nat.ltb_spec j i).
    + assert (k = j) as -> by lia. destruct (Nat.eqb_spec i j); [lia|]. rewrite Nat.leb_refl. destruct (Nat.ltb_spec j i); [|lia]. ring.
    + assert (k = i) as -> by lia. rewrite Nat.eqb_refl. destruct (Nat.leb_spec i j); [|lia]. ring.
  - rewrite delta_ne by auto. destruct (Nat.ltb_spec k (Nat.min i j)) as [Hlt|Hge].
    + destruct (Nat.eqb_spec i k); [lia|]. destruct (Nat.ltb_spec k i); [|lia]. destruct (Nat.leb_spec k j); [|lia]. ring.
    + destruct (Nat.eqb_spec i k) as [E|].
      * subst k. destruct (Nat.leb_spec i j); [lia|]. ring.
      * destruct (Nat.ltb_spec k i); [|ring]. destruct (Nat.leb_spec k j); [lia|]. ring.
Qed.

Lemma shape_stored rows q m i j : repr A rows -> shape n rows q -> repr m (ldata q) -> (i < n)%nat ->
  stored m i j <-> stored A i j.
Proof.
  intros Hrep Hq Hrm Hi.
  rewrite (stored_row A rows i (nth i rows []) j Hrep (nth_row n A rows HA Hrep i Hi)).
  rewrite (stored_row m (ldata q) i (nth i (ldata q) []) j Hrm).
  - now rewrite (shape_keys n rows q i Hq).
  - apply nth_error_nth'. rewrite (shape_len n A rows HA Hrep q Hq). auto.
Qed.
Lemma shape_entry rows q m i j : repr A rows -> shape n rows q -> repr m (ldata q) -> (i < n)%nat ->
  entry m i j = qe q i j.
Proof.
  intros Hrep Hq Hrm Hi. unfold qe. apply (entry_row m (ldata q) Hrm i).
  apply nth_error_nth'. rewrite (shape_len n A rows HA Hrep q Hq). auto.
Qed.

Lemma ilu0_main :
  (ilu0 A = Fail DivByZero \/ exists m, ilu0 A = Ok m) /\
  forall m, ilu0 A = Ok m -> square_csr n m /\
    (forall i j, (i < n)%nat -> stored m i j <-> stored A i j) /\
    (forall i j, (i < n)%nat -> (j < n)%nat -> stored A i j ->
       matmul n (lower_part (entry m)) (upper_part (entry m)) i j = e i j).
Proof.
  pose proof HA as (Hw & _). apply wf_repr in Hw. destruct Hw as [rows Hrep].
  destruct (ilu0_run n A rows HA Hrep (fun _ _ _ => True) ltac:(intros; exact I)) as [(m & q & E & Hsq & Hrm & Hq & D)|[E _]].
  2:{ split; [now left|]. intros m Em. congruence. }
  split; [right; eauto|]. intros m' Em'. rewrite E in Em'. injection Em' as <-. splits; auto; try apply Hsq.
  - intros i j Hi. now apply (shape_stored rows q m).
  - intros i j Hi Hj Hst. rewrite lu_entry by auto.
    apply (stored_has rows) in Hst; auto. destruct (D i j Hi Hst ltac:(lia)) as [Heq _]. unfold eqn in Heq.
    rewrite <- Heq. f_equal.
    + rewrite (shape_entry rows q m i j) by auto. destruct (Nat.ltb_spec j i); auto. now rewrite (shape_entry rows q m j j).
    + apply ksum_ext. intros k Hk. rewrite (shape_entry rows q m i k), (shape_entry rows q m k j) by (auto; lia). auto.
Qed.

(** completeness: an incomplete factorisation with nonzero pivots is found *)
Lemma ilu0_complete (F : nat -> nat -> R) :
  (forall i j, (i < n)%nat -> ~ stored A i j -> F i j = 0) ->
  (forall i, (i < n)%nat -> F i i <> 0) ->
  (forall i j, (i < n)%nat -> (j < n)%nat -> stored A i j -> matmul n (lower_part F) (upper_part F) i j = e i j) ->
  exists m, ilu0 A = Ok m /\ forall i j, (i < n)%nat -> (j < n)%nat -> entry m i j = F i j.
Proof.
  intros HF0 HFd HF.
  pose proof HA as (Hw & _). apply wf_repr in Hw. destruct Hw as [rows Hrep].
  assert (Hcol : forall i j, (i < n)%nat -> has rows i j = true -> (j < n)%nat).
  { intros i j Hi Hh. apply (row_cols n A rows HA Hrep i (nth i rows [])); [|now apply row_mem_In].
    now apply (nth_row n A rows HA Hrep). }
  destruct (ilu0_run n A rows HA Hrep (fun i j v => v = F i j)) as [(m & q & E & Hsq & Hrm & Hq & D)|[E (q & i & j & Hi & Hh & Hji & Hz & D)]].
  - intros q i j Hi Hh H0 H1. pose proof (Hcol i j Hi Hh) as Hj.
    assert (Hq : forall a c, (a < n)%nat -> ((a < i)%nat \/ (a = i /\ (c < j)%nat)) -> q a c = F a c).
    { intros a c Ha Hac. destruct (has rows a c) eqn:Ec; [now apply H1|]. rewrite H0 by auto. symmetry. apply HF0; auto.
      intros Hs. apply (stored_has rows) in Hs; auto. congruence. }
    assert (Hk : ksum n q i j 0 = ksum n F i j 0).
    { apply ksum_ext. intros k Hk. rewrite !Hq by lia. auto. }
    assert (HE := HF i j Hi Hj ltac:(apply (stored_has rows); auto)). rewrite lu_entry in HE by auto.
    unfold newval. rewrite Hk. destruct (Nat.ltb_spec j i).
    + rewrite (Hq j j) by lia. rewrite <- HE. field. auto.
    + rewrite <- HE. ring.
  - exists m. split; auto. intros i j Hi Hj. rewrite (shape_entry rows q m i j) by auto.
    destruct (has rows i j) eqn:Ec; [now apply D; auto; lia|].
    rewrite (qe_notin n rows q i j) by auto. symmetry. apply HF0; auto.
    intros Hs. apply (stored_has rows) in Hs; auto. congruence.
  - exfalso. pose proof (Hcol i j Hi Hh) as Hj. apply (HFd j Hj). rewrite <- Hz.
    destruct (has rows j j) eqn:Ec; [symmetry; apply D; auto; lia|].
    rewrite Hz. apply HF0; auto. intros Hs. apply (stored_has rows) in Hs; auto. congruence.
Qed.
End IluMain.
