(** Renumbering, boundary conditions, disassembling. *)
From Coq Require Import List Arith Lia Bool Reals Lra Permutation.
From Verif Require Import Res SumR SparseModel SparseSpec SparseProof DenseModel DenseSpec DenseProof DenseR DenseMain
  LUProof AssemblyModel AssemblySpec AssemblyProof.
Import ListNotations.
Local Open Scope nat_scope.

(** ** Renumbering *)
Lemma somes_app l1 l2 : somes (l1 ++ l2) = somes l1 ++ somes l2.
Proof. unfold somes. apply flat_map_app. Qed.

Lemma renum_row_ok row : forall k row' k', renum_row k row = (row', k') ->
  length row' = length row /\ somes row' = seq k (length (somes row)) /\ k' = k + length (somes row) /\
  (forall j, nth j row' None = None <-> nth j row None = None).
Proof.
  induction row as [|[x|] r IH]; intros k row' k' E; cbn [renum_row] in E.
  - injection E as <- <-. splits; cbn; auto. intros; tauto.
  - destruct (renum_row (S k) r) as [r' k1] eqn:Er. injection E as <- <-.
    destruct (IH _ _ _ Er) as (L & HS & HK & HN). splits.
    + cbn; lia. + cbn [somes flat_map app length seq]. fold (somes r'). fold (somes r). now rewrite HS.
    + cbn [somes flat_map app length]. fold (somes r). lia.
    + intros [|j]; cbn; [split; congruence|apply HN].
  - destruct (renum_row k r) as [r' k1] eqn:Er. injection E as <- <-.
    destruct (IH _ _ _ Er) as (L & HS & HK & HN). splits.
    + cbn; lia. + cbn [somes flat_map app]. exact HS. + exact HK.
    + intros [|j]; cbn; [tauto|apply HN].
Qed.

Lemma renum_from_ok t : forall k t' k', renum_from k t = (t', k') ->
  length t' = length t /\ numbers t' = seq k (length (numbers t)) /\ k' = k + length (numbers t) /\
  (forall i, length (nth i t' []) = length (nth i t [])) /\
  (forall i j, num t' i j = None <-> num t i j = None).
Proof.
  induction t as [|row r IH]; intros k t' k' E; cbn [renum_from] in E.
  - injection E as <- <-. splits; cbn; auto. intros; tauto.
  - destruct (renum_row k row) as [row' k1] eqn:E1. destruct (renum_from k1 r) as [r' k2] eqn:E2.
    injection E as <- <-. destruct (renum_row_ok _ _ _ _ E1) as (L1 & S1 & K1 & N1).
    destruct (IH _ _ _ E2) as (L2 & S2 & K2 & H2 & N2). unfold numbers in *. cbn [concat]. rewrite !somes_app, !app_length. splits.
    + cbn; lia.
    + rewrite S1, S2, K1. now rewrite seq_app.
    + lia.
    + intros [|i]; cbn; auto.
    + intros [|i] j; unfold num in *; cbn [nth]; auto.
Qed.

Lemma renum_row_idem row : forall k row' k', renum_row k row = (row', k') -> renum_row k row' = (row', k').
Proof.
  induction row as [|[x|] r IH]; intros k row' k' E; cbn [renum_row] in E.
  - injection E as <- <-. reflexivity.
  - destruct (renum_row (S k) r) as [r' k1] eqn:Er. injection E as <- <-. cbn [renum_row]. now rewrite (IH _ _ _ Er).
  - destruct (renum_row k r) as [r' k1] eqn:Er. injection E as <- <-. cbn [renum_row]. now rewrite (IH _ _ _ Er).
Qed.
Lemma renum_from_idem t : forall k t' k', renum_from k t = (t', k') -> renum_from k t' = (t', k').
Proof.
  induction t as [|row r IH]; intros k t' k' E; cbn [renum_from] in E.
  - injection E as <- <-. reflexivity.
  - destruct (renum_row k row) as [row' k1] eqn:E1. destruct (renum_from k1 r) as [r' k2] eqn:E2.
    injection E as <- <-. cbn [renum_from]. now rewrite (renum_row_idem _ _ _ _ E1), (IH _ _ _ E2).
Qed.

Lemma in_somes l k : In k (somes l) <-> exists j, nth j l None = Some k.
Proof.
  induction l as [|[x|] l IH]; cbn [somes flat_map app].
  - split; [intros []|intros [[|j] H]; discriminate].
  - fold (somes l). cbn [In]. rewrite IH. split.
    + intros [->|[j Hj]]; [exists 0|exists (S j)]; auto.
    + intros [[|j] H]; cbn in H; [left; congruence|right; eauto].
  - fold (somes l). rewrite IH. split.
    + intros [j Hj]. exists (S j); auto.
    + intros [[|j] H]; cbn in H; [discriminate|eauto].
Qed.
Lemma in_numbers t k : In k (numbers t) <-> exists i j, num t i j = Some k.
Proof.
  unfold numbers, num. induction t as [|row t IH]; cbn [concat].
  - split; [intros []|intros ([|i] & [|j] & H); discriminate].
  - rewrite somes_app, in_app_iff, in_somes, IH. split.
    + intros [[j H]|(i & j & H)]; [exists 0, j|exists (S i), j]; auto.
    + intros ([|i] & j & H); cbn in H; [left|right]; eauto.
Qed.
Lemma somes_inj l : NoDup (somes l) -> forall j j' k, nth j l None = Some k -> nth j' l None = Some k -> j = j'.
Proof.
  induction l as [|[x|] l IH]; cbn [somes flat_map app]; intros HN j j' k H H'.
  - destruct j; discriminate.
  - fold (somes l) in HN. inversion HN as [|? ? Hx HN']; subst.
    destruct j as [|j], j' as [|j']; cbn in H, H'; auto.
    + exfalso. apply Hx. apply in_somes. exists j'. congruence.
    + exfalso. apply Hx. apply in_somes. exists j. congruence.
    + f_equal. eapply IH; eauto.
  - fold (somes l) in HN. destruct j as [|j], j' as [|j']; cbn in H, H'; try discriminate. f_equal. eapply IH; eauto.
Qed.
Lemma NoDup_app_inv {A} (l1 l2 : list A) : NoDup (l1 ++ l2) -> NoDup l1 /\ NoDup l2 /\ forall x, In x l1 -> In x l2 -> False.
Proof.
  induction l1 as [|x l1 IH]; cbn; intros H; [splits; auto; constructor|].
  inversion H as [|? ? Hx HN]; subst. destruct (IH HN) as (A1 & A2 & A3). splits; auto.
  - constructor; auto. intros Hi. apply Hx, in_or_app; auto.
  - intros y [->|Hy] Hy2; [apply Hx, in_or_app; auto|eauto].
Qed.
Lemma numbers_inj t : NoDup (numbers t) -> forall i j i' j' k, num t i j = Some k -> num t i' j' = Some k -> i = i' /\ j = j'.
Proof.
  unfold numbers, num. induction t as [|row t IH]; cbn [concat]; intros HN i j i' j' k H H'.
  - destruct i, j; discriminate.
  - rewrite somes_app in HN. apply NoDup_app_inv in HN. destruct HN as (A1 & A2 & A3).
    destruct i as [|i], i' as [|i']; cbn [nth] in H, H'.
    + split; auto. exact (somes_inj row A1 _ _ _ H H').
    + exfalso. apply (A3 k); [apply in_somes; exists j; auto|apply (in_numbers t k); exists i', j'; auto].
    + exfalso. apply (A3 k); [apply in_somes; exists j'; auto|apply (in_numbers t k); exists i, j; auto].
    + destruct (IH A2 _ _ _ _ _ H H'). auto.
Qed.
Lemma numbering_seq t n : numbers t = seq 0 n -> numbering n t.
Proof.
  intros E. unfold numbering. splits.
  - intros i j k H. assert (In k (numbers t)) by (apply in_numbers; eauto). rewrite E in H0. apply in_seq in H0. lia.
  - intros i j i' j' k. apply numbers_inj. rewrite E. apply seq_NoDup.
  - intros k Hk. apply in_numbers. rewrite E. apply in_seq. lia.
Qed.

Lemma renumber_ok t t' n : renumber t = (t', n) ->
  same_pattern t t' /\ numbers t' = seq 0 n /\ n = length (numbers t) /\ numbering n t' /\ renumber t' = (t', n).
Proof.
  intros E. destruct (renum_from_ok _ _ _ _ E) as (L & HN & HK & HL & HP). cbn in HK.
  assert (Hs : numbers t' = seq 0 n) by (rewrite HN; f_equal; lia).
  splits; auto.
  - unfold same_pattern. splits; auto. intros; symmetry; apply HP.
  - now apply numbering_seq.
  - apply (renum_from_idem _ _ _ _ E).
Qed.

(** ** Reading and writing tables *)
Definition same_shape {A B} (t : list (list A)) (t' : list (list B)) :=
  length t = length t' /\ forall i, length (nth i t []) = length (nth i t' []).
Lemma same_shape_refl {A} (t : list (list A)) : same_shape t t.
Proof. split; auto. Qed.
Lemma same_shape_trans {A B C} (t : list (list A)) (t' : list (list B)) (t'' : list (list C)) :
  same_shape t t' -> same_shape t' t'' -> same_shape t t''.
Proof. intros [A1 A2] [B1 B2]. split; [congruence|]. intros; now rewrite A2. Qed.
Lemma same_shape_sym {A B} (t : list (list A)) (t' : list (list B)) : same_shape t t' -> same_shape t' t.
Proof. intros [A1 A2]. split; auto. Qed.
Lemma same_shape_in {A B} (t : list (list A)) (t' : list (list B)) i j : same_shape t t' -> in_table t i j <-> in_table t' i j.
Proof. intros [_ H]. unfold in_table. rewrite H. tauto. Qed.
Lemma in_table_row {A} (t : list (list A)) i j : in_table t i j -> i < length t.
Proof.
  unfold in_table. intros H. destruct (Nat.lt_ge_cases i (length t)); auto. rewrite nth_overflow in H by lia. cbn in H; lia.
Qed.

Lemma upd2_shape {A} (t : list (list A)) i j x : i < length t ->
  same_shape (upd t i (upd (nth i t []) j x)) t.
Proof.
  intros Hi. split; [apply upd_length|]. intros k. rewrite nth_upd.
  destruct (Nat.eqb_spec i k); cbn [andb]; auto. subst. destruct (k <? length t); auto. apply upd_length.
Qed.
Lemma upd2_nth {A} (t : list (list A)) i j x d : in_table t i j -> forall i' j',
  nth j' (nth i' (upd t i (upd (nth i t []) j x)) []) d = if (i =? i') && (j =? j') then x else nth j' (nth i' t []) d.
Proof.
  intros Hi i' j'. pose proof (in_table_row _ _ _ Hi) as Hr. unfold in_table in Hi. rewrite nth_upd.
  destruct (Nat.ltb_spec i (length t)); [|lia]. rewrite andb_true_r.
  destruct (Nat.eqb_spec i i'); cbn [andb]; auto. subst i'. rewrite nth_upd.
  destruct (Nat.ltb_spec j (length (nth i t []))); [|lia]. now rewrite andb_true_r.
Qed.

Lemma n2g_set_ok t i j x : in_table t i j -> exists t', n2g_set t i j x = Ok t' /\ same_shape t' t /\
  forall i' j', num t' i' j' = if (i =? i') && (j =? j') then x else num t i' j'.
Proof.
  intros H. pose proof (in_table_row _ _ _ H). unfold n2g_set. rewrite (rd_nth t i []) by auto. cbn [bind].
  rewrite wr_Ok by auto. cbn [bind]. rewrite wr_Ok by auto. eexists; splits; [reflexivity|now apply upd2_shape|now apply upd2_nth].
Qed.
Lemma uset_ok u i j x : in_table u i j -> exists u', uset u i j x = Ok u' /\ same_shape u' u /\
  forall i' j', uval u' i' j' = if (i =? i') && (j =? j') then x else uval u i' j'.
Proof.
  intros H. pose proof (in_table_row _ _ _ H). unfold uset. rewrite (rd_nth u i []) by auto. cbn [bind].
  unfold vset. assert (HH := H). unfold in_table in HH.
  destruct (Nat.ltb_spec j (length (nth i u []))); [|lia]. cbn [assert_ bind].
  rewrite wr_Ok by auto. cbn [bind]. rewrite wr_Ok by auto. eexists; splits; [reflexivity|now apply upd2_shape|now apply upd2_nth].
Qed.

(** ** Dirichlet *)
Definition listed (fx : list (nat * nat * R)) i j : bool := existsb (fun w => (fst (fst w) =? i) && (snd (fst w) =? j)) fx.

Lemma last_write_from {T} (fx : list (nat * nat * T)) i j : forall acc,
  fold_left (fun acc (w : nat * nat * T) => match w with (i', j', v) =>
               if (i' =? i) && (j' =? j) then Some v else acc end) fx acc
  = match last_write fx i j with Some v => Some v | None => acc end.
Proof.
  unfold last_write. induction fx as [|[[i' j'] v] fx IH]; intros acc; cbn [fold_left]; auto.
  destruct ((i' =? i) && (j' =? j)); auto. rewrite (IH (Some v)). destruct (fold_left _ fx None); auto.
Qed.
Lemma last_write_cons {T} i' j' (v : T) fx i j : last_write ((i', j', v) :: fx) i j =
  match last_write fx i j with Some w => Some w | None => if (i' =? i) && (j' =? j) then Some v else None end.
Proof. unfold last_write at 1. cbn [fold_left]. now rewrite last_write_from. Qed.
Lemma listed_last fx i j : listed fx i j = is_some (last_value fx i j).
Proof.
  unfold last_value. induction fx as [|[[i' j'] v] fx IH]; cbn [listed existsb]; auto.
  rewrite last_write_cons. fold (listed fx i j). rewrite IH. cbn [fst snd].
  destruct (last_write fx i j); cbn [is_some]; [apply orb_true_r|]. now destruct ((i' =? i) && (j' =? j)).
Qed.

Lemma set_dirichlet_ok fx : forall u t,
  (forall i j v, In (i, j, v) fx -> in_table u i j /\ in_table t i j) ->
  exists u' t', set_dirichlet (u, t) fx = Ok (u', t') /\ same_shape u' u /\ same_shape t' t /\
    (forall i j, uval u' i j = match last_value fx i j with Some v => v | None => uval u i j end) /\
    (forall i j, num t' i j = match last_value fx i j with Some _ => None | None => num t i j end).
Proof.
  unfold set_dirichlet. induction fx as [|[[i j] v] fx IH]; intros u t H.
  - exists u, t. splits; auto using same_shape_refl.
  - cbn [foldM]. destruct (H i j v (or_introl eq_refl)) as [H1 H2].
    destruct (uset_ok u i j v H1) as (u1 & E1 & S1 & V1). rewrite E1. cbn [bind].
    destruct (n2g_set_ok t i j None H2) as (t1 & E2 & S2 & V2). rewrite E2. cbn [bind].
    destruct (IH u1 t1) as (u' & t' & E & Su & St & Vu & Vt).
    { intros i' j' v' Hin. destruct (H i' j' v' (or_intror Hin)). rewrite (same_shape_in u1 u), (same_shape_in t1 t) by auto. auto. }
    exists u', t'. splits; [exact E|eapply same_shape_trans; eauto|eapply same_shape_trans; eauto| |].
    + intros i' j'. rewrite Vu. unfold last_value. rewrite last_write_cons. destruct (last_write fx i' j'); auto. rewrite V1.
      now destruct ((i =? i') && (j =? j')).
    + intros i' j'. rewrite Vt. unfold last_value. rewrite last_write_cons. destruct (last_write fx i' j'); auto. rewrite V2.
      now destruct ((i =? i') && (j =? j')).
Qed.

Lemma set_dirichlet_table_ok fx : forall t,
  (forall i j v, In (i, j, v) fx -> in_table t i j) ->
  exists t', set_dirichlet_table t fx = Ok t' /\ same_shape t' t /\
    (forall i j, num t' i j = match last_value fx i j with Some _ => None | None => num t i j end).
Proof.
  unfold set_dirichlet_table. induction fx as [|[[i j] v] fx IH]; intros t H.
  - exists t. splits; auto using same_shape_refl.
  - cbn [foldM]. pose proof (H i j v (or_introl eq_refl)) as H2.
    destruct (n2g_set_ok t i j None H2) as (t1 & E2 & S2 & V2). rewrite E2. cbn [bind].
    destruct (IH t1) as (t' & E & St & Vt).
    { intros i' j' v' Hin. pose proof (H i' j' v' (or_intror Hin)). rewrite (same_shape_in t1 t) by auto. auto. }
    exists t'. splits; [exact E|eapply same_shape_trans; eauto|].
    + intros i' j'. rewrite Vt. unfold last_value. rewrite last_write_cons. destruct (last_write fx i' j'); auto. rewrite V2.
      now destruct ((i =? i') && (j =? j')).
Qed.

(** ** Disassembling *)
Definition dis_val (u : list (list R)) (x : list R) (t : table) i j : R :=
  match num t i j with Some k => nth k x 0%R | None => uval u i j end.

Lemma disassemble_ok u x t : (forall i j, in_table t i j -> in_table u i j) ->
  (forall i j k, num t i j = Some k -> k < length x) ->
  exists u', disassemble u x t = Ok u' /\ same_shape u' u /\ forall i j, uval u' i j = dis_val u x t i j.
Proof.
  intros Hu Hx. unfold disassemble.
  enough (HX : exists u', foldM (fun u i => row <- rd t i ;;
    foldM (fun u j => g <- n2g t i j ;;
      match g with None => Ok u | Some k => v <- rd x k ;; uset u i j v end)
      (seq 0 (length row)) u) (seq 0 (length t)) u = Ok u' /\ same_shape u' u /\
      forall i j, uval u' i j = if i <? length t then dis_val u x t i j else uval u i j).
  { destruct HX as (u' & E & HS & HV). exists u'. splits; auto. intros i j. rewrite HV.
    destruct (Nat.ltb_spec i (length t)); auto. unfold dis_val, num. rewrite (nth_overflow t) by lia. now destruct j. }
  apply (loop_from _ (fun k u' => same_shape u' u /\ forall i j, uval u' i j = if i <? k then dis_val u x t i j else uval u i j) 0 (length t)).
  - split; [apply same_shape_refl|]. intros i j. destruct (Nat.ltb_spec i 0); [lia|]. auto.
  - intros i u1 Hi [S1 V1]. rewrite (rd_nth t i []) by lia. cbn [bind].
    enough (HX : exists u', foldM (fun u j => g <- n2g t i j ;;
      match g with None => Ok u | Some k => v <- rd x k ;; uset u i j v end)
      (seq 0 (length (nth i t []))) u1 = Ok u' /\ same_shape u' u /\
      forall i' j', uval u' i' j' = if (i =? i') && (j' <? length (nth i t [])) then dis_val u x t i' j' else uval u1 i' j').
    { destruct HX as (u' & E & HS & HV). exists u'. splits; auto. intros i' j'. rewrite HV, V1.
      destruct (Nat.eqb_spec i i'); cbn [andb].
      - subst i'. destruct (Nat.ltb_spec i (S i)); [|lia]. destruct (Nat.ltb_spec j' (length (nth i t []))); auto.
        destruct (Nat.ltb_spec i i); [lia|]. unfold dis_val, num. rewrite (nth_overflow (nth i t [])) by lia. auto.
      - destruct (Nat.ltb_spec i' i), (Nat.ltb_spec i' (S i)); auto; lia. }
    apply (loop_from _ (fun k u' => same_shape u' u /\ forall i' j', uval u' i' j' = if (i =? i') && (j' <? k) then dis_val u x t i' j' else uval u1 i' j')
      0 (length (nth i t []))).
    + split; auto. intros i' j'. destruct (Nat.ltb_spec j' 0); [lia|]. now rewrite andb_false_r.
    + intros j u2 Hj [S2 V2]. assert (Hin : in_table t i j) by (unfold in_table; lia). rewrite n2g_ok by auto. cbn [bind].
      destruct (num t i j) as [k|] eqn:Ek.
      * rewrite (rd_nth x k 0%R) by eauto. cbn [bind].
        destruct (uset_ok u2 i j (nth k x 0%R)) as (u3 & E3 & S3 & V3).
        { rewrite (same_shape_in u2 u) by auto. auto. }
        exists u3. splits; auto. { eapply same_shape_trans; eauto. }
        intros i' j'. rewrite V3, V2. destruct (Nat.eqb_spec i i'); cbn [andb]; auto. subst i'.
        destruct (Nat.eqb_spec j j').
        -- subst j'. destruct (Nat.ltb_spec j (S j)); [|lia]. unfold dis_val. now rewrite Ek.
        -- destruct (Nat.ltb_spec j' j), (Nat.ltb_spec j' (S j)); auto; lia.
      * exists u2. splits; auto. intros i' j'. rewrite V2. destruct (Nat.eqb_spec i i'); cbn [andb]; auto. subst i'.
        destruct (Nat.ltb_spec j' j), (Nat.ltb_spec j' (S j)); auto; [lia|]. assert (j' = j) by lia. subst j'.
        rewrite V1. destruct (Nat.ltb_spec i i); [lia|]. unfold dis_val. now rewrite Ek.
Qed.
