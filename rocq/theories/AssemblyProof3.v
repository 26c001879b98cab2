(** Periodic conditions, gathering, and sums over all elements. *)
From Coq Require Import List Arith Lia Bool Reals Lra Permutation.
From Verif Require Import Res SumR SparseModel SparseSpec SparseProof DenseModel DenseSpec DenseProof DenseR DenseMain
  LUProof AssemblyModel AssemblySpec AssemblyProof AssemblyProof2.
Import ListNotations.
Local Open Scope nat_scope.

(** ** Periodic *)
Definition inb (i : nat) (l : list nat) : bool := existsb (Nat.eqb i) l.
Lemma inb_In i l : inb i l = true <-> In i l.
Proof.
  unfold inb. rewrite existsb_exists. split.
  - intros (x & H & E). apply Nat.eqb_eq in E. now subst.
  - intros H. exists i. split; auto. apply Nat.eqb_refl.
Qed.

Lemma nth_repeat_None {A} n j : nth j (repeat (@None A) n) None = None.
Proof. revert j; induction n as [|n IH]; intros [|j]; cbn; auto. Qed.

Lemma per_clear pairs : forall t, (forall m s, In (m, s) pairs -> s < length t) ->
  exists t', foldM (fun t (p : nat * nat) => row <- rd t (snd p) ;;
                wr t (snd p) (repeat None (length row))) pairs t = Ok t' /\
   same_shape t' t /\
   forall i j, num t' i j = if inb i (map snd pairs) then None else num t i j.
Proof.
  induction pairs as [|[m s] pairs IH]; intros t H; cbn [foldM].
  - exists t. splits; auto using same_shape_refl.
  - cbn [snd]. assert (Hs : s < length t) by (eapply H; left; eauto).
    rewrite (rd_nth t s []) by auto. cbn [bind]. rewrite wr_Ok by auto. cbn [bind].
    remember (upd t s (repeat None (length (nth s t [])))) as t1 eqn:E1.
    assert (S1 : same_shape t1 t).
    { subst t1. split; [apply upd_length|]. intros i. rewrite nth_upd. destruct (Nat.eqb_spec s i); cbn [andb]; auto.
      subst. destruct (i <? length t); auto. apply repeat_length. }
    destruct (IH t1) as (t' & E & S' & V').
    { intros m' s' Hin. destruct S1 as [-> _]. eapply H; right; eauto. }
    exists t'. splits; [exact E|eapply same_shape_trans; eauto|].
    intros i j. rewrite V'. cbn [map snd inb existsb]. fold (inb i (map snd pairs)).
    destruct (inb i (map snd pairs)); [now rewrite orb_true_r|]. rewrite orb_false_r.
    subst t1. unfold num. rewrite nth_upd. destruct (Nat.ltb_spec s (length t)); [|lia]. rewrite andb_true_r.
    rewrite (Nat.eqb_sym i s). destruct (Nat.eqb_spec s i); auto. apply nth_repeat_None.
Qed.

Lemma per_copy1 m s t : s < length t -> length (nth s t []) <= length (nth m t []) ->
  exists t', (row <- rd t s ;; foldM (fun t i => x <- n2g t m i ;; n2g_set t s i x) (seq 0 (length row)) t) = Ok t' /\
    same_shape t' t /\
    forall i j, num t' i j = if (s =? i) && (j <? length (nth s t [])) then num t m j else num t i j.
Proof.
  intros Hs Hl. rewrite (rd_nth t s []) by auto. cbn [bind].
  apply (loop_from _ (fun k t' => same_shape t' t /\ forall i j, num t' i j = if (s =? i) && (j <? k) then num t m j else num t i j)
    0 (length (nth s t []))).
  - split; [apply same_shape_refl|]. intros i j. destruct (Nat.ltb_spec j 0); [lia|]. now rewrite andb_false_r.
  - intros k t1 Hk [S1 V1].
    assert (I1 : in_table t1 m k) by (rewrite (same_shape_in t1 t) by auto; unfold in_table; lia).
    assert (I2 : in_table t1 s k) by (rewrite (same_shape_in t1 t) by auto; unfold in_table; lia).
    rewrite n2g_ok by auto. cbn [bind]. destruct (n2g_set_ok t1 s k (num t1 m k) I2) as (t2 & E2 & S2 & V2).
    exists t2. splits; auto. { eapply same_shape_trans; eauto. }
    intros i j. rewrite V2. destruct (Nat.eqb_spec s i); cbn [andb].
    + subst i. destruct (Nat.eqb_spec k j).
      * subst j. destruct (Nat.ltb_spec k (S k)); [|lia]. rewrite V1. destruct (Nat.ltb_spec k k); [lia|]. now rewrite andb_false_r.
      * rewrite V1, Nat.eqb_refl. cbn [andb]. destruct (Nat.ltb_spec j k), (Nat.ltb_spec j (S k)); auto; lia.
    + rewrite V1. destruct (Nat.eqb_spec s i); [lia|]. auto.
Qed.

Lemma per_copy pairs : forall t,
  (forall m s, In (m, s) pairs -> s < length t /\ length (nth s t []) <= length (nth m t [])) ->
  exists t', foldM (fun t (p : nat * nat) => row <- rd t (snd p) ;;
         foldM (fun t i => x <- n2g t (fst p) i ;; n2g_set t (snd p) i x) (seq 0 (length row)) t) pairs t = Ok t' /\
    same_shape t' t /\
    (forall i j, ~ In i (map snd pairs) -> num t' i j = num t i j) /\
    (forall i j k, num t' i j = Some k -> exists i', num t i' j = Some k) /\
    (forall l1 m s l2, pairs = l1 ++ (m, s) :: l2 -> ~ In s (map snd l2) -> ~ In m (map snd l2) ->
       forall j, j < length (nth s t []) -> num t' s j = num t' m j).
Proof.
  induction pairs as [|[m s] pairs IH]; intros t H.
  - exists t. splits; auto using same_shape_refl. { intros; eauto. } intros [|] ? ? ? E; discriminate.
  - cbn [foldM fst snd]. destruct (H m s (or_introl eq_refl)) as [H1 H2].
    destruct (per_copy1 m s t H1 H2) as (t1 & E1 & S1 & V1). rewrite E1. cbn [bind].
    destruct (IH t1) as (t' & E & S' & N' & K' & P').
    { intros m' s' Hin. destruct (H m' s' (or_intror Hin)) as [A B]. destruct S1 as [-> L]. rewrite !L. auto. }
    exists t'. splits; [exact E|eapply same_shape_trans; eauto| | |].
    + intros i j Hi. cbn [map In snd] in Hi. rewrite N' by tauto. rewrite V1.
      destruct (Nat.eqb_spec s i); [exfalso; tauto|]. auto.
    + intros i j k Hk. destruct (K' _ _ _ Hk) as [i' Hi']. rewrite V1 in Hi'.
      destruct (_ && _) in Hi'; eauto.
    + intros [|p l1] m0 s0 l2 Ep Hs0 Hm0 j Hj; cbn [app] in Ep; injection Ep; intros; subst.
      * rewrite !N' by auto. rewrite !V1, Nat.eqb_refl. cbn [andb].
        destruct (Nat.ltb_spec j (length (nth s0 t []))); [|lia]. now destruct (s0 =? m0).
      * eapply P'; eauto. destruct S1 as [_ ->]. auto.
Qed.

Lemma set_periodic_ok t pairs :
  (forall m s, In (m, s) pairs -> s < length t /\ length (nth s t []) <= length (nth m t [])) ->
  exists t' n, set_periodic t pairs = Ok (t', n) /\ same_shape t' t /\
    (forall i j, ~ In i (map snd pairs) -> (num t' i j = None <-> num t i j = None)) /\
    (forall i j k, num t' i j = Some k -> k < n) /\
    (forall i j i' j' k, ~ In i (map snd pairs) -> ~ In i' (map snd pairs) ->
       num t' i j = Some k -> num t' i' j' = Some k -> i = i' /\ j = j') /\
    (forall k, k < n -> exists i j, ~ In i (map snd pairs) /\ num t' i j = Some k) /\
    (forall l1 m s l2, pairs = l1 ++ (m, s) :: l2 -> ~ In s (map snd l2) -> ~ In m (map snd l2) ->
       forall j, j < length (nth s t []) -> num t' s j = num t' m j).
Proof.
  intros H. unfold set_periodic.
  destruct (per_clear pairs t) as (t1 & E1 & S1 & V1). { intros m s Hin. now destruct (H m s Hin). }
  rewrite E1. cbn [bind]. destruct (renumber t1) as [t2 n] eqn:E2.
  destruct (renumber_ok _ _ _ E2) as ((L2 & L2' & P2) & _ & _ & (B2 & I2 & O2) & _).
  assert (S2 : same_shape t2 t).
  { eapply same_shape_trans; [|exact S1]. apply same_shape_sym. split; auto. }
  destruct (per_copy pairs t2) as (t3 & E3 & S3 & N3 & K3 & P3).
  { intros m s Hin. destruct S2 as [-> HL]. rewrite !HL. auto. }
  rewrite E3. cbn [bind]. exists t3, n.
  assert (Hnone : forall i j, In i (map snd pairs) -> num t2 i j = None).
  { intros i j Hi. apply P2. rewrite V1. apply inb_In in Hi. now rewrite Hi. }
  splits; auto.
  - eapply same_shape_trans; eauto.
  - intros i j Hi. rewrite N3 by auto. rewrite <- P2, V1.
    destruct (inb i (map snd pairs)) eqn:Eb; [apply inb_In in Eb; tauto|]. tauto.
  - intros i j k Hk. destruct (K3 _ _ _ Hk) as [i' Hi']. eauto.
  - intros i j i' j' k Hi Hi'. rewrite !N3 by auto. apply I2.
  - intros k Hk. destruct (O2 k Hk) as (i & j & Hij). exists i, j.
    assert (Hi : ~ In i (map snd pairs)). { intros Hi. rewrite (Hnone i j Hi) in Hij. discriminate. }
    split; auto. now rewrite N3.
  - intros l1 m s l2 Ep Hs Hm j Hj. eapply P3; eauto. destruct S2 as [_ ->]. auto.
Qed.

(** ** Gathering *)
Lemma foldM_nte_flat {S} element nte (body : S -> nat -> nat -> nat -> res S) s :
  length nte <= length element ->
  foldM (fun s i => nt <- rd nte i ;;
           foldM (fun s d => e <- rd element i ;; body s e (fst d) (snd d)) nt s) (seq 0 (length nte)) s =
  foldM (fun s a => body s (dnode a) (ddof a) (dloc a)) (dofs element nte) s.
Proof.
  revert nte s; induction element as [|e es IH]; intros nte s HL.
  - destruct nte; [reflexivity|cbn in HL; lia].
  - destruct nte as [|nt nts]; [reflexivity|]. cbn [length seq foldM dofs].
    rewrite foldM_app, foldM_map. cbn [dnode ddof dloc].
    change (rd (nt :: nts) 0) with (Ok nt). cbn [bind].
    change (fun s d => e0 <- rd (e :: es) 0 ;; body s e0 (fst d) (snd d))
      with (fun (s : S) (d : nat * nat) => body s e (fst d) (snd d)).
    destruct (foldM (fun s d => body s e (fst d) (snd d)) nt s) as [s1|]; cbn [bind]; auto.
    rewrite foldM_seq_S. rewrite <- IH by (cbn in HL; lia). reflexivity.
Qed.

Lemma fold_len (nte : list (list (nat * nat))) : forall s, fold_left (fun s nt => s + length nt) nte s = s + length (concat nte).
Proof. induction nte as [|nt nte IH]; intros s; cbn [fold_left concat]; [cbn; lia|]. rewrite IH, app_length. lia. Qed.
Lemma dofs_length element nte : length nte <= length element -> length (dofs element nte) = length (concat nte).
Proof.
  revert nte; induction element as [|e es IH]; intros [|nt nte] H; cbn [dofs concat length] in *; auto; try lia.
  rewrite !app_length, map_length, IH by lia. auto.
Qed.
Lemma map_dloc_dofs element nte : length nte <= length element -> map dloc (dofs element nte) = map snd (concat nte).
Proof.
  revert nte; induction element as [|e es IH]; intros [|nt nte] H; cbn [dofs concat length] in *; auto; try lia.
  rewrite !map_app, map_map, IH by lia. auto.
Qed.

Lemma gather_ok u D : forall v,
  (forall a, In a D -> in_table u (dnode a) (ddof a) /\ dloc a < length v) -> NoDup (map dloc D) ->
  exists v', foldM (fun v a => x <- uget u (dnode a) (ddof a) ;; vset v (dloc a) x) D v = Ok v' /\
    length v' = length v /\ (forall a, In a D -> nth (dloc a) v' 0%R = duval u a) /\
    (forall l, ~ In l (map dloc D) -> nth l v' 0%R = nth l v 0%R).
Proof.
  induction D as [|a D IH]; intros v H HN.
  - exists v. splits; auto. intros a [].
  - cbn [foldM]. destruct (H a (or_introl eq_refl)) as [H1 H2]. rewrite uget_ok by auto. cbn [bind].
    unfold vset. destruct (Nat.ltb_spec (dloc a) (length v)); [|lia]. cbn [assert_ bind]. rewrite wr_Ok by auto. cbn [bind].
    cbn [map] in HN. inversion HN as [|? ? Ha HN']; subst.
    destruct (IH (upd v (dloc a) (uval u (dnode a) (ddof a)))) as (v' & E & L & V & W); auto.
    { intros b Hb. rewrite upd_length. apply H; right; auto. }
    exists v'. rewrite L, upd_length. splits; [exact E|auto| |].
    + intros b [->|Hb]; auto. rewrite W by auto. rewrite nth_upd, Nat.eqb_refl.
      destruct (Nat.ltb_spec (dloc b) (length v)); [|lia]. reflexivity.
    + intros l Hl. cbn [map In] in Hl. rewrite W by tauto. rewrite nth_upd.
      destruct (Nat.eqb_spec (dloc a) l); [exfalso; tauto|]. reflexivity.
Qed.

Lemma element_vector_ok u element nte : length nte <= length element ->
  (forall a, In a (dofs element nte) -> in_table u (dnode a) (ddof a) /\ dloc a < length (dofs element nte)) ->
  NoDup (map dloc (dofs element nte)) ->
  exists v, element_vector u nte element = Ok v /\ length v = length (dofs element nte) /\
    forall a, In a (dofs element nte) -> nth (dloc a) v 0%R = duval u a.
Proof.
  intros HL H HN. unfold element_vector. rewrite fold_len, <- (dofs_length element nte) by auto.
  pose proof (foldM_nte_flat element nte (fun v e j l => x <- uget u e j ;; vset v l x) (repeat 0%R (length (dofs element nte))) HL) as E.
  cbn beta in E. cbn [plus]. rewrite E.
  destruct (gather_ok u (dofs element nte) (repeat 0%R (length (dofs element nte)))) as (v & Ev & L & V & _); auto.
  { intros a Ha. rewrite repeat_length. auto. }
  exists v. rewrite repeat_length in L. auto.
Qed.

Lemma fold_len2 (ntes : list (list (list (nat * nat)))) : forall s,
  fold_left (fun s nte => fold_left (fun s nt => s + length nt) nte s) ntes s = fold_left (fun s nt => s + length nt) (concat ntes) s.
Proof. induction ntes as [|nte ntes IH]; intros s; cbn [fold_left concat]; auto. now rewrite IH, fold_left_app. Qed.

Lemma foldM_groups_flat {S} elements ntes (body : S -> nat -> nat -> nat -> res S) s :
  Forall2 (fun el nte => length el = length nte) elements ntes ->
  foldM (fun s i => nte <- rd ntes i ;;
    foldM (fun s j => nt <- rd nte j ;;
        foldM (fun s d => el <- rd elements i ;; e <- rd el j ;; body s e (fst d) (snd d)) nt s)
      (seq 0 (length nte)) s) (seq 0 (length ntes)) s
  = foldM (fun s a => body s (dnode a) (ddof a) (dloc a)) (dofs (concat elements) (concat ntes)) s.
Proof.
  intros HF. revert s. induction HF as [|el nte els ntes' HL HF IH]; intros s; [reflexivity|].
  cbn [length seq foldM concat]. change (rd (nte :: ntes') 0) with (Ok nte). cbn [bind].
  rewrite dofs_app, foldM_app, <- (foldM_nte_flat el nte) by lia.
  match goal with |- bind ?x _ = bind ?y _ => replace x with y by (apply foldM_ext; intros; reflexivity) end.
  destruct (foldM _ (seq 0 (length nte)) s) as [s1|]; cbn [bind]; auto.
  rewrite foldM_seq_S. rewrite <- IH. reflexivity.
Qed.

Lemma element_vector_groups_eq u ntes elements :
  Forall2 (fun el nte => length el = length nte) elements ntes ->
  element_vector_groups u ntes elements = element_vector u (concat ntes) (concat elements).
Proof.
  intros HF. unfold element_vector_groups, element_vector. rewrite fold_len2.
  assert (HL : length (concat ntes) = length (concat elements)).
  { induction HF; cbn; auto. rewrite !app_length. lia. }
  pose proof (foldM_nte_flat (concat elements) (concat ntes) (fun v e j l => x <- uget u e j ;; vset v l x)) as E. cbn beta in E.
  rewrite E by lia.
  pose proof (foldM_groups_flat elements ntes (fun v e j l => x <- uget u e j ;; vset v l x)) as E2. cbn beta in E2. now rewrite E2.
Qed.

Lemma for_dofs_ext {S} el nte (b1 b2 : S -> nat -> nat -> nat -> res S) s :
  (forall s e d l, b1 s e d l = b2 s e d l) -> for_dofs el nte b1 s = for_dofs el nte b2 s.
Proof.
  intros H. unfold for_dofs. apply foldM_ext. intros s1 i _. destruct (rd nte i); cbn [bind]; auto.
  apply foldM_ext. intros s2 d _. destruct (rd el i); cbn [bind]; auto.
Qed.

Lemma assemble_groups_eq s u Ke t ntes elements :
  Forall2 (fun el nte => length el = length nte) elements ntes ->
  assemble_groups s u Ke t ntes elements = assemble_K_F s u Ke t (concat ntes) (concat elements).
Proof.
  intros HF. unfold assemble_groups, assemble_K_F. rewrite for_groups_flat by auto.
  apply for_dofs_ext. intros s1 e d l. destruct (n2g t e d) as [[k|]|]; cbn [bind]; auto.
  now rewrite for_groups_flat.
Qed.

(** ** Sums over elements *)
Local Open Scope R_scope.
Lemma asm_all_ok n t u es : forall K F G H, (forall e, In e es -> elem_ok n t u e) ->
  mat_is n K G -> vec_is n F H ->
  exists K' F', asm_all u t es (K, F) = Ok (K', F') /\
    mat_is n K' (fun i j => G i j + sum_over es (fun e => k_contrib t e i j)) /\
    vec_is n F' (fun i => H i + sum_over es (fun e => f_contrib t e i - d_contrib t u e i)).
Proof.
  unfold asm_all. induction es as [|e es IH]; intros K F G H He HK HF.
  - exists K, F. splits; auto.
    + revert HK; apply mat_is_ext. intros; rewrite sum_over_nil; lra.
    + revert HF; apply vec_is_ext. intros; rewrite sum_over_nil; lra.
  - cbn [foldM]. destruct (assemble_KFe_ok n t u e (He e (or_introl eq_refl)) K F G H HK HF) as (K1 & F1 & E1 & HK1 & HF1).
    rewrite E1. cbn [bind]. destruct (IH K1 F1 _ _ (fun e' He' => He e' (or_intror He')) HK1 HF1) as (K' & F' & E' & HK' & HF').
    exists K', F'. splits; auto.
    + revert HK'; apply mat_is_ext. intros; rewrite sum_over_cons; lra.
    + revert HF'; apply vec_is_ext. intros; rewrite sum_over_cons; lra.
Qed.

Lemma lil_new_is n : mat_is n (lil_new n n) (fun _ _ => 0).
Proof.
  unfold mat_is, lil_new, lil_wf, lil_cols_ok. cbn [ldata lrows lcols]. splits; auto.
  - apply repeat_length.
  - intros row Hr. apply repeat_spec in Hr. subst. constructor.
  - intros row c Hr. apply repeat_spec in Hr. subst. intros [].
  - intros i j Hi. unfold lil_get. cbn [ldata]. rewrite (rd_nth _ i []) by (now rewrite repeat_length). cbn [bind].
    f_equal. assert (nth i (repeat (@nil (nat * R)) n) [] = []).
    { clear. revert i; induction n; intros [|i]; cbn; auto. } now rewrite H.
Qed.
Lemma vec_zero_is n : vec_is n (repeat 0 n) (fun _ => 0).
Proof.
  split; [apply repeat_length|]. intros i _. revert i; induction n; intros [|i]; cbn; auto.
Qed.
Lemma vec_is_eq n F F' H : vec_is n F H -> vec_is n F' H -> F = F'.
Proof.
  intros [L1 H1] [L2 H2]. apply (nth_ext _ _ 0 0); [lia|]. intros i Hi. rewrite H1, H2; auto; lia.
Qed.

Lemma sum_over_perm {A} (l l' : list A) f : Permutation l l' -> sum_over l f = sum_over l' f.
Proof. intros H. apply sumlist_perm. now apply Permutation_map. Qed.
Lemma sum_over_plus {A} (l : list A) f g : sum_over l (fun x => f x + g x) = sum_over l f + sum_over l g.
Proof. apply sumlist_map_plus. Qed.
Lemma sum_over_scal {A} (l : list A) c f : sum_over l (fun x => c * f x) = c * sum_over l f.
Proof. apply sumlist_map_scal. Qed.
Lemma sum_over_minus {A} (l : list A) f g : sum_over l (fun x => f x - g x) = sum_over l f - sum_over l g.
Proof. induction l as [|a l IH]; [rewrite !sum_over_nil; lra|rewrite !sum_over_cons, IH; lra]. Qed.
Lemma bigsum_over {A} n (l : list A) f : bigsum n (fun i => sum_over l (f i)) = sum_over l (fun x => bigsum n (fun i => f i x)).
Proof. apply bigsum_sumlist_swap. Qed.
Lemma sum_over_swap {A B} (l : list A) (l' : list B) f :
  sum_over l (fun a => sum_over l' (fun b => f a b)) = sum_over l' (fun b => sum_over l (fun a => f a b)).
Proof.
  induction l as [|a l IH]; cbn [sum_over map sumlist].
  - symmetry. apply sum_zero. intros; reflexivity.
  - rewrite sum_over_cons, IH, <- sum_over_plus. apply sum_ext. intros; now rewrite sum_over_cons.
Qed.
Lemma sum_over_nonneg {A} (l : list A) f : (forall x, In x l -> 0 <= f x) -> 0 <= sum_over l f.
Proof.
  induction l as [|a l IH]; intros H; [rewrite sum_over_nil; lra|]. rewrite sum_over_cons.
  pose proof (H a (or_introl eq_refl)). pose proof (IH (fun x Hx => H x (or_intror Hx))). lra.
Qed.


Lemma pick n t (x : nat -> R) a : (forall k, dnum t a = Some k -> (k < n)%nat) ->
  bigsum n (fun j => ind (is_eq (dnum t a) j) (x j)) = xval t x a.
Proof.
  intros H. unfold xval. destruct (dnum t a) as [k|]; cbn [is_eq].
  - rewrite (bigsum_single n k); [now rewrite Nat.eqb_refl|auto|].
    intros i Hi Hne. destruct (Nat.eqb_spec k i); [lia|reflexivity].
  - apply bigsum_zero. reflexivity.
Qed.
Lemma ind_and b c x : ind (b && c) x = ind b (ind c x).
Proof. now destruct b, c. Qed.
Lemma ind_scal b c x : ind b (c * x) = c * ind b x.
Proof. destruct b; cbn; lra. Qed.
Lemma ind_scal_r b c x : ind b (x * c) = ind b x * c.
Proof. destruct b; cbn; lra. Qed.
Lemma sum_over_ind {A} (l : list A) b f : sum_over l (fun x => ind b (f x)) = ind b (sum_over l f).
Proof. destruct b; auto. apply sum_zero. reflexivity. Qed.
Lemma bigsum_ind n b f : bigsum n (fun i => ind b (f i)) = ind b (bigsum n f).
Proof. destruct b; auto. apply bigsum_0. Qed.

(** row gi of the contribution of one element times x *)
Lemma k_contrib_matvec n t u e x gi : elem_ok n t u e ->
  bigsum n (fun j => k_contrib t e gi j * x j) =
  sum_over (e_dofs e) (fun a => ind (is_eq (dnum t a) gi)
    (sum_over (e_dofs e) (fun b => e_k e (dloc a) (dloc b) * xval t x b))).
Proof.
  intros (_ & _ & Hok). unfold k_contrib.
  rewrite (bigsum_ext n _ (fun j => sum_over (e_dofs e) (fun a => sum_over (e_dofs e) (fun b =>
     ind (is_eq (dnum t a) gi) (e_k e (dloc a) (dloc b) * ind (is_eq (dnum t b) j) (x j)))))).
  2:{ intros j Hj. rewrite Rmult_comm, <- sum_over_scal. apply sum_ext. intros a Ha. rewrite <- sum_over_scal.
      apply sum_ext. intros b Hb. rewrite ind_and. destruct (is_eq (dnum t a) gi), (is_eq (dnum t b) j); cbn; lra. }
  rewrite bigsum_over. apply sum_ext. intros a Ha. rewrite bigsum_over.
  rewrite <- sum_over_ind. apply sum_ext. intros b Hb. rewrite bigsum_ind, bigsum_scal, (pick n) ; auto.
  intros k Hk. destruct (Hok b Hb) as (_ & _ & X & _). auto.
Qed.

Lemma equilibrium_row n t u e x gi : elem_ok n t u e ->
  bigsum n (fun j => k_contrib t e gi j * x j) + d_contrib t u e gi =
  sum_over (e_dofs e) (fun a => ind (is_eq (dnum t a) gi)
    (sum_over (e_dofs e) (fun b => e_k e (dloc a) (dloc b) *
        match dnum t b with Some k => x k | None => duval u b end))).
Proof.
  intros H. rewrite (k_contrib_matvec n t u e x gi H). unfold d_contrib. rewrite <- sum_over_plus.
  apply sum_ext. intros a Ha. destruct (is_eq (dnum t a) gi); cbn [andb ind].
  - rewrite <- sum_over_plus. apply sum_ext. intros b Hb. unfold xval. destruct (dnum t b); cbn [ind]; lra.
  - rewrite (sum_zero (e_dofs e)) by reflexivity. lra.
Qed.

Lemma energy n t u e x : elem_ok n t u e ->
  bigsum n (fun i => bigsum n (fun j => x i * k_contrib t e i j * x j)) =
  sum_over (e_dofs e) (fun a => sum_over (e_dofs e) (fun b =>
    xval t x a * e_k e (dloc a) (dloc b) * xval t x b)).
Proof.
  intros H.
  rewrite (bigsum_ext n _ (fun i => sum_over (e_dofs e) (fun a => ind (is_eq (dnum t a) i) (x i) *
    (sum_over (e_dofs e) (fun b => e_k e (dloc a) (dloc b) * xval t x b))))).
  2:{ intros i Hi. rewrite (bigsum_ext n _ (fun j => x i * (k_contrib t e i j * x j))) by (intros; lra).
      rewrite bigsum_scal, (k_contrib_matvec n t u e x i H), <- sum_over_scal. apply sum_ext. intros a Ha.
      destruct (is_eq (dnum t a) i); cbn; lra. }
  rewrite bigsum_over. apply sum_ext. intros a Ha. rewrite bigsum_scal_r, (pick n).
  2:{ destruct H as (_ & _ & H). intros k Hk. destruct (H a Ha) as (_ & _ & X & _). auto. }
  rewrite <- sum_over_scal. apply sum_ext. intros; lra.
Qed.

Lemma k_contrib_sym t e gi gj :
  (forall a b, In a (e_dofs e) -> In b (e_dofs e) -> e_k e (dloc a) (dloc b) = e_k e (dloc b) (dloc a)) ->
  k_contrib t e gi gj = k_contrib t e gj gi.
Proof.
  intros H. unfold k_contrib. rewrite sum_over_swap. apply sum_ext. intros b Hb. apply sum_ext. intros a Ha.
  rewrite (andb_comm (is_eq (dnum t b) gj)). now rewrite H.
Qed.

Lemma regroup (D : list ldof) m (f : nat -> R) (X : ldof -> R) : (forall a, In a D -> (dloc a < m)%nat) ->
  sum_over D (fun a => f (dloc a) * X a) =
  bigsum m (fun l => f l * sum_over D (fun a => ind (dloc a =? l)%nat (X a))).
Proof.
  intros H. rewrite (bigsum_ext m _ (fun l => sum_over D (fun a => ind (dloc a =? l)%nat (f l * X a)))).
  2:{ intros l Hl. rewrite <- sum_over_scal. apply sum_ext. intros. now rewrite ind_scal. }
  rewrite bigsum_over. apply sum_ext. intros a Ha. symmetry. rewrite (bigsum_single m (dloc a)).
  - now rewrite Nat.eqb_refl. - auto. - intros i Hi Hne. destruct (Nat.eqb_spec (dloc a) i); [lia|reflexivity].
Qed.

Lemma energy_loc (D : list ldof) m (k : nat -> nat -> R) (X : ldof -> R) : (forall a, In a D -> (dloc a < m)%nat) ->
  let z l := sum_over D (fun a => ind (dloc a =? l)%nat (X a)) in
  sum_over D (fun a => sum_over D (fun b => X a * k (dloc a) (dloc b) * X b)) =
  bigsum m (fun l => bigsum m (fun l' => z l * k l l' * z l')).
Proof.
  intros H z.
  rewrite (sum_ext D _ (fun a => bigsum m (fun l' => k (dloc a) l' * z l') * X a)).
  2:{ intros a Ha. rewrite (sum_ext D _ (fun b => X a * (k (dloc a) (dloc b) * X b))) by (intros; lra).
      rewrite sum_over_scal, (regroup D m (k (dloc a)) X H). fold z. unfold z. lra. }
  rewrite (regroup D m (fun l => bigsum m (fun l' => k l l' * z l')) X H).
  apply bigsum_ext. intros l Hl. rewrite Rmult_comm, <- bigsum_scal. apply bigsum_ext. intros; unfold z; lra.
Qed.
