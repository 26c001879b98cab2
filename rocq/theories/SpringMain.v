(** Property C42: the weak spring: the proofs. *)
From Coq Require Import List Arith Lia Bool Reals Lra.
From Verif Require Import Res SumR SparseModel SparseSpec DenseModel DenseR DenseSpec AssemblyModel AssemblySpec ElemModel SpringSpec.
Import ListNotations.
Local Open Scope R_scope.
From Verif Require Import DenseProof DenseMain ElemProof ElemProof2 AssemblyProof PropAssembly.

Lemma sum_over_app {A} (l l' : list A) f : sum_over (l ++ l') f = sum_over l f + sum_over l' f.
Proof. unfold sum_over. now rewrite map_app, sumlist_app. Qed.
Lemma sum_over_ext {A} (l : list A) f g : (forall a, In a l -> f a = g a) -> sum_over l f = sum_over l g.
Proof. intros H. unfold sum_over. f_equal. now apply map_ext_in. Qed.
Lemma sum_over_scal {A} (l : list A) f c : sum_over l (fun a => c * f a) = c * sum_over l f.
Proof. induction l as [|a l IH]; [rewrite !sum_over_nil; ring|]. rewrite !sum_over_cons, IH. ring. Qed.
Lemma sum_over_zero {A} (l : list A) f : (forall a, In a l -> f a = 0) -> sum_over l f = 0.
Proof. intros H. rewrite (sum_over_ext _ _ (fun a => 0 * 0)) by (intros; rewrite H; auto; ring). rewrite sum_over_scal. ring. Qed.
Lemma sum_over_nonneg {A} (l : list A) f : (forall a, In a l -> 0 <= f a) -> 0 <= sum_over l f.
Proof. induction l as [|a l IH]; intros H; [rewrite sum_over_nil; lra|]. rewrite sum_over_cons. pose proof (H a (or_introl eq_refl)). assert (0 <= sum_over l f) by (apply IH; intros; apply H; now right). lra. Qed.
Lemma sum_over_pos {A} (l : list A) f a : (forall a, In a l -> 0 <= f a) -> In a l -> 0 < f a -> 0 < sum_over l f.
Proof.
  intros H Ha Hp. apply in_split in Ha as (l1 & l2 & ->). rewrite sum_over_app, sum_over_cons.
  assert (0 <= sum_over l1 f) by (apply sum_over_nonneg; intros; apply H; rewrite in_app_iff; auto).
  assert (0 <= sum_over l2 f) by (apply sum_over_nonneg; intros; apply H; rewrite in_app_iff; cbn; auto). lra.
Qed.
Lemma sum_over_map {A B} (g : A -> B) l f : sum_over (map g l) f = sum_over l (fun a => f (g a)).
Proof. unfold sum_over. now rewrite map_map. Qed.

(** what WeakSpring returns *)
Definition spring_row (dou : list nat) (i : nat) := map (fun d => (d, (length dou * i)%nat)) dou.
Lemma mapM_ext_ok {A B} (f : A -> res B) (g : A -> B) l : (forall a, In a l -> f a = Ok (g a)) -> mapM f l = Ok (map g l).
Proof.
  induction l as [|a l IH]; intros H; cbn [mapM map]; auto. rewrite (H a) by now left. cbn [bind]. rewrite IH; [reflexivity|].
  intros; apply H; now right.
Qed.
Lemma map_nth_seq {A} (d : A) l : map (fun j => nth j l d) (seq 0 (length l)) = l.
Proof.
  apply nth_ext with (d := d) (d' := d); rewrite map_length, seq_length; auto. intros n Hn.
  rewrite (nth_indep _ d (nth 0 l d)) by now rewrite map_length, seq_length.
  rewrite (map_nth (fun j => nth j l d) (seq 0 (length l)) 0%nat). now rewrite seq_nth.
Qed.
Lemma spring_ok el dou alpha : exists K, WeakSpring el dou alpha = Ok (K, map (spring_row dou) (seq 0 (length el))) /\
  is_mat K (length dou * length el) (length dou * length el) (fun i j => (if (i =? j)%nat then 1 else 0) * alpha).
Proof.
  unfold WeakSpring.
  rewrite (mapM_ext_ok _ (spring_row dou)).
  2:{ intros i _. rewrite (mapM_ext_ok _ (fun j => (nth j dou O, (length dou * i)%nat))).
      - f_equal. unfold spring_row. transitivity (map (fun d => (d, (length dou * i)%nat)) (map (fun j => nth j dou O) (seq 0 (length dou)))); [now rewrite map_map|now rewrite map_nth_seq].
      - intros j Hj. apply in_seq in Hj. rewrite (rd_nth dou j O) by lia. reflexivity. }
  cbn [bind]. destruct (Rmid (length dou * length el)) as (M & E & HM). rewrite E. cbn [bind]. eexists. split; [reflexivity|]. now apply Rmscal.
Qed.
Lemma e_k_is_mat e r c f : is_mat (e_K e) r c f -> forall a b, (a < r)%nat -> (b < c)%nat -> e_k e a b = f a b.
Proof.
  intros (Hw & Hr & Hc & Hg & _) a b Ha Hb. specialize (Hg a b Ha Hb). unfold mget in Hg. rewrite Hr, Hc in Hg.
  replace ((a <? r) && (b <? c))%nat%bool with true in Hg. 2:{ symmetry. apply andb_true_intro. split; now apply Nat.ltb_lt. }
  cbn [assert_ bind] in Hg. unfold e_k. rewrite Hc. apply rd_Ok in Hg. now apply nth_error_nth.
Qed.

(** dofs of a spring element starting at local node s *)
Fixpoint spring_dofs_from (dou el : list nat) (s : nat) : list ldof :=
  match el with [] => [] | e :: es => map (fun d => mkDof e d (length dou * s)) dou ++ spring_dofs_from dou es (S s) end.
Lemma spring_dofs_eq dou el s : dofs el (map (spring_row dou) (seq s (length el))) = spring_dofs_from dou el s.
Proof.
  revert s. induction el as [|e el IH]; intros s; cbn [length seq map dofs spring_dofs_from]; auto. f_equal; auto.
  unfold spring_row. rewrite map_map. reflexivity.
Qed.
Lemma spring_dofs_in dou el s a : In a (spring_dofs_from dou el s) -> In (dnode a) el /\ In (ddof a) dou /\
  exists i, (s <= i < s + length el)%nat /\ dloc a = (length dou * i)%nat.
Proof.
  revert s. induction el as [|e el IH]; intros s H; cbn [spring_dofs_from] in H; [easy|]. apply in_app_iff in H. destruct H as [H|H].
  - apply in_map_iff in H. destruct H as (d & <- & Hd). cbn. splits; auto. exists s. split; [lia|auto].
  - destruct (IH _ H) as (H1 & H2 & i & H3 & H4). splits; auto; [now right|]. exists i. split; auto. cbn [length]. lia.
Qed.

Lemma spring_energy t x dou el alpha s (k : nat -> nat -> R) : dou <> [] ->
  (forall a b, In a (spring_dofs_from dou el s) -> In b (spring_dofs_from dou el s) -> k (dloc a) (dloc b) = (if (dloc a =? dloc b)%nat then 1 else 0) * alpha) ->
  sum_over (spring_dofs_from dou el s) (fun a => sum_over (spring_dofs_from dou el s) (fun b => xval t x a * k (dloc a) (dloc b) * xval t x b)) =
  sum_over el (fun i => alpha * Rsqr (sum_over dou (fun j => at_node t x i j))).
Proof.
  intros Hdou. assert (HD : (length dou <> 0)%nat) by (destruct dou; cbn; congruence). revert s. induction el as [|e el IH]; intros s Hk; cbn [spring_dofs_from]; [reflexivity|].
  rewrite (sum_over_cons e el).
  rewrite <- (IH (S s)) by (intros a b Ha Hb; apply Hk; cbn [spring_dofs_from]; apply in_app_iff; now right).
  set (D := map (fun d => mkDof e d (length dou * s)) dou) in *. set (T := spring_dofs_from dou el (S s)) in *.
  assert (HDl : forall a, In a D -> dloc a = (length dou * s)%nat). { intros a Ha. apply in_map_iff in Ha. now destruct Ha as (d & <- & _). }
  assert (HTl : forall a, In a T -> dloc a <> (length dou * s)%nat).
  { intros a Ha E. apply spring_dofs_in in Ha. destruct Ha as (_ & _ & i & Hi & Ei). rewrite Ei in E. apply Nat.mul_cancel_l in E; lia. }
  assert (HA : forall a b, In a (D ++ T) -> In b (D ++ T) -> k (dloc a) (dloc b) = (if (dloc a =? dloc b)%nat then 1 else 0) * alpha) by exact Hk.
  rewrite sum_over_app. f_equal.
  - rewrite (sum_over_ext D _ (fun a => xval t x a * (alpha * sum_over D (xval t x)))).
    + transitivity (sum_over D (xval t x) * (alpha * sum_over D (xval t x))).
      { rewrite (Rmult_comm (sum_over D (xval t x)) (alpha * _)), <- (sum_over_scal D (xval t x) (alpha * sum_over D (xval t x))). apply sum_over_ext. intros; ring. }
      replace (sum_over D (xval t x)) with (sum_over dou (fun j => at_node t x e j)) by (unfold D; rewrite sum_over_map; reflexivity). unfold Rsqr. ring.
    + intros a Ha. rewrite sum_over_app. rewrite (sum_over_zero T).
      * rewrite Rplus_0_r. rewrite <- !sum_over_scal. apply sum_over_ext. intros b Hb.
        rewrite HA by (apply in_app_iff; auto). rewrite (HDl a Ha), (HDl b Hb), Nat.eqb_refl. ring.
      * intros b Hb. rewrite HA by (apply in_app_iff; auto). rewrite (HDl a Ha). destruct (Nat.eqb_spec (length dou * s) (dloc b)) as [E|E]; [|ring].
        now elim (HTl b Hb).
  - apply sum_over_ext. intros a Ha. rewrite sum_over_app. rewrite (sum_over_zero D); [ring|].
    intros b Hb. rewrite HA by (apply in_app_iff; auto). rewrite (HDl b Hb). destruct (Nat.eqb_spec (dloc a) (length dou * s)) as [E|E]; [|ring].
    now elim (HTl a Ha).
Qed.
Lemma spring_elem n t u dou alpha el e : dou <> [] ->
  (forall i j, In i el -> In j dou -> in_table t i j /\ in_table u i j /\ forall k, num t i j = Some k -> (k < n)%nat) ->
  e_nodes e = el -> WeakSpring el dou alpha = Ok (e_K e, e_nte e) -> e_F e = repeat 0 (length dou * length el) ->
  elem_ok n t u e /\ forall x, sum_over (e_dofs e) (fun a => sum_over (e_dofs e) (fun b => xval t x a * e_k e (dloc a) (dloc b) * xval t x b)) =
    sum_over el (fun i => alpha * Rsqr (sum_over dou (fun j => at_node t x i j))).
Proof.
  intros Hdou Hd En EW EF. assert (HD : (length dou <> 0)%nat) by (destruct dou; cbn; congruence).
  destruct (spring_ok el dou alpha) as (K & EK & HK). rewrite EK in EW. injection EW as EW1 EW2. rewrite EW1 in HK.
  assert (ED : e_dofs e = spring_dofs_from dou el 0). { unfold e_dofs. rewrite En, <- EW2. apply spring_dofs_eq. }
  assert (Hloc : forall a, In a (spring_dofs_from dou el 0) -> (dloc a < length dou * length el)%nat).
  { intros a Ha. destruct (spring_dofs_in _ _ _ _ Ha) as (_ & _ & i & Hi & ->). apply Nat.mul_lt_mono_pos_l; lia. }
  split.
  - unfold elem_ok. rewrite En, <- EW2, map_length, seq_length. splits; auto; [apply HK|]. intros a Ha. rewrite ED in Ha.
    destruct (spring_dofs_in _ _ _ _ Ha) as (H1 & H2 & _). destruct (Hd _ _ H1 H2) as (H3 & H4 & H5). pose proof (Hloc a Ha).
    destruct HK as (_ & Hr & Hc & _). rewrite Hr, Hc, EF, repeat_length. splits; auto.
  - intros x. rewrite ED. apply spring_energy; auto. intros a b Ha Hb. now rewrite (e_k_is_mat e _ _ _ HK) by (apply Hloc; auto).
Qed.


Lemma C42_energy_pf : forall n t u dou alpha meshes es, dou <> [] ->
  spring_dofs n t u dou meshes -> springs dou alpha meshes es ->
  exists K F, asm_all u t es (lil_new n n, repeat 0 n) = Ok (K, F) /\
    forall x, energy n K x = sum_over meshes (fun el => sum_over el (fun i => alpha * Rsqr (sum_over dou (fun j => at_node t x i j)))).
Proof.
  intros n t u dou alpha meshes es Hdou Hd Hs.
  assert (HE : forall e, In e es -> elem_ok n t u e).
  { intros e He. clear -Hdou Hd Hs He. unfold spring_dofs in Hd. induction Hs as [|el e' meshes es (H1 & H2 & H3) Hs IH]; [easy|]. destruct He as [->|He].
    - eapply spring_elem; eauto. intros i j Hi Hj. apply (Hd el); auto. now left.
    - apply IH; auto. intros el' i j Hel. apply Hd. now right. }
  destruct (C14_symmetry_psd n t u es HE) as (K & F & E & _ & HQ & _). exists K, F. split; auto.
  intros x. unfold energy. rewrite HQ. clear -Hdou Hd Hs. unfold spring_dofs in Hd. induction Hs as [|el e' meshes es (H1 & H2 & H3) Hs IH]; [reflexivity|].
  rewrite (sum_over_cons e' es), (sum_over_cons el meshes). f_equal.
  - apply (spring_elem n t u dou alpha el e'); auto. intros i j Hi Hj. apply (Hd el); auto. now left.
  - apply IH. intros el' i j Hel. apply Hd. now right.
Qed.

Lemma C42_single_pf : forall n t u j alpha meshes es, 0 < alpha ->
  spring_dofs n t u [j] meshes -> springs [j] alpha meshes es ->
  exists K F, asm_all u t es (lil_new n n, repeat 0 n) = Ok (K, F) /\
    forall x el i k, In el meshes -> In i el -> num t i j = Some k -> x k <> 0 -> 0 < energy n K x.
Proof.
  intros n t u j alpha meshes es Ha Hd Hs. destruct (C42_energy_pf n t u [j] alpha meshes es ltac:(discriminate) Hd Hs) as (K & F & E & HQ).
  exists K, F. split; auto. intros x el i k Hel Hi Hk Hx. rewrite HQ.
  assert (H0 : forall i, 0 <= alpha * Rsqr (sum_over [j] (fun j => at_node t x i j))) by (intros; apply Rmult_le_pos; [lra|apply Rle_0_sqr]).
  apply (sum_over_pos _ _ el); auto.
  - intros el' _. apply sum_over_nonneg. auto.
  - apply (sum_over_pos _ _ i); auto. apply Rmult_lt_0_compat; auto. apply Rsqr_pos_lt. unfold sum_over, at_node, sumlist. cbn [map fold_right]. rewrite Hk. lra.
Qed.

Lemma C42_two_dofs_refuted_pf : forall alpha, 0 < alpha -> exists n t u dou meshes es K F x,
  spring_dofs n t u dou meshes /\ springs dou alpha meshes es /\ NoDup dou /\
  (forall k, (k < n)%nat -> exists el i j, In el meshes /\ In i el /\ In j dou /\ num t i j = Some k) /\
  asm_all u t es (lil_new n n, repeat 0 n) = Ok (K, F) /\
  (exists k, (k < n)%nat /\ x k <> 0) /\ energy n K x = 0.
Proof.
  intros alpha Ha.
  set (t := [[Some 0; Some 1]; [Some 2; Some 3]]%nat : table). set (u := [[0; 0]; [0; 0]] : list (list R)).
  destruct (spring_ok [0; 1]%nat [0; 1]%nat alpha) as (Ke & EK & HK).
  set (e := mkElem [0; 1]%nat (map (spring_row [0; 1]%nat) (seq 0 2)) Ke (repeat 0 4)).
  assert (H1 : spring_dofs 4 t u [0; 1]%nat [[0; 1]%nat]).
  { intros el i j Hel Hi Hj. cbn in Hel. destruct Hel as [<-|[]]. cbn in Hi, Hj. unfold in_table, num, t, u.
    decompose [or] Hi; try contradiction; subst; decompose [or] Hj; try contradiction; subst; cbn; splits; try lia; intros k [= <-]; lia. }
  assert (H2 : springs [0; 1]%nat alpha [[0; 1]%nat] [e]).
  { constructor; [|constructor]. splits; auto. }
  destruct (C42_energy_pf 4 t u [0; 1]%nat alpha [[0; 1]%nat] [e] ltac:(discriminate) H1 H2) as (K & F & E & HQ).
  exists 4%nat, t, u, [0; 1]%nat, [[0; 1]%nat], [e], K, F, (fun k => if Nat.even k then 1 else -1). splits; auto.
  - repeat constructor; cbn; lia.
  - intros k Hk. exists [0; 1]%nat. destruct k as [|[|[|[|k]]]]; try lia; [exists 0%nat, 0%nat|exists 0%nat, 1%nat|exists 1%nat, 0%nat|exists 1%nat, 1%nat]; cbn; auto 6.
  - exists 0%nat. split; [lia|]. cbn. lra.
  - rewrite HQ. unfold sum_over, at_node, num, t. cbn. unfold Rsqr. ring.
Qed.
