(** The sorting of the elements and of the nodes. *)
From Coq Require Import List Arith ZArith Lia Bool Reals Lra Psatz.
From Verif Require Import Res DenseModel DenseR LUModel DelaunayModel DelaunaySpec DelaunaySpec2 DelaunayProof DelaunayProof2 DelaunayProof6.
Import ListNotations.
Local Open Scope R_scope.

Lemma share_ok e f j : share e f j = true <-> exists i, (i < 3)%nat /\ side f i = rev_side (side e j).
Proof.
  unfold share. cbv zeta. rewrite !orb_true_iff, !andb_true_iff, !Nat.eqb_eq. unfold side, rev_side. cbn [fst snd]. split.
  - intros [[[H1 H2]|[H1 H2]]|[H1 H2]]; [exists 1%nat|exists 2%nat|exists 0%nat]; (split; [lia|]); change (nx3 0) with 1%nat; change (nx3 1) with 2%nat; change (nx3 2) with 0%nat; change (pv3 0) with 2%nat; change (pv3 1) with 0%nat; change (pv3 2) with 1%nat; congruence.
  - intros (i & Hi & E). case3 i Hi; inversion E; auto.
Qed.
Definition nbr (es : list delem) (a : nat) (e : delem) (j : nat) : option nat :=
  option_map fst (find (fun q => negb (a =? fst q)%nat && share e (snd q) j) (combine (seq 0 (length es)) es)).
Lemma find_first {A} (p : nat * A -> bool) (l : list A) s : 
  match find p (combine (seq s (length l)) l) with
  | Some (b, f) => (s <= b)%nat /\ nth_error l (b - s) = Some f /\ p (b, f) = true /\ forall c g, (s <= c < b)%nat -> nth_error l (c - s) = Some g -> p (c, g) = false
  | None => forall c g, (s <= c)%nat -> nth_error l (c - s) = Some g -> p (c, g) = false
  end.
Proof.
  revert s. induction l as [|x l IH]; intros s; cbn [length seq combine find].
  { intros c g _ H. destruct (c - s)%nat; discriminate H. }
  destruct (p (s, x)) eqn:E.
  { rewrite Nat.sub_diag. splits; auto. intros; lia. }
  specialize (IH (S s)). destruct (find p (combine (seq (S s) (length l)) l)) as [[b f]|].
  - destruct IH as (I1 & I2 & I3 & I4). splits; auto; [lia| |].
    + replace (b - s)%nat with (S (b - S s)) by lia. exact I2.
    + intros c g Hc Hg. destruct (Nat.eq_dec c s) as [->|]. { rewrite Nat.sub_diag in Hg. inversion Hg; congruence. }
      apply I4; [lia|]. replace (c - s)%nat with (S (c - S s)) in Hg by lia. exact Hg.
  - intros c g Hc Hg. destruct (Nat.eq_dec c s) as [->|]. { rewrite Nat.sub_diag in Hg. inversion Hg; congruence. }
    apply IH; [lia|]. replace (c - s)%nat with (S (c - S s)) in Hg by lia. exact Hg.
Qed.
Lemma nbr_ok es a e j : match nbr es a e j with
  | Some b => b <> a /\ has_rev es b (side e j) /\ forall c, (c < b)%nat -> c <> a -> ~ has_rev es c (side e j)
  | None => forall c, c <> a -> ~ has_rev es c (side e j) end.
Proof.
  unfold nbr. assert (F := find_first (fun q => negb (a =? fst q)%nat && share e (snd q) j) es 0).
  destruct (find _ _) as [[b f]|]; cbn [option_map fst snd] in *.
  - rewrite Nat.sub_0_r in F. destruct F as (_ & F1 & F2 & F3). apply andb_true_iff in F2. destruct F2 as [F2 F4].
    apply negb_true_iff, Nat.eqb_neq in F2. apply share_ok in F4. destruct F4 as (i & Hi & E). splits; auto.
    + exists f, i. auto.
    + intros c Hc Ne (g & x & Hg & Hx & E'). specialize (F3 c g ltac:(lia)). rewrite Nat.sub_0_r in F3. specialize (F3 Hg).
      assert (T : share e g j = true) by (apply share_ok; eauto). rewrite T, andb_true_r in F3. apply negb_false_iff, Nat.eqb_eq in F3. congruence.
  - intros c Ne (g & x & Hg & Hx & E'). specialize (F c g ltac:(lia)). rewrite Nat.sub_0_r in F. specialize (F Hg).
    assert (T : share e g j = true) by (apply share_ok; eauto). rewrite T, andb_true_r in F. apply negb_false_iff, Nat.eqb_eq in F. congruence.
Qed.
Definition resort (es : list delem) : list delem :=
  map (fun q => let e := snd q in mkElem (en e) (A3 (nbr es (fst q) e 0) (nbr es (fst q) e 1) (nbr es (fst q) e 2)) (esd e) (eact e) (echk e)) (combine (seq 0 (length es)) es).
Lemma sortelement_eq ns es : sortelement (mkMesh ns es) = mkMesh ns (resort es).
Proof. reflexivity. Qed.
Lemma nth_index {A B} (f : nat * A -> B) (l : list A) s a x : nth_error l a = Some x -> nth_error (map f (combine (seq s (length l)) l)) a = Some (f ((s + a)%nat, x)).
Proof.
  revert s a. induction l as [|y l IH]; intros s [|a] H; cbn in *; try discriminate.
  - inversion H. now rewrite Nat.add_0_r.
  - rewrite (IH (S s) a H). do 3 f_equal. lia.
Qed.
Lemma resort_length es : length (resort es) = length es.
Proof. unfold resort. rewrite map_length, combine_length, seq_length. lia. Qed.
Lemma resort_nth es a e : nth_error es a = Some e -> exists e', nth_error (resort es) a = Some e' /\
  en e' = en e /\ esd e' = esd e /\ eact e' = eact e /\ echk e' = echk e /\ forall j, (j < 3)%nat -> at3 (enb e') j = nbr es a e j.
Proof.
  intros H. unfold resort. rewrite (nth_index _ es 0 a e H). eexists. split; [reflexivity|]. cbn [plus fst snd]. splits; auto.
  intros j Hj. case3 j Hj; reflexivity.
Qed.
Lemma resort_back es a e' : nth_error (resort es) a = Some e' -> exists e, nth_error es a = Some e /\
  en e' = en e /\ esd e' = esd e /\ eact e' = eact e /\ echk e' = echk e /\ forall j, (j < 3)%nat -> at3 (enb e') j = nbr es a e j.
Proof.
  intros H. assert (L := nth_error_lt _ _ _ H). rewrite resort_length in L. destruct (nth_error es a) as [e|] eqn:E; [|apply nth_error_None in E; lia].
  destruct (resort_nth es a e E) as (e1 & H1 & Q). rewrite H in H1; inversion H1; subst e1. exists e. auto.
Qed.
Lemma rev_rev s : rev_side (rev_side s) = s.
Proof. now destruct s. Qed.
Lemma resort_mutual es : unique_sides es -> mutual (resort es).
Proof.
  intros U a e' j b H Hj Hb. destruct (resort_back es a e' H) as (e & He & E1 & _ & _ & _ & E2). rewrite E2 in Hb by assumption.
  assert (N := nbr_ok es a e j). rewrite Hb in N. destruct N as (Ne & (f & i & Hf & Hi & S) & _).
  destruct (resort_nth es b f Hf) as (f' & Hf' & F1 & _ & _ & _ & F2). exists f', i. splits; auto.
  - rewrite F2 by assumption. assert (N := nbr_ok es b f i). destruct (nbr es b f i) as [c|].
    + destruct N as (_ & (g & x & Hg & Hx & S') & _). rewrite S, rev_rev in S'. f_equal. now apply (U c a g e x j).
    + exfalso. apply (N a); auto. exists e, j. splits; auto. now rewrite S, rev_rev.
  - unfold side in *. rewrite F1, E1. exact S.
Qed.

(** ** the nodes *)
Definition below (ns : list dnode) (k : nat) : nat := length (filter isset (firstn k ns)).
Definition unset (ns : list dnode) (k : nat) : nat := length (filter (fun n => negb (isset n)) (firstn k ns)).
Lemma below_unset ns k : (k <= length ns)%nat -> (below ns k + unset ns k = k)%nat.
Proof.
  unfold below, unset. revert k. induction ns as [|n ns IH]; intros [|k] H; cbn in *; auto; try lia.
  assert (Q := IH k ltac:(lia)). destruct (isset n); cbn; lia.
Qed.
Lemma unset_le ns k : (unset ns k <= k)%nat.
Proof. unfold unset. revert k. induction ns as [|n ns IH]; intros [|k]; cbn; try lia. assert (Q := IH k). destruct (isset n); cbn; lia. Qed.
Definition renum (s : nat) (ns : list dnode) (k : nat) : nat :=
  fold_right (fun q k => if isset (snd q) then k else dec_above (fst q) k) k (combine (seq s (length ns)) ns).
Lemma renum_ok ns : forall s k, renum s ns k = if (k <? s)%nat then k else (k - unset ns (k - s))%nat.
Proof.
  induction ns as [|n ns IH]; intros s k.
  { unfold renum, unset. rewrite firstn_nil. cbn [length seq combine fold_right filter]. rewrite Nat.sub_0_r. destruct (k <? s)%nat; reflexivity. }
  unfold renum. cbn [length seq combine fold_right fst snd]. fold (renum (S s) ns k). rewrite IH.
  destruct (Nat.ltb_spec k (S s)) as [L|L].
  - assert (D : dec_above s k = k) by (unfold dec_above; destruct (Nat.ltb_spec s k); lia). rewrite D.
    destruct (Nat.ltb_spec k s); [destruct (isset n); reflexivity|]. replace (k - s)%nat with 0%nat by lia. cbn. destruct (isset n); lia.
  - destruct (Nat.ltb_spec k s); [lia|]. replace (k - s)%nat with (S (k - S s)) by lia. unfold unset at 2 3. cbn [firstn filter]. fold (unset ns (k - S s)).
    assert (Q := unset_le ns (k - S s)).
    destruct (isset n); cbn [negb length]; [reflexivity|]. unfold dec_above. destruct (Nat.ltb_spec s (k - unset ns (k - S s))); [|lia].
    fold (unset ns (k - S s)). lia.
Qed.
Lemma renum_below ns k : (k <= length ns)%nat -> renum 0 ns k = below ns k.
Proof. intros H. rewrite renum_ok. cbn [Nat.ltb Nat.leb]. replace (k <? 0)%nat with false by reflexivity. rewrite Nat.sub_0_r. assert (Q := below_unset ns k H). lia. Qed.
Lemma below_nth ns k n : nth_error ns k = Some n -> isset n = true -> nth_error (filter isset ns) (below ns k) = Some n.
Proof.
  unfold below. revert k. induction ns as [|m ns IH]; intros [|k] H S; cbn in *; try discriminate.
  - inversion H; subst. rewrite S. reflexivity.
  - destruct (isset m); cbn; auto.
Qed.
Lemma below_lt ns k n : nth_error ns k = Some n -> isset n = true -> forall k', (k < k')%nat -> (below ns k < below ns k')%nat.
Proof.
  unfold below. revert k. induction ns as [|m ns IH]; intros [|k] H S [|k'] L; cbn in *; try discriminate; try lia.
  - inversion H; subst. rewrite S. cbn. lia.
  - assert (Q := IH k H S k' ltac:(lia)). destruct (isset m); cbn; lia.
Qed.
Lemma below_inj ns k k' n n' : nth_error ns k = Some n -> isset n = true -> nth_error ns k' = Some n' -> isset n' = true -> below ns k = below ns k' -> k = k'.
Proof.
  intros H S H' S' E. destruct (Nat.lt_trichotomy k k') as [L|[L|L]]; auto.
  - assert (Q := below_lt ns k n H S k' L). lia.
  - assert (Q := below_lt ns k' n' H' S' k L). lia.
Qed.
Definition renumber (ns : list dnode) (e : delem) : delem := mkElem (map3 (renum 0 ns) (en e)) (enb e) (esd e) (eact e) (echk e).
Lemma map3_at {A B} (f : A -> B) t j : (j < 3)%nat -> at3 (map3 f t) j = f (at3 t j).
Proof. intros Hj. case3 j Hj; reflexivity. Qed.
Lemma sortnode_eq ns es : sortnode (mkMesh ns es) = mkMesh (filter isset ns) (map (renumber ns) es).
Proof.
  unfold sortnode. cbn [mns mes]. f_equal. rewrite <- fold_left_rev_right, rev_involutive.
  unfold renumber, renum. set (l := combine (seq 0 (length ns)) ns). clearbody l.
  induction l as [|q l IH]; cbn [fold_right].
  - rewrite <- (map_id es) at 1. apply map_ext. intros [[? ? ?] ? ? ? ?]. reflexivity.
  - rewrite IH. destruct (isset (snd q)); [reflexivity|]. rewrite map_map. apply map_ext. intros e. reflexivity.
Qed.
