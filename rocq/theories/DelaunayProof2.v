(** Links between elements and the swap of a side. *)
From Coq Require Import List Arith ZArith Lia Bool Reals Lra Psatz.
From Verif Require Import Res DenseModel DenseR LUModel DelaunayModel DelaunaySpec DelaunayProof.
Import ListNotations.
Local Open Scope R_scope.

Lemma lt3 j : (j < 3)%nat -> j = 0%nat \/ j = 1%nat \/ j = 2%nat.
Proof. lia. Qed.
Ltac case3 j H := destruct (lt3 j H) as [-> | [-> | -> ]].

Lemma nx3_lt j : (nx3 j < 3)%nat. Proof. unfold nx3. apply Nat.mod_upper_bound. lia. Qed.
Lemma pv3_lt j : (pv3 j < 3)%nat. Proof. unfold pv3. apply Nat.mod_upper_bound. lia. Qed.
#[global] Hint Resolve nx3_lt pv3_lt : core.
Lemma nx_nx j : (j < 3)%nat -> nx3 (nx3 j) = pv3 j. Proof. intros H. case3 j H; reflexivity. Qed.
Lemma nx_pv j : (j < 3)%nat -> nx3 (pv3 j) = j. Proof. intros H. case3 j H; reflexivity. Qed.
Lemma pv_nx j : (j < 3)%nat -> pv3 (nx3 j) = j. Proof. intros H. case3 j H; reflexivity. Qed.
Lemma pv_pv j : (j < 3)%nat -> pv3 (pv3 j) = nx3 j. Proof. intros H. case3 j H; reflexivity. Qed.
Lemma nx_ne j : (j < 3)%nat -> nx3 j <> j. Proof. intros H. case3 j H; discriminate. Qed.
Lemma pv_ne j : (j < 3)%nat -> pv3 j <> j. Proof. intros H. case3 j H; discriminate. Qed.
Lemma nx_pv_ne j : (j < 3)%nat -> nx3 j <> pv3 j. Proof. intros H. case3 j H; discriminate. Qed.
Lemma all3 j i : (j < 3)%nat -> (i < 3)%nat -> i = j \/ i = nx3 j \/ i = pv3 j.
Proof. intros H H'. case3 j H; case3 i H'; cbn; auto. Qed.

Lemma area2_rot ns e j : (j < 3)%nat ->
  area2 ns e = tri2 (xy ns (at3 (en e) j)) (xy ns (at3 (en e) (nx3 j))) (xy ns (at3 (en e) (pv3 j))).
Proof.
  intros H. unfold area2. case3 j H; unfold nx3, pv3; cbn [Nat.add Nat.modulo Nat.divmod fst snd Nat.sub].
  - reflexivity.
  - now rewrite (tri2_rot (xy ns (at3 (en e) 0))).
  - now rewrite (tri2_rot2 (xy ns (at3 (en e) 0))).
Qed.

Section Ok.
Variables (ns : list dnode) (es : list delem).
Hypothesis OK : mesh_ok ns es.

Lemma ok_nth a e : nth_error es a = Some e -> In e es.
Proof. apply nth_error_In. Qed.

Lemma pos_distinct e i j : 0 < area2 ns e -> (i < 3)%nat -> (j < 3)%nat -> i <> j -> at3 (en e) i <> at3 (en e) j.
Proof.
  intros Hp Hi Hj Hne He. unfold area2 in Hp.
  case3 i Hi; case3 j Hj; try congruence; rewrite He in Hp || rewrite <- He in Hp;
  rewrite ?tri2_aab, ?tri2_aba, ?tri2_abb in Hp; lra.
Qed.

(** an element is not beyond its own side *)
Lemma no_self a e j : nth_error es a = Some e -> (j < 3)%nat -> at3 (enb e) j <> Some a.
Proof.
  intros H Hj Hn. destruct (ok_link _ _ OK a e j a H Hj Hn) as (e' & j' & H' & Hj' & _ & Hs & _).
  rewrite H in H'; inversion H'; subst e'.
  assert (Hp := ok_pos _ _ OK e (ok_nth _ _ H)).
  unfold side, rev_side in Hs. cbn [fst snd] in Hs. injection Hs as H1 H2.
  assert (D : forall i i', (i < 3)%nat -> (i' < 3)%nat -> at3 (en e) i = at3 (en e) i' -> i = i').
  { intros i i' Hi Hi' E. destruct (Nat.eq_dec i i') as [|N]; auto. exfalso. exact (pos_distinct e i i' Hp Hi Hi' N E). }
  apply D in H1; auto. apply D in H2; auto.
  case3 j Hj; case3 j' Hj'; discriminate.
Qed.

(** two elements have at most one side in common *)
Lemma one_side a e j1 j2 b : nth_error es a = Some e -> (j1 < 3)%nat -> (j2 < 3)%nat ->
  at3 (enb e) j1 = Some b -> at3 (enb e) j2 = Some b -> j1 = j2.
Proof.
  intros H H1 H2 N1 N2.
  destruct (ok_link _ _ OK a e j1 b H H1 N1) as (e' & i1 & H' & L1 & _ & S1 & _).
  destruct (ok_link _ _ OK a e j2 b H H2 N2) as (e'' & i2 & H'' & L2 & _ & S2 & _).
  rewrite H' in H''; inversion H''; subst e''. clear H''.
  assert (P := ok_pos _ _ OK e (ok_nth _ _ H)). assert (P' := ok_pos _ _ OK e' (ok_nth _ _ H')).
  unfold side, rev_side in S1, S2. cbn [fst snd] in S1, S2. injection S1 as A1 A2. injection S2 as B1 B2.
  clear - H1 H2 L1 L2 A1 A2 B1 B2 P P'. unfold area2 in *.
  destruct e as [[a0 a1 a2] ea eb ec ed], e' as [[b0 b1 b2] ea' eb' ec' ed']; cbn [en] in *.
  case3 j1 H1; case3 j2 H2; try reflexivity; exfalso; case3 i1 L1; case3 i2 L2;
  cbn in A1, A2, B1, B2; cbn [at3 a30 a31 a32] in P, P'; subst; unfold tri2 in P, P'; lra.
Qed.

Lemma opp_ok a e j b : nth_error es a = Some e -> (j < 3)%nat -> at3 (enb e) j = Some b -> oppositenode e b = Some j.
Proof.
  intros H Hj Hn. assert (U := fun i Hi N => one_side a e i j b H Hi Hj N Hn).
  assert (G : forall i, (i < 3)%nat -> i <> j -> eqo (at3 (enb e) i) b = false).
  { intros i Hi Hne. destruct (at3 (enb e) i) as [x|] eqn:E; auto. cbn. apply Nat.eqb_neq. intros ->. apply Hne. now apply U. }
  assert (G' : eqo (at3 (enb e) j) b = true) by (rewrite Hn; apply Nat.eqb_refl).
  unfold oppositenode. cbn [find].
  case3 j Hj; rewrite ?(G 0%nat), ?(G 1%nat), ?(G 2%nat) by lia; rewrite G'; reflexivity.
Qed.
End Ok.

(** dart (a, j) and dart (b, i) are the two directions of one side *)
Definition linked (es : list delem) (a j b i : nat) : Prop :=
  exists e e', nth_error es a = Some e /\ nth_error es b = Some e' /\
    at3 (enb e) j = Some b /\ at3 (enb e') i = Some a /\
    side e' i = rev_side (side e j) /\ at3 (esd e') i = at3 (esd e) j.

Lemma linked_sym es a j b i : linked es a j b i -> linked es b i a j.
Proof.
  intros (e & e' & H & H' & N & N' & S & M). exists e', e. splits; auto.
  rewrite S. unfold rev_side. cbn [fst snd]. apply surjective_pairing.
Qed.

Definition linkage (es : list delem) : Prop :=
  forall a e j b, nth_error es a = Some e -> (j < 3)%nat -> at3 (enb e) j = Some b ->
  exists i, (i < 3)%nat /\ linked es a j b i.

Lemma ok_linkage ns es : mesh_ok ns es -> linkage es.
Proof.
  intros OK a e j b H Hj Hn. destruct (ok_link _ _ OK a e j b H Hj Hn) as (e' & i & H' & Hi & N & S & M).
  exists i. split; auto. exists e, e'. splits; auto.
Qed.
Lemma linkage_link es : linkage es -> forall a e j b, nth_error es a = Some e -> (j < 3)%nat -> at3 (enb e) j = Some b ->
    exists e' j', nth_error es b = Some e' /\ (j' < 3)%nat /\ at3 (enb e') j' = Some a /\
      side e' j' = rev_side (side e j) /\ at3 (esd e') j' = at3 (esd e) j.
Proof.
  intros L a e j b H Hj Hn. destruct (L a e j b H Hj Hn) as (i & Hi & e1 & e' & H1 & H' & N1 & N' & S & M).
  rewrite H in H1; inversion H1; subst e1. exists e', i. splits; auto.
Qed.

(** a relinked element *)
Definition ren (e : delem) (old new : nat) : delem :=
  mkElem (en e) (map3 (fun o => if eqo o old then Some new else o) (enb e)) (esd e) (eact e) (echk e).
Lemma at3_map3 {A B} (f : A -> B) t j : at3 (map3 f t) j = f (at3 t j).
Proof. destruct j as [|[|]]; reflexivity. Qed.
Lemma ren_nb e old new j : at3 (enb (ren e old new)) j = if eqo (at3 (enb e) j) old then Some new else at3 (enb e) j.
Proof. unfold ren. cbn [enb]. now rewrite at3_map3. Qed.
Lemma ren_side e old new j : side (ren e old new) j = side e j.
Proof. reflexivity. Qed.
Lemma ren_area ns e old new : area2 ns (ren e old new) = area2 ns e.
Proof. reflexivity. Qed.

Lemma eqo_t o k : eqo o k = true <-> o = Some k.
Proof. destruct o; cbn; [rewrite Nat.eqb_eq|]; split; congruence. Qed.
Lemma eqo_f o k : eqo o k = false <-> o <> Some k.
Proof. rewrite <- eqo_t. destruct (eqo o k); split; congruence. Qed.

(** relink with a neighbor that has exactly one side to [old] *)
Lemma set3_ren e old new j : (j < 3)%nat -> at3 (enb e) j = Some old ->
  (forall i, (i < 3)%nat -> at3 (enb e) i = Some old -> i = j) ->
  mkElem (en e) (set3 (enb e) j (Some new)) (esd e) (eact e) (echk e) = ren e old new.
Proof.
  intros Hj N U. unfold ren. f_equal. destruct (enb e) as [x y z].
  assert (G : forall i, (i < 3)%nat -> i <> j -> eqo (at3 (A3 x y z) i) old = false)
    by (intros i Hi Hne; apply eqo_f; intros E; apply Hne; now apply U).
  unfold map3; cbn [a30 a31 a32].
  assert (G0 := G 0%nat); assert (G1 := G 1%nat); assert (G2 := G 2%nat); cbn [at3 a30 a31 a32] in *.
  case3 j Hj; cbn [at3 a30 a31 a32 set3] in *; subst; cbn [eqo]; rewrite ?Nat.eqb_refl, ?G0, ?G1, ?G2 by lia; reflexivity.
Qed.
Lemma opp_uniq e b j : (j < 3)%nat -> at3 (enb e) j = Some b ->
  (forall i, (i < 3)%nat -> at3 (enb e) i = Some b -> i = j) -> oppositenode e b = Some j.
Proof.
  intros Hj Hn U.
  assert (G : forall i, (i < 3)%nat -> i <> j -> eqo (at3 (enb e) i) b = false)
    by (intros i Hi Hne; apply eqo_f; intros E; apply Hne; now apply U).
  assert (G' : eqo (at3 (enb e) j) b = true) by (rewrite Hn; apply Nat.eqb_refl).
  unfold oppositenode. cbn [find].
  case3 j Hj; rewrite ?(G 0%nat), ?(G 1%nat), ?(G 2%nat) by lia; rewrite G'; reflexivity.
Qed.

(** the list after [relink]: element [k] renamed *)
Definition renl (es : list delem) (k : option nat) (old new : nat) : list delem :=
  match k with
  | Some k => match nth_error es k with Some e => upd es k (ren e old new) | None => es end
  | None => es
  end.
Lemma relink_ok es k old new :
  (forall k0, k = Some k0 -> exists e j, nth_error es k0 = Some e /\ (j < 3)%nat /\ at3 (enb e) j = Some old /\
     (forall i, (i < 3)%nat -> at3 (enb e) i = Some old -> i = j)) ->
  relink es k old new = Ok (renl es k old new).
Proof.
  intros H. unfold relink, renl. destruct k as [k|]; auto.
  destruct (H k eq_refl) as (e & j & E & Hj & N & U).
  unfold rd. rewrite E. cbn [bind]. rewrite (opp_uniq e old j Hj N U). cbn [idx bind].
  rewrite (set3_ren e old new j Hj N U). unfold wr.
  assert (k < length es)%nat by (apply nth_error_Some; congruence).
  destruct (Nat.ltb_spec k (length es)); [reflexivity|lia].
Qed.
Lemma renl_nth es k old new a :
  nth_error (renl es k old new) a =
  match nth_error es a with Some e => Some (if eqo k a then ren e old new else e) | None => None end.
Proof.
  unfold renl. destruct k as [k|]; cbn [eqo].
  - destruct (nth_error es k) as [e|] eqn:E.
    + assert (k < length es)%nat by (apply nth_error_Some; congruence).
      rewrite nth_error_upd. destruct (Nat.eqb_spec k a) as [->|Hne]; cbn [andb].
      * destruct (Nat.ltb_spec a (length es)); [|lia]. now rewrite E.
      * destruct (nth_error es a); auto.
    + destruct (Nat.eqb_spec k a) as [->|Hne]. now rewrite E. destruct (nth_error es a); auto.
  - destruct (nth_error es a); auto.
Qed.
Lemma renl_length es k old new : length (renl es k old new) = length es.
Proof. unfold renl. destruct k as [k|]; auto. destruct (nth_error es k); auto. apply upd_length. Qed.

(** sums over the elements *)
Definition esum (f : delem -> R) (es : list delem) : R := fold_right (fun e s => f e + s) 0 es.
Lemma esum_upd f es a e e' : nth_error es a = Some e -> esum f (upd es a e') = esum f es - f e + f e'.
Proof.
  revert a; induction es as [|x es IH]; intros [|a] H; cbn in *; try discriminate.
  - inversion H; subst. ring.
  - specialize (IH a H). unfold esum in IH. rewrite IH. ring.
Qed.
Lemma esum_renl f es k old new : (forall e, f (ren e old new) = f e) -> esum f (renl es k old new) = esum f es.
Proof.
  intros H. unfold renl. destruct k as [k|]; auto. destruct (nth_error es k) as [e|] eqn:E; auto.
  rewrite (esum_upd _ _ _ _ _ E), H. ring.
Qed.
Lemma esum_app f a b : esum f (a ++ b) = esum f a + esum f b.
Proof. unfold esum. induction a as [|x a IH]; cbn; [ring|]. rewrite IH. ring. Qed.
Lemma total2_esum ns es : total2 ns es = esum (area2 ns) es.
Proof. reflexivity. Qed.

Lemma nth_error_lt {A} (l : list A) i x : nth_error l i = Some x -> (i < length l)%nat.
Proof. intros H. apply nth_error_Some. congruence. Qed.
Lemma rd_nth_error {A} (l : list A) i x : nth_error l i = Some x -> rd l i = Ok x.
Proof. intros H. unfold rd. now rewrite H. Qed.
Lemma wr_lt {A} (l : list A) i x : (i < length l)%nat -> wr l i x = Ok (upd l i x).
Proof. intros H. unfold wr. destruct (Nat.ltb_spec i (length l)); auto; lia. Qed.

(** the elements of a swap *)
Definition swapS (S T : delem) (s t n : nat) : delem :=
  mkElem (A3 (at3 (en S) 0) (at3 (en S) 1) (at3 (en T) n))
         (A3 (at3 (enb T) (nx3 n)) (Some t) (at3 (enb S) 2))
         (A3 (at3 (esd T) (nx3 n)) false (at3 (esd S) 2)) (eact S) (echk S).
Definition swapT (S T : delem) (s t n : nat) : delem :=
  mkElem (A3 (at3 (en S) 0) (at3 (en T) n) (at3 (en S) 2))
         (A3 (at3 (enb T) (pv3 n)) (at3 (enb S) 1) (Some s))
         (A3 (at3 (esd T) (pv3 n)) (at3 (esd S) 1) false) (eact T) (echk T).
Definition swap_es (es : list delem) (S T : delem) (s t n : nat) : list delem :=
  upd (upd (renl (renl es (at3 (enb T) (nx3 n)) t s) (at3 (enb S) 1) s t) t (swapT S T s t n)) s (swapS S T s t n).

Lemma two_sides ns e i j a b c d : (i < 3)%nat -> (j < 3)%nat -> side e i = (a, b) -> side e j = (c, d) ->
  (a = c /\ b = d) \/ (b = c /\ area2 ns e = tri2 (xy ns a) (xy ns b) (xy ns d)) \/
  (d = a /\ area2 ns e = tri2 (xy ns c) (xy ns d) (xy ns b)).
Proof.
  unfold side, area2. intros Hi Hj E1 E2. injection E1 as <- <-. injection E2 as <- <-.
  case3 i Hi; case3 j Hj; unfold nx3, pv3; cbn [Nat.add Nat.modulo Nat.divmod fst snd Nat.sub]; auto;
  (right; left; split; [reflexivity|unfold tri2; ring]) || (right; right; split; [reflexivity|unfold tri2; ring]).
Qed.

Section Swap.
Variables (ns : list dnode) (es : list delem) (s t n : nat) (S T : delem).
Hypothesis OK : mesh_ok ns es.
Hypothesis HS : nth_error es s = Some S.
Hypothesis HT : nth_error es t = Some T.
Hypothesis Hn : (n < 3)%nat.
Hypothesis NS : at3 (enb S) 0 = Some t.
Hypothesis NT : at3 (enb T) n = Some s.
Notation P := (at3 (en S) 0). Notation B := (at3 (en S) 1). Notation C := (at3 (en S) 2). Notation Q := (at3 (en T) n).

Lemma st_ne : s <> t.
Proof. intros E. subst t. apply (no_self ns es OK s S 0%nat); auto. Qed.

Lemma swap_nodes : at3 (en T) (nx3 n) = C /\ at3 (en T) (pv3 n) = B.
Proof.
  destruct (ok_link _ _ OK s S 0%nat t HS ltac:(lia) NS) as (e' & j' & H' & Hj' & N' & Sd & _).
  rewrite HT in H'; inversion H'; subst e'.
  rewrite (one_side ns es OK t T j' n s HT Hj' Hn N' NT) in Sd.
  unfold side, rev_side in Sd. cbn [fst snd] in Sd. injection Sd as E1 E2. split; [rewrite E1|rewrite E2]; reflexivity.
Qed.
Lemma swap_mark : at3 (esd T) n = at3 (esd S) 0.
Proof.
  destruct (ok_link _ _ OK s S 0%nat t HS ltac:(lia) NS) as (e' & j' & H' & Hj' & N' & Sd & M).
  rewrite HT in H'; inversion H'; subst e'.
  now rewrite (one_side ns es OK t T j' n s HT Hj' Hn N' NT) in M.
Qed.

Lemma u_ne_s : at3 (enb T) (nx3 n) <> Some s.
Proof. intros E. apply (nx_ne n Hn). now apply (one_side ns es OK t T (nx3 n) n s). Qed.
Lemma u_ne_t : at3 (enb T) (nx3 n) <> Some t.
Proof. apply (no_self ns es OK t T); auto. Qed.
Lemma v_ne_s : at3 (enb T) (pv3 n) <> Some s.
Proof. intros E. apply (pv_ne n Hn). now apply (one_side ns es OK t T (pv3 n) n s). Qed.
Lemma v_ne_t : at3 (enb T) (pv3 n) <> Some t.
Proof. apply (no_self ns es OK t T); auto. Qed.
Lemma w_ne_t : at3 (enb S) 1 <> Some t.
Proof. intros E. assert (1 = 0)%nat by (apply (one_side ns es OK s S 1%nat 0%nat t); auto; lia). lia. Qed.
Lemma w_ne_s : at3 (enb S) 1 <> Some s.
Proof. apply (no_self ns es OK s S); auto. Qed.
Lemma x_ne_t : at3 (enb S) 2 <> Some t.
Proof. intros E. assert (2 = 0)%nat by (apply (one_side ns es OK s S 2%nat 0%nat t); auto; lia). lia. Qed.
Lemma x_ne_s : at3 (enb S) 2 <> Some s.
Proof. apply (no_self ns es OK s S); auto. Qed.

(** relinking one neighbor of an element of a triangulation *)
Lemma nb_unique k e j old : nth_error es old = Some e -> (j < 3)%nat -> at3 (enb e) j = Some k ->
  exists e' i, nth_error es k = Some e' /\ (i < 3)%nat /\ at3 (enb e') i = Some old /\
    (forall i', (i' < 3)%nat -> at3 (enb e') i' = Some old -> i' = i).
Proof.
  intros H Hj N. destruct (ok_link _ _ OK old e j k H Hj N) as (e' & i & H' & Hi & N' & _).
  exists e', i. splits; auto. intros i' Hi' N''. now apply (one_side ns es OK k e' i' i old).
Qed.

Hypothesis G1 : 0 < tri2 (xy ns P) (xy ns B) (xy ns Q).
Hypothesis G2 : 0 < tri2 (xy ns P) (xy ns Q) (xy ns C).

Lemma dist_BPQ : P <> B /\ P <> Q /\ B <> Q /\ P <> C /\ Q <> C.
Proof.
  splits; intros E; [rewrite E in G1|rewrite E in G1|rewrite E in G1|rewrite E in G2|rewrite E in G2];
  rewrite ?tri2_aab, ?tri2_aba, ?tri2_abb in *; lra.
Qed.
Lemma side_Tn : side T (nx3 n) = (B, Q).
Proof. unfold side. rewrite nx_nx, pv_nx by assumption. destruct swap_nodes as [_ ->]. reflexivity. Qed.
Lemma side_Tp : side T (pv3 n) = (Q, C).
Proof. unfold side. rewrite nx_pv, pv_pv by assumption. destruct swap_nodes as [-> _]. reflexivity. Qed.

Lemma u_ne_w k : at3 (enb T) (nx3 n) = Some k -> at3 (enb S) 1 = Some k -> False.
Proof.
  intros U W.
  destruct (ok_link _ _ OK t T _ k HT (nx3_lt n) U) as (e & i & H & Hi & _ & Sd & _).
  destruct (ok_link _ _ OK s S 1%nat k HS ltac:(lia) W) as (e' & i' & H' & Hi' & _ & Sd' & _).
  rewrite H in H'; inversion H'; subst e'. rewrite side_Tn in Sd. change (rev_side (side S 1)) with (P, C) in Sd'. unfold rev_side in *. cbn [fst snd] in *.
  destruct dist_BPQ as (D1 & D2 & D3 & D4 & D5).
  destruct (two_sides ns e i i' _ _ _ _ Hi Hi' Sd Sd') as [[E1 E2]|[[E1 E2]|[E1 E2]]]; congruence.
Qed.
Lemma x_ne_u k : at3 (enb T) (nx3 n) = Some k -> at3 (enb S) 2 = Some k -> False.
Proof.
  intros U W.
  destruct (ok_link _ _ OK t T _ k HT (nx3_lt n) U) as (e & i & H & Hi & _ & Sd & _).
  destruct (ok_link _ _ OK s S 2%nat k HS ltac:(lia) W) as (e' & i' & H' & Hi' & _ & Sd' & _).
  rewrite H in H'; inversion H'; subst e'. rewrite side_Tn in Sd. change (rev_side (side S 2)) with (B, P) in Sd'. unfold rev_side in *. cbn [fst snd] in *.
  destruct dist_BPQ as (D1 & D2 & D3 & D4 & D5). assert (Pe := ok_pos _ _ OK e (nth_error_In _ _ H)).
  destruct (two_sides ns e i i' _ _ _ _ Hi Hi' Sd Sd') as [[E1 E2]|[[E1 E2]|[E1 E2]]]; try congruence.
  rewrite E2 in Pe. unfold tri2 in *. lra.
Qed.
Lemma v_ne_w k : at3 (enb T) (pv3 n) = Some k -> at3 (enb S) 1 = Some k -> False.
Proof.
  intros U W.
  destruct (ok_link _ _ OK t T _ k HT (pv3_lt n) U) as (e & i & H & Hi & _ & Sd & _).
  destruct (ok_link _ _ OK s S 1%nat k HS ltac:(lia) W) as (e' & i' & H' & Hi' & _ & Sd' & _).
  rewrite H in H'; inversion H'; subst e'. rewrite side_Tp in Sd. change (rev_side (side S 1)) with (P, C) in Sd'. unfold rev_side in *. cbn [fst snd] in *.
  destruct dist_BPQ as (D1 & D2 & D3 & D4 & D5). assert (Pe := ok_pos _ _ OK e (nth_error_In _ _ H)).
  destruct (two_sides ns e i i' _ _ _ _ Hi Hi' Sd Sd') as [[E1 E2]|[[E1 E2]|[E1 E2]]]; try congruence.
  rewrite E2 in Pe. unfold tri2 in *. lra.
Qed.

Lemma swap_do_ok p1 m1 : isadj Q p1 m1 = false -> swap_do es s t n p1 m1 = Ok (swap_es es S T s t n).
Proof.
  intros Hadj. unfold swap_do. rewrite (rd_nth_error _ _ _ HT). cbn [bind].
  rewrite relink_ok.
  2: { intros k Hk. destruct (nb_unique k T (nx3 n) t HT (nx3_lt n) Hk) as (e' & i & H' & Hi & N' & U).
       exists e', i. splits; auto. }
  cbn [bind].
  assert (R1 : nth_error (renl es (at3 (enb T) (nx3 n)) t s) s = Some S).
  { rewrite renl_nth, HS. destruct (eqo (at3 (enb T) (nx3 n)) s) eqn:E; auto. apply eqo_t in E. now apply u_ne_s in E. }
  rewrite (rd_nth_error _ _ _ R1). cbn [bind].
  rewrite relink_ok.
  2: { intros k Hk. destruct (nb_unique k S 1%nat s HS ltac:(lia) Hk) as (e' & i & H' & Hi & N' & U).
       rewrite renl_nth, H'.
       destruct (eqo (at3 (enb T) (nx3 n)) k) eqn:E.
       - apply eqo_t in E. exfalso. now apply (u_ne_w k).
       - exists e', i. splits; auto. }
  cbn [bind].
  set (es2 := renl (renl es _ t s) _ s t).
  assert (R2 : nth_error es2 s = Some S).
  { unfold es2. rewrite renl_nth, R1. destruct (eqo (at3 (enb S) 1) s) eqn:E; auto. apply eqo_t in E. now apply w_ne_s in E. }
  assert (R3 : nth_error es2 t = Some T).
  { unfold es2. rewrite !renl_nth, HT.
    destruct (eqo (at3 (enb S) 1) t) eqn:E; [apply eqo_t in E; now apply w_ne_t in E|].
    destruct (eqo (at3 (enb T) (nx3 n)) t) eqn:E'; [apply eqo_t in E'; now apply u_ne_t in E'|]. reflexivity. }
  rewrite (rd_nth_error _ _ _ R2). cbn [bind]. rewrite (rd_nth_error _ _ _ R3). cbn [bind].
  rewrite wr_lt by (eapply nth_error_lt; eauto). cbn [bind]. fold (swapT S T s t n).
  assert (R4 : nth_error (upd es2 t (swapT S T s t n)) s = Some S).
  { rewrite nth_error_upd_ne; auto. intros E; symmetry in E; now apply st_ne in E. }
  rewrite (rd_nth_error _ _ _ R4). cbn [bind].
  rewrite wr_lt by (eapply nth_error_lt; eauto). cbn [bind]. fold (swapS S T s t n).
  erewrite rd_nth_error by (apply nth_error_upd_eq; eapply nth_error_lt; eauto).
  cbn [bind swapS en at3 a32]. rewrite Hadj. reflexivity.
Qed.

Lemma swap_nth a : nth_error (swap_es es S T s t n) a =
  if (a =? s)%nat then Some (swapS S T s t n) else if (a =? t)%nat then Some (swapT S T s t n)
  else match nth_error es a with
       | Some e => Some (let e1 := if eqo (at3 (enb T) (nx3 n)) a then ren e t s else e in
                         if eqo (at3 (enb S) 1) a then ren e1 s t else e1)
       | None => None
       end.
Proof.
  unfold swap_es. rewrite nth_error_upd, !upd_length, !renl_length.
  assert (s < length es)%nat by (eapply nth_error_lt; eauto). assert (t < length es)%nat by (eapply nth_error_lt; eauto).
  rewrite (Nat.eqb_sym s a). destruct (Nat.eqb_spec a s) as [->|N]; cbn [andb].
  - destruct (Nat.ltb_spec s (length es)); [reflexivity|lia].
  - rewrite nth_error_upd, !renl_length, (Nat.eqb_sym t a).
    destruct (Nat.eqb_spec a t) as [->|N']; cbn [andb].
    + destruct (Nat.ltb_spec t (length es)); [reflexivity|lia].
    + rewrite !renl_nth. destruct (nth_error es a); reflexivity.
Qed.
Lemma swap_length : length (swap_es es S T s t n) = length es.
Proof. unfold swap_es. now rewrite !upd_length, !renl_length. Qed.

(** the elements away from the swap *)
Lemma swap_other a e : a <> s -> a <> t -> nth_error es a = Some e ->
  exists e', nth_error (swap_es es S T s t n) a = Some e' /\ en e' = en e /\ esd e' = esd e /\ eact e' = eact e /\
    (forall j, (j < 3)%nat -> at3 (enb e') j =
       if eqo (at3 (enb T) (nx3 n)) a && eqo (at3 (enb e) j) t then Some s
       else if eqo (at3 (enb S) 1) a && eqo (at3 (enb e) j) s then Some t else at3 (enb e) j).
Proof.
  intros N1 N2 H. rewrite swap_nth, H.
  destruct (Nat.eqb_spec a s); [congruence|]. destruct (Nat.eqb_spec a t); [congruence|].
  eexists. split; [reflexivity|].
  destruct (eqo (at3 (enb T) (nx3 n)) a) eqn:U, (eqo (at3 (enb S) 1) a) eqn:W; cbn [andb].
  - exfalso. apply eqo_t in U. apply eqo_t in W. eapply u_ne_w; eauto.
  - splits; auto. intros j Hj. rewrite ren_nb. reflexivity.
  - splits; auto. intros j Hj. rewrite ren_nb. reflexivity.
  - splits; auto.
Qed.

Lemma swap_s : nth_error (swap_es es S T s t n) s = Some (swapS S T s t n).
Proof. rewrite swap_nth, Nat.eqb_refl. reflexivity. Qed.
Lemma swap_t : nth_error (swap_es es S T s t n) t = Some (swapT S T s t n).
Proof. rewrite swap_nth, Nat.eqb_refl. destruct (Nat.eqb_spec t s) as [E|]; auto. symmetry in E. now apply st_ne in E. Qed.
Notation es' := (swap_es es S T s t n).

(** the four outer sides *)
Lemma out_BQ b : at3 (enb T) (nx3 n) = Some b -> exists i, (i < 3)%nat /\ linked es t (nx3 n) b i /\ linked es' s 0 b i.
Proof.
  intros U. destruct (ok_linkage _ _ OK t T (nx3 n) b HT (nx3_lt n) U) as (i & Hi & L). exists i. splits; auto.
  destruct L as (e & e' & H & H' & N & N' & Sd & M). rewrite HT in H; inversion H; subst e.
  assert (bs : b <> s) by (intros ->; now apply u_ne_s). assert (bt : b <> t) by (intros ->; now apply u_ne_t).
  destruct (swap_other b e' bs bt H') as (f & Hf & F1 & F2 & F3 & F4).
  exists (swapS S T s t n), f. splits; auto using swap_s.
  - rewrite F4, U, N' by assumption. cbn [eqo]. rewrite !Nat.eqb_refl. reflexivity.
  - unfold side in *. rewrite F1, Sd. fold (side T (nx3 n)). rewrite side_Tn. reflexivity.
  - rewrite F2, M. reflexivity.
Qed.
Lemma out_CP b : at3 (enb S) 1 = Some b -> exists i, (i < 3)%nat /\ linked es s 1 b i /\ linked es' t 1 b i.
Proof.
  intros W. destruct (ok_linkage _ _ OK s S 1%nat b HS ltac:(lia) W) as (i & Hi & L). exists i. splits; auto.
  destruct L as (e & e' & H & H' & N & N' & Sd & M). rewrite HS in H; inversion H; subst e.
  assert (bs : b <> s) by (intros ->; now apply w_ne_s). assert (bt : b <> t) by (intros ->; now apply w_ne_t).
  destruct (swap_other b e' bs bt H') as (f & Hf & F1 & F2 & F3 & F4).
  exists (swapT S T s t n), f. splits; auto using swap_t.
  - rewrite F4, W, N' by assumption. cbn [eqo]. rewrite !Nat.eqb_refl.
    destruct (Nat.eqb_spec s t); [now apply st_ne in e|]. rewrite andb_false_r. reflexivity.
  - unfold side in *. rewrite F1, Sd. reflexivity.
  - rewrite F2, M. reflexivity.
Qed.
Lemma out_PB b : at3 (enb S) 2 = Some b -> exists i, (i < 3)%nat /\ linked es s 2 b i /\ linked es' s 2 b i.
Proof.
  intros X. destruct (ok_linkage _ _ OK s S 2%nat b HS ltac:(lia) X) as (i & Hi & L). exists i. splits; auto.
  destruct L as (e & e' & H & H' & N & N' & Sd & M). rewrite HS in H; inversion H; subst e.
  assert (bs : b <> s) by (intros ->; now apply x_ne_s). assert (bt : b <> t) by (intros ->; now apply x_ne_t).
  destruct (swap_other b e' bs bt H') as (f & Hf & F1 & F2 & F3 & F4).
  exists (swapS S T s t n), f. splits; auto using swap_s.
  - rewrite F4 by assumption. destruct (eqo (at3 (enb T) (nx3 n)) b) eqn:E; [apply eqo_t in E; exfalso; eapply x_ne_u; eauto|].
    destruct (eqo (at3 (enb S) 1) b) eqn:E'; [apply eqo_t in E'|now rewrite N'].
    assert (1 = 2)%nat by (apply (one_side ns es OK s S 1%nat 2%nat b); auto; lia). lia.
  - unfold side in *. rewrite F1, Sd. reflexivity.
  - rewrite F2, M. reflexivity.
Qed.
Lemma out_QC b : at3 (enb T) (pv3 n) = Some b -> exists i, (i < 3)%nat /\ linked es t (pv3 n) b i /\ linked es' t 0 b i.
Proof.
  intros V. destruct (ok_linkage _ _ OK t T (pv3 n) b HT (pv3_lt n) V) as (i & Hi & L). exists i. splits; auto.
  destruct L as (e & e' & H & H' & N & N' & Sd & M). rewrite HT in H; inversion H; subst e.
  assert (bs : b <> s) by (intros ->; now apply v_ne_s). assert (bt : b <> t) by (intros ->; now apply v_ne_t).
  destruct (swap_other b e' bs bt H') as (f & Hf & F1 & F2 & F3 & F4).
  exists (swapT S T s t n), f. splits; auto using swap_t.
  - rewrite F4 by assumption. destruct (eqo (at3 (enb S) 1) b) eqn:E; [apply eqo_t in E; exfalso; eapply v_ne_w; eauto|].
    destruct (eqo (at3 (enb T) (nx3 n)) b) eqn:E'; [apply eqo_t in E'|now rewrite N'].
    exfalso. apply (nx_pv_ne n Hn). apply (one_side ns es OK t T (nx3 n) (pv3 n) b); auto.
  - unfold side in *. rewrite F1, Sd. fold (side T (pv3 n)). rewrite side_Tp. reflexivity.
  - rewrite F2, M. reflexivity.
Qed.

Lemma swap_linkage : linkage es'.
Proof.
  intros a e j b H Hj N.
  destruct (Nat.eq_dec a s) as [->|As].
  { rewrite swap_s in H; inversion H; subst e. clear H. case3 j Hj; cbn [swapS enb at3 a30 a31 a32] in N.
    - destruct (out_BQ b N) as (i & Hi & _ & L). eauto.
    - inversion N; subst b. exists 2%nat. split; [lia|]. exists (swapS S T s t n), (swapT S T s t n).
      splits; auto using swap_s, swap_t.
    - destruct (out_PB b N) as (i & Hi & _ & L). eauto. }
  destruct (Nat.eq_dec a t) as [->|At].
  { rewrite swap_t in H; inversion H; subst e. clear H. case3 j Hj; cbn [swapT enb at3 a30 a31 a32] in N.
    - destruct (out_QC b N) as (i & Hi & _ & L). eauto.
    - destruct (out_CP b N) as (i & Hi & _ & L). eauto.
    - inversion N; subst b. exists 1%nat. split; [lia|]. exists (swapT S T s t n), (swapS S T s t n).
      splits; auto using swap_s, swap_t. }
  assert (Ha : exists e0, nth_error es a = Some e0).
  { assert (a < length es)%nat by (rewrite <- swap_length; eapply nth_error_lt; eauto).
    destruct (nth_error es a) eqn:E; eauto. apply nth_error_None in E. lia. }
  destruct Ha as (e0 & H0).
  destruct (swap_other a e0 As At H0) as (f & Hf & F1 & F2 & F3 & F4). rewrite H in Hf; inversion Hf; subst f. clear Hf.
  (* a dart of [a] facing the old dart (c, k), for which the new dart (c', k') is known to be linked *)
  assert (K : forall c ec k c' k', nth_error es c = Some ec -> (k < 3)%nat -> at3 (enb ec) k = Some a ->
     at3 (enb e0) j = Some c -> (k' < 3)%nat ->
     (exists i, (i < 3)%nat /\ linked es c k a i /\ linked es' c' k' a i) -> exists i, (i < 3)%nat /\ linked es' a j b i).
  { intros c ec k c' k' Hc Hk Nc Ne Hk' (i & Hi & (x & y & X & Y & X1 & Y1 & _) & L).
    rewrite H0 in Y; inversion Y; subst y.
    assert (j = i) by (apply (one_side ns es OK a e0 j i c); auto). subst i.
    apply linked_sym in L. exists k'. split; auto.
    assert (b = c') by (destruct L as (z & z' & Z & _ & Z1 & _); rewrite H in Z; inversion Z; subst z; congruence).
    now subst c'. }
  rewrite F4 in N by assumption.
  assert (N0 : exists c, at3 (enb e0) j = Some c).
  { destruct (at3 (enb e0) j) as [c|]; eauto. cbn [eqo] in N. rewrite !andb_false_r in N. discriminate. }
  destruct N0 as (c & N0).
  destruct (ok_linkage _ _ OK a e0 j c H0 Hj N0) as (k & Hk & L).
  destruct (Nat.eq_dec c s) as [->|Cs].
  { destruct L as (x & y & X & Y & X1 & Y1 & Sd & M). rewrite HS in Y; inversion Y; subst y.
    case3 k Hk.
    - rewrite NS in Y1; inversion Y1; congruence.
    - apply (K s S 1%nat t 1%nat); auto; try lia. now apply out_CP.
    - apply (K s S 2%nat s 2%nat); auto; try lia. now apply out_PB. }
  destruct (Nat.eq_dec c t) as [->|Ct].
  { destruct L as (x & y & X & Y & X1 & Y1 & Sd & M). rewrite HT in Y; inversion Y; subst y.
    destruct (all3 n k Hn Hk) as [ -> | [ -> | -> ] ].
    - rewrite NT in Y1; inversion Y1; congruence.
    - apply (K t T (nx3 n) s 0%nat); auto; try lia. now apply out_BQ.
    - apply (K t T (pv3 n) t 0%nat); auto; try lia. now apply out_QC. }
  assert (b = c).
  { rewrite N0 in N. cbn [eqo] in N. destruct (Nat.eqb_spec c t); [congruence|]. destruct (Nat.eqb_spec c s); [congruence|].
    rewrite !andb_false_r in N. congruence. } subst c.
  exists k. split; auto.
  destruct L as (x & y & X & Y & X1 & Y1 & Sd & M). rewrite H0 in X; inversion X; subst x.
  destruct (swap_other b y Cs Ct Y) as (g & Hg & E1 & E2 & E3 & E4).
  exists e, g. splits; auto.
  - rewrite F4 by assumption. exact N.
  - rewrite E4, Y1 by assumption. cbn [eqo]. destruct (Nat.eqb_spec a t); [congruence|]. destruct (Nat.eqb_spec a s); [congruence|].
    rewrite !andb_false_r. reflexivity.
  - unfold side in *. rewrite E1, F1. exact Sd.
  - rewrite E2, F2. exact M.
Qed.

Lemma swap_In e : In e es' -> e = swapS S T s t n \/ e = swapT S T s t n \/
  exists e0, In e0 es /\ en e = en e0 /\ esd e = esd e0 /\ eact e = eact e0 /\
    (forall j, (j < 3)%nat -> at3 (enb e) j = None <-> at3 (enb e0) j = None).
Proof.
  intros Hin. apply In_nth_error in Hin. destruct Hin as (a & H).
  destruct (Nat.eq_dec a s) as [->|As]. { rewrite swap_s in H; inversion H; auto. }
  destruct (Nat.eq_dec a t) as [->|At]. { rewrite swap_t in H; inversion H; auto. }
  right; right.
  assert (Ha : exists e0, nth_error es a = Some e0).
  { assert (a < length es)%nat by (rewrite <- swap_length; eapply nth_error_lt; eauto).
    destruct (nth_error es a) eqn:E; eauto. apply nth_error_None in E. lia. }
  destruct Ha as (e0 & H0). exists e0.
  destruct (swap_other a e0 As At H0) as (f & Hf & F1 & F2 & F3 & F4). rewrite H in Hf; inversion Hf; subst f.
  splits; auto. eapply nth_error_In; eauto.
  intros j Hj. rewrite F4 by assumption.
  destruct (at3 (enb e0) j) as [c|]; cbn [eqo].
  - destruct (eqo _ a && (c =? t))%nat; [split; congruence|]. destruct (eqo _ a && (c =? s))%nat; split; congruence.
  - rewrite !andb_false_r. tauto.
Qed.

Lemma swap_mesh_ok : mesh_ok ns es'.
Proof.
  assert (IS := ok_ids _ _ OK S (nth_error_In _ _ HS)). assert (IT := ok_ids _ _ OK T (nth_error_In _ _ HT)).
  constructor.
  - exact (ok_flat _ _ OK).
  - intros e He. destruct (swap_In e He) as [ -> | [ -> | (e0 & H0 & E & _) ] ].
    + intros j Hj. case3 j Hj; cbn [swapS en at3 a30 a31 a32]; [apply (IS 0%nat)|apply (IS 1%nat)|apply IT]; lia.
    + intros j Hj. case3 j Hj; cbn [swapT en at3 a30 a31 a32]; [apply (IS 0%nat)|apply IT|apply (IS 2%nat)]; lia.
    + unfold ids_ok. rewrite E. now apply (ok_ids _ _ OK).
  - intros e He. destruct (swap_In e He) as [ -> | [ -> | (e0 & H0 & E & _) ] ].
    + unfold area2. cbn [swapS en at3 a30 a31 a32]. exact G1.
    + unfold area2. cbn [swapT en at3 a30 a31 a32]. exact G2.
    + unfold area2. rewrite E. now apply (ok_pos _ _ OK).
  - intros e He. destruct (swap_In e He) as [ -> | [ -> | (e0 & H0 & _ & _ & E & _) ] ].
    + cbn. apply (ok_act _ _ OK). eapply nth_error_In; eauto.
    + cbn. apply (ok_act _ _ OK). eapply nth_error_In; eauto.
    + rewrite E. now apply (ok_act _ _ OK).
  - apply linkage_link. apply swap_linkage.
Qed.

Lemma swap_esum f : (forall e old new, f (ren e old new) = f e) ->
  esum f es' = esum f es - f S - f T + f (swapS S T s t n) + f (swapT S T s t n).
Proof.
  intros Hf. unfold swap_es.
  assert (E2 : nth_error (renl (renl es (at3 (enb T) (nx3 n)) t s) (at3 (enb S) 1) s t) t = Some T).
  { rewrite !renl_nth, HT.
    destruct (eqo (at3 (enb S) 1) t) eqn:E; [apply eqo_t in E; now apply w_ne_t in E|].
    destruct (eqo (at3 (enb T) (nx3 n)) t) eqn:E'; [apply eqo_t in E'; now apply u_ne_t in E'|]. reflexivity. }
  assert (E1 : nth_error (renl (renl es (at3 (enb T) (nx3 n)) t s) (at3 (enb S) 1) s t) s = Some S).
  { rewrite !renl_nth, HS.
    destruct (eqo (at3 (enb S) 1) s) eqn:E; [apply eqo_t in E; now apply w_ne_s in E|].
    destruct (eqo (at3 (enb T) (nx3 n)) s) eqn:E'; [apply eqo_t in E'; now apply u_ne_s in E'|]. reflexivity. }
  rewrite (esum_upd f _ s S), (esum_upd f _ t T), !esum_renl; auto.
  - ring.
  - rewrite nth_error_upd_ne; auto. intros E; symmetry in E; now apply st_ne in E.
Qed.

Lemma swap_total : total2 ns es' = total2 ns es.
Proof.
  rewrite !total2_esum, swap_esum by reflexivity.
  assert (A : area2 ns S + area2 ns T = area2 ns (swapS S T s t n) + area2 ns (swapT S T s t n)).
  { rewrite (area2_rot ns T n Hn). destruct swap_nodes as [-> ->].
    unfold area2. cbn [swapS swapT en at3 a30 a31 a32]. unfold tri2. ring. }
  lra.
Qed.

Lemma swap_border : border_ok ns es -> border_ok ns es'.
Proof.
  assert (HSi := nth_error_In _ _ HS). assert (HTi := nth_error_In _ _ HT).
  intros [B1 B2]. split.
  - intros e j He Hj N. destruct (swap_In e He) as [ -> | [ -> | (e0 & H0 & E & E' & _ & E2) ] ].
    + case3 j Hj; [exact (B1 T (nx3 n) HTi (nx3_lt n) N)|discriminate N|exact (B1 S 2%nat HSi Hj N)].
    + case3 j Hj; [exact (B1 T (pv3 n) HTi (pv3_lt n) N)|exact (B1 S 1%nat HSi Hj N)|discriminate N].
    + rewrite E'. apply B1; auto. now apply E2.
  - intros e j m He Hj M D. destruct (swap_In e He) as [ -> | [ -> | (e0 & H0 & E & E' & _ & E2) ] ].
    + case3 j Hj; [|discriminate M|exact (B2 S 2%nat m HSi Hj M D)].
      apply (B2 T (nx3 n) m HTi (nx3_lt n) M). rewrite side_Tn. exact D.
    + case3 j Hj; [|exact (B2 S 1%nat m HSi Hj M D)|discriminate M].
      apply (B2 T (pv3 n) m HTi (pv3_lt n) M). rewrite side_Tp. exact D.
    + apply (B2 e0 j m); auto. now rewrite <- E'. unfold side in *. now rewrite <- E.
Qed.

Lemma swap_corner i : (exists e j, In e es /\ (j < 3)%nat /\ at3 (en e) j = i) <-> (exists e j, In e es' /\ (j < 3)%nat /\ at3 (en e) j = i).
Proof.
  assert (HSi := nth_error_In _ _ HS). assert (HTi := nth_error_In _ _ HT).
  assert (S'i := nth_error_In _ _ swap_s). assert (T'i := nth_error_In _ _ swap_t).
  destruct swap_nodes as [EC EB]. split.
  - intros (e & j & He & Hj & E). apply In_nth_error in He. destruct He as (a & H).
    destruct (Nat.eq_dec a s) as [->|As].
    { rewrite HS in H; inversion H; subst e. case3 j Hj.
      - exists (swapS S T s t n), 0%nat. splits; auto.
      - exists (swapS S T s t n), 1%nat. splits; auto.
      - exists (swapT S T s t n), 2%nat. splits; auto. }
    destruct (Nat.eq_dec a t) as [->|At].
    { rewrite HT in H; inversion H; subst e. destruct (all3 n j Hn Hj) as [ -> | [ -> | -> ] ].
      - exists (swapS S T s t n), 2%nat. splits; auto.
      - exists (swapT S T s t n), 2%nat. splits; auto. change (at3 (en S) 2 = i). congruence.
      - exists (swapS S T s t n), 1%nat. splits; auto. change (at3 (en S) 1 = i). congruence. }
    destruct (swap_other a e As At H) as (f & Hf & F1 & _). exists f, j. splits; auto. eapply nth_error_In; eauto. congruence.
  - intros (e & j & He & Hj & E). destruct (swap_In e He) as [ -> | [ -> | (e0 & H0 & E' & _) ] ].
    + case3 j Hj; cbn in E; [exists S, 0%nat|exists S, 1%nat|exists T, n]; splits; auto.
    + case3 j Hj; cbn in E; [exists S, 0%nat|exists T, n|exists S, 2%nat]; splits; auto.
    + exists e0, j. splits; auto. congruence.
Qed.
End Swap.
