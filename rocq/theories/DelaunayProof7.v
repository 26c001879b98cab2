(** The smoothing. *)
From Coq Require Import List Arith ZArith Lia Bool Reals Lra Psatz Permutation.
From Verif Require Import Res DenseModel DenseR LUModel DelaunayModel DelaunaySpec DelaunaySpec2 DelaunayProof DelaunayProof2 DelaunayProof6.
Import ListNotations.
Local Open Scope R_scope.

Lemma proper_ne e i j : proper e -> (i < 3)%nat -> (j < 3)%nat -> i <> j -> at3 (en e) i <> at3 (en e) j.
Proof. intros (P1 & P2 & P3) Hi Hj Ne. case3 i Hi; case3 j Hj; congruence. Qed.
Lemma mesh_topo ns es : mesh_ok ns es -> topo_ok ns es.
Proof.
  intros OK. constructor.
  - apply (ok_flat _ _ OK).
  - apply (ok_ids _ _ OK).
  - intros e He. assert (P := ok_pos _ _ OK e He).
    split; [|split]; apply (pos_distinct ns); auto.
  - intros a e j b H Hj Hb. destruct (ok_link _ _ OK a e j b H Hj Hb) as (e' & j' & H1 & H2 & H3 & H4 & _). eauto 10.
Qed.
Lemma order_proper e i j : proper e -> (j < 3)%nat -> at3 (en e) j = i -> nodeorder e i = Some j.
Proof.
  intros P Hj E. unfold nodeorder. cbn [find].
  destruct (Nat.eqb_spec (at3 (en e) 0) i) as [E0|E0].
  { f_equal. destruct (Nat.eq_dec 0 j) as [|N]; auto. exfalso. apply (proper_ne e 0 j P); auto; congruence. }
  destruct (Nat.eqb_spec (at3 (en e) 1) i) as [E1|E1].
  { f_equal. destruct (Nat.eq_dec 1 j) as [|N]; auto. exfalso. apply (proper_ne e 1 j P); auto; congruence. }
  destruct (Nat.eqb_spec (at3 (en e) 2) i) as [E2|E2].
  { f_equal. destruct (Nat.eq_dec 2 j) as [|N]; auto. exfalso. apply (proper_ne e 2 j P); auto; congruence. }
  case3 j Hj; congruence.
Qed.
Lemma next_proper e i j : proper e -> (j < 3)%nat -> at3 (en e) j = i -> next_of e i = nx3 j.
Proof. intros P Hj E. unfold next_of. now rewrite (order_proper e i j). Qed.
Lemma after_proper e i j : proper e -> (j < 3)%nat -> at3 (en e) j = i -> after e i = at3 (en e) (nx3 j).
Proof.
  intros P Hj E. unfold after. destruct P as (P1 & P2 & P3).
  case3 j Hj; destruct (Nat.eqb_spec (at3 (en e) 0) i), (Nat.eqb_spec (at3 (en e) 1) i); try congruence; reflexivity.
Qed.

Section Walk.
Variables (ns : list dnode) (es : list delem) (i : nat).
Hypothesis OK : topo_ok ns es.
(** the sides at node i have an element beyond *)
Hypothesis Cl : forall e j, In e es -> (j < 3)%nat -> (fst (side e j) = i \/ snd (side e j) = i) -> at3 (enb e) j <> None.

Definition atn (a : nat) : Prop := exists e j, nth_error es a = Some e /\ (j < 3)%nat /\ at3 (en e) j = i.

(** the step of the walk and its inverse *)
Lemma walk_step a e j : nth_error es a = Some e -> (j < 3)%nat -> at3 (en e) j = i ->
  exists t f j', at3 (enb e) (nx3 j) = Some t /\ nth_error es t = Some f /\ (j' < 3)%nat /\ at3 (en f) j' = i /\
    at3 (enb f) (pv3 j') = Some a /\ at3 (en f) (nx3 j') = at3 (en e) (pv3 j).
Proof.
  intros H Hj E. assert (Ie := nth_error_In _ _ H).
  destruct (at3 (enb e) (nx3 j)) as [t|] eqn:N.
  2: { exfalso. apply (Cl e (nx3 j) Ie (nx3_lt j)); auto. right. unfold side. cbn [snd]. now rewrite pv_nx. }
  destruct (tp_mutual _ _ OK a e (nx3 j) t H (nx3_lt j) N) as (f & x & Hf & Hx & Nf & Sd).
  unfold side, rev_side in Sd. cbn [fst snd] in Sd. rewrite nx_nx, pv_nx in Sd by assumption. inversion Sd as [[S1 S2]].
  exists t, f, (nx3 x). rewrite pv_nx, nx_nx by assumption. splits; auto. congruence.
Qed.
Definition spin (a : nat) : nat := match nth_error es a with Some e => match at3 (enb e) (next_of e i) with Some t => t | None => 0%nat end | None => 0%nat end.
Lemma spin_ok a e j : nth_error es a = Some e -> (j < 3)%nat -> at3 (en e) j = i -> at3 (enb e) (nx3 j) = Some (spin a).
Proof.
  intros H Hj E. destruct (walk_step a e j H Hj E) as (t & f & j' & N & _). unfold spin. rewrite H, (next_proper e i j), N; auto.
  apply (tp_proper _ _ OK). eapply nth_error_In; eauto.
Qed.
Lemma spin_at a : atn a -> atn (spin a).
Proof.
  intros (e & j & H & Hj & E). destruct (walk_step a e j H Hj E) as (t & f & j' & N & Hf & Hj' & E' & _).
  rewrite (spin_ok a e j H Hj E) in N. inversion N. subst t. exists f, j'. auto.
Qed.
Lemma spin_inj a b : atn a -> atn b -> spin a = spin b -> a = b.
Proof.
  intros (e & j & H & Hj & E) (e2 & j2 & H2 & Hj2 & E2) Q.
  destruct (walk_step a e j H Hj E) as (t & f & x & N & Hf & Hx & Ex & Nf & _).
  destruct (walk_step b e2 j2 H2 Hj2 E2) as (t2 & f2 & x2 & N2 & Hf2 & Hx2 & Ex2 & Nf2 & _).
  rewrite (spin_ok a e j H Hj E) in N. rewrite (spin_ok b e2 j2 H2 Hj2 E2) in N2. inversion N. inversion N2. subst t t2.
  rewrite Q, Hf2 in Hf. inversion Hf; subst f2. assert (x = x2).
  { destruct (Nat.eq_dec x x2) as [|Ne]; auto. exfalso. apply (proper_ne f x x2); auto; try congruence. apply (tp_proper _ _ OK). eapply nth_error_In; eauto. }
  subst x2. congruence.
Qed.
Lemma spin_corner a e j f j' : nth_error es a = Some e -> (j < 3)%nat -> at3 (en e) j = i ->
  nth_error es (spin a) = Some f -> (j' < 3)%nat -> at3 (en f) j' = i -> at3 (en f) (nx3 j') = at3 (en e) (pv3 j).
Proof.
  intros H Hj E Hf Hj' E'. destruct (walk_step a e j H Hj E) as (t & g & x & N & Hg & Hx & Ex & Ng & Q).
  rewrite (spin_ok a e j H Hj E) in N. inversion N; subst t. rewrite Hf in Hg; inversion Hg; subst g. assert (x = j').
  { destruct (Nat.eq_dec x j') as [|Ne]; auto. exfalso. apply (proper_ne f x j'); auto; try congruence. apply (tp_proper _ _ OK). eapply nth_error_In; eauto. }
  now subst x.
Qed.

(** [path s l]: l is walked from s, newest first *)
Fixpoint path (s : nat) (l : list nat) : Prop :=
  match l with
  | [] => False
  | [a] => a = s
  | a :: ((b :: _) as l') => a = spin b /\ path s l'
  end.
Lemma path_at s l : atn s -> path s l -> forall a, In a l -> atn a.
Proof.
  intros Hs. induction l as [|a [|b l] IH]; intros P x Hx; cbn [path] in P; [destruct Hx| |].
  - destruct Hx as [<-|[]]. now subst.
  - destruct P as [Ea P]. destruct Hx as [<-|Hx]; [|now apply IH]. rewrite Ea. apply spin_at. apply IH; cbn; auto.
Qed.
Lemma path_pred s l : path s l -> forall a, In a l -> a = s \/ exists b, In b (tl l) /\ a = spin b.
Proof.
  induction l as [|a [|b l] IH]; intros P x Hx; cbn [path] in P; [destruct Hx| |].
  - destruct Hx as [<-|[]]. auto.
  - destruct P as [Ea P]. destruct Hx as [<-|Hx]. right; exists b; cbn; auto.
    destruct (IH P x Hx) as [|(c & Hc & E)]; auto. right. exists c. split; auto. cbn in Hc |- *. auto.
Qed.

Lemma around_steps s : atn s -> forall fuel v now, path s (now :: v) -> NoDup (now :: v) -> (length es <= fuel + length v)%nat ->
  exists l, around fuel es i s now = Ok (now :: l) /\ path s (rev (now :: l) ++ v) /\ NoDup (rev (now :: l) ++ v) /\ spin (hd 0%nat (rev (now :: l))) = s.
Proof.
  intros Hs. induction fuel as [|fuel IH]; intros v now P ND L.
  { exfalso. assert (Inc : incl (now :: v) (seq 0 (length es))).
    { intros a Ha. destruct (path_at s _ Hs P a Ha) as (e & j & H & _). apply in_seq. apply nth_error_lt in H. lia. }
    apply NoDup_incl_length in Inc; auto. rewrite seq_length in Inc. cbn in Inc. lia. }
  cbn [around]. destruct (path_at s _ Hs P now (or_introl eq_refl)) as (e & j & H & Hj & E).
  rewrite (rd_nth_error _ _ _ H). cbn [bind]. rewrite (next_proper e i j), (spin_ok now e j H Hj E); auto.
  2: { apply (tp_proper _ _ OK). eapply nth_error_In; eauto. }
  destruct (Nat.eqb_spec (spin now) s) as [Es|Es].
  - exists []. splits; auto.
  - assert (Fresh : ~ In (spin now) (now :: v)).
    { intros Hin. destruct (path_pred s _ P _ Hin) as [|(b & Hb & Eb)]; auto.
      assert (now = b). { apply spin_inj; auto; apply (path_at s _ Hs P); cbn in Hb |- *; auto. }
      subst b. inversion ND; subst. cbn in Hb. tauto. }
    destruct (IH (now :: v) (spin now)) as (l & -> & P' & ND' & Q).
    + cbn [path]. destruct v; cbn [path] in *; auto.
    + now constructor.
    + cbn. lia.
    + cbn [bind]. exists (spin now :: l). change (rev (now :: spin now :: l)) with (rev (spin now :: l) ++ [now]).
      rewrite <- app_assoc. cbn [app]. splits; auto.
      destruct (rev (spin now :: l)) eqn:Er; [|exact Q]. apply (f_equal (@length _)) in Er. rewrite rev_length in Er. discriminate Er.
Qed.

Lemma path_nth s l m b : path s l -> nth_error (rev l) m = Some b ->
  (m = 0%nat -> b = s) /\ (forall c, nth_error (rev l) (S m) = Some c -> c = spin b).
Proof.
  revert m b. induction l as [|a [|a' l] IH]; intros m b P H; cbn [path] in P; [destruct P| |].
  - subst a. destruct m as [|m]; cbn in *; [|destruct m; discriminate H]. inversion H; subst. split; auto. intros c Hc. discriminate Hc.
  - destruct P as [Ea P]. set (l1 := a' :: l) in *. cbn [rev] in H |- *. fold (rev l1) in H |- *.
    assert (L1 : length (rev l1) = S (length l)) by (rewrite rev_length; reflexivity).
    destruct (Nat.lt_ge_cases m (length (rev l1))) as [Hm|Hm].
    + rewrite nth_error_app1 in H by assumption. destruct (IH m b P H) as [I1 I2]. split; auto.
      intros c Hc. destruct (Nat.lt_ge_cases (S m) (length (rev l1))) as [Hm'|Hm'].
      * rewrite nth_error_app1 in Hc by assumption. auto.
      * rewrite nth_error_app2 in Hc by assumption. assert (S m - length (rev l1) = 0)%nat as Z by lia. rewrite Z in Hc. inversion Hc; subst c.
        assert (Lm : m = length l) by lia. assert (b = a'). { change (rev l1) with (rev l ++ [a']) in H. rewrite nth_error_app2 in H by (rewrite rev_length; lia). rewrite rev_length, Lm, Nat.sub_diag in H. now inversion H. }
        congruence.
    + rewrite nth_error_app2 in H by assumption. assert (m = length (rev l1)). { assert (X := nth_error_lt _ _ _ H). cbn [length] in X. lia. }
      split; [intros ->; lia|]. intros c Hc. exfalso. apply nth_error_lt in Hc. rewrite app_length in Hc. cbn [length] in Hc. lia.
Qed.

Lemma around_ok s fuel : atn s -> (length es <= fuel)%nat -> exists l, around fuel es i s s = Ok l /\ ring es i l /\ hd_error l = Some s.
Proof.
  intros Hs L. destruct (around_steps s Hs fuel [] s) as (l & H & P & ND & Q).
  - reflexivity.
  - constructor; auto. constructor.
  - cbn. lia.
  - rewrite app_nil_r in P, ND. exists (s :: l). split; auto. split; auto.
    set (l0 := s :: l) in *. assert (Ne : l0 <> []) by discriminate. split; auto. split.
    { apply NoDup_rev in ND. now rewrite rev_involutive in ND. }
    intros m a Ha.
    destruct (path_at s _ Hs P a) as (e & j & He & Hj & E). { apply in_rev. rewrite rev_involutive. eapply nth_error_In; eauto. }
    exists e, j. splits; auto.
    + unfold side. rewrite nx_nx, pv_nx by assumption. now rewrite E.
    + rewrite (spin_ok a e j He Hj E). f_equal.
      assert (Lm := nth_error_lt _ _ _ Ha).
      destruct (Nat.eq_dec (m + 1) (length l0)) as [El|Nl].
      * rewrite El, Nat.mod_same by (destruct l0; cbn; congruence). unfold l0 at 1. cbn [nth].
        rewrite <- Q. f_equal.
        assert (X : nth_error (rev l0) 0 = nth_error l0 m).
        { rewrite (nth_error_nth' _ 0%nat) by (rewrite rev_length; lia). rewrite rev_nth by lia. rewrite (nth_error_nth' l0 0%nat) by lia. f_equal. f_equal. lia. }
        rewrite Ha in X. destruct (rev l0); [discriminate X|]. cbn in X |- *. congruence.
      * rewrite Nat.mod_small by lia. replace (m + 1)%nat with (S m) by lia.
        assert (X : nth_error (rev (rev l0)) m = Some a) by now rewrite rev_involutive.
        destruct (path_nth s (rev l0) m a P X) as [_ I2]. rewrite rev_involutive in I2. symmetry. apply I2. apply nth_error_nth'. lia.
Qed.
End Walk.
