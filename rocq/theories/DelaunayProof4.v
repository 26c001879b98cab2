(** Insertion of a node: on a side and inside of an element. *)
From Coq Require Import List Arith ZArith Lia Bool Reals Lra Psatz.
From Verif Require Import Res DenseModel DenseR LUModel DelaunayModel DelaunaySpec DelaunayProof DelaunayProof2 DelaunayProof3.
Import ListNotations.
Local Open Scope R_scope.

Lemma out_gen es es' c k b i c' k' ec f' : linked es c k b i -> nth_error es c = Some ec ->
  (forall e, nth_error es b = Some e -> at3 (enb e) i = Some c ->
     exists e', nth_error es' b = Some e' /\ en e' = en e /\ esd e' = esd e /\ at3 (enb e') i = Some c') ->
  nth_error es' c' = Some f' -> at3 (enb f') k' = Some b -> side f' k' = side ec k -> at3 (esd f') k' = at3 (esd ec) k ->
  linked es' c' k' b i.
Proof.
  intros (x & y & X & Y & N1 & N2 & Sd & M) Hc Ho Hf Nf Sf Mf.
  rewrite Hc in X; inversion X; subst x. destruct (Ho y Y N2) as (e' & H' & E1 & E2 & E3).
  exists f', e'. splits; auto.
  - unfold side in *. rewrite E1. congruence.
  - rewrite E2. congruence.
Qed.

(** replacing some elements of a triangulation *)
Section Replace.
Variables (ns : list dnode) (es es' : list delem) (K : list nat).
Hypothesis OK : mesh_ok ns es.
Hypothesis H_other : forall a e, nth_error es a = Some e -> ~ In a K ->
  exists e', nth_error es' a = Some e' /\ en e' = en e /\ esd e' = esd e /\
    (forall j c, (j < 3)%nat -> at3 (enb e) j = Some c -> ~ In c K -> at3 (enb e') j = Some c) /\
    (forall j, (j < 3)%nat -> at3 (enb e) j = None -> at3 (enb e') j = None).
Hypothesis H_out : forall c ec k a, In c K -> nth_error es c = Some ec -> (k < 3)%nat -> at3 (enb ec) k = Some a -> ~ In a K ->
  exists c' k' i, (k' < 3)%nat /\ (i < 3)%nat /\ linked es c k a i /\ linked es' c' k' a i.
Hypothesis H_new : forall a e j b, nth_error es' a = Some e -> (In a K \/ (length es <= a)%nat) -> (j < 3)%nat -> at3 (enb e) j = Some b ->
  exists i, (i < 3)%nat /\ linked es' a j b i.

Lemma replace_linkage : linkage es'.
Proof.
  intros a e j b H Hj N.
  destruct (in_dec Nat.eq_dec a K) as [Ka|Ka]; [eapply H_new; eauto|].
  destruct (Nat.lt_ge_cases a (length es)) as [Hl|Hl]; [|eapply H_new; eauto].
  destruct (nth_error es a) as [e0|] eqn:H0; [|apply nth_error_None in H0; lia].
  destruct (H_other a e0 H0 Ka) as (f & Hf & F1 & F2 & F3 & F4). rewrite H in Hf; inversion Hf; subst f. clear Hf.
  destruct (at3 (enb e0) j) as [c|] eqn:N0.
  2: { rewrite (F4 j Hj N0) in N. discriminate. }
  destruct (ok_linkage _ _ OK a e0 j c H0 Hj N0) as (k & Hk & L).
  destruct (in_dec Nat.eq_dec c K) as [Kc|Kc].
  - destruct L as (x & y & X & Y & X1 & Y1 & Sd & M).
    destruct (H_out c y k a Kc Y Hk Y1 Ka) as (c' & k' & i & Hk' & Hi & (x' & y' & X' & Y' & X1' & Y1' & _) & L).
    rewrite H0 in Y'; inversion Y'; subst y'.
    assert (j = i) by (apply (one_side ns es OK a e0 j i c); auto). subst i.
    apply linked_sym in L. exists k'. split; auto.
    assert (b = c') by (destruct L as (z & z' & Z & _ & Z1 & _); rewrite H in Z; inversion Z; subst z; congruence).
    now subst c'.
  - assert (b = c) by (rewrite (F3 j c Hj N0 Kc) in N; congruence). subst c.
    exists k. split; auto.
    destruct L as (x & y & X & Y & X1 & Y1 & Sd & M). rewrite H0 in X; inversion X; subst x.
    destruct (H_other b y Y Kc) as (g & Hg & E1 & E2 & E3 & E4).
    exists e, g. splits; auto.
    + unfold side in *. rewrite E1, F1. exact Sd.
    + rewrite E2, F2. exact M.
Qed.
End Replace.

(** a point strictly between two points *)
Definition between (b c p : pt) : Prop :=
  exists l, 0 < l < 1 /\ fst p = (1 - l) * fst b + l * fst c /\ snd p = (1 - l) * snd b + l * snd c.
Lemma between_pos a b c p : between b c p -> 0 < tri2 a b c -> 0 < tri2 p a b /\ 0 < tri2 p c a /\ tri2 p a b + tri2 p c a = tri2 a b c.
Proof.
  intros (l & Hl & Hx & Hy) H.
  assert (E1 : tri2 p a b = l * tri2 a b c) by (unfold tri2; rewrite Hx, Hy; ring).
  assert (E2 : tri2 p c a = (1 - l) * tri2 a b c) by (unfold tri2; rewrite Hx, Hy; ring).
  rewrite E1, E2. splits; [apply Rmult_lt_0_compat; lra|apply Rmult_lt_0_compat; lra|ring].
Qed.
Lemma between_sym b c p : between b c p -> between c b p.
Proof. intros (l & Hl & Hx & Hy). exists (1 - l). splits; lra. Qed.

(** two relinks *)
Definition ren2 (es : list delem) (u1 : option nat) (k1 m1 : nat) (u2 : option nat) (k2 m2 : nat) : list delem :=
  renl (renl es u1 k1 m1) u2 k2 m2.
Lemma ren2_nth es u1 k1 m1 u2 k2 m2 a e : nth_error es a = Some e -> m1 <> k2 ->
  exists e', nth_error (ren2 es u1 k1 m1 u2 k2 m2) a = Some e' /\ en e' = en e /\ esd e' = esd e /\ eact e' = eact e /\
    forall j, (j < 3)%nat -> at3 (enb e') j =
      if eqo u1 a && eqo (at3 (enb e) j) k1 then Some m1
      else if eqo u2 a && eqo (at3 (enb e) j) k2 then Some m2 else at3 (enb e) j.
Proof.
  intros H Hne. unfold ren2. rewrite !renl_nth, H.
  destruct (eqo u1 a) eqn:U1, (eqo u2 a) eqn:U2; eexists; (split; [reflexivity|]); splits; auto; intros j Hj; cbn [andb].
  - rewrite !ren_nb. destruct (eqo (at3 (enb e) j) k1) eqn:A; auto.
    cbn [eqo]. destruct (Nat.eqb_spec m1 k2); congruence.
  - rewrite ren_nb. reflexivity.
  - rewrite ren_nb. reflexivity.
Qed.
Lemma ren2_In es u1 k1 m1 u2 k2 m2 e : m1 <> k2 -> In e (ren2 es u1 k1 m1 u2 k2 m2) ->
  exists e0, In e0 es /\ en e = en e0 /\ esd e = esd e0 /\ eact e = eact e0 /\ (forall j, (j < 3)%nat -> at3 (enb e) j = None <-> at3 (enb e0) j = None).
Proof.
  intros Hne Hin. apply In_nth_error in Hin. destruct Hin as (a & H).
  assert (Hl : (a < length es)%nat) by (apply nth_error_lt in H; unfold ren2 in H; now rewrite !renl_length in H).
  destruct (nth_error es a) as [e0|] eqn:H0; [|apply nth_error_None in H0; lia].
  destruct (ren2_nth es u1 k1 m1 u2 k2 m2 a e0 H0 Hne) as (f & Hf & F1 & F2 & F3 & F4). rewrite H in Hf; inversion Hf; subst f.
  exists e0. splits; auto. eapply nth_error_In; eauto.
  intros j Hj. rewrite F4 by assumption. destruct (at3 (enb e0) j) as [c|]; cbn [eqo].
  - destruct (eqo u1 a && (c =? k1))%nat; [split; congruence|]. destruct (eqo u2 a && (c =? k2))%nat; split; congruence.
  - rewrite !andb_false_r. tauto.
Qed.

Section On2.
Variables (ns : list dnode) (es : list delem) (k t i j p : nat) (e e' : delem) (p1 m1 : Z).
Hypothesis OK : mesh_ok ns es.
Hypothesis Hk : nth_error es k = Some e.
Hypothesis Ht : nth_error es t = Some e'.
Hypothesis Hj : (j < 3)%nat.
Hypothesis Hi : (i < 3)%nat.
Hypothesis Nk : at3 (enb e) j = Some t.
Hypothesis Nt : at3 (enb e') i = Some k.
Hypothesis NA : noadj es p1 m1.
Hypothesis Hp : (p < length ns)%nat.
Hypothesis Fresh : forall f x, In f es -> (x < 3)%nat -> at3 (en f) x <> p.
Notation A := (at3 (en e) j). Notation B := (at3 (en e) (nx3 j)). Notation C := (at3 (en e) (pv3 j)). Notation Q := (at3 (en e') i).
Notation m := (length es).
Hypothesis Bt : between (xy ns B) (xy ns C) (xy ns p).
Definition fl2 := at3 (esd e) j.
Definition o0 := elem_with (A3 p A B) (A3 (at3 (enb e) (pv3 j)) (Some t) (Some m)) (A3 (at3 (esd e) (pv3 j)) fl2 false).
Definition o1 := elem_with (A3 p B Q) (A3 (at3 (enb e') (nx3 i)) (Some (m + 1)%nat) (Some k)) (A3 (at3 (esd e') (nx3 i)) false fl2).
Definition o2 := elem_with (A3 p C A) (A3 (at3 (enb e) (nx3 j)) (Some k) (Some (m + 1)%nat)) (A3 (at3 (esd e) (nx3 j)) false fl2).
Definition o3 := elem_with (A3 p Q C) (A3 (at3 (enb e') (pv3 i)) (Some m) (Some t)) (A3 (at3 (esd e') (pv3 i)) fl2 false).
Definition on2_base := ren2 es (at3 (enb e) (nx3 j)) k m (at3 (enb e') (pv3 i)) t (m + 1).
Definition on2_es := upd (upd on2_base k o0) t o1 ++ [o2; o3].

Lemma on2_kt : k <> t.
Proof. intros E. subst t. apply (no_self ns es OK k e j); auto. Qed.
Lemma on2_len : (k < m)%nat /\ (t < m)%nat.
Proof. split; eapply nth_error_lt; eauto. Qed.
Lemma on2_nodes : at3 (en e') (nx3 i) = C /\ at3 (en e') (pv3 i) = B.
Proof.
  destruct (ok_link _ _ OK k e j t Hk Hj Nk) as (f & j' & H' & Hj' & N' & Sd & _).
  rewrite Ht in H'; inversion H'; subst f.
  rewrite (one_side ns es OK t e' j' i k Ht Hj' Hi N' Nt) in Sd.
  unfold side, rev_side in Sd. cbn [fst snd] in Sd. injection Sd as E1 E2. auto.
Qed.
Lemma on2_mark : at3 (esd e') i = fl2.
Proof.
  destruct (ok_link _ _ OK k e j t Hk Hj Nk) as (f & j' & H' & Hj' & N' & Sd & M).
  rewrite Ht in H'; inversion H'; subst f.
  now rewrite (one_side ns es OK t e' j' i k Ht Hj' Hi N' Nt) in M.
Qed.
Lemma on2_side_k1 : side e (nx3 j) = (C, A). Proof. unfold side. now rewrite nx_nx, pv_nx. Qed.
Lemma on2_side_k2 : side e (pv3 j) = (A, B). Proof. unfold side. now rewrite nx_pv, pv_pv. Qed.
Lemma on2_side_t1 : side e' (nx3 i) = (B, Q). Proof. unfold side. rewrite nx_nx, pv_nx by assumption. now destruct on2_nodes as [_ ->]. Qed.
Lemma on2_side_t2 : side e' (pv3 i) = (Q, C). Proof. unfold side. rewrite nx_pv, pv_pv by assumption. now destruct on2_nodes as [-> _]. Qed.

Lemma kout1 : at3 (enb e) (nx3 j) <> Some t /\ at3 (enb e) (nx3 j) <> Some k.
Proof.
  split; [intros E; apply (nx_ne j Hj); now apply (one_side ns es OK k e (nx3 j) j t)|apply (no_self ns es OK k e); auto].
Qed.
Lemma kout2 : at3 (enb e) (pv3 j) <> Some t /\ at3 (enb e) (pv3 j) <> Some k.
Proof.
  split; [intros E; apply (pv_ne j Hj); now apply (one_side ns es OK k e (pv3 j) j t)|apply (no_self ns es OK k e); auto].
Qed.
Lemma tout1 : at3 (enb e') (nx3 i) <> Some t /\ at3 (enb e') (nx3 i) <> Some k.
Proof.
  split; [apply (no_self ns es OK t e'); auto|intros E; apply (nx_ne i Hi); now apply (one_side ns es OK t e' (nx3 i) i k)].
Qed.
Lemma tout2 : at3 (enb e') (pv3 i) <> Some t /\ at3 (enb e') (pv3 i) <> Some k.
Proof.
  split; [apply (no_self ns es OK t e'); auto|intros E; apply (pv_ne i Hi); now apply (one_side ns es OK t e' (pv3 i) i k)].
Qed.

Lemma on2_isadj x : In x [A; B; C; Q] -> isadj x p1 m1 = false.
Proof.
  assert (E := nth_error_In _ _ Hk). assert (E' := nth_error_In _ _ Ht).
  intros [<-|[<-|[<-|[<-|[]]]]]; (eapply noadj_isadj; [exact NA| |]); eauto.
Qed.

Lemma split_on2_ok ns0 ns1 : (if fl2 then set_onb ns0 p else Ok ns0) = Ok ns1 ->
  split_on2 ns0 es k t j p p1 m1 = Ok (ns1, on2_es, [m + 1; m; t; k]%nat).
Proof.
  intros Hns. unfold split_on2. rewrite (rd_nth_error _ _ _ Hk), (rd_nth_error _ _ _ Ht). cbn [bind].
  rewrite (opp_ok ns es OK t e' i k Ht Hi Nt). cbn [idx bind].
  destruct on2_len as [Lk Lt].
  rewrite relink_ok.
  2: { intros b Hb. destruct (nb_unique ns es OK b e (nx3 j) k Hk (nx3_lt j) Hb) as (f & x & H' & Hx & N' & U). exists f, x. splits; auto. }
  cbn [bind].
  assert (R1 : nth_error (renl es (at3 (enb e) (nx3 j)) k m) t = Some e').
  { rewrite renl_nth, Ht. destruct (eqo (at3 (enb e) (nx3 j)) t) eqn:E; auto. apply eqo_t in E. now apply kout1 in E. }
  rewrite (rd_nth_error _ _ _ R1). cbn [bind].
  rewrite relink_ok.
  2: { intros b Hb. destruct (nb_unique ns es OK b e' (pv3 i) t Ht (pv3_lt i) Hb) as (f & x & H' & Hx & N' & U).
       rewrite renl_nth, H'. destruct (eqo (at3 (enb e) (nx3 j)) b) eqn:E.
       - exists (ren f k m), x. splits; auto.
         + rewrite ren_nb, N'. cbn [eqo]. destruct (Nat.eqb_spec t k) as [Etk|]; auto. symmetry in Etk; now apply on2_kt in Etk.
         + intros y Hy G. rewrite ren_nb in G. destruct (eqo (at3 (enb f) y) k) eqn:G'; [inversion G; lia|now apply U].
       - exists f, x. splits; auto. }
  cbn [bind]. fold fl2. rewrite Hns. cbn [bind].
  rewrite wr_lt by (rewrite !renl_length; lia). cbn [bind].
  rewrite wr_lt by (rewrite upd_length, !renl_length; lia). cbn [bind].
  rewrite (on2_isadj A), (on2_isadj B), (on2_isadj C), (on2_isadj Q) by (cbn; auto). cbn [orb].
  reflexivity.
Qed.

Lemma on2_k : nth_error on2_es k = Some o0.
Proof.
  destruct on2_len as [Lk Lt]. unfold on2_es, on2_base, ren2. rewrite nth_error_app1 by (rewrite !upd_length, !renl_length; lia).
  rewrite nth_error_upd_ne by (intros E; symmetry in E; now apply on2_kt in E).
  apply nth_error_upd_eq. rewrite !renl_length; lia.
Qed.
Lemma on2_t : nth_error on2_es t = Some o1.
Proof.
  destruct on2_len as [Lk Lt]. unfold on2_es, on2_base, ren2. rewrite nth_error_app1 by (rewrite !upd_length, !renl_length; lia).
  apply nth_error_upd_eq. rewrite upd_length, !renl_length; lia.
Qed.
Lemma on2_m : nth_error on2_es m = Some o2.
Proof.
  unfold on2_es, on2_base, ren2. rewrite nth_error_app2 by (rewrite !upd_length, !renl_length; lia).
  rewrite !upd_length, !renl_length. rewrite Nat.sub_diag. reflexivity.
Qed.
Lemma on2_m1 : nth_error on2_es (m + 1) = Some o3.
Proof.
  unfold on2_es, on2_base, ren2. rewrite nth_error_app2 by (rewrite !upd_length, !renl_length; lia).
  rewrite !upd_length, !renl_length. replace (m + 1 - m)%nat with 1%nat by lia. reflexivity.
Qed.
Lemma on2_length : length on2_es = (m + 2)%nat.
Proof. unfold on2_es, on2_base, ren2. rewrite app_length, !upd_length, !renl_length. reflexivity. Qed.
Lemma on2_other a f : a <> k -> a <> t -> nth_error es a = Some f ->
  exists f', nth_error on2_es a = Some f' /\ en f' = en f /\ esd f' = esd f /\ eact f' = eact f /\
    forall x, (x < 3)%nat -> at3 (enb f') x =
      if eqo (at3 (enb e) (nx3 j)) a && eqo (at3 (enb f) x) k then Some m
      else if eqo (at3 (enb e') (pv3 i)) a && eqo (at3 (enb f) x) t then Some (m + 1)%nat else at3 (enb f) x.
Proof.
  intros Nak Nat H. destruct on2_len as [Lk Lt]. assert (La := nth_error_lt _ _ _ H).
  destruct (ren2_nth es (at3 (enb e) (nx3 j)) k m (at3 (enb e') (pv3 i)) t (m + 1) a f H ltac:(lia)) as (f' & Hf & R).
  exists f'. split; [|exact R].
  unfold on2_es. rewrite nth_error_app1 by (unfold on2_base, ren2; rewrite !upd_length, !renl_length; lia).
  rewrite !nth_error_upd_ne by auto. exact Hf.
Qed.

Lemma on2_out b :
  (at3 (enb e) (pv3 j) = Some b -> exists x, (x < 3)%nat /\ linked es k (pv3 j) b x /\ linked on2_es k 0 b x) /\
  (at3 (enb e) (nx3 j) = Some b -> exists x, (x < 3)%nat /\ linked es k (nx3 j) b x /\ linked on2_es m 0 b x) /\
  (at3 (enb e') (nx3 i) = Some b -> exists x, (x < 3)%nat /\ linked es t (nx3 i) b x /\ linked on2_es t 0 b x) /\
  (at3 (enb e') (pv3 i) = Some b -> exists x, (x < 3)%nat /\ linked es t (pv3 i) b x /\ linked on2_es (m + 1) 0 b x).
Proof.
  assert (Go : forall c ec y, nth_error es c = Some ec -> (y < 3)%nat -> at3 (enb ec) y = Some b -> b <> k -> b <> t ->
    forall c' f', nth_error on2_es c' = Some f' -> at3 (enb f') 0 = Some b -> side f' 0 = side ec y -> at3 (esd f') 0 = at3 (esd ec) y ->
    ((c = k /\ (eqo (at3 (enb e) (nx3 j)) b = false /\ c' = k \/ eqo (at3 (enb e) (nx3 j)) b = true /\ c' = m)) \/
     (c = t /\ (eqo (at3 (enb e') (pv3 i)) b = false /\ c' = t \/ eqo (at3 (enb e') (pv3 i)) b = true /\ c' = (m + 1)%nat))) ->
    exists x, (x < 3)%nat /\ linked es c y b x /\ linked on2_es c' 0 b x).
  { intros c ec y Hc Hy Nc Nbk Nbt c' f' Hf Nf Sf Mf Hcase.
    destruct (ok_linkage _ _ OK c ec y b Hc Hy Nc) as (x & Hx & L). exists x. splits; auto.
    eapply out_gen; eauto. intros g Hg Ng.
    destruct (on2_other b g Nbk Nbt Hg) as (g' & Hg' & E1 & E2 & E3 & E4). exists g'. splits; auto.
    rewrite E4, Ng by assumption. cbn [eqo].
    destruct Hcase as [(-> & [(U & ->)|(U & ->)])|(-> & [(U & ->)|(U & ->)])]; rewrite ?U; rewrite ?Nat.eqb_refl; cbn [andb]; auto.
    - destruct (Nat.eqb_spec k t) as [E|]; [now apply on2_kt in E|]. now rewrite andb_false_r.
    - destruct (Nat.eqb_spec t k) as [E|]; [symmetry in E; now apply on2_kt in E|]. now rewrite andb_false_r.
    - destruct (Nat.eqb_spec t k) as [E|]; [symmetry in E; now apply on2_kt in E|]. now rewrite andb_false_r. }
  splits; intros Nb.
  - apply (Go k e (pv3 j) Hk (pv3_lt j) Nb) with (f' := o0); auto using on2_k.
    + intros E. subst b. exact (proj2 kout2 Nb).
    + intros E. subst b. exact (proj1 kout2 Nb).
    + unfold side at 1. rewrite on2_side_k2. reflexivity.
    + left. split; auto. left. split; auto. apply eqo_f. intros E. apply (nx_pv_ne j Hj). now apply (one_side ns es OK k e (nx3 j) (pv3 j) b).
  - apply (Go k e (nx3 j) Hk (nx3_lt j) Nb) with (f' := o2); auto using on2_m.
    + intros E. subst b. exact (proj2 kout1 Nb).
    + intros E. subst b. exact (proj1 kout1 Nb).
    + unfold side at 1. rewrite on2_side_k1. reflexivity.
    + left. split; auto. right. split; auto. now apply eqo_t.
  - apply (Go t e' (nx3 i) Ht (nx3_lt i) Nb) with (f' := o1); auto using on2_t.
    + intros E. subst b. exact (proj2 tout1 Nb).
    + intros E. subst b. exact (proj1 tout1 Nb).
    + unfold side at 1. rewrite on2_side_t1. reflexivity.
    + right. split; auto. left. split; auto. apply eqo_f. intros E. apply (nx_pv_ne i Hi). now apply (one_side ns es OK t e' (nx3 i) (pv3 i) b).
  - apply (Go t e' (pv3 i) Ht (pv3_lt i) Nb) with (f' := o3); auto using on2_m1.
    + intros E. subst b. exact (proj2 tout2 Nb).
    + intros E. subst b. exact (proj1 tout2 Nb).
    + unfold side at 1. rewrite on2_side_t2. reflexivity.
    + right. split; auto. right. split; auto. now apply eqo_t.
Qed.

Lemma on2_linkage : linkage on2_es.
Proof.
  destruct on2_len as [Lk Lt].
  apply (replace_linkage ns es on2_es [k; t] OK).
  - intros a f H Na. assert (a <> k /\ a <> t) as [N1 N2] by (cbn in Na; split; intros ->; tauto).
    destruct (on2_other a f N1 N2 H) as (f' & Hf & E1 & E2 & _ & E4). exists f'. splits; auto.
    + intros x c Hx Nx Nc. rewrite E4, Nx by assumption. cbn [eqo].
      destruct (Nat.eqb_spec c k) as [->|]; [cbn in Nc; tauto|]. destruct (Nat.eqb_spec c t) as [->|]; [cbn in Nc; tauto|].
      now rewrite !andb_false_r.
    + intros x Hx Nx. rewrite E4, Nx by assumption. cbn [eqo]. now rewrite !andb_false_r.
  - intros c ec y a Hc Hce Hy Ny Na. assert (a <> k /\ a <> t) as [N1 N2] by (cbn in Na; split; intros ->; tauto).
    destruct (on2_out a) as (O1 & O2 & O3 & O4).
    destruct Hc as [<-|[<-|[]]].
    + rewrite Hk in Hce; inversion Hce; subst ec. destruct (all3 j y Hj Hy) as [ -> | [ -> | -> ] ].
      * congruence.
      * destruct (O2 Ny) as (x & Hx & L1 & L2). exists m, 0%nat, x. splits; auto.
      * destruct (O1 Ny) as (x & Hx & L1 & L2). exists k, 0%nat, x. splits; auto.
    + rewrite Ht in Hce; inversion Hce; subst ec. destruct (all3 i y Hi Hy) as [ -> | [ -> | -> ] ].
      * congruence.
      * destruct (O3 Ny) as (x & Hx & L1 & L2). exists t, 0%nat, x. splits; auto.
      * destruct (O4 Ny) as (x & Hx & L1 & L2). exists (m + 1)%nat, 0%nat, x. splits; auto.
  - intros a f x b H Ha Hx Nx. destruct (on2_out b) as (O1 & O2 & O3 & O4).
    assert (Cases : a = k \/ a = t \/ a = m \/ a = (m + 1)%nat).
    { destruct Ha as [[<-|[<-|[]]]|Ha]; auto. apply nth_error_lt in H. rewrite on2_length in H. lia. }
    destruct Cases as [->|[->|[->| ->]]].
    + rewrite on2_k in H; inversion H; subst f. case3 x Hx.
      * destruct (O1 Nx) as (y & Hy & _ & L). eauto.
      * inversion Nx; subst b. exists 2%nat. split; [lia|]. exists o0, o1. splits; auto using on2_k, on2_t.
      * inversion Nx; subst b. exists 1%nat. split; [lia|]. exists o0, o2. splits; auto using on2_k, on2_m.
    + rewrite on2_t in H; inversion H; subst f. case3 x Hx.
      * destruct (O3 Nx) as (y & Hy & _ & L). eauto.
      * inversion Nx; subst b. exists 2%nat. split; [lia|]. exists o1, o3. splits; auto using on2_t, on2_m1.
      * inversion Nx; subst b. exists 1%nat. split; [lia|]. exists o1, o0. splits; auto using on2_k, on2_t.
    + rewrite on2_m in H; inversion H; subst f. case3 x Hx.
      * destruct (O2 Nx) as (y & Hy & _ & L). eauto.
      * inversion Nx; subst b. exists 2%nat. split; [lia|]. exists o2, o0. splits; auto using on2_k, on2_m.
      * inversion Nx; subst b. exists 1%nat. split; [lia|]. exists o2, o3. splits; auto using on2_m, on2_m1.
    + rewrite on2_m1 in H; inversion H; subst f. case3 x Hx.
      * destruct (O4 Nx) as (y & Hy & _ & L). eauto.
      * inversion Nx; subst b. exists 2%nat. split; [lia|]. exists o3, o2. splits; auto using on2_m, on2_m1.
      * inversion Nx; subst b. exists 1%nat. split; [lia|]. exists o3, o1. splits; auto using on2_t, on2_m1.
Qed.

Lemma on2_In f : In f on2_es -> In f [o0; o1; o2; o3] \/
  exists f0, In f0 es /\ en f = en f0 /\ esd f = esd f0 /\ eact f = eact f0 /\ (forall x, (x < 3)%nat -> at3 (enb f) x = None <-> at3 (enb f0) x = None).
Proof.
  intros Hin. apply In_nth_error in Hin. destruct Hin as (a & H).
  destruct (Nat.eq_dec a k) as [->|Ak]. { rewrite on2_k in H; inversion H; cbn; auto. }
  destruct (Nat.eq_dec a t) as [->|At]. { rewrite on2_t in H; inversion H; cbn; auto. }
  destruct (Nat.lt_ge_cases a m) as [Hl|Hl].
  - right. destruct (nth_error es a) as [e0|] eqn:H0; [|apply nth_error_None in H0; lia].
    destruct (ren2_In es (at3 (enb e) (nx3 j)) k m (at3 (enb e') (pv3 i)) t (m + 1) f) as (f0 & R); [destruct on2_len; lia| |eauto].
    apply (nth_error_In _ a). unfold on2_es in H.
    rewrite nth_error_app1 in H by (unfold on2_base, ren2; rewrite !upd_length, !renl_length; lia).
    rewrite !nth_error_upd_ne in H by auto. exact H.
  - left. assert (L := nth_error_lt _ _ _ H). rewrite on2_length in L.
    assert (a = m \/ a = m + 1)%nat as [->| ->] by lia; [rewrite on2_m in H|rewrite on2_m1 in H]; inversion H; cbn; auto.
Qed.

Lemma on2_areas : 0 < area2 ns o0 /\ 0 < area2 ns o1 /\ 0 < area2 ns o2 /\ 0 < area2 ns o3 /\
  area2 ns o0 + area2 ns o1 + area2 ns o2 + area2 ns o3 = area2 ns e + area2 ns e'.
Proof.
  assert (P1 := ok_pos _ _ OK e (nth_error_In _ _ Hk)). assert (P2 := ok_pos _ _ OK e' (nth_error_In _ _ Ht)).
  rewrite (area2_rot ns e j Hj) in *. rewrite (area2_rot ns e' i Hi) in *. destruct on2_nodes as [EC EB]. rewrite EC, EB in *.
  destruct (between_pos _ _ _ _ Bt P1) as (A1 & A2 & A3).
  destruct (between_pos _ _ _ _ (between_sym _ _ _ Bt) P2) as (A4 & A5 & A6).
  unfold area2. cbn [o0 o1 o2 o3 elem_with en at3 a30 a31 a32]. splits; auto. lra.
Qed.

Lemma on2_mesh_ok : mesh_ok ns on2_es.
Proof.
  assert (IS := ok_ids _ _ OK e (nth_error_In _ _ Hk)). assert (IT := ok_ids _ _ OK e' (nth_error_In _ _ Ht)).
  destruct on2_areas as (A0 & A1 & A2 & A3 & _).
  constructor.
  - exact (ok_flat _ _ OK).
  - intros f Hf. destruct (on2_In f Hf) as [[<-|[<-|[<-|[<-|[]]]]]|(f0 & H0 & E & _)].
    1-4: intros x Hx; case3 x Hx; cbn [o0 o1 o2 o3 elem_with en at3 a30 a31 a32]; auto.
    unfold ids_ok. rewrite E. now apply (ok_ids _ _ OK).
  - intros f Hf. destruct (on2_In f Hf) as [[<-|[<-|[<-|[<-|[]]]]]|(f0 & H0 & E & _)]; auto.
    unfold area2. rewrite E. now apply (ok_pos _ _ OK).
  - intros f Hf. destruct (on2_In f Hf) as [[<-|[<-|[<-|[<-|[]]]]]|(f0 & H0 & _ & _ & E & _)]; auto.
    rewrite E. now apply (ok_act _ _ OK).
  - apply linkage_link. apply on2_linkage.
Qed.

Lemma on2_total : total2 ns on2_es = total2 ns es.
Proof.
  destruct on2_len as [Lk Lt]. destruct on2_areas as (_ & _ & _ & _ & A).
  rewrite !total2_esum. unfold on2_es, on2_base, ren2. rewrite esum_app.
  assert (E1 : nth_error (renl (renl es (at3 (enb e) (nx3 j)) k m) (at3 (enb e') (pv3 i)) t (m + 1)) t = Some e').
  { rewrite !renl_nth, Ht. destruct (eqo (at3 (enb e') (pv3 i)) t) eqn:E; [apply eqo_t in E; now apply tout2 in E|].
    destruct (eqo (at3 (enb e) (nx3 j)) t) eqn:E'; [apply eqo_t in E'; now apply kout1 in E'|]. reflexivity. }
  assert (E2 : nth_error (renl (renl es (at3 (enb e) (nx3 j)) k m) (at3 (enb e') (pv3 i)) t (m + 1)) k = Some e).
  { rewrite !renl_nth, Hk. destruct (eqo (at3 (enb e') (pv3 i)) k) eqn:E; [apply eqo_t in E; now apply tout2 in E|].
    destruct (eqo (at3 (enb e) (nx3 j)) k) eqn:E'; [apply eqo_t in E'; now apply kout1 in E'|]. reflexivity. }
  rewrite (esum_upd _ _ t e'), (esum_upd _ _ k e), !esum_renl; auto.
  - cbn [esum fold_right]. lra.
  - rewrite nth_error_upd_ne; auto. exact on2_kt.
Qed.

Lemma on2_noadj : Z.of_nat p <> p1 -> Z.of_nat p <> m1 -> noadj on2_es p1 m1.
Proof.
  intros Np1 Np2 f x Hf Hx.
  destruct (on2_In f Hf) as [[<-|[<-|[<-|[<-|[]]]]]|(f0 & H0 & E & _)].
  1-4: case3 x Hx; cbn [o0 o1 o2 o3 elem_with en at3 a30 a31 a32]; auto; apply NA; auto; eapply nth_error_In; eauto.
  rewrite E. now apply NA.
Qed.

Lemma on2_star : star_ok ns on2_es [m + 1; m; t; k]%nat p.
Proof.
  assert (Ie := nth_error_In _ _ Hk). assert (Ie' := nth_error_In _ _ Ht).
  split; [|split].
  - intros f x Hf Hx E. destruct (on2_In f Hf) as [[<-|[<-|[<-|[<-|[]]]]]|(f0 & H0 & E0 & _)].
    1-4: case3 x Hx; auto; exfalso; cbn [o0 o1 o2 o3 elem_with en at3 a30 a31 a32] in E; refine (Fresh _ _ _ _ E); auto.
    rewrite E0 in E. exfalso. eapply Fresh; eauto.
  - intros a f Ha Hf. destruct Ha as [<-|[<-|[<-|[<-|[]]]]]; [rewrite on2_m1 in Hf|rewrite on2_m in Hf|rewrite on2_t in Hf|rewrite on2_k in Hf]; inversion Hf; reflexivity.
  - intros a f Hf E. left.
    destruct (Nat.eq_dec a k) as [->|Ak]; [cbn; auto|]. destruct (Nat.eq_dec a t) as [->|At]; [cbn; auto|].
    destruct (Nat.lt_ge_cases a m) as [Hl|Hl].
    + exfalso. destruct (nth_error es a) as [e0|] eqn:H0; [|apply nth_error_None in H0; lia].
      destruct (on2_other a e0 Ak At H0) as (g & Hg & E1 & _). rewrite Hf in Hg; inversion Hg; subst g. rewrite E1 in E.
      refine (Fresh _ _ _ _ E); auto. eapply nth_error_In; eauto.
    + assert (L := nth_error_lt _ _ _ Hf). rewrite on2_length in L. cbn. lia.
Qed.

Lemma on2_border ns1 : border_ok ns es -> (forall a n, nth_error ns1 a = Some n -> exists n0, nth_error ns a = Some n0 /\ (isonb n0 = true -> isonb n = true)) ->
  (fl2 = true -> forall n, nth_error ns1 p = Some n -> isonb n = true) -> border_ok ns1 on2_es.
Proof.
  intros [B1 B2] Hns Hfl. assert (Ie := nth_error_In _ _ Hk). assert (Ie' := nth_error_In _ _ Ht).
  assert (B2' : forall f x a, In f es -> (x < 3)%nat -> at3 (esd f) x = true -> (a = fst (side f x) \/ a = snd (side f x)) -> forall n, nth_error ns1 a = Some n -> isonb n = true).
  { intros f x a Hf Hx M Ha n Hn. destruct (Hns a n Hn) as (n0 & H0 & I0). apply I0. apply (B2 f x n0 Hf Hx M). destruct Ha as [->| ->]; auto. }
  split.
  - intros f x Hf Hx N. destruct (on2_In f Hf) as [[<-|[<-|[<-|[<-|[]]]]]|(f0 & H0 & E & E' & _ & E2)].
    1-4: case3 x Hx; try discriminate N.
    + exact (B1 e (pv3 j) Ie (pv3_lt j) N).
    + exact (B1 e' (nx3 i) Ie' (nx3_lt i) N).
    + exact (B1 e (nx3 j) Ie (nx3_lt j) N).
    + exact (B1 e' (pv3 i) Ie' (pv3_lt i) N).
    + rewrite E'. apply B1; auto. now apply E2.
  - assert (SB : forall n, fl2 = true -> nth_error ns1 B = Some n -> isonb n = true).
    { intros n Hfl' Hn. apply (B2' e j B); auto. }
    assert (SC : forall n, fl2 = true -> nth_error ns1 C = Some n -> isonb n = true).
    { intros n Hfl' Hn. apply (B2' e j C); auto. }
    intros f x n Hf Hx M D. destruct (on2_In f Hf) as [[<-|[<-|[<-|[<-|[]]]]]|(f0 & H0 & E & E' & _ & E2)].
    + case3 x Hx; try discriminate M.
      * destruct D as [D|D]; (apply (B2' e (pv3 j) _ Ie (pv3_lt j) M) with (2 := D)); rewrite on2_side_k2; auto.
      * destruct D as [D|D]; [now apply SB|now apply Hfl].
    + case3 x Hx; try discriminate M.
      * destruct D as [D|D]; (apply (B2' e' (nx3 i) _ Ie' (nx3_lt i) M) with (2 := D)); rewrite on2_side_t1; auto.
      * destruct D as [D|D]; [now apply Hfl|now apply SB].
    + case3 x Hx; try discriminate M.
      * destruct D as [D|D]; (apply (B2' e (nx3 j) _ Ie (nx3_lt j) M) with (2 := D)); rewrite on2_side_k1; auto.
      * destruct D as [D|D]; [now apply Hfl|now apply SC].
    + case3 x Hx; try discriminate M.
      * destruct D as [D|D]; (apply (B2' e' (pv3 i) _ Ie' (pv3_lt i) M) with (2 := D)); rewrite on2_side_t2; auto.
      * destruct D as [D|D]; [now apply SC|now apply Hfl].
    + rewrite E' in M. unfold side in D. rewrite E in D. fold (side f0 x) in D.
      destruct D as [D|D]; apply (B2' f0 x _ H0 Hx M) with (2 := D); auto.
Qed.

Lemma on2_corner y : (exists f x, In f on2_es /\ (x < 3)%nat /\ at3 (en f) x = y) <-> (y = p \/ exists f x, In f es /\ (x < 3)%nat /\ at3 (en f) x = y).
Proof.
  assert (Ie := nth_error_In _ _ Hk). assert (Ie' := nth_error_In _ _ Ht). destruct on2_nodes as [EC EB].
  assert (I0 := nth_error_In _ _ on2_k). assert (I1 := nth_error_In _ _ on2_t). assert (I2 := nth_error_In _ _ on2_m). assert (I3 := nth_error_In _ _ on2_m1).
  split.
  - intros (f & x & Hf & Hx & E). destruct (on2_In f Hf) as [[<-|[<-|[<-|[<-|[]]]]]|(f0 & H0 & E0 & _)].
    + case3 x Hx; cbn in E; [left; congruence|right; exists e, j|right; exists e, (nx3 j)]; splits; auto.
    + case3 x Hx; cbn in E; [left; congruence|right; exists e, (nx3 j)|right; exists e', i]; splits; auto.
    + case3 x Hx; cbn in E; [left; congruence|right; exists e, (pv3 j)|right; exists e, j]; splits; auto.
    + case3 x Hx; cbn in E; [left; congruence|right; exists e', i|right; exists e, (pv3 j)]; splits; auto.
    + right. exists f0, x. splits; auto. congruence.
  - intros [->|(f & x & Hf & Hx & E)]. { exists o0, 0%nat. splits; auto. }
    apply In_nth_error in Hf. destruct Hf as (a & H).
    destruct (Nat.eq_dec a k) as [->|Ak].
    { rewrite Hk in H; inversion H; subst f. destruct (all3 j x Hj Hx) as [ -> | [ -> | -> ] ]; [exists o0, 1%nat|exists o0, 2%nat|exists o2, 1%nat]; splits; auto. }
    destruct (Nat.eq_dec a t) as [->|At].
    { rewrite Ht in H; inversion H; subst f. destruct (all3 i x Hi Hx) as [ -> | [ -> | -> ] ].
      - exists o1, 2%nat. splits; auto.
      - exists o2, 1%nat. splits; auto. change (C = y). congruence.
      - exists o0, 2%nat. splits; auto. change (B = y). congruence. }
    destruct (on2_other a f Ak At H) as (g & Hg & E1 & _). exists g, x. splits; auto. eapply nth_error_In; eauto. congruence.
Qed.
End On2.
