(** Insertion of a node on a side without neighbor, and inside of an element. *)
From Coq Require Import List Arith ZArith Lia Bool Reals Lra Psatz.
From Verif Require Import Res DenseModel DenseR LUModel DelaunayModel DelaunaySpec DelaunayProof DelaunayProof2 DelaunayProof3 DelaunayProof4.
Import ListNotations.
Local Open Scope R_scope.

Section On1.
Variables (ns : list dnode) (es : list delem) (k j p : nat) (e : delem) (p1 m1 : Z).
Hypothesis OK : mesh_ok ns es.
Hypothesis Hk : nth_error es k = Some e.
Hypothesis Hj : (j < 3)%nat.
Hypothesis Nk : at3 (enb e) j = None.
Hypothesis NA : noadj es p1 m1.
Hypothesis Hp : (p < length ns)%nat.
Hypothesis Fresh : forall f x, In f es -> (x < 3)%nat -> at3 (en f) x <> p.
Notation A := (at3 (en e) j). Notation B := (at3 (en e) (nx3 j)). Notation C := (at3 (en e) (pv3 j)).
Notation m := (length es).
Hypothesis Bt : between (xy ns B) (xy ns C) (xy ns p).
Definition fl1 := at3 (esd e) j.
Definition q0 := elem_with (A3 p A B) (A3 (at3 (enb e) (pv3 j)) None (Some m)) (A3 (at3 (esd e) (pv3 j)) fl1 false).
Definition q1 := elem_with (A3 p C A) (A3 (at3 (enb e) (nx3 j)) (Some k) None) (A3 (at3 (esd e) (nx3 j)) false fl1).
Definition on1_es := upd (renl es (at3 (enb e) (nx3 j)) k m) k q0 ++ [q1].

Lemma on1_len : (k < m)%nat.
Proof. eapply nth_error_lt; eauto. Qed.
Lemma on1_side_k1 : side e (nx3 j) = (C, A). Proof. unfold side. now rewrite nx_nx, pv_nx. Qed.
Lemma on1_side_k2 : side e (pv3 j) = (A, B). Proof. unfold side. now rewrite nx_pv, pv_pv. Qed.
Lemma on1_self y : (y < 3)%nat -> at3 (enb e) y <> Some k.
Proof. intros Hy. now apply (no_self ns es OK k e). Qed.

Lemma split_on1_ok ns0 ns1 : (if fl1 then set_onb ns0 p else Ok ns0) = Ok ns1 ->
  split_on1 ns0 es k j p p1 m1 = Ok (ns1, on1_es, [m; k]%nat).
Proof.
  intros Hns. unfold split_on1. rewrite (rd_nth_error _ _ _ Hk). cbn [bind].
  assert (Lk := on1_len). assert (Ie := nth_error_In _ _ Hk).
  rewrite relink_ok.
  2: { intros b Hb. destruct (nb_unique ns es OK b e (nx3 j) k Hk (nx3_lt j) Hb) as (f & x & H' & Hx & N' & U). exists f, x. splits; auto. }
  cbn [bind]. fold fl1. rewrite Hns. cbn [bind].
  rewrite wr_lt by (rewrite renl_length; lia). cbn [bind].
  rewrite (noadj_isadj es p1 m1 e j NA Ie Hj), (noadj_isadj es p1 m1 e (nx3 j) NA Ie (nx3_lt j)), (noadj_isadj es p1 m1 e (pv3 j) NA Ie (pv3_lt j)).
  reflexivity.
Qed.

Lemma on1_k : nth_error on1_es k = Some q0.
Proof.
  assert (Lk := on1_len). unfold on1_es. rewrite nth_error_app1 by (rewrite upd_length, renl_length; lia).
  apply nth_error_upd_eq. rewrite renl_length; lia.
Qed.
Lemma on1_m : nth_error on1_es m = Some q1.
Proof.
  unfold on1_es. rewrite nth_error_app2 by (rewrite upd_length, renl_length; lia).
  rewrite upd_length, renl_length, Nat.sub_diag. reflexivity.
Qed.
Lemma on1_length : length on1_es = (m + 1)%nat.
Proof. unfold on1_es. rewrite app_length, upd_length, renl_length. reflexivity. Qed.
Lemma on1_other a f : a <> k -> nth_error es a = Some f ->
  exists f', nth_error on1_es a = Some f' /\ en f' = en f /\ esd f' = esd f /\ eact f' = eact f /\
    forall x, (x < 3)%nat -> at3 (enb f') x = if eqo (at3 (enb e) (nx3 j)) a && eqo (at3 (enb f) x) k then Some m else at3 (enb f) x.
Proof.
  intros Nak H. assert (La := nth_error_lt _ _ _ H).
  unfold on1_es. rewrite nth_error_app1 by (rewrite upd_length, renl_length; lia).
  rewrite nth_error_upd_ne, renl_nth, H by auto. eexists. split; [reflexivity|].
  destruct (eqo (at3 (enb e) (nx3 j)) a); splits; auto. intros x Hx. now rewrite ren_nb.
Qed.
Lemma on1_out b :
  (at3 (enb e) (pv3 j) = Some b -> exists x, (x < 3)%nat /\ linked es k (pv3 j) b x /\ linked on1_es k 0 b x) /\
  (at3 (enb e) (nx3 j) = Some b -> exists x, (x < 3)%nat /\ linked es k (nx3 j) b x /\ linked on1_es m 0 b x).
Proof.
  split; intros Nb.
  - destruct (ok_linkage _ _ OK k e (pv3 j) b Hk (pv3_lt j) Nb) as (x & Hx & L). exists x. splits; auto.
    eapply out_gen; [exact L|exact Hk| |exact on1_k| | |]; auto.
    + intros g Hg Ng. assert (Nbk : b <> k) by (intros E; subst b; exact (on1_self _ (pv3_lt j) Nb)).
      destruct (on1_other b g Nbk Hg) as (g' & Hg' & E1 & E2 & E3 & E4). exists g'. splits; auto.
      rewrite E4, Ng by assumption. destruct (eqo (at3 (enb e) (nx3 j)) b) eqn:U; auto.
      apply eqo_t in U. exfalso. apply (nx_pv_ne j Hj). now apply (one_side ns es OK k e (nx3 j) (pv3 j) b).
    + unfold side at 1. now rewrite on1_side_k2.
  - destruct (ok_linkage _ _ OK k e (nx3 j) b Hk (nx3_lt j) Nb) as (x & Hx & L). exists x. splits; auto.
    eapply out_gen; [exact L|exact Hk| |exact on1_m| | |]; auto.
    + intros g Hg Ng. assert (Nbk : b <> k) by (intros E; subst b; exact (on1_self _ (nx3_lt j) Nb)).
      destruct (on1_other b g Nbk Hg) as (g' & Hg' & E1 & E2 & E3 & E4). exists g'. splits; auto.
      rewrite E4, Ng, Nb by assumption. cbn [eqo]. now rewrite !Nat.eqb_refl.
    + unfold side at 1. now rewrite on1_side_k1.
Qed.
Lemma on1_linkage : linkage on1_es.
Proof.
  assert (Lk := on1_len).
  apply (replace_linkage ns es on1_es [k] OK).
  - intros a f H Na. assert (N1 : a <> k) by (cbn in Na; intros ->; tauto).
    destruct (on1_other a f N1 H) as (f' & Hf & E1 & E2 & _ & E4). exists f'. splits; auto.
    + intros x c Hx Nx Nc. rewrite E4, Nx by assumption. cbn [eqo].
      destruct (Nat.eqb_spec c k) as [->|]; [cbn in Nc; tauto|]. now rewrite andb_false_r.
    + intros x Hx Nx. rewrite E4, Nx by assumption. cbn [eqo]. now rewrite andb_false_r.
  - intros c ec y a Hc Hce Hy Ny Na. destruct (on1_out a) as (O1 & O2).
    destruct Hc as [<-|[]]. rewrite Hk in Hce; inversion Hce; subst ec. destruct (all3 j y Hj Hy) as [ -> | [ -> | -> ] ].
    + congruence.
    + destruct (O2 Ny) as (x & Hx & L1 & L2). exists m, 0%nat, x. splits; auto.
    + destruct (O1 Ny) as (x & Hx & L1 & L2). exists k, 0%nat, x. splits; auto.
  - intros a f x b H Ha Hx Nx. destruct (on1_out b) as (O1 & O2).
    assert (Cases : a = k \/ a = m).
    { destruct Ha as [[<-|[]]|Ha]; auto. apply nth_error_lt in H. rewrite on1_length in H. lia. }
    destruct Cases as [->| ->].
    + rewrite on1_k in H; inversion H; subst f. case3 x Hx.
      * destruct (O1 Nx) as (y & Hy & _ & L). eauto.
      * discriminate Nx.
      * inversion Nx; subst b. exists 1%nat. split; [lia|]. exists q0, q1. splits; auto using on1_k, on1_m.
    + rewrite on1_m in H; inversion H; subst f. case3 x Hx.
      * destruct (O2 Nx) as (y & Hy & _ & L). eauto.
      * inversion Nx; subst b. exists 2%nat. split; [lia|]. exists q1, q0. splits; auto using on1_k, on1_m.
      * discriminate Nx.
Qed.
Lemma on1_In f : In f on1_es -> In f [q0; q1] \/
  exists f0, In f0 es /\ en f = en f0 /\ esd f = esd f0 /\ eact f = eact f0 /\ (forall x, (x < 3)%nat -> at3 (enb f) x = None <-> at3 (enb f0) x = None).
Proof.
  intros Hin. apply In_nth_error in Hin. destruct Hin as (a & H).
  destruct (Nat.eq_dec a k) as [->|Ak]. { rewrite on1_k in H; inversion H; cbn; auto. }
  destruct (Nat.lt_ge_cases a m) as [Hl|Hl].
  - right. destruct (nth_error es a) as [e0|] eqn:H0; [|apply nth_error_None in H0; lia].
    destruct (on1_other a e0 Ak H0) as (f' & Hf & E1 & E2 & E3 & E4). rewrite H in Hf; inversion Hf; subst f'.
    exists e0. splits; auto. eapply nth_error_In; eauto. intros x Hx. rewrite E4 by assumption.
    destruct (at3 (enb e0) x) as [c|]; cbn [eqo]; [|rewrite andb_false_r; tauto]. destruct (_ && _); split; congruence.
  - left. assert (L := nth_error_lt _ _ _ H). rewrite on1_length in L.
    assert (a = m) as -> by lia. rewrite on1_m in H; inversion H; cbn; auto.
Qed.
Lemma on1_areas : 0 < area2 ns q0 /\ 0 < area2 ns q1 /\ area2 ns q0 + area2 ns q1 = area2 ns e.
Proof.
  assert (P1 := ok_pos _ _ OK e (nth_error_In _ _ Hk)). rewrite (area2_rot ns e j Hj) in *.
  destruct (between_pos _ _ _ _ Bt P1) as (A1 & A2 & A3).
  unfold area2. cbn [q0 q1 elem_with en at3 a30 a31 a32]. splits; auto.
Qed.
Lemma on1_mesh_ok : mesh_ok ns on1_es.
Proof.
  assert (IS := ok_ids _ _ OK e (nth_error_In _ _ Hk)).
  destruct on1_areas as (A0 & A1 & _).
  constructor.
  - exact (ok_flat _ _ OK).
  - intros f Hf. destruct (on1_In f Hf) as [[<-|[<-|[]]]|(f0 & H0 & E & _)].
    1-2: intros x Hx; case3 x Hx; cbn [q0 q1 elem_with en at3 a30 a31 a32]; auto.
    unfold ids_ok. rewrite E. now apply (ok_ids _ _ OK).
  - intros f Hf. destruct (on1_In f Hf) as [[<-|[<-|[]]]|(f0 & H0 & E & _)]; auto.
    unfold area2. rewrite E. now apply (ok_pos _ _ OK).
  - intros f Hf. destruct (on1_In f Hf) as [[<-|[<-|[]]]|(f0 & H0 & _ & _ & E & _)]; auto.
    rewrite E. now apply (ok_act _ _ OK).
  - apply linkage_link. apply on1_linkage.
Qed.
Lemma on1_total : total2 ns on1_es = total2 ns es.
Proof.
  assert (Lk := on1_len). destruct on1_areas as (_ & _ & A).
  rewrite !total2_esum. unfold on1_es. rewrite esum_app.
  rewrite (esum_upd _ _ k e), !esum_renl; auto.
  - cbn [esum fold_right]. lra.
  - rewrite renl_nth, Hk. destruct (eqo (at3 (enb e) (nx3 j)) k) eqn:E'; [apply eqo_t in E'; now apply (on1_self _ (nx3_lt j)) in E'|]. reflexivity.
Qed.
Lemma on1_noadj : Z.of_nat p <> p1 -> Z.of_nat p <> m1 -> noadj on1_es p1 m1.
Proof.
  intros Np1 Np2 f x Hf Hx.
  destruct (on1_In f Hf) as [[<-|[<-|[]]]|(f0 & H0 & E & _)].
  1-2: case3 x Hx; cbn [q0 q1 elem_with en at3 a30 a31 a32]; auto; apply NA; auto; eapply nth_error_In; eauto.
  rewrite E. now apply NA.
Qed.
Lemma on1_star : star_ok ns on1_es [m; k]%nat p.
Proof.
  assert (Ie := nth_error_In _ _ Hk).
  split; [|split].
  - intros f x Hf Hx E. destruct (on1_In f Hf) as [[<-|[<-|[]]]|(f0 & H0 & E0 & _)].
    1-2: case3 x Hx; auto; exfalso; cbn [q0 q1 elem_with en at3 a30 a31 a32] in E; refine (Fresh _ _ _ _ E); auto.
    rewrite E0 in E. exfalso. eapply Fresh; eauto.
  - intros a f Ha Hf. destruct Ha as [<-|[<-|[]]]; [rewrite on1_m in Hf|rewrite on1_k in Hf]; inversion Hf; reflexivity.
  - intros a f Hf E. left.
    destruct (Nat.eq_dec a k) as [->|Ak]; [cbn; auto|].
    destruct (Nat.lt_ge_cases a m) as [Hl|Hl].
    + exfalso. destruct (nth_error es a) as [e0|] eqn:H0; [|apply nth_error_None in H0; lia].
      destruct (on1_other a e0 Ak H0) as (g & Hg & E1 & _). rewrite Hf in Hg; inversion Hg; subst g. rewrite E1 in E.
      refine (Fresh _ _ _ _ E); auto. eapply nth_error_In; eauto.
    + assert (L := nth_error_lt _ _ _ Hf). rewrite on1_length in L. cbn. lia.
Qed.
Lemma on1_border ns1 : border_ok ns es -> (forall a n, nth_error ns1 a = Some n -> exists n0, nth_error ns a = Some n0 /\ (isonb n0 = true -> isonb n = true)) ->
  (fl1 = true -> forall n, nth_error ns1 p = Some n -> isonb n = true) -> border_ok ns1 on1_es.
Proof.
  intros [B1 B2] Hns Hfl. assert (Ie := nth_error_In _ _ Hk).
  assert (B2' : forall f x a, In f es -> (x < 3)%nat -> at3 (esd f) x = true -> (a = fst (side f x) \/ a = snd (side f x)) -> forall n, nth_error ns1 a = Some n -> isonb n = true).
  { intros f x a Hf Hx M Ha n Hn. destruct (Hns a n Hn) as (n0 & H0 & I0). apply I0. apply (B2 f x n0 Hf Hx M). destruct Ha as [->| ->]; auto. }
  assert (F1 : fl1 = true) by (apply B1; auto).
  split.
  - intros f x Hf Hx N. destruct (on1_In f Hf) as [[<-|[<-|[]]]|(f0 & H0 & E & E' & _ & E2)].
    + case3 x Hx; [exact (B1 e (pv3 j) Ie (pv3_lt j) N)|exact F1|discriminate N].
    + case3 x Hx; [exact (B1 e (nx3 j) Ie (nx3_lt j) N)|discriminate N|exact F1].
    + rewrite E'. apply B1; auto. now apply E2.
  - assert (SB : forall n, fl1 = true -> nth_error ns1 B = Some n -> isonb n = true).
    { intros n Hfl' Hn. apply (B2' e j B); auto. }
    assert (SC : forall n, fl1 = true -> nth_error ns1 C = Some n -> isonb n = true).
    { intros n Hfl' Hn. apply (B2' e j C); auto. }
    intros f x n Hf Hx M D. destruct (on1_In f Hf) as [[<-|[<-|[]]]|(f0 & H0 & E & E' & _ & E2)].
    + case3 x Hx; try discriminate M.
      * destruct D as [D|D]; (apply (B2' e (pv3 j) _ Ie (pv3_lt j) M) with (2 := D)); rewrite on1_side_k2; auto.
      * destruct D as [D|D]; [now apply SB|now apply Hfl].
    + case3 x Hx; try discriminate M.
      * destruct D as [D|D]; (apply (B2' e (nx3 j) _ Ie (nx3_lt j) M) with (2 := D)); rewrite on1_side_k1; auto.
      * destruct D as [D|D]; [now apply Hfl|now apply SC].
    + rewrite E' in M. unfold side in D. rewrite E in D. fold (side f0 x) in D.
      destruct D as [D|D]; apply (B2' f0 x _ H0 Hx M) with (2 := D); auto.
Qed.
Lemma on1_corner y : (exists f x, In f on1_es /\ (x < 3)%nat /\ at3 (en f) x = y) <-> (y = p \/ exists f x, In f es /\ (x < 3)%nat /\ at3 (en f) x = y).
Proof.
  assert (Ie := nth_error_In _ _ Hk).
  assert (I0 := nth_error_In _ _ on1_k). assert (I1 := nth_error_In _ _ on1_m).
  split.
  - intros (f & x & Hf & Hx & E). destruct (on1_In f Hf) as [[<-|[<-|[]]]|(f0 & H0 & E0 & _)].
    + case3 x Hx; cbn in E; [left; congruence|right; exists e, j|right; exists e, (nx3 j)]; splits; auto.
    + case3 x Hx; cbn in E; [left; congruence|right; exists e, (pv3 j)|right; exists e, j]; splits; auto.
    + right. exists f0, x. splits; auto. congruence.
  - intros [->|(f & x & Hf & Hx & E)]. { exists q0, 0%nat. splits; auto. }
    apply In_nth_error in Hf. destruct Hf as (a & H).
    destruct (Nat.eq_dec a k) as [->|Ak].
    { rewrite Hk in H; inversion H; subst f. destruct (all3 j x Hj Hx) as [ -> | [ -> | -> ] ]; [exists q0, 1%nat|exists q0, 2%nat|exists q1, 1%nat]; splits; auto. }
    destruct (on1_other a f Ak H) as (g & Hg & E1 & _). exists g, x. splits; auto. eapply nth_error_In; eauto. congruence.
Qed.
End On1.

Section In3.
Variables (ns : list dnode) (es : list delem) (k p : nat) (e : delem) (p1 m1 : Z).
Hypothesis OK : mesh_ok ns es.
Hypothesis Hk : nth_error es k = Some e.
Hypothesis NA : noadj es p1 m1.
Hypothesis Hp : (p < length ns)%nat.
Hypothesis Fresh : forall f x, In f es -> (x < 3)%nat -> at3 (en f) x <> p.
Notation A := (at3 (en e) 0). Notation B := (at3 (en e) 1). Notation C := (at3 (en e) 2).
Notation m := (length es).
Hypothesis In_ : 0 < tri2 (xy ns A) (xy ns B) (xy ns p) /\ 0 < tri2 (xy ns B) (xy ns C) (xy ns p) /\ 0 < tri2 (xy ns C) (xy ns A) (xy ns p).
Definition i0 := elem_with (A3 p B C) (A3 (at3 (enb e) 0) (Some m) (Some (m + 1)%nat)) (A3 (at3 (esd e) 0) false false).
Definition i1 := elem_with (A3 p C A) (A3 (at3 (enb e) 1) (Some (m + 1)%nat) (Some k)) (A3 (at3 (esd e) 1) false false).
Definition i2 := elem_with (A3 p A B) (A3 (at3 (enb e) 2) (Some k) (Some m)) (A3 (at3 (esd e) 2) false false).
Definition in_base := ren2 es (at3 (enb e) 1) k m (at3 (enb e) 2) k (m + 1).
Definition in_es := upd in_base k i0 ++ [i1; i2].

Lemma in_len : (k < m)%nat.
Proof. eapply nth_error_lt; eauto. Qed.
Lemma in_self y : (y < 3)%nat -> at3 (enb e) y <> Some k.
Proof. intros Hy. now apply (no_self ns es OK k e). Qed.
Lemma in_ne y y' b : (y < 3)%nat -> (y' < 3)%nat -> y <> y' -> at3 (enb e) y = Some b -> at3 (enb e) y' <> Some b.
Proof. intros Hy Hy' Ne N N'. apply Ne. now apply (one_side ns es OK k e y y' b). Qed.

Lemma split_in_ok : split_in es k p p1 m1 = Ok (in_es, [m + 1; m; k]%nat).
Proof.
  unfold split_in. rewrite (rd_nth_error _ _ _ Hk). cbn [bind].
  assert (Lk := in_len). assert (Ie := nth_error_In _ _ Hk).
  rewrite relink_ok.
  2: { intros b Hb. destruct (nb_unique ns es OK b e 1%nat k Hk ltac:(lia) Hb) as (f & x & H' & Hx & N' & U). exists f, x. splits; auto. }
  cbn [bind].
  assert (R1 : nth_error (renl es (at3 (enb e) 1) k m) k = Some e).
  { rewrite renl_nth, Hk. destruct (eqo (at3 (enb e) 1) k) eqn:E; auto. apply eqo_t in E. now apply in_self in E; auto. }
  rewrite (rd_nth_error _ _ _ R1). cbn [bind].
  rewrite relink_ok.
  2: { intros b Hb. destruct (nb_unique ns es OK b e 2%nat k Hk ltac:(lia) Hb) as (f & x & H' & Hx & N' & U).
       rewrite renl_nth, H'. destruct (eqo (at3 (enb e) 1) b) eqn:E.
       - apply eqo_t in E. exfalso. apply (in_ne 1 2 b); auto.
       - exists f, x. splits; auto. }
  cbn [bind]. rewrite wr_lt by (rewrite !renl_length; lia). cbn [bind].
  rewrite (noadj_isadj es p1 m1 e 0 NA Ie), (noadj_isadj es p1 m1 e 1 NA Ie), (noadj_isadj es p1 m1 e 2 NA Ie) by lia.
  reflexivity.
Qed.

Lemma in_k : nth_error in_es k = Some i0.
Proof.
  assert (Lk := in_len). unfold in_es, in_base, ren2. rewrite nth_error_app1 by (rewrite upd_length, !renl_length; lia).
  apply nth_error_upd_eq. rewrite !renl_length; lia.
Qed.
Lemma in_m : nth_error in_es m = Some i1.
Proof.
  unfold in_es, in_base, ren2. rewrite nth_error_app2 by (rewrite upd_length, !renl_length; lia).
  rewrite upd_length, !renl_length, Nat.sub_diag. reflexivity.
Qed.
Lemma in_m1 : nth_error in_es (m + 1) = Some i2.
Proof.
  unfold in_es, in_base, ren2. rewrite nth_error_app2 by (rewrite upd_length, !renl_length; lia).
  rewrite upd_length, !renl_length. replace (m + 1 - m)%nat with 1%nat by lia. reflexivity.
Qed.
Lemma in_length : length in_es = (m + 2)%nat.
Proof. unfold in_es, in_base, ren2. rewrite app_length, upd_length, !renl_length. reflexivity. Qed.
Lemma in_other a f : a <> k -> nth_error es a = Some f ->
  exists f', nth_error in_es a = Some f' /\ en f' = en f /\ esd f' = esd f /\ eact f' = eact f /\
    forall x, (x < 3)%nat -> at3 (enb f') x =
      if eqo (at3 (enb e) 1) a && eqo (at3 (enb f) x) k then Some m
      else if eqo (at3 (enb e) 2) a && eqo (at3 (enb f) x) k then Some (m + 1)%nat else at3 (enb f) x.
Proof.
  intros Nak H. assert (La := nth_error_lt _ _ _ H). assert (Lk := in_len).
  destruct (ren2_nth es (at3 (enb e) 1) k m (at3 (enb e) 2) k (m + 1) a f H ltac:(lia)) as (f' & Hf & R).
  exists f'. split; [|exact R].
  unfold in_es. rewrite nth_error_app1 by (unfold in_base, ren2; rewrite !upd_length, !renl_length; lia).
  rewrite nth_error_upd_ne by auto. exact Hf.
Qed.
Lemma in_out b y : (y < 3)%nat -> at3 (enb e) y = Some b -> exists x, (x < 3)%nat /\ linked es k y b x /\
  linked in_es (match y with O => k | 1 => m | _ => m + 1 end)%nat 0 b x.
Proof.
  intros Hy Nb.
  destruct (ok_linkage _ _ OK k e y b Hk Hy Nb) as (x & Hx & L). exists x. splits; auto.
  assert (Nbk : b <> k) by (intros E; subst b; exact (in_self _ Hy Nb)).
  assert (Oth : forall g, nth_error es b = Some g -> at3 (enb g) x = Some k ->
    exists g', nth_error in_es b = Some g' /\ en g' = en g /\ esd g' = esd g /\ at3 (enb g') x = Some (match y with O => k | 1 => m | _ => m + 1 end)%nat).
  { intros g Hg Ng. destruct (in_other b g Nbk Hg) as (g' & Hg' & E1 & E2 & E3 & E4). exists g'. splits; auto.
    rewrite E4, Ng by assumption. cbn [eqo]. rewrite Nat.eqb_refl.
    assert (G : forall z, (z < 3)%nat -> z <> y -> eqo (at3 (enb e) z) b = false) by (intros z Hz Nz; destruct (eqo (at3 (enb e) z) b) eqn:Q; [|reflexivity]; apply eqo_t in Q; exfalso; apply (in_ne y z b); auto).
    case3 y Hy.
    - rewrite (G 1%nat), (G 2%nat) by lia. reflexivity.
    - rewrite Nb. cbn [eqo]. now rewrite Nat.eqb_refl.
    - rewrite (G 1%nat), Nb by lia. cbn [eqo]. now rewrite Nat.eqb_refl. }
  case3 y Hy.
  - eapply out_gen; [exact L|exact Hk|exact Oth|exact in_k| | |]; auto.
  - eapply out_gen; [exact L|exact Hk|exact Oth|exact in_m| | |]; auto.
  - eapply out_gen; [exact L|exact Hk|exact Oth|exact in_m1| | |]; auto.
Qed.
Lemma in_linkage : linkage in_es.
Proof.
  assert (Lk := in_len).
  apply (replace_linkage ns es in_es [k] OK).
  - intros a f H Na. assert (N1 : a <> k) by (cbn in Na; intros ->; tauto).
    destruct (in_other a f N1 H) as (f' & Hf & E1 & E2 & _ & E4). exists f'. splits; auto.
    + intros x c Hx Nx Nc. rewrite E4, Nx by assumption. cbn [eqo].
      destruct (Nat.eqb_spec c k) as [->|]; [cbn in Nc; tauto|]. now rewrite !andb_false_r.
    + intros x Hx Nx. rewrite E4, Nx by assumption. cbn [eqo]. now rewrite !andb_false_r.
  - intros c ec y a Hc Hce Hy Ny Na. destruct Hc as [<-|[]]. rewrite Hk in Hce; inversion Hce; subst ec.
    destruct (in_out a y Hy Ny) as (x & Hx & L1 & L2). eexists _, 0%nat, x. splits; eauto; lia.
  - intros a f x b H Ha Hx Nx. assert (O := in_out b).
    assert (Cases : a = k \/ a = m \/ a = (m + 1)%nat).
    { destruct Ha as [[<-|[]]|Ha]; auto. apply nth_error_lt in H. rewrite in_length in H. lia. }
    destruct Cases as [->|[->| ->]].
    + rewrite in_k in H; inversion H; subst f. case3 x Hx.
      * destruct (O 0%nat Hx Nx) as (y & Hy & _ & L). eauto.
      * inversion Nx; subst b. exists 2%nat. split; [lia|]. exists i0, i1. splits; auto using in_k, in_m.
      * inversion Nx; subst b. exists 1%nat. split; [lia|]. exists i0, i2. splits; auto using in_k, in_m1.
    + rewrite in_m in H; inversion H; subst f. case3 x Hx.
      * destruct (O 1%nat ltac:(lia) Nx) as (y & Hy & _ & L). eauto.
      * inversion Nx; subst b. exists 2%nat. split; [lia|]. exists i1, i2. splits; auto using in_m, in_m1.
      * inversion Nx; subst b. exists 1%nat. split; [lia|]. exists i1, i0. splits; auto using in_k, in_m.
    + rewrite in_m1 in H; inversion H; subst f. case3 x Hx.
      * destruct (O 2%nat ltac:(lia) Nx) as (y & Hy & _ & L). eauto.
      * inversion Nx; subst b. exists 2%nat. split; [lia|]. exists i2, i0. splits; auto using in_k, in_m1.
      * inversion Nx; subst b. exists 1%nat. split; [lia|]. exists i2, i1. splits; auto using in_m, in_m1.
Qed.
Lemma in_In f : In f in_es -> In f [i0; i1; i2] \/
  exists f0, In f0 es /\ en f = en f0 /\ esd f = esd f0 /\ eact f = eact f0 /\ (forall x, (x < 3)%nat -> at3 (enb f) x = None <-> at3 (enb f0) x = None).
Proof.
  intros Hin. apply In_nth_error in Hin. destruct Hin as (a & H).
  destruct (Nat.eq_dec a k) as [->|Ak]. { rewrite in_k in H; inversion H; cbn; auto. }
  destruct (Nat.lt_ge_cases a m) as [Hl|Hl].
  - right. destruct (nth_error es a) as [e0|] eqn:H0; [|apply nth_error_None in H0; lia].
    destruct (in_other a e0 Ak H0) as (f' & Hf & E1 & E2 & E3 & E4). rewrite H in Hf; inversion Hf; subst f'.
    exists e0. splits; auto. eapply nth_error_In; eauto. intros x Hx. rewrite E4 by assumption.
    destruct (at3 (enb e0) x) as [c|]; cbn [eqo]; [|rewrite !andb_false_r; tauto].
    destruct (_ && _); [split; congruence|]. destruct (_ && _); split; congruence.
  - left. assert (L := nth_error_lt _ _ _ H). rewrite in_length in L.
    assert (a = m \/ a = m + 1)%nat as [->| ->] by lia; [rewrite in_m in H|rewrite in_m1 in H]; inversion H; cbn; auto.
Qed.
Lemma in_areas : 0 < area2 ns i0 /\ 0 < area2 ns i1 /\ 0 < area2 ns i2 /\ area2 ns i0 + area2 ns i1 + area2 ns i2 = area2 ns e.
Proof.
  destruct In_ as (P0 & P1 & P2). unfold area2. cbn [i0 i1 i2 elem_with en at3 a30 a31 a32] in *.
  unfold tri2 in *. splits; try lra. 
Qed.
Lemma in_mesh_ok : mesh_ok ns in_es.
Proof.
  assert (IS := ok_ids _ _ OK e (nth_error_In _ _ Hk)).
  destruct in_areas as (A0 & A1 & A2 & _).
  constructor.
  - exact (ok_flat _ _ OK).
  - intros f Hf. destruct (in_In f Hf) as [[<-|[<-|[<-|[]]]]|(f0 & H0 & E & _)].
    1-3: intros x Hx; case3 x Hx; cbn [i0 i1 i2 elem_with en]; auto; first [apply (IS 0%nat)|apply (IS 1%nat)|apply (IS 2%nat)]; lia.
    unfold ids_ok. rewrite E. now apply (ok_ids _ _ OK).
  - intros f Hf. destruct (in_In f Hf) as [[<-|[<-|[<-|[]]]]|(f0 & H0 & E & _)]; auto.
    unfold area2. rewrite E. now apply (ok_pos _ _ OK).
  - intros f Hf. destruct (in_In f Hf) as [[<-|[<-|[<-|[]]]]|(f0 & H0 & _ & _ & E & _)]; auto.
    rewrite E. now apply (ok_act _ _ OK).
  - apply linkage_link. apply in_linkage.
Qed.
Lemma in_total : total2 ns in_es = total2 ns es.
Proof.
  assert (Lk := in_len). destruct in_areas as (_ & _ & _ & A).
  rewrite !total2_esum. unfold in_es, in_base, ren2. rewrite esum_app.
  rewrite (esum_upd _ _ k e), !esum_renl; auto.
  - cbn [esum fold_right]. lra.
  - rewrite !renl_nth, Hk. destruct (eqo (at3 (enb e) 2) k) eqn:E'; [apply eqo_t in E'; now apply in_self in E'; auto|].
    destruct (eqo (at3 (enb e) 1) k) eqn:E2; [apply eqo_t in E2; now apply in_self in E2; auto|]. reflexivity.
Qed.
Lemma in_noadj : Z.of_nat p <> p1 -> Z.of_nat p <> m1 -> noadj in_es p1 m1.
Proof.
  intros Np1 Np2 f x Hf Hx. assert (Ie := nth_error_In _ _ Hk).
  destruct (in_In f Hf) as [[<-|[<-|[<-|[]]]]|(f0 & H0 & E & _)].
  1-3: case3 x Hx; cbn [i0 i1 i2 elem_with en]; auto; first [exact (NA e 0%nat Ie ltac:(lia))|exact (NA e 1%nat Ie ltac:(lia))|exact (NA e 2%nat Ie ltac:(lia))].
  rewrite E. now apply NA.
Qed.
Lemma in_star : star_ok ns in_es [m + 1; m; k]%nat p.
Proof.
  assert (Ie := nth_error_In _ _ Hk).
  split; [|split].
  - intros f x Hf Hx E. destruct (in_In f Hf) as [[<-|[<-|[<-|[]]]]|(f0 & H0 & E0 & _)].
    1-3: case3 x Hx; auto; exfalso; first [exact (Fresh e 0%nat Ie ltac:(lia) E)|exact (Fresh e 1%nat Ie ltac:(lia) E)|exact (Fresh e 2%nat Ie ltac:(lia) E)].
    rewrite E0 in E. exfalso. eapply Fresh; eauto.
  - intros a f Ha Hf. destruct Ha as [<-|[<-|[<-|[]]]]; [rewrite in_m1 in Hf|rewrite in_m in Hf|rewrite in_k in Hf]; inversion Hf; reflexivity.
  - intros a f Hf E. left.
    destruct (Nat.eq_dec a k) as [->|Ak]; [cbn; auto|].
    destruct (Nat.lt_ge_cases a m) as [Hl|Hl].
    + exfalso. destruct (nth_error es a) as [e0|] eqn:H0; [|apply nth_error_None in H0; lia].
      destruct (in_other a e0 Ak H0) as (g & Hg & E1 & _). rewrite Hf in Hg; inversion Hg; subst g. rewrite E1 in E.
      refine (Fresh e0 0%nat _ _ E); auto. eapply nth_error_In; eauto.
    + assert (L := nth_error_lt _ _ _ Hf). rewrite in_length in L. cbn. lia.
Qed.
Lemma in_border : border_ok ns es -> border_ok ns in_es.
Proof.
  intros [B1 B2]. assert (Ie := nth_error_In _ _ Hk). split.
  - intros f x Hf Hx N. destruct (in_In f Hf) as [[<-|[<-|[<-|[]]]]|(f0 & H0 & E & E' & _ & E2)].
    + case3 x Hx; try discriminate N. exact (B1 e 0%nat Ie ltac:(lia) N).
    + case3 x Hx; try discriminate N. exact (B1 e 1%nat Ie ltac:(lia) N).
    + case3 x Hx; try discriminate N. exact (B1 e 2%nat Ie ltac:(lia) N).
    + rewrite E'. apply B1; auto. now apply E2.
  - intros f x n Hf Hx M D. destruct (in_In f Hf) as [[<-|[<-|[<-|[]]]]|(f0 & H0 & E & E' & _ & E2)].
    + case3 x Hx; try discriminate M. exact (B2 e 0%nat n Ie ltac:(lia) M D).
    + case3 x Hx; try discriminate M. exact (B2 e 1%nat n Ie ltac:(lia) M D).
    + case3 x Hx; try discriminate M. exact (B2 e 2%nat n Ie ltac:(lia) M D).
    + rewrite E' in M. unfold side in D. rewrite E in D. exact (B2 f0 x n H0 Hx M D).
Qed.
Lemma in_corner y : (exists f x, In f in_es /\ (x < 3)%nat /\ at3 (en f) x = y) <-> (y = p \/ exists f x, In f es /\ (x < 3)%nat /\ at3 (en f) x = y).
Proof.
  assert (Ie := nth_error_In _ _ Hk).
  assert (I0 := nth_error_In _ _ in_k). assert (I1 := nth_error_In _ _ in_m).
  split.
  - intros (f & x & Hf & Hx & E). destruct (in_In f Hf) as [[<-|[<-|[<-|[]]]]|(f0 & H0 & E0 & _)].
    + case3 x Hx; [left; symmetry; exact E|right; exists e, 1%nat|right; exists e, 2%nat]; splits; auto.
    + case3 x Hx; [left; symmetry; exact E|right; exists e, 2%nat|right; exists e, 0%nat]; splits; auto.
    + case3 x Hx; [left; symmetry; exact E|right; exists e, 0%nat|right; exists e, 1%nat]; splits; auto.
    + right. exists f0, x. splits; auto. congruence.
  - intros [->|(f & x & Hf & Hx & E)]. { exists i0, 0%nat. splits; auto. }
    apply In_nth_error in Hf. destruct Hf as (a & H).
    destruct (Nat.eq_dec a k) as [->|Ak].
    { rewrite Hk in H; inversion H; subst f. case3 x Hx; [exists i1, 2%nat|exists i0, 1%nat|exists i0, 2%nat]; splits; auto. }
    destruct (in_other a f Ak H) as (g & Hg & E1 & _). exists g, x. splits; auto. eapply nth_error_In; eauto. congruence.
Qed.
End In3.
