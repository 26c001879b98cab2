(** The insertion on a side with the swaps, the longest side and one round of
    the subdivision. *)
From Coq Require Import List Arith ZArith Lia Bool Reals Lra Psatz.
From Verif Require Import Res DenseModel DenseR LUModel DelaunayModel DelaunaySpec DelaunayProof DelaunayProof2 DelaunayProof3 DelaunayProof4 DelaunayProof5.
Import ListNotations.
Local Open Scope R_scope.

(** only the coordinates matter *)
Lemma xy_dx ns i : xy ns i = (nth 0 (nth i (map dx ns) []) 0, nth 1 (nth i (map dx ns) []) 0).
Proof. unfold xy, nxy. change (@nil R) with (dx (mkNode [] false false)). now rewrite map_nth. Qed.
Lemma xy_eq ns ns' i : map dx ns' = map dx ns -> xy ns' i = xy ns i.
Proof. intros H. now rewrite !xy_dx, H. Qed.
Lemma dx_length ns ns' : map dx ns' = map dx ns -> length ns' = length ns.
Proof. intros H. apply (f_equal (@length _)) in H. now rewrite !map_length in H. Qed.
Lemma area2_eq ns ns' e : map dx ns' = map dx ns -> area2 ns' e = area2 ns e.
Proof. intros H. unfold area2. now rewrite !(xy_eq ns ns') by exact H. Qed.
Lemma total2_eq ns ns' es : map dx ns' = map dx ns -> total2 ns' es = total2 ns es.
Proof. intros H. unfold total2. induction es as [|e es IH]; cbn; [reflexivity|]. now rewrite (area2_eq ns ns'), IH by exact H. Qed.
Lemma mesh_eq ns ns' es : map dx ns' = map dx ns -> mesh_ok ns es -> mesh_ok ns' es.
Proof.
  intros H OK. constructor.
  - intros n Hn. assert (Hd : In (dx n) (map dx ns)) by (rewrite <- H; now apply in_map).
    apply in_map_iff in Hd. destruct Hd as (n0 & E & H0). rewrite <- E. now apply (ok_flat _ _ OK).
  - intros e He. rewrite (dx_length ns ns' H). now apply (ok_ids _ _ OK).
  - intros e He. rewrite (area2_eq ns ns') by exact H. now apply (ok_pos _ _ OK).
  - apply (ok_act _ _ OK).
  - apply (ok_link _ _ OK).
Qed.
Lemma settled_eq ns ns' es a : map dx ns' = map dx ns -> settled ns es a -> settled ns' es a.
Proof.
  intros H HS S t T n H1 H2 H3 H4 H5 H6 H7 H8. rewrite !(xy_eq ns ns') in * by exact H. eapply HS; eauto.
Qed.
Lemma star_eq ns ns' es st p : map dx ns' = map dx ns -> star_ok ns es st p -> star_ok ns' es st p.
Proof.
  intros H (S1 & S2 & S3). split; [exact S1|split; [exact S2|]]. intros a e He E. destruct (S3 a e He E); auto. right. now apply (settled_eq ns).
Qed.

(** one more node *)
Lemma xy_app ns n i : (i < length ns)%nat -> xy (ns ++ [n]) i = xy ns i.
Proof. intros H. unfold xy. now rewrite app_nth1. Qed.
Lemma xy_last ns n : xy (ns ++ [n]) (length ns) = nxy n.
Proof. unfold xy. rewrite app_nth2, Nat.sub_diag by lia. reflexivity. Qed.
Lemma area2_app ns n e : ids_ok (length ns) e -> area2 (ns ++ [n]) e = area2 ns e.
Proof. intros H. unfold area2. rewrite !xy_app by (apply H; lia). reflexivity. Qed.
Lemma total2_app ns n es : (forall e, In e es -> ids_ok (length ns) e) -> total2 (ns ++ [n]) es = total2 ns es.
Proof.
  unfold total2. induction es as [|e es IH]; intros H; [reflexivity|]. cbn [fold_right].
  rewrite area2_app, IH; auto; [intros; apply H; cbn; auto|apply H; cbn; auto].
Qed.
Lemma mesh_app ns n es : length (dx n) = 2%nat -> mesh_ok ns es -> mesh_ok (ns ++ [n]) es.
Proof.
  intros Hn OK. constructor.
  - intros x Hx. apply in_app_or in Hx. destruct Hx as [Hx|[<-|[]]]; auto. now apply (ok_flat _ _ OK).
  - intros e He j Hj. rewrite app_length. cbn. assert (H := ok_ids _ _ OK e He j Hj). lia.
  - intros e He. rewrite area2_app by now apply (ok_ids _ _ OK). now apply (ok_pos _ _ OK).
  - apply (ok_act _ _ OK).
  - apply (ok_link _ _ OK).
Qed.
Lemma side_ids ns es e j : mesh_ok ns es -> In e es -> (fst (side e j) < length ns)%nat /\ (snd (side e j) < length ns)%nat.
Proof. intros OK He. split; apply (ok_ids _ _ OK e He); cbn; [apply nx3_lt|apply pv3_lt]. Qed.
Lemma border_app ns n es : mesh_ok ns es -> border_ok ns es -> border_ok (ns ++ [n]) es.
Proof.
  intros OK [B1 B2]. split; [exact B1|]. intros e j x He Hj M D. apply (B2 e j x He Hj M).
  destruct (side_ids ns es e j OK He) as [L1 L2]. rewrite !nth_error_app1 in D by assumption. exact D.
Qed.

Lemma set_onb_ok ns p : (p < length ns)%nat -> exists ns1, set_onb ns p = Ok ns1 /\ map dx ns1 = map dx ns /\ map isset ns1 = map isset ns /\
  forall a n, nth_error ns a = Some n -> exists n1, nth_error ns1 a = Some n1 /\ isonb n1 = isonb n || (a =? p)%nat.
Proof.
  intros H. unfold set_onb. destruct (nth_error ns p) as [n|] eqn:E; [|apply nth_error_None in E; lia].
  rewrite (rd_nth_error _ _ _ E). cbn [bind]. rewrite wr_lt by assumption. eexists. split; [reflexivity|].
  assert (G : forall (B : Type) (f : dnode -> B), f (mkNode (dx n) (isset n) true) = f n -> map f (upd ns p (mkNode (dx n) (isset n) true)) = map f ns).
  { intros B f Hf. clear H. revert ns E. induction p as [|p IH]; intros [|x ns] E; cbn in *; try discriminate.
    - inversion E; subst x. now rewrite Hf.
    - now rewrite (IH ns E). }
  splits.
  - now apply G.
  - now apply G.
  - intros a x Hx. destruct (Nat.eq_dec a p) as [->|Ne].
    + rewrite nth_error_upd_eq by assumption. eexists; split; [reflexivity|]. cbn. now rewrite Nat.eqb_refl, orb_true_r.
    + rewrite nth_error_upd_ne by auto. exists x. split; auto. apply Nat.eqb_neq in Ne. now rewrite Ne, orb_false_r.
Qed.

(** what an insertion at node [p] keeps and gives *)
Record inserted (ns : list dnode) (es : list delem) (p d : nat) (mk : bool) (ns' : list dnode) (es' : list delem) : Prop := mkIns {
  ins_dx : map dx ns' = map dx ns;
  ins_set : map isset ns' = map isset ns;
  ins_onb : forall a n, nth_error ns a = Some n -> exists n', nth_error ns' a = Some n' /\ isonb n' = isonb n || ((a =? p)%nat && mk);
  ins_ok : mesh_ok ns' es';
  ins_total : total2 ns' es' = total2 ns es;
  ins_len : length es' = (length es + d)%nat;
  ins_border : border_ok ns es -> border_ok ns' es';
  ins_corner : forall y, (exists f x, In f es' /\ (x < 3)%nat /\ at3 (en f) x = y) <-> (y = p \/ exists f x, In f es /\ (x < 3)%nat /\ at3 (en f) x = y);
  ins_star : star_ok ns' es' [] p
}.

Section On.
Variables (ns : list dnode) (es : list delem) (k j p : nat) (e : delem) (p1 m1 : Z).
Hypothesis OK : mesh_ok ns es.
Hypothesis Hk : nth_error es k = Some e.
Hypothesis Hj : (j < 3)%nat.
Hypothesis NA : noadj es p1 m1.
Hypothesis Np1 : Z.of_nat p <> p1.
Hypothesis Nm1 : Z.of_nat p <> m1.
Hypothesis Hp : (p < length ns)%nat.
Hypothesis Fresh : forall f x, In f es -> (x < 3)%nat -> at3 (en f) x <> p.
Hypothesis Bt : between (xy ns (at3 (en e) (nx3 j))) (xy ns (at3 (en e) (pv3 j))) (xy ns p).

Lemma mark_node (fl : bool) : exists ns1, (if fl then set_onb ns p else Ok ns) = Ok ns1 /\ map dx ns1 = map dx ns /\ map isset ns1 = map isset ns /\
  forall a n, nth_error ns a = Some n -> exists n1, nth_error ns1 a = Some n1 /\ isonb n1 = isonb n || ((a =? p)%nat && fl).
Proof.
  destruct fl.
  - destruct (set_onb_ok ns p Hp) as (ns1 & H1 & H2 & H3 & H4). exists ns1. splits; auto. intros a n Hn. rewrite andb_true_r. now apply H4.
  - exists ns. splits; auto. intros a n Hn. exists n. rewrite andb_false_r, orb_false_r. auto.
Qed.
Lemma onb_back ns1 (fl : bool) : map dx ns1 = map dx ns ->
  (forall a n, nth_error ns a = Some n -> exists n1, nth_error ns1 a = Some n1 /\ isonb n1 = isonb n || ((a =? p)%nat && fl)) ->
  (forall a n, nth_error ns1 a = Some n -> exists n0, nth_error ns a = Some n0 /\ (isonb n0 = true -> isonb n = true)) /\
  (fl = true -> forall n, nth_error ns1 p = Some n -> isonb n = true).
Proof.
  intros Hd H. split.
  - intros a n Hn. assert (L := nth_error_lt _ _ _ Hn). rewrite (dx_length ns ns1 Hd) in L.
    destruct (nth_error ns a) as [n0|] eqn:E; [|apply nth_error_None in E; lia]. exists n0. split; auto.
    destruct (H a n0 E) as (n1 & E1 & E2). rewrite Hn in E1; inversion E1; subst n1. intros B. now rewrite E2, B.
  - intros Hf n Hn. destruct (nth_error ns p) as [n0|] eqn:E; [|apply nth_error_None in E; lia].
    destruct (H p n0 E) as (n1 & E1 & E2). rewrite Hn in E1; inversion E1; subst n1. now rewrite E2, Nat.eqb_refl, Hf, orb_true_r.
Qed.

Lemma getelementon_ok : exists N ns' es',
  (forall fuel, (N <= fuel)%nat -> getelementon fuel (mkMesh ns es) k j p1 p m1 = Ok (mkMesh ns' es')) /\
  inserted ns es p (match at3 (enb e) j with Some _ => 2 | None => 1 end) (at3 (esd e) j) ns' es'.
Proof.
  unfold getelementon, split_on. cbn [mns mes]. rewrite (rd_nth_error _ _ _ Hk). cbn [bind].
  destruct (mark_node (at3 (esd e) j)) as (ns1 & Hn & Hd & Hs & Hb).
  destruct (onb_back ns1 _ Hd Hb) as [Hb1 Hb2].
  destruct (at3 (enb e) j) as [t|] eqn:Nk.
  - destruct (ok_link _ _ OK k e j t Hk Hj Nk) as (e' & i & Ht & Hi & Nt & _).
    rewrite (rd_nth_error _ _ _ Ht). cbn [bind]. rewrite (ok_act _ _ OK e' (nth_error_In _ _ Ht)).
    assert (SP : split_on2 ns es k t j p p1 m1 = Ok (ns1, on2_es es k t i j p e e', [length es + 1; length es; t; k]%nat)) by (eapply split_on2_ok; eauto).
    rewrite SP. cbn [bind].
    set (es1 := on2_es es k t i j p e e').
    assert (O1 : mesh_ok ns es1) by (unfold es1; eapply on2_mesh_ok; eauto).
    assert (O2 : noadj es1 p1 m1) by (unfold es1; eapply on2_noadj; eauto).
    assert (O3 : star_ok ns es1 [length es + 1; length es; t; k]%nat p) by (unfold es1; eapply on2_star; eauto).
    assert (O4 : length es1 = (length es + 2)%nat) by (unfold es1; eapply on2_length; eauto).
    assert (Lk := nth_error_lt _ _ _ Hk). assert (Lt := nth_error_lt _ _ _ Ht).
    destruct (swapping_ok ns1 p1 m1 p _ es1 eq_refl [length es + 1; length es; t; k]%nat) as (N & es' & S1 & S2 & S3 & S4 & S5 & S6 & S7 & S8).
    + now apply (mesh_eq ns).
    + exact O2.
    + intros s Hs'. rewrite O4. cbn in Hs'. lia.
    + now apply (star_eq ns).
    + exists N, ns1, es'. split. { intros fuel Hf. rewrite S1 by exact Hf. reflexivity. }
      constructor; auto.
      * rewrite S5, (total2_eq ns ns1) by exact Hd. unfold es1. eapply on2_total; eauto.
      * lia.
      * intros B. apply S6. unfold es1. eapply on2_border; eauto.
      * intros y. rewrite <- S7. unfold es1. eapply on2_corner; eauto.
  - assert (SP : split_on1 ns es k j p p1 m1 = Ok (ns1, on1_es es k j p e, [length es; k]%nat)) by (eapply split_on1_ok; eauto).
    rewrite SP. cbn [bind].
    set (es1 := on1_es es k j p e).
    assert (O1 : mesh_ok ns es1) by (unfold es1; eapply on1_mesh_ok; eauto).
    assert (O2 : noadj es1 p1 m1) by (unfold es1; eapply on1_noadj; eauto).
    assert (O3 : star_ok ns es1 [length es; k]%nat p) by (unfold es1; eapply on1_star; eauto).
    assert (O4 : length es1 = (length es + 1)%nat) by (unfold es1; eapply on1_length; eauto).
    assert (Lk := nth_error_lt _ _ _ Hk).
    destruct (swapping_ok ns1 p1 m1 p _ es1 eq_refl [length es; k]%nat) as (N & es' & S1 & S2 & S3 & S4 & S5 & S6 & S7 & S8).
    + now apply (mesh_eq ns).
    + exact O2.
    + intros s Hs'. rewrite O4. cbn in Hs'. lia.
    + now apply (star_eq ns).
    + exists N, ns1, es'. split. { intros fuel Hf. rewrite S1 by exact Hf. reflexivity. }
      constructor; auto.
      * rewrite S5, (total2_eq ns ns1) by exact Hd. unfold es1. eapply on1_total; eauto.
      * lia.
      * intros B. apply S6. unfold es1. eapply on1_border; eauto.
      * intros y. rewrite <- S7. unfold es1. eapply on1_corner; eauto.
Qed.
End On.

Lemma getelementin_ok ns es k p e p1 m1 : mesh_ok ns es -> nth_error es k = Some e -> noadj es p1 m1 -> Z.of_nat p <> p1 -> Z.of_nat p <> m1 ->
  (p < length ns)%nat -> (forall f x, In f es -> (x < 3)%nat -> at3 (en f) x <> p) ->
  0 < tri2 (xy ns (at3 (en e) 0)) (xy ns (at3 (en e) 1)) (xy ns p) ->
  0 < tri2 (xy ns (at3 (en e) 1)) (xy ns (at3 (en e) 2)) (xy ns p) ->
  0 < tri2 (xy ns (at3 (en e) 2)) (xy ns (at3 (en e) 0)) (xy ns p) ->
  exists N es', (forall fuel, (N <= fuel)%nat -> getelementin fuel (mkMesh ns es) k p1 p m1 = Ok (mkMesh ns es')) /\
    inserted ns es p 2 false ns es'.
Proof.
  intros OK Hk NA Np1 Nm1 Hp Fresh T0 T1 T2.
  unfold getelementin. cbn [mns mes].
  assert (SP : split_in es k p p1 m1 = Ok (in_es es k p e, [length es + 1; length es; k]%nat)) by (eapply split_in_ok; eauto).
  rewrite SP. cbn [bind]. set (es1 := in_es es k p e).
  assert (O1 : mesh_ok ns es1) by (unfold es1; eapply in_mesh_ok; eauto).
  assert (O2 : noadj es1 p1 m1) by (unfold es1; eapply in_noadj; eauto).
  assert (O3 : star_ok ns es1 [length es + 1; length es; k]%nat p) by (unfold es1; eapply in_star; eauto).
  assert (O4 : length es1 = (length es + 2)%nat) by (unfold es1; eapply in_length; eauto).
  assert (Lk := nth_error_lt _ _ _ Hk).
  destruct (swapping_ok ns p1 m1 p _ es1 eq_refl [length es + 1; length es; k]%nat) as (N & es' & S1 & S2 & S3 & S4 & S5 & S6 & S7 & S8); auto.
  { intros s Hs'. rewrite O4. cbn in Hs'. lia. }
  exists N, es'. split. { intros fuel Hf. rewrite S1 by exact Hf. reflexivity. }
  constructor; auto.
  - intros a n Hn. exists n. rewrite andb_false_r, orb_false_r. auto.
  - rewrite S5. unfold es1. eapply in_total; eauto.
  - lia.
  - intros B. apply S6. unfold es1. eapply in_border; eauto.
  - intros y. rewrite <- S7. unfold es1. eapply in_corner; eauto.
Qed.

(** the longest side *)
Notation len := side_len (only parsing).

Definition best (ns : list dnode) (l : list (nat * delem)) (acc : R * nat * nat) : Prop :=
  (acc = (0, 0%nat, 0%nat) \/ exists e k, In (snd (fst acc), e) l /\ (k < 3)%nat /\ snd acc = k /\ fst (fst acc) = len ns e k) /\
  (forall j e k, In (j, e) l -> (k < 3)%nat -> len ns e k <= fst (fst acc)).

Lemma longest_inner ns j e acc l : flat ns -> ids_ok (length ns) e -> eact e = true -> best ns l acc -> exists acc',
  foldM (fun acc k =>
      a <- rd ns (at3 (en e) (nx3 k)) ;; b <- rd ns (at3 (en e) (pv3 k)) ;;
      d <- ndist a b ;;
      Ok (if Rltb (fst (fst acc)) d && eact e then (d, j, k) else acc)) [0; 1; 2]%nat acc = Ok acc' /\ best ns (l ++ [(j, e)]) acc'.
Proof.
  intros F Hi Ha [B1 B2].
  assert (Step : forall k (acc : R * nat * nat), (k < 3)%nat -> (a <- rd ns (at3 (en e) (nx3 k)) ;; b <- rd ns (at3 (en e) (pv3 k)) ;;
      d <- ndist a b ;; Ok (if Rltb (fst (fst acc)) d && eact e then (d, j, k) else acc)) = Ok (if Rltb (fst (fst acc)) (len ns e k) then (len ns e k, j, k) else acc)).
  { intros k ac Hk.
    destruct (flat_rd ns (at3 (en e) (nx3 k)) F (Hi _ (nx3_lt k))) as (a & Ra & La & Xa).
    destruct (flat_rd ns (at3 (en e) (pv3 k)) F (Hi _ (pv3_lt k))) as (b & Rb & Lb & Xb).
    rewrite Ra, Rb. cbn [bind]. rewrite ndist_ok by assumption. cbn [bind]. rewrite Xa, Xb, Ha, andb_true_r. reflexivity. }
  cbn [foldM]. rewrite (Step 0%nat) by lia. cbn [bind]. rewrite (Step 1%nat) by lia. cbn [bind]. rewrite (Step 2%nat) by lia. cbn [bind].
  assert (One : forall k l' ac, (k < 3)%nat -> (ac = (0, 0%nat, 0%nat) \/ exists e0 k0, In (snd (fst ac), e0) (l ++ [(j, e)]) /\ (k0 < 3)%nat /\ snd ac = k0 /\ fst (fst ac) = len ns e0 k0) ->
     (forall x, In x l' -> x <= fst (fst ac)) ->
     let ac' := if Rltb (fst (fst ac)) (len ns e k) then (len ns e k, j, k) else ac in
     (ac' = (0, 0%nat, 0%nat) \/ exists e0 k0, In (snd (fst ac'), e0) (l ++ [(j, e)]) /\ (k0 < 3)%nat /\ snd ac' = k0 /\ fst (fst ac') = len ns e0 k0) /\
     (forall x, In x l' -> x <= fst (fst ac')) /\ len ns e k <= fst (fst ac') /\ fst (fst ac) <= fst (fst ac')).
  { intros k l' ac Hk C1 C2 ac'. unfold ac'. destruct (Rltb (fst (fst ac)) (len ns e k)) eqn:Q.
    - apply Rltb_t in Q. splits; cbn [fst snd]; try lra.
      + right. exists e, k. splits; auto. apply in_or_app. right. cbn. auto.
      + intros x Hx. apply C2 in Hx. lra.
    - apply Rltb_f in Q. splits; auto; lra. }
  set (a0 := if Rltb (fst (fst acc)) (len ns e 0) then (len ns e 0, j, 0%nat) else acc).
  set (a1 := if Rltb (fst (fst a0)) (len ns e 1) then (len ns e 1, j, 1%nat) else a0).
  set (a2 := if Rltb (fst (fst a1)) (len ns e 2) then (len ns e 2, j, 2%nat) else a1).
  assert (B1' : acc = (0, 0%nat, 0%nat) \/ exists e0 k0, In (snd (fst acc), e0) (l ++ [(j, e)]) /\ (k0 < 3)%nat /\ snd acc = k0 /\ fst (fst acc) = len ns e0 k0).
  { destruct B1 as [B1|(e0 & k0 & H1 & H2)]; auto. right. exists e0, k0. split; auto. apply in_or_app; auto. }
  destruct (One 0%nat [] acc ltac:(lia) B1' ltac:(intros ? [])) as (C1 & _ & C3 & C4). fold a0 in C1, C3, C4.
  destruct (One 1%nat [] a0 ltac:(lia) C1 ltac:(intros ? [])) as (D1 & _ & D3 & D4). fold a1 in D1, D3, D4.
  destruct (One 2%nat [] a1 ltac:(lia) D1 ltac:(intros ? [])) as (E1 & _ & E3 & E4). fold a2 in E1, E3, E4.
  exists a2. split; [reflexivity|]. split; [exact E1|].
  intros j0 e0 k Hin Hk. apply in_app_or in Hin. destruct Hin as [Hin|[Hin|[]]].
  - specialize (B2 j0 e0 k Hin Hk). lra.
  - inversion Hin; subst j0 e0. case3 k Hk; lra.
Qed.

Lemma len_pos ns es e k : mesh_ok ns es -> In e es -> (k < 3)%nat -> 0 < len ns e k.
Proof.
  intros OK He Hk. assert (P := ok_pos _ _ OK e He). rewrite (area2_rot ns e k Hk) in P.
  unfold side_len, pdist, side. cbn [fst snd]. apply sqrt_lt_R0. unfold tri2 in P.
  set (a := xy ns (at3 (en e) k)) in *. set (b := xy ns (at3 (en e) (nx3 k))) in *. set (c := xy ns (at3 (en e) (pv3 k))) in *.
  destruct (Req_dec (fst b) (fst c)) as [Ex|Ex]; [destruct (Req_dec (snd b) (snd c)) as [Ey|Ey]|].
  - rewrite Ex, Ey in P. lra.
  - assert (0 < (snd b - snd c) * (snd b - snd c)) by (apply Rsqr_pos_lt; lra). assert (H1 := Rle_0_sqr (fst b - fst c)). unfold Rsqr in H1. lra.
  - assert (0 < (fst b - fst c) * (fst b - fst c)) by (apply Rsqr_pos_lt; lra). assert (H1 := Rle_0_sqr (snd b - snd c)). unfold Rsqr in H1. lra.
Qed.

Lemma In_index {A} (l : list A) s i x : In (i, x) (combine (seq s (length l)) l) -> (s <= i)%nat /\ nth_error l (i - s) = Some x.
Proof.
  revert s. induction l as [|y l IH]; intros s H; cbn in H; [tauto|]. destruct H as [H|H].
  - inversion H; subst. rewrite Nat.sub_diag. auto.
  - destruct (IH _ H) as [H1 H2]. split; [lia|]. replace (i - s)%nat with (S (i - S s)) by lia. exact H2.
Qed.
Lemma index_In {A} (l : list A) s i x : nth_error l i = Some x -> In ((s + i)%nat, x) (combine (seq s (length l)) l).
Proof.
  revert s i. induction l as [|y l IH]; intros s [|i] H; cbn in *; try discriminate.
  - inversion H. rewrite Nat.add_0_r. auto.
  - right. replace (s + S i)%nat with (S s + i)%nat by lia. now apply IH.
Qed.

Lemma foldM_cons {A S} (f : S -> A -> res S) x l a : foldM f (x :: l) a = (b <- f a x ;; foldM f l b).
Proof. reflexivity. Qed.

Lemma longest_ok ns es : mesh_ok ns es -> es <> [] -> exists d k j e,
  longest (mkMesh ns es) = Ok (d, k, j) /\ nth_error es k = Some e /\ (j < 3)%nat /\ d = len ns e j /\
  forall f i, In f es -> (i < 3)%nat -> len ns f i <= d.
Proof.
  intros OK Ne. unfold longest. cbn [mns mes].
  assert (G : forall l' l acc, (forall q, In q l' -> In (snd q) es) -> best ns l acc -> exists acc',
    foldM (fun acc q => let j := fst q in let e := snd q in foldM (fun acc k =>
      a <- rd ns (at3 (en e) (nx3 k)) ;; b <- rd ns (at3 (en e) (pv3 k)) ;;
      d <- ndist a b ;;
      Ok (if Rltb (fst (fst acc)) d && eact e then (d, j, k) else acc)) [0; 1; 2]%nat acc) l' acc = Ok acc' /\ best ns (l ++ l') acc').
  { induction l' as [|[j e] l' IH]; intros l acc Hl B.
    - exists acc. rewrite app_nil_r. auto.
    - rewrite foldM_cons. cbn zeta beta. cbn [fst snd]. assert (He : In e es) by (apply (Hl (j, e)); cbn; auto).
      destruct (longest_inner ns j e acc l (ok_flat _ _ OK) (ok_ids _ _ OK e He) (ok_act _ _ OK e He) B) as (acc1 & -> & B').
      cbn [bind]. destruct (IH (l ++ [(j, e)]) acc1) as (acc2 & H & B2); auto. intros q Hq; apply Hl; cbn; auto.
      exists acc2. split; auto. now rewrite <- app_assoc in B2. }
  destruct (G (combine (seq 0 (length es)) es) [] (0, 0%nat, 0%nat)) as ([[d k] j] & H & B1 & B2).
  - intros [i f] Hq. apply In_index in Hq. destruct Hq as [_ Hq]. cbn. eapply nth_error_In; eauto.
  - split; auto. intros ? ? ? [].
  - cbn [app] in B1, B2. assert (Le : forall f i, In f es -> (i < 3)%nat -> len ns f i <= d).
    { intros f i Hf Hi. apply In_nth_error in Hf. destruct Hf as (a & Ha). apply (B2 (0 + a)%nat f i); auto. now apply index_In. }
    destruct B1 as [B1|(e & k0 & H1 & H2 & H3 & H4)].
    + exfalso. inversion B1; subst. destruct es as [|f es]; [congruence|].
      assert (L := Le f 0%nat ltac:(cbn; auto) ltac:(lia)). assert (P := len_pos _ _ f 0%nat OK ltac:(cbn; auto) ltac:(lia)). lra.
    + cbn [fst snd] in *. subst k0. exists d, k, j, e. apply In_index in H1. destruct H1 as [_ H1]. rewrite Nat.sub_0_r in H1. splits; auto.
Qed.

(** one round of the subdivision *)
Lemma refine_ok ns es : mesh_ok ns es -> es <> [] -> exists d k j e N ns' es',
  nth_error es k = Some e /\ (j < 3)%nat /\ d = len ns e j /\ (forall f i, In f es -> (i < 3)%nat -> len ns f i <= d) /\
  (forall fuel, (N <= fuel)%nat -> refine fuel (mkMesh ns es) = Ok (d, mkMesh ns' es')) /\
  exists n, nxy n = ((fst (xy ns (at3 (en e) (nx3 j))) + fst (xy ns (at3 (en e) (pv3 j)))) / 2, (snd (xy ns (at3 (en e) (nx3 j))) + snd (xy ns (at3 (en e) (pv3 j)))) / 2) /\
  length (dx n) = 2%nat /\ isset n = false /\ isonb n = false /\
  inserted (ns ++ [n]) es (length ns) (match at3 (enb e) j with Some _ => 2 | None => 1 end) (at3 (esd e) j) ns' es' /\
  total2 ns' es' = total2 ns es.
Proof.
  intros OK Ne. destruct (longest_ok ns es OK Ne) as (d & k & j & e & HL & Hk & Hj & Hd & Hm).
  assert (He := nth_error_In _ _ Hk).
  destruct (flat_rd ns (at3 (en e) (nx3 j)) (ok_flat _ _ OK) (ok_ids _ _ OK e He _ (nx3_lt j))) as (a & Ra & La & Xa).
  destruct (flat_rd ns (at3 (en e) (pv3 j)) (ok_flat _ _ OK) (ok_ids _ _ OK e He _ (pv3_lt j))) as (b & Rb & Lb & Xb).
  destruct a as [xa sa ba]. destruct b as [xb sb bb]. cbn [dx] in La, Lb.
  destruct xa as [|a0 [|a1 [|]]]; try discriminate La. destruct xb as [|b0 [|b1 [|]]]; try discriminate Lb.
  set (n := node_of [(a0 + b0) * (1 / 2); (a1 + b1) * (1 / 2)]).
  assert (Xn : nxy n = ((a0 + b0) / 2, (a1 + b1) / 2)). { unfold n, nxy. cbn. f_equal; lra. }
  assert (OK1 : mesh_ok (ns ++ [n]) es) by (apply mesh_app; auto).
  destruct (getelementon_ok (ns ++ [n]) es k j (length ns) e (-2) (-2)) as (N & ns' & es' & G & I); auto.
  - apply noadj_m2.
  - lia.
  - lia.
  - rewrite app_length. cbn. lia.
  - intros f x Hf Hx E. assert (L := ok_ids _ _ OK f Hf x Hx). lia.
  - rewrite xy_last, !xy_app by (apply (ok_ids _ _ OK e He); first [apply nx3_lt|apply pv3_lt]).
    rewrite Xn, <- Xa, <- Xb. exists (1 / 2). cbn. splits; lra.
  - exists d, k, j, e, N, ns', es'. splits; auto.
    + intros fuel Hf. unfold refine. rewrite HL. cbn [bind mes mns]. rewrite (rd_nth_error _ _ _ Hk). cbn [bind].
      rewrite Ra, Rb. cbn [bind dx].
      change (vadd R_ops [a0; a1] [b0; b1]) with (Ok [a0 + b0; a1 + b1]). cbn [bind].
      change (node_of (vscal R_ops (1 / 2) [a0 + b0; a1 + b1])) with n.
      rewrite app_length. cbn [length]. replace (length ns + 1 - 1)%nat with (length ns) by lia. rewrite G by exact Hf. reflexivity.
    + exists n. splits; auto.
      * rewrite Xn, <- Xa, <- Xb. reflexivity.
      * rewrite (ins_total _ _ _ _ _ _ _ I). apply total2_app. apply (ok_ids _ _ OK).
Qed.
