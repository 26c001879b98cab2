(** Property C101: the smoothing of the triangle mesher: the proofs. *)
From Coq Require Import List Arith ZArith Lia Bool Reals Lra.
From Verif Require Import Res DenseModel DenseR LUModel DelaunayModel DelaunaySpec DelaunaySpec2 DelaunayMain.
Import ListNotations.
Local Open Scope R_scope.
From Verif Require Import DelaunayProof DelaunayProof2 DelaunayProof6 DelaunayProof7 DelaunayProof8 DelaunayProof9.

(** ** an arrow head of four boundary nodes around one interior node *)
Definition arrow_nodes : list dnode :=
  [sq_node (-6) (-6); sq_node 0 3; sq_node 6 (-6); sq_node 0 4; node_xy 0 (7 / 2)].
Definition arrow_elems : list delem :=
  [mkElem (A3 4 0 1)%nat (A3 None (Some 1%nat) (Some 3%nat)) (A3 true false false) true true;
   mkElem (A3 4 1 2)%nat (A3 None (Some 2%nat) (Some 0%nat)) (A3 true false false) true true;
   mkElem (A3 4 2 3)%nat (A3 None (Some 3%nat) (Some 1%nat)) (A3 true false false) true true;
   mkElem (A3 4 3 0)%nat (A3 None (Some 0%nat) (Some 2%nat)) (A3 true false false) true true].
Lemma arrow_flat : flat arrow_nodes.
Proof. intros n Hn. repeat (destruct Hn as [<-|Hn]; [reflexivity|]). destruct Hn. Qed.
Lemma arrow_ids e : In e arrow_elems -> ids_ok (length arrow_nodes) e.
Proof. intros He j Hj. repeat (destruct He as [<-|He]; [case3 j Hj; cbn; lia|]). destruct He. Qed.
Ltac link_to a j := match goal with |- exists e' j', nth_error ?l _ = _ /\ _ =>
  let x := eval cbv in (nth_error l a) in match x with Some ?y => exists y, j end end; splits; auto.
Lemma arrow_ok : mesh_ok arrow_nodes arrow_elems.
Proof.
  constructor.
  - exact arrow_flat.
  - exact arrow_ids.
  - intros e He. repeat (destruct He as [<-|He]; [unfold area2, tri2, xy, nxy; cbn; lra|]). destruct He.
  - intros e He. repeat (destruct He as [<-|He]; [reflexivity|]). destruct He.
  - intros a e j b He Hj Nb. destruct a as [|[|[|[|a]]]]; [| | | |destruct a; discriminate He]; inversion He; subst e; case3 j Hj; try discriminate Nb; inversion Nb; subst b.
    + link_to 1%nat 2%nat.
    + link_to 3%nat 1%nat.
    + link_to 2%nat 2%nat.
    + link_to 0%nat 1%nat.
    + link_to 3%nat 2%nat.
    + link_to 1%nat 1%nat.
    + link_to 0%nat 2%nat.
    + link_to 2%nat 1%nat.
Qed.
Lemma arrow_topo : topo_ok arrow_nodes arrow_elems.
Proof. exact (mesh_topo _ _ arrow_ok). Qed.
Lemma arrow_border : border_ok arrow_nodes arrow_elems.
Proof.
  split.
  - intros e j He Hj. repeat (destruct He as [<-|He]; [case3 j Hj; cbn; congruence|]). destruct He.
  - intros e j n He Hj M D. repeat (destruct He as [<-|He]; [case3 j Hj; try discriminate M; cbn in D; destruct D as [D|D]; inversion D; reflexivity|]). destruct He.
Qed.
Lemma arrow_cover : cover_ok arrow_nodes arrow_elems.
Proof.
  intros i n Hn Bn. destruct i as [|[|[|[|[|i]]]]]; try (inversion Hn; subst n; discriminate Bn); [|destruct i; discriminate Hn].
  eexists _, 0%nat. split; [left; reflexivity|]. auto.
Qed.
Lemma arrow_smooth : exists n, laplacesmoothing 4 (mkMesh arrow_nodes arrow_elems) = Ok (mkMesh (upd arrow_nodes 4 n) arrow_elems) /\ nxy n = (0, -5 / 4).
Proof.
  destruct (move_node_ok arrow_nodes arrow_elems 4 (node_xy 0 (7 / 2)) arrow_flat arrow_ids (tp_proper _ _ (mesh_topo _ _ arrow_ok)) eq_refl [0; 1; 2; 3]%nat) as (n & H & _ & _ & _ & Xn).
  - discriminate.
  - intros a Ha. repeat (destruct Ha as [<-|Ha]; [eexists _, 0%nat; split; [reflexivity|]; auto|]). destruct Ha.
  - exists n. split.
    + unfold laplacesmoothing. change (mns (mkMesh arrow_nodes arrow_elems)) with arrow_nodes. change (mes (mkMesh arrow_nodes arrow_elems)) with arrow_elems.
      change (seq 0 (length arrow_nodes)) with [0; 1; 2; 3; 4]%nat.
      rewrite foldM_cons. change (rd arrow_nodes 0) with (Ok (sq_node (-6) (-6))). cbn [bind isonb sq_node].
      rewrite foldM_cons. change (rd arrow_nodes 1) with (Ok (sq_node 0 3)). cbn [bind isonb sq_node].
      rewrite foldM_cons. change (rd arrow_nodes 2) with (Ok (sq_node 6 (-6))). cbn [bind isonb sq_node].
      rewrite foldM_cons. change (rd arrow_nodes 3) with (Ok (sq_node 0 4)). cbn [bind isonb sq_node].
      rewrite foldM_cons. change (rd arrow_nodes 4) with (Ok (node_xy 0 (7 / 2))). cbn [bind isonb node_xy node_of].
      change (start_elem arrow_elems 4) with 0%nat. change (around 4 arrow_elems 4 0 0) with (Ok [0; 1; 2; 3]%nat). cbn [bind].
      cbv zeta. rewrite H. reflexivity.
    + rewrite Xn. change (afters arrow_elems 4 [0; 1; 2; 3]%nat) with [0; 1; 2; 3]%nat. cbn [map].
      unfold mean. cbn [length fold_right]. unfold xy, nxy. cbn [nth arrow_nodes sq_node dx fst snd]. cbn [INR]. f_equal; field.
Qed.


Lemma C101_smoothing_pf : forall ns es, topo_ok ns es -> border_ok ns es -> cover_ok ns es ->
  exists ns', (forall fuel, (length es <= fuel)%nat -> laplacesmoothing fuel (mkMesh ns es) = Ok (mkMesh ns' es)) /\
    length ns' = length ns /\ topo_ok ns' es /\ border_ok ns' es /\ cover_ok ns' es /\ total2 ns' es = total2 ns es /\
    (forall i, onb ns' i = onb ns i) /\
    (forall i, onb ns i = true -> xy ns' i = xy ns i) /\
    (forall i, (i < length ns)%nat -> onb ns i = false -> exists l, ring es i l /\
       xy ns' i = mean (map (fun q => if (q <? i)%nat then xy ns' q else xy ns q) (afters es i l))).
Proof.
  intros ns es OK B C. destruct (smooth_ok ns es OK B C) as (s & H & Sm). assert (Sm' := Sm). destruct Sm' as [L F Se On La Fx To Me].
  assert (Back : forall i n, nth_error s i = Some n -> exists n0, nth_error ns i = Some n0 /\ isonb n = isonb n0).
  { intros i n Hn. destruct (nth_error ns i) as [n0|] eqn:E.
    - exists n0. split; auto. rewrite <- (onb_nth _ _ _ Hn), <- (onb_nth _ _ _ E), !onb_map. now rewrite On.
    - apply nth_error_None in E. apply nth_error_lt in Hn. lia. }
  exists s. splits; auto.
  - constructor; [exact F| |apply (tp_proper _ _ OK)|apply (tp_mutual _ _ OK)]. intros e He. rewrite L. now apply (tp_ids _ _ OK).
  - destruct B as [B1 B2]. split; [exact B1|]. intros e j n He Hj M D.
    destruct D as [D|D]; destruct (Back _ _ D) as (n0 & E & ->); apply (B2 e j n0 He Hj M); auto.
  - intros i n Hn Bn. destruct (Back _ _ Hn) as (n0 & E & E2). apply (C i n0 E). congruence.
  - intros i. rewrite !onb_map. now rewrite On.
Qed.

Lemma C101_half_plane_pf : forall ns es u v w ns' fuel, topo_ok ns es -> border_ok ns es -> cover_ok ns es ->
  (length es <= fuel)%nat -> laplacesmoothing fuel (mkMesh ns es) = Ok (mkMesh ns' es) ->
  (forall i, (i < length ns)%nat -> half_plane u v w (xy ns i)) ->
  forall i, (i < length ns)%nat -> half_plane u v w (xy ns' i).
Proof.
  intros ns es u v w ns' fuel OK B C Hf H Hh. destruct (smooth_ok ns es OK B C) as (s & H' & Sm). rewrite (H' fuel Hf) in H. inversion H; subst s.
  now apply (smoothed_half ns es).
Qed.

Lemma C101_repeated_pf : forall m ns es, topo_ok ns es -> border_ok ns es -> cover_ok ns es ->
  exists ns', (forall fuel, (length es <= fuel)%nat -> foldM (fun M (_ : nat) => laplacesmoothing fuel M) (seq 0 m) (mkMesh ns es) = Ok (mkMesh ns' es)) /\
    length ns' = length ns /\ topo_ok ns' es /\ border_ok ns' es /\ cover_ok ns' es /\ total2 ns' es = total2 ns es /\
    (forall i, onb ns' i = onb ns i) /\ (forall i, onb ns i = true -> xy ns' i = xy ns i) /\
    (forall u v w, (forall i, (i < length ns)%nat -> half_plane u v w (xy ns i)) -> forall i, (i < length ns)%nat -> half_plane u v w (xy ns' i)).
Proof.
  induction m as [|m IH]; intros ns es OK B C.
  { exists ns. splits; auto. }
  destruct (IH ns es OK B C) as (s & H & L & OK1 & B1 & C1 & T1 & O1 & X1 & P1).
  destruct (C101_smoothing_pf s es OK1 B1 C1) as (s2 & H2 & L2 & OK2 & B2 & C2 & T2 & O2 & X2 & _).
  exists s2. splits; auto.
  - intros fuel Hf. rewrite seq_S, foldM_app, H by exact Hf. cbn [bind]. rewrite foldM_cons, H2 by exact Hf. reflexivity.
  - lia.
  - lra.
  - intros i. now rewrite O2.
  - intros i Hi. rewrite X2, X1; auto. now rewrite O1.
  - intros u v w Hh i Hi. refine (C101_half_plane_pf s es u v w s2 (length es) OK1 B1 C1 (le_n _) (H2 _ (le_n _)) _ i _); [|lia]. intros q Hq. apply P1; auto. lia.
Qed.

Lemma C101_turns_over_pf : exists ns es ns' e,
  mesh_ok ns es /\ border_ok ns es /\ cover_ok ns es /\ laplacesmoothing (length es) (mkMesh ns es) = Ok (mkMesh ns' es) /\
  In e es /\ area2 ns' e < 0.
Proof.
  destruct arrow_smooth as (n & H & Xn). exists arrow_nodes, arrow_elems, (upd arrow_nodes 4 n). eexists.
  split; [exact arrow_ok|]. split; [exact arrow_border|]. split; [exact arrow_cover|]. split; [exact H|]. split; [left; reflexivity|].
  unfold area2. cbn [en at3 a30 a31 a32]. rewrite xy_upd_eq, !xy_upd_ne, Xn by (cbn; lia). unfold tri2, xy, nxy. cbn. lra.
Qed.
