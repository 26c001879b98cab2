(** The patch test: the meshes of the mesh generators. *)
From Coq Require Import List Arith ZArith Lia Bool Reals Lra Permutation.
From Verif Require Import Res SumR DenseModel DenseR DenseSpec ShapeModel QuadModel QuadSpec ElemModel ElemSpec PatchSpec.
From Verif Require Import DelaunayModel DelaunaySpec DelaunaySpec2 DelaunaySpec3 DelaunayProof15 PatchProof.
From Verif Require MeshSpec MeshModel MeshMain PatchProof4.
Import ListNotations.
Local Open Scope R_scope.

Definition pair_dec : forall p q : nat * nat, {p = q} + {p <> q}.
Proof. decide equality; apply Nat.eq_dec. Defined.
Definition one (p q : nat * nat) : R := if pair_dec p q then 1 else 0.
Lemma count_cons (a sd : list nat) L : INR (count_occ dec (a :: L) sd) = (if dec a sd then 1 else 0) + INR (count_occ dec L sd).
Proof. cbn [count_occ]. destruct (dec a sd); [rewrite S_INR|]; lra. Qed.
Lemma two_dec a b c d : (if dec [a; b] [c; d] then 1 else 0) = one (a, b) (c, d).
Proof. unfold one. destruct (dec [a; b] [c; d]) as [E|E], (pair_dec (a, b) (c, d)) as [F|F]; auto; exfalso; congruence. Qed.
Lemma count_sides ns es c d : (forall e, In e es -> eact e = true) ->
  INR (count_occ dec (flat_map sides (gen_elements (mkMesh ns es))) [c; d]) = rsum (fun e => one (side e 0) (c, d) + one (side e 1) (c, d) + one (side e 2) (c, d)) es.
Proof.
  unfold gen_elements. cbn [mes]. induction es as [|e es IH]; intros Ac; [reflexivity|]. rewrite rsum_cons, <- IH by auto with datatypes.
  cbn [flat_map]. rewrite (Ac e (or_introl eq_refl)), flat_map_app. cbn [flat_map sides app].
  rewrite !count_cons, !two_dec. unfold side. cbn [nx3 pv3 Nat.add Nat.modulo Nat.divmod fst snd Nat.sub]. lra.
Qed.
Lemma sides_two els sd : (forall e, In e els -> length e = 3%nat) -> In sd (flat_map sides els) -> length sd = 2%nat.
Proof.
  intros H Hs. apply in_flat_map in Hs. destruct Hs as (e & He & Hs). specialize (H e He). destruct e as [|a [|b [|c [|? e]]]]; try discriminate H.
  cbn in Hs. destruct Hs as [<-|[<-|[<-|[]]]]; reflexivity.
Qed.
Lemma delaunay_inner ns es i : topo_ok ns es -> marks_ok es -> (forall e, In e es -> eact e = true) ->
  (forall e j, In e es -> (j < 3)%nat -> at3 (enb e) j = None -> at3 (esd e) j = true) ->
  (forall l, In l (gen_edges (mkMesh ns es)) -> ~ In i l) -> inner (gen_elements (mkMesh ns es)) i.
Proof.
  intros T Mk Ac Un HE sd Hi.
  assert (L3 : forall e, In e (gen_elements (mkMesh ns es)) -> length e = 3%nat).
  { intros e He. unfold gen_elements in He. apply in_flat_map in He. destruct He as (f & _ & Hf). destruct (eact f); [destruct Hf as [<-|[]]; reflexivity|destruct Hf]. }
  destruct (Nat.eq_dec (length sd) 2) as [L2|L2].
  2:{ rewrite !(proj1 (count_occ_not_In dec _ _)); auto; intros H; apply (sides_two _ _ L3) in H; rewrite ?rev_length in H; contradiction. }
  destruct sd as [|a [|b [|? sd]]]; try discriminate L2. cbn [rev app].
  apply INR_eq. rewrite !count_sides by auto. apply Rminus_diag_uniq. rewrite <- rsum_sub.
  pose proof (edges_sum ns es (fun s => one s (a, b) - one s (b, a)) (fun e He => conj (tp_proper _ _ T e He) (Ac e He)) (tp_mutual _ _ T) Mk Un) as ES.
  cbv beta in ES.
  rewrite (rsum_ext _ (fun e => (one (side e 0) (a, b) - one (side e 0) (b, a)) + (one (side e 1) (a, b) - one (side e 1) (b, a)) + (one (side e 2) (a, b) - one (side e 2) (b, a)))) by (intros; lra).
  rewrite <- ES.
  - apply rsum_zero. intros l Hl. specialize (HE l Hl).
    assert (In (nth 0 l 0%nat) l /\ In (nth 1 l 0%nat) l) as [I0 I1].
    { unfold gen_edges in Hl. apply in_flat_map in Hl. destruct Hl as (f & _ & Hf). destruct (eact f); [|destruct Hf]. apply in_flat_map in Hf. destruct Hf as (j & _ & Hj).
      destruct (at3 (esd f) j); [|destruct Hj]. destruct Hj as [<-|[]]. cbn. auto. }
    unfold one. destruct (pair_dec _ (a, b)) as [E|_]; [exfalso; injection E as E1 E2; apply HE; destruct Hi as [<-|[<-|[]]]; congruence|].
    destruct (pair_dec _ (b, a)) as [E|_]; [exfalso; injection E as E1 E2; apply HE; destruct Hi as [<-|[<-|[]]]; congruence|]. lra.
  - intros [c d]. unfold one, rev_side. cbn [fst snd].
    destruct (pair_dec (d, c) (a, b)), (pair_dec (d, c) (b, a)), (pair_dec (c, d) (a, b)), (pair_dec (c, d) (b, a)); try lra; exfalso; congruence.
Qed.
Lemma delaunay_pieces ns es q : topo_ok ns es -> (forall e, In e es -> area2 ns e <> 0) -> triangle_mono q 0 0 -> rule_ok 2 q ->
  forall l, In l (gen_elements (mkMesh ns es)) -> piece_ok (gen_nodes (mkMesh ns es)) (mkPiece sf_3Triangle q l).
Proof.
  intros T AR HQ RQ l Hl. split; [left; auto|]. cbn [p_shape p_rule p_nodes].
  unfold gen_elements in Hl. apply in_flat_map in Hl. destruct Hl as (e & He & Hl). cbn [mes] in He. destruct (eact e); [|destruct Hl]. destruct Hl as [<-|[]].
  assert (ID : forall j, (j < 3)%nat -> (at3 (en e) j < length ns)%nat) by (exact (tp_ids _ _ T e He)).
  assert (NX : forall k, (k < length ns)%nat -> nth k (gen_nodes (mkMesh ns es)) [] = dx (nth k ns (mkNode [] false false)) /\ length (dx (nth k ns (mkNode [] false false))) = 2%nat).
  { intros k Hk. unfold gen_nodes. cbn [mns]. split; [|apply (tp_flat _ _ T), nth_In, Hk]. exact (map_nth dx ns (mkNode [] false false) k). }
  unfold element_ok. splits; auto; try (cbn; tauto).
  - intros k Hk. unfold gen_nodes at 1. cbn [mns]. rewrite map_length.
    assert (Hlt : (k < length ns)%nat) by (cbn in Hk; destruct Hk as [<-|[<-|[<-|[]]]]; [apply (ID 0%nat)|apply (ID 1%nat)|apply (ID 2%nat)]; lia).
    split; auto. destruct (NX k Hlt) as [-> ->]. lia.
  - intros g Hg. set (p := ElemSpec.pt q g). specialize (AR e He). unfold area2, tri2, xy, nxy in AR.
    unfold jac, detd, det2, tangent, dshp, nodal, sf_3Triangle, dN_3Triangle. cbn [sf_d sf_n sf_dN bigsum nth].
    destruct (NX _ (ID 0%nat ltac:(lia))) as [-> _]. destruct (NX _ (ID 1%nat ltac:(lia))) as [-> _]. destruct (NX _ (ID 2%nat ltac:(lia))) as [-> _].
    cbn [fst snd] in AR. intros E. apply AR. etransitivity; [|exact E]. ring.
Qed.
Lemma square_pieces x y nx ny : (0 < nx)%nat -> (0 < ny)%nat -> 0 < x -> 0 < y -> exists nodes elements edges,
  MeshModel.sq_nodes x y nx ny = Ok nodes /\ MeshModel.sq_elements nx ny = Ok elements /\ MeshModel.sq_edges nx ny = Ok edges /\
  (forall q, rule_ok 2 q -> plane_pair sf_4Square q -> forall l, In l elements -> piece_ok nodes (mkPiece sf_4Square q l)) /\
  forall i, (forall l, In l edges -> ~ In i l) -> inner elements i.
Proof.
  intros Hx Hy Px Py. destruct (MeshMain.C50_mesh_pf x y nx ny Hx Hy Px Py) as (nodes & els & edges & E1 & E2 & E3 & CF & BD & TL).
  exists nodes, els, edges. splits; auto.
  - intros q RQ PP l Hl. split; auto. cbn [p_shape p_rule p_nodes]. destruct (proj1 TL l Hl) as (x0 & y0 & x1 & y1 & HR).
    eapply PatchProof4.rect4_ok; eauto. apply CF. exact Hl.
  - intros i Hi. eapply PatchProof4.conforming_inner; eauto.
Qed.
Lemma square2_pieces x y nx ny : (0 < nx)%nat -> (0 < ny)%nat -> 0 < x -> 0 < y -> exists nodes elements edges,
  MeshModel.sq_nodes2 x y nx ny = Ok nodes /\ MeshModel.sq_elements2 nx ny = Ok elements /\ MeshModel.sq_edges2 nx ny = Ok edges /\
  (forall q, rule_ok 2 q -> plane_pair sf_8Square q -> forall l, In l elements -> piece_ok nodes (mkPiece sf_8Square q l)) /\
  forall i, (forall l, In l edges -> ~ In i l) -> inner elements i.
Proof.
  intros Hx Hy Px Py. destruct (MeshMain.C50_mesh2_pf x y nx ny Hx Hy Px Py) as (nodes & els & edges & E1 & E2 & E3 & CF & BD & TL & MD).
  assert (L2 : forall k, (k < length nodes)%nat -> length (nth k nodes []) = 2%nat).
  { assert (nodes = MeshMain.grid_nodes2 (MeshMain.even_X x nx) (MeshMain.even_X y ny) (MeshMain.even_mid x nx) (MeshMain.even_mid y ny) nx ny) as ->.
    { assert (E : MeshModel.sq_nodes2 x y nx ny = Ok (MeshMain.grid_nodes2 (MeshMain.even_X x nx) (MeshMain.even_X y ny) (MeshMain.even_mid x nx) (MeshMain.even_mid y ny) nx ny)).
      { unfold MeshModel.sq_nodes2. apply MeshMain.nodes2_write; intros; rewrite ?MeshMain.frac_ok, ?MeshMain.frac_half_ok by assumption; reflexivity. }
      rewrite E in E1. now injection E1. }
    intros k Hk. apply (nth_In _ []) in Hk. revert Hk. generalize (nth k (MeshMain.grid_nodes2 (MeshMain.even_X x nx) (MeshMain.even_X y ny) (MeshMain.even_mid x nx) (MeshMain.even_mid y ny) nx ny) []). intros z Hk.
    unfold MeshMain.grid_nodes2, MeshMain.grid_nodes, MeshMain.mid_list in Hk.
    rewrite !in_app_iff, !in_map_iff in Hk. destruct Hk as [(c & <- & _)|[(c & <- & _)|(c & <- & _)]]; reflexivity. }
  exists nodes, els, edges. splits; auto.
  - intros q RQ PP l Hl. split; auto. cbn [p_shape p_rule p_nodes]. destruct (proj1 TL l Hl) as (x0 & y0 & x1 & y1 & HR).
    destruct CF as (CF1 & _). destruct (CF1 l Hl) as (LL & _ & LT). eapply PatchProof4.rect8_ok; eauto.
    intros a b m Hm. apply MD. unfold MeshSpec.all_sides2. apply in_flat_map. exists l. auto.
  - intros i Hi. eapply PatchProof4.conforming2_inner; eauto.
Qed.
