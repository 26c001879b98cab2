(** The mesh of the sample is an admissible problem. *)
From Coq Require Import List Arith Lia Bool Reals Lra ZArith.
From Verif Require Import Res SumR DenseModel DenseSpec ShapeModel QuadModel QuadSpec ElemModel ElemSpec AssemblyModel AssemblySpec PatchSpec StableSpec MeshModel MeshSpec GenModel GenSpec TopModel TopSpec LoopModel LoopSpec.
From Verif Require Import MeshProof MeshMain GenMain StableMain FilterMain LoopProof.
Import ListNotations.
Local Open Scope R_scope.

Lemma in_dof_list f i j v : In (i, j, v) (dof_list f) <-> exists u, In ((i, u), v) f /\ j = Z.to_nat u.
Proof.
  unfold dof_list. rewrite in_map_iff. split.
  - intros ([[k u] x] & E & H). cbn [fst snd] in E. injection E as <- <- <-. eauto.
  - intros (u & H & ->). exists ((i, u), v). auto.
Qed.
Lemma in_fixed nodes ul pred k u v : In ((k, u), v) (fixed_nodes nodes ul pred) <-> (k < length nodes)%nat /\ pred (nth k nodes []) = true /\ In u ul /\ v = 0.
Proof.
  unfold fixed_nodes. rewrite in_flat_map. split.
  - intros (k' & Hk & H). apply in_seq in Hk. destruct (pred (nth k' nodes [])) eqn:E; [|destruct H]. apply in_map_iff in H. destruct H as (u' & E' & Hu). injection E' as <- <- <-. splits; auto; lia.
  - intros (Hk & Hp & Hu & ->). exists k. split; [apply in_seq; lia|]. rewrite Hp. apply in_map_iff. eauto.
Qed.
Lemma nth_map_seq_d {A} (f : nat -> A) n i (d : A) : (i < n)%nat -> nth i (map f (seq 0 n)) d = f i.
Proof. intros H. rewrite (nth_indep _ d (f 0%nat)) by (rewrite map_length, seq_length; auto). rewrite map_nth. now rewrite seq_nth by auto. Qed.
(** a rectangle has a constant Jacobian *)
Lemma jac_rect x r a b c e : x 0%nat 0%nat = a -> x 1%nat 0%nat = b -> x 2%nat 0%nat = b -> x 3%nat 0%nat = a ->
  x 0%nat 1%nat = c -> x 1%nat 1%nat = c -> x 2%nat 1%nat = e -> x 3%nat 1%nat = e -> jac sf_4Square x r = (b - a) * (e - c) / 4.
Proof.
  intros E1 E2 E3 E4 E5 E6 E7 E8. unfold jac, detd, det2, tangent, dshp, sf_4Square, dN_4Square. cbn [sf_d sf_n sf_dN bigsum nth]. rewrite E1, E2, E3, E4, E5, E6, E7, E8. field.
Qed.

Section M.
Variables (lx ly : R) (nx ny : nat) (sup at_load : list R -> bool) (load E0 E1 p scale0 scale1 limit : R).
Hypothesis Hx : 0 < lx.
Hypothesis Hy : 0 < ly.
Hypothesis Hnx : (0 < nx)%nat.
Hypothesis Hny : (0 < ny)%nat.
Hypothesis Hsup : forall y, sup [0; y] = true.
Hypothesis HE : 0 < E0 <= E1.

Definition ndi (i j : nat) := ((ny + 1) * i + j)%nat.
Definition cell (i j : nat) := [ndi i j; ndi (i + 1) j; ndi (i + 1) (j + 1); ndi i (j + 1)].
Lemma cells_eq : sq_elements nx ny = Ok (map (fun q => cell (fst q) (snd q)) (list_prod (seq 0 nx) (seq 0 ny))).
Proof.
  rewrite sq_elements_eq. f_equal. unfold gelements, rect_cells. apply map_ext. intros [i j]. unfold cell, ndi, rect_id. cbn [map corners fst snd]. rewrite !Nat.add_1_r. reflexivity.
Qed.
Lemma in_cells el : In el (map (fun q => cell (fst q) (snd q)) (list_prod (seq 0 nx) (seq 0 ny))) <-> exists i j, (i < nx)%nat /\ (j < ny)%nat /\ el = cell i j.
Proof.
  rewrite in_map_iff. split.
  - intros ([i j] & <- & H). apply in_prod_iff in H. rewrite !in_seq in H. exists i, j. splits; auto; lia.
  - intros (i & j & Hi & Hj & ->). exists (i, j). split; [reflexivity|]. apply in_prod_iff. rewrite !in_seq. lia.
Qed.
Lemma ndi_lt i j : (i <= nx)%nat -> (j <= ny)%nat -> (ndi i j < (nx + 1) * (ny + 1))%nat.
Proof. unfold ndi. intros. nia. Qed.
Lemma ndi_split k : (k < (nx + 1) * (ny + 1))%nat -> exists i j, (i <= nx)%nat /\ (j <= ny)%nat /\ k = ndi i j.
Proof.
  intros H. exists (k / (ny + 1))%nat, (k mod (ny + 1))%nat. pose proof (Nat.mod_upper_bound k (ny + 1)). pose proof (Nat.div_lt_upper_bound k (ny + 1) (nx + 1)).
  pose proof (Nat.div_mod k (ny + 1)). unfold ndi. splits; lia.
Qed.
Definition nodes_ok (nodes : list (list R)) := length nodes = ((nx + 1) * (ny + 1))%nat /\
    forall i j, (i <= nx)%nat -> (j <= ny)%nat -> nth (ndi i j) nodes [] = [lx * (INR i / INR nx); ly * (INR j / INR ny)].
Lemma step_pos l k : 0 < l -> (0 < k)%nat -> forall i, 0 < l * (INR (i + 1) / INR k) - l * (INR i / INR k).
Proof.
  intros Hl Hk i. rewrite plus_INR. assert (0 < INR k) by now apply lt_0_INR. replace (l * ((INR i + INR 1) / INR k) - l * (INR i / INR k)) with (l * / INR k) by (cbn [INR]; field; lra).
  apply Rmult_lt_0_compat; auto. now apply Rinv_0_lt_compat.
Qed.
Lemma cell_jac nodes i j r : nodes_ok nodes -> (i < nx)%nat -> (j < ny)%nat -> 0 < jac sf_4Square (nodal (cell i j) nodes) r.
Proof.
  intros [_ N] Hi Hj. rewrite (jac_rect _ r (lx * (INR i / INR nx)) (lx * (INR (i + 1) / INR nx)) (ly * (INR j / INR ny)) (ly * (INR (j + 1) / INR ny))) by (unfold nodal, cell; cbn [nth]; rewrite N by lia; reflexivity).
  pose proof (Rmult_lt_0_compat _ _ (step_pos lx nx Hx Hnx i) (step_pos ly ny Hy Hny j)). lra.
Qed.
Lemma cell_nodes i j k : (i < nx)%nat -> (j < ny)%nat -> In k (cell i j) -> (k < (nx + 1) * (ny + 1))%nat.
Proof. intros Hi Hj H. cbn in H. destruct H as [<-|[<-|[<-|[<-|[]]]]]; apply ndi_lt; lia. Qed.
Lemma column_held nodes (base : nat -> Prop) : nodes_ok nodes -> (forall j, (j <= ny)%nat -> base (ndi 0 j)) ->
  forall i, (i <= nx)%nat -> forall j, (j <= ny)%nat -> held nodes 2 (map (fun q => cell (fst q) (snd q)) (list_prod (seq 0 nx) (seq 0 ny))) base (ndi i j).
Proof.
  intros [_ N] HB. induction i as [|i IH]; intros Hi j Hj; [apply held_base; now apply HB|].
  assert (exists j', (j' < ny)%nat /\ (j = j' \/ j = j' + 1)%nat) as (j' & Hj' & D). { destruct (Nat.eq_dec j ny); [exists (ny - 1)%nat|exists j]; lia. }
  apply (held_elem _ _ _ _ (cell i j') [ndi i j'; ndi i (j' + 1)]).
  - apply in_cells. exists i, j'. splits; auto; lia.
  - constructor. exists 1%nat. split; [lia|]. rewrite !N by lia. cbn [nth]. pose proof (step_pos ly ny Hy Hny j'). lra.
  - intros k Hk. cbn in Hk. destruct Hk as [<-|[<-|[]]]; cbn; tauto.
  - intros k Hk. cbn in Hk. destruct Hk as [<-|[<-|[]]]; apply IH; lia.
  - replace (S i) with (i + 1)%nat by lia. destruct D as [-> | ->]; cbn; tauto.
Qed.
Lemma problem_ok : exists d, ds_problem lx ly nx ny sup at_load load E0 E1 p scale0 scale1 limit = Ok d /\ top_ok d /\
  length (tp_elements d) = (nx * ny)%nat /\ length (tp_x d) = ((nx + 1) * (ny + 1))%nat /\
  (forall i j v, In (i, j, v) (tp_ufixed d) <-> (i < length (tp_x d))%nat /\ sup (nth i (tp_x d) []) = true /\ (j < 2)%nat /\ v = 0) /\
  (forall i j v, In (i, j, v) (tp_qfixed d) <-> (i < length (tp_x d))%nat /\ at_load (nth i (tp_x d) []) = true /\ j = 1%nat /\ v = load) /\
  tp_p d = p /\ tp_scale0 d = scale0 /\ tp_scale1 d = scale1 /\ tp_limit d = limit /\
  exists cg, ds_centers d = Ok cg /\ length cg = (nx * ny)%nat /\
    (forall i j, (i < nx)%nat -> (j < ny)%nat -> nth (ny * i + j) (tp_elements d) [] = cell i j /\ nth (ny * i + j) cg [] = [lx * ((INR i + 1 / 2) / INR nx); ly * ((INR j + 1 / 2) / INR ny)]) /\ (forall i, (i < length cg)%nat -> length (nth i cg []) = 2%nat).
Proof.
  destruct (C50_nodes_pf lx ly nx ny Hnx Hny) as (nodes & EN & LN & N). destruct (C51_square_pf lx ly nx ny Hnx Hny) as (nodes' & EN' & FX). rewrite EN in EN'. injection EN' as <-.
  assert (NK : nodes_ok nodes) by (split; assumption).
  unfold ds_problem. rewrite EN, cells_eq. cbn [bind]. rewrite !FX by (try discriminate; cbn; intros u Hu; lia). cbn [bind]. set (els := map _ (list_prod _ _)). eexists. split; [reflexivity|].
  cbn [tp_x tp_elements tp_ufixed tp_qfixed tp_s tp_q tp_V tp_t tp_E0 tp_E1 tp_p tp_scale0 tp_scale1 tp_limit].
  assert (LE : length els = (nx * ny)%nat) by (unfold els; rewrite map_length, prod_length, !seq_length; reflexivity).
  assert (UF : forall i j v, In (i, j, v) (dof_list (fixed_nodes nodes [0; 1]%Z sup)) <-> (i < length nodes)%nat /\ sup (nth i nodes []) = true /\ (j < 2)%nat /\ v = 0).
  { intros i j v. rewrite in_dof_list. split.
    - intros (u & H & ->). apply in_fixed in H. destruct H as (A & B & C & D). splits; auto. cbn in C. lia.
    - intros (A & B & C & D). exists (Z.of_nat j). rewrite Nat2Z.id. split; [|reflexivity]. apply in_fixed. splits; auto. cbn. lia. }
  assert (QF : forall i j v, In (i, j, v) (map (fun w => (fst w, load)) (dof_list (fixed_nodes nodes [1]%Z at_load))) <-> (i < length nodes)%nat /\ at_load (nth i nodes []) = true /\ j = 1%nat /\ v = load).
  { intros i j v. rewrite in_map_iff. split.
    - intros ([[i' j'] v'] & E & H). cbn [fst] in E. injection E as <- <- <-. apply in_dof_list in H. destruct H as (u & H & ->). apply in_fixed in H. destruct H as (A & B & C & D). splits; auto. cbn in C. lia.
    - intros (A & B & -> & ->). exists (i, 1%nat, 0). split; [reflexivity|]. apply in_dof_list. exists 1%Z. split; [|reflexivity]. apply in_fixed. splits; auto. now left. }
  destruct (C106_rules_pf sf_4Square Gauss4Square ltac:(cbn; tauto)) as (PP & RK & WP).
  assert (N0 : forall j, (j <= ny)%nat -> sup (nth (ndi 0 j) nodes []) = true).
  { intros j Hj. rewrite (proj2 NK) by lia. cbn [INR]. replace (lx * (0 / INR nx)) with 0; [apply Hsup|]. field. pose proof (lt_0_INR nx Hnx). lra. }
  split; [|split; [exact LE|split; [exact LN|split; [exact UF|split; [exact QF|do 4 (split; [reflexivity|])]]]]].
  - split; cbn [tp_x tp_elements tp_ufixed tp_qfixed tp_s tp_q tp_V tp_t tp_E0 tp_E1]; try lra.
    + intros el Hel. unfold els in Hel. apply in_cells in Hel. destruct Hel as (i & j & Hi & Hj & ->). split; [exact PP|]. cbn [p_shape p_rule p_nodes]. split.
      * unfold element_ok. split; [cbn; tauto|]. split; [reflexivity|]. split; [reflexivity|]. split.
        { intros k Hk. pose proof (cell_nodes i j k Hi Hj Hk) as B. split; [now rewrite LN|].
          destruct (ndi_split k B) as (a & b & Ha & Hb & ->). rewrite (proj2 NK) by assumption. reflexivity. }
        split; [exact RK|]. intros g _. apply Rgt_not_eq. now apply cell_jac.
      * intros g Hg. split; [now apply cell_jac|now apply WP].
    + intros el k Hel Hk. unfold els in Hel. apply in_cells in Hel. destruct Hel as (i & j & Hi & Hj & ->). rewrite LN. eapply cell_nodes; eauto.
    + intros i j v H. apply UF in H. tauto.
    + intros i j v H. apply QF in H. destruct H as (A & _ & -> & _). lia.
    + intros i j Hi Hj _. rewrite LN in Hi. destruct (ndi_split i Hi) as (a & b & Ha & Hb & ->). apply column_held; auto.
      intros j' Hj' c Hc. exists 0. apply UF. splits; auto. rewrite LN. apply ndi_lt; lia.
  - assert (CE : forall i j, (i < nx)%nat -> (j < ny)%nat -> nth_error els (ny * i + j) = Some (cell i j)).
    { intros i j Hi Hj. unfold els. rewrite nth_error_map. replace (nth_error (list_prod (seq 0 nx) (seq 0 ny)) (ny * i + j)) with (Some (i, j)); [reflexivity|]. symmetry.
      assert (G : forall k s, (i < k)%nat -> nth_error (list_prod (seq s k) (seq 0 ny)) (ny * i + j) = Some ((s + i)%nat, j)).
      { clear - Hj. revert i. intros i k. revert i. induction k as [|k IH]; intros i s Hi; [lia|]. cbn [seq list_prod]. destruct i as [|i].
        - rewrite nth_error_app1 by (rewrite map_length, seq_length; lia). rewrite nth_error_map. rewrite Nat.mul_0_r, Nat.add_0_l, Nat.add_0_r. rewrite (nth_error_nth' _ 0%nat) by (rewrite seq_length; lia). rewrite seq_nth by lia. reflexivity.
        - rewrite nth_error_app2 by (rewrite map_length, seq_length; nia). rewrite map_length, seq_length. replace (ny * S i + j - ny)%nat with (ny * i + j)%nat by nia. rewrite IH by lia. f_equal. f_equal. lia. }
      rewrite G by auto. reflexivity. }
    assert (CG : forall i j, (i < nx)%nat -> (j < ny)%nat -> CenterOfGravity nodes (cell i j) = Ok [lx * ((INR i + 1 / 2) / INR nx); ly * ((INR j + 1 / 2) / INR ny)]).
    { intros i j Hi Hj. destruct (C95_center_of_gravity_pf 2 nodes (cell i j)) as (c & E & L & V & _).
      - discriminate.
      - intros el k [<-|[]] Hk. rewrite LN. eapply cell_nodes; eauto.
      - apply Forall_forall. intros x Hxx. apply (In_nth _ _ []) in Hxx. destruct Hxx as (k & Hk & <-). rewrite LN in Hk. destruct (ndi_split k Hk) as (a & b & Ha & Hb & ->). rewrite (proj2 NK) by assumption. reflexivity.
      - rewrite E. f_equal. destruct c as [|c0 [|c1 [|]]]; try discriminate L. pose proof (V 0%nat ltac:(lia)) as V0. pose proof (V 1%nat ltac:(lia)) as V1. unfold cell in V0, V1. cbn [map nth] in V0, V1.
        rewrite !(proj2 NK) in V0, V1 by lia. cbn [nth] in V0, V1. rewrite V0, V1. unfold GenSpec.mean. cbn [sumlist fold_right length]. rewrite !plus_INR. cbn [INR].
        pose proof (lt_0_INR nx Hnx). pose proof (lt_0_INR ny Hny). f_equal; [|f_equal]; field; lra. }
    assert (IX : forall k, (k < nx * ny)%nat -> exists i j, (i < nx)%nat /\ (j < ny)%nat /\ k = (ny * i + j)%nat).
    { intros k Hk. exists (k / ny)%nat, (k mod ny)%nat. pose proof (Nat.mod_upper_bound k ny). pose proof (Nat.div_lt_upper_bound k ny nx). pose proof (Nat.div_mod k ny). splits; lia. }
    set (f := fun k => [lx * ((INR (k / ny) + 1 / 2) / INR nx); ly * ((INR (k mod ny) + 1 / 2) / INR ny)]).
    assert (DM : forall i j, (j < ny)%nat -> ((ny * i + j) / ny = i /\ (ny * i + j) mod ny = j)%nat).
    { intros i j Hj. split; [symmetry; apply (Nat.div_unique _ _ i j); auto|symmetry; apply (Nat.mod_unique _ _ i j); auto]. }
    exists (map f (seq 0 (nx * ny))). split; [|split; [now rewrite map_length, seq_length|split]].
    + unfold ds_centers. cbn [tp_elements tp_x]. rewrite LE. apply (mapM_seq_ok _ f). intros k Hk. destruct (IX k Hk) as (i & j & Hi & Hj & ->). unfold rd. rewrite (CE i j Hi Hj). cbn [bind]. unfold f. destruct (DM i j Hj) as [-> ->]. now apply CG.
    + intros i j Hi Hj. split; [now apply nth_error_nth, CE|]. rewrite nth_map_seq_d by nia. unfold f. destruct (DM i j Hj) as [-> ->]. reflexivity.
    + intros i Hi. rewrite map_length, seq_length in Hi. rewrite nth_map_seq_d by auto. reflexivity.
Qed.
End M.
