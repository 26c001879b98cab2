(** The mesh of the plane strain sample. *)
From Coq Require Import List Arith Lia Bool Reals Lra.
From Verif Require Import Res SumR DenseModel DenseR DenseSpec ShapeModel QuadModel QuadSpec ElemModel ElemSpec LoadSpec SparseModel AssemblyModel AssemblySpec PatchSpec StableSpec TopModel TopSpec PlaneModel PlaneSpec.
From Verif Require Import StableMain PlaneProof PlaneProof2 PlaneProof3 PlaneProof4 PlaneProof5.
Import ListNotations.
Local Open Scope R_scope.

Lemma sample_work E V t b f p w : total_work (pl_sample E V t b f p) w =
  b * t / 6 * (2 * w 0%nat 1%nat + 3 * w 1%nat 1%nat + w 2%nat 1%nat + 2 * w 3%nat 1%nat + 3 * w 4%nat 1%nat + w 5%nat 1%nat) + p * w 3%nat 1%nat + f * t / 2 * (w 3%nat 1%nat + 2 * w 4%nat 1%nat + w 5%nat 1%nat).
Proof.
  assert (S2 : 1 / sqrt 2 * (1 / sqrt 2) = 1 / 2).
  { pose proof (sqrt_sqrt 2 ltac:(lra)). assert (sqrt 2 <> 0) by (intros Z; rewrite Z in H; lra). field_simplify; [|auto]. rewrite <- Rsqr_pow2. unfold Rsqr. rewrite H. field. }
  unfold total_work, body_work, nodal_work, traction_work, pl_sample. cbn [pl_elements pl_edges pl_qfixed pl_x pl_s pl_q pl_es pl_eq pl_t pl_body pl_surface sum_over fold_right map fst snd].
  unfold sum_over. cbn [fold_right map fst snd sumlist].
  unfold quad, Gauss1Triangle, Gauss1Line. cbn [q_n q_weights q_points bigsum nth].
  assert (W2 : wprod 2 [1 / sqrt 2; 1 / sqrt 2] = 1 / 2) by (unfold wprod; cbn [seq map fold_right nth]; lra).
  assert (W1 : wprod 1 [2] = 2) by (unfold wprod; cbn; ring).
  rewrite W2, W1.
  assert (A : forall x, x = 1 / 2 * (1 / 2) -> sqrt x = 1 / 2) by (intros x ->; apply sqrt_square; lra).
  unfold arc. rewrite !A.
  2,3: unfold tangent, dshp, nodal, sf_2Line; cbn [sf_d sf_n sf_dN bigsum nth dN_2Line]; lra.
  unfold jac, detd, det2, tangent, field_value, shp, dshp, nodal, on, sf_3Triangle, sf_2Line. cbn [sf_d sf_n sf_N sf_dN bigsum nth dN_3Triangle N_3Triangle N_2Line].
  field.
Qed.
Lemma sample_elem E V t b f p el : In el (pl_elements (pl_sample E V t b f p)) -> stable_piece 2 (pl_x (pl_sample E V t b f p)) (mkPiece sf_3Triangle Gauss1Triangle el).
Proof.
  intros Hel. destruct (C106_rules_pf sf_3Triangle Gauss1Triangle) as (SP & RO & WP); [cbn; tauto|]. cbn [sf_d sf_3Triangle] in RO, WP.
  assert (J : forall g, (g < q_n Gauss1Triangle)%nat -> jac sf_3Triangle (nodal el (pl_x (pl_sample E V t b f p))) (pt Gauss1Triangle g) = 1).
  { intros g _. cbn [pl_elements pl_sample In] in Hel. decompose [or] Hel; subst; try contradiction; unfold jac, detd, det2, tangent, dshp, nodal, sf_3Triangle; cbn [sf_d sf_n sf_dN bigsum nth dN_3Triangle pl_x pl_sample]; ring. }
  unfold stable_piece, element_ok, positive_rule. cbn [p_shape p_rule p_nodes]. split; [exact SP|]. split; [|intros g Hg; rewrite (J g Hg); split; [lra|now apply WP]].
  split; [cbn; tauto|]. split; [reflexivity|]. cbn [pl_elements pl_sample In] in Hel. split; [decompose [or] Hel; subst; try contradiction; reflexivity|]. split.
  - intros k Hk. decompose [or] Hel; subst; try contradiction; cbn [In] in Hk; decompose [or] Hk; subst; try contradiction; cbn; lia.
  - split; [exact RO|]. intros g Hg. rewrite J by auto. lra.
Qed.
Lemma sample_restrained E V t b f p : restrained (pl_sample E V t b f p).
Proof.
  intros w HR HA.
  assert (Z0 : forall c, (c < 2)%nat -> w 0%nat c = 0). { intros [|[|c]] Hc; [| |lia]; apply (HA 0%nat _ 0); cbn; tauto. }
  assert (Z5 : forall c, (c < 2)%nat -> w 5%nat c = 0).
  { assert (A : w 5%nat 0%nat = 0) by (apply (HA 5%nat 0%nat 0); cbn; tauto).
    destruct (HR [4; 5; 0]%nat) as (a & W & HW & F); [cbn; tauto|]. pose proof (F 1%nat 0%nat ltac:(cbn; lia) ltac:(lia)) as F1. pose proof (F 2%nat 0%nat ltac:(cbn; lia) ltac:(lia)) as F2.
    pose proof (F 1%nat 1%nat ltac:(cbn; lia) ltac:(lia)) as F3. pose proof (F 2%nat 1%nat ltac:(cbn; lia) ltac:(lia)) as F4.
    unfold on, nodal in *. cbn [nth bigsum pl_x pl_sample] in *. pose proof (HW 1%nat 1%nat). rewrite (Z0 0%nat), (Z0 1%nat) in * by lia.
    intros [|[|c]] Hc; [exact A| |lia]. lra. }
  assert (H3 : forall el i1 i2 (k1 k2 : nat), In el (pl_elements (pl_sample E V t b f p)) -> (i1 < length el)%nat -> (i2 < length el)%nat -> (exists c, (c < 2)%nat /\ nodal el (pl_x (pl_sample E V t b f p)) i1 c <> nodal el (pl_x (pl_sample E V t b f p)) i2 c) ->
     (forall c, (c < 2)%nat -> w (nth i1 el O) c = 0) -> (forall c, (c < 2)%nat -> w (nth i2 el O) c = 0) -> forall i c, (i < length el)%nat -> (c < 2)%nat -> w (nth i el O) c = 0).
  { intros el i1 i2 _ _ Hel H1 H2 HX Y1 Y2 i c Hi Hc. exact (StableProof2.rigid_held2 (length el) (nodal el (pl_x (pl_sample E V t b f p))) (on el w) i1 i2 (HR el Hel) H1 H2 HX Y1 Y2 i c Hi Hc). }
  assert (Z4 : forall c, (c < 2)%nat -> w 4%nat c = 0).
  { intros c Hc. apply (H3 [4; 5; 0]%nat 1%nat 2%nat 0%nat 0%nat) with (i := 0%nat); auto; try (cbn; lia); [cbn; tauto|]. exists 1%nat. split; [lia|]. unfold nodal. cbn [nth pl_x pl_sample]. lra. }
  assert (Z1 : forall c, (c < 2)%nat -> w 1%nat c = 0).
  { intros c Hc. apply (H3 [0; 1; 4]%nat 0%nat 2%nat 0%nat 0%nat) with (i := 1%nat); auto; try (cbn; lia); [cbn; tauto|]. exists 1%nat. split; [lia|]. unfold nodal. cbn [nth pl_x pl_sample]. lra. }
  assert (Z3 : forall c, (c < 2)%nat -> w 3%nat c = 0).
  { intros c Hc. apply (H3 [3; 4; 1]%nat 1%nat 2%nat 0%nat 0%nat) with (i := 0%nat); auto; try (cbn; lia); [cbn; tauto|]. exists 1%nat. split; [lia|]. unfold nodal. cbn [nth pl_x pl_sample]. lra. }
  assert (Z2 : forall c, (c < 2)%nat -> w 2%nat c = 0).
  { intros c Hc. apply (H3 [1; 2; 3]%nat 0%nat 2%nat 0%nat 0%nat) with (i := 1%nat); auto; try (cbn; lia); [cbn; tauto|]. exists 1%nat. split; [lia|]. unfold nodal. cbn [nth pl_x pl_sample]. lra. }
  intros i j Hi Hj. cbn [pl_x pl_sample length] in Hi. do 6 (destruct i as [|i]; [auto|]). lia.
Qed.
Lemma sample_ok E V t b f p : 0 < E -> -1 < V < 1 / 2 -> 0 < t -> plane_ok (pl_sample E V t b f p).
Proof.
  intros HE HV Ht. split; auto.
  - intros el Hel. exact (sample_elem E V t b f p el Hel).
  - intros el Hel. cbn [pl_edges pl_sample In] in Hel. unfold line_ok. split; [cbn; tauto|]. split; [reflexivity|]. split; [decompose [or] Hel; subst; try contradiction; reflexivity|]. split.
    + intros k Hk. decompose [or] Hel; subst; try contradiction; cbn [In] in Hk; decompose [or] Hk; subst; try contradiction; cbn; lia.
    + unfold rule_ok. cbn [q_n q_points q_weights pl_eq pl_sample Gauss1Line length]. split; [lia|]. split; [lia|]. intros g Hg. destruct g; [cbn; lia|lia].
  - intros i j v H. cbn [pl_ufixed pl_sample In] in H. decompose [or] H; try contradiction; match goal with X : (_, _, _) = (_, _, _) |- _ => injection X as <- <- _ end; cbn; lia.
  - intros i j v H. cbn [pl_qfixed pl_sample In] in H. decompose [or] H; try contradiction; match goal with X : (_, _, _) = (_, _, _) |- _ => injection X as <- <- _ end; cbn; lia.
  - apply sample_restrained.
Qed.
Lemma sample_unsupported E V t b f p i j : ~ ((i = 0 /\ j = 0) \/ (i = 0 /\ j = 1) \/ (i = 5 /\ j = 0))%nat -> unsupported (pl_sample E V t b f p) i j.
Proof. intros H v Hin. cbn [pl_ufixed pl_sample In] in Hin. apply H. decompose [or] Hin; try contradiction; match goal with X : (_, _, _) = (_, _, _) |- _ => injection X as <- <- _ end; lia. Qed.
Lemma sample_forces E V t b f p u r : plane_ok (pl_sample E V t b f p) -> good_run (pl_sample E V t b f p) u r ->
  uval r 0 1 = - (10 / 6 * b * t + 2 * f * t + p) /\ uval r 5 0 = 2 * b * t + 2 * f * t + 2 * p /\ uval r 0 0 = - (2 * b * t + 2 * f * t + 2 * p).
Proof.
  intros HP GR. set (d := pl_sample E V t b f p) in *.
  assert (FR : forall i j, (i < 6)%nat -> (j < 2)%nat -> ~ ((i = 0 /\ j = 0) \/ (i = 0 /\ j = 1) \/ (i = 5 /\ j = 0))%nat -> uval r i j = total_work d (spot i j)).
  { intros i j Hi Hj H. apply (run_free d u r i j HP GR); auto. now apply sample_unsupported. }
  pose proof (run_force d u r 0 HP GR ltac:(lia)) as F0. pose proof (run_force d u r 1 HP GR ltac:(lia)) as F1. pose proof (run_moment d u r HP GR) as M.
  unfold sum_force in F0, F1. unfold sum_moment in M. change (length (pl_x d)) with 6%nat in *. cbn [bigsum] in F0, F1, M.
  change (uval (pl_x d)) with (fun i j => nth j (nth i [[0; 0]; [1; 0]; [2; 0]; [2; 1]; [1; 1]; [0; 1]] []) 0) in M. cbn [nth] in M.
  pose proof (FR 1 0 ltac:(lia) ltac:(lia) ltac:(lia))%nat as A10. pose proof (FR 2 0 ltac:(lia) ltac:(lia) ltac:(lia))%nat as A20. pose proof (FR 3 0 ltac:(lia) ltac:(lia) ltac:(lia))%nat as A30. pose proof (FR 4 0 ltac:(lia) ltac:(lia) ltac:(lia))%nat as A40.
  pose proof (FR 1 1 ltac:(lia) ltac:(lia) ltac:(lia))%nat as A11. pose proof (FR 2 1 ltac:(lia) ltac:(lia) ltac:(lia))%nat as A21. pose proof (FR 3 1 ltac:(lia) ltac:(lia) ltac:(lia))%nat as A31. pose proof (FR 4 1 ltac:(lia) ltac:(lia) ltac:(lia))%nat as A41. pose proof (FR 5 1 ltac:(lia) ltac:(lia) ltac:(lia))%nat as A51.
  unfold d in A10, A20, A30, A40, A11, A21, A31, A41, A51. rewrite sample_work in *. unfold spot in *. cbn [Nat.eqb andb] in *.
  rewrite A10, A20, A30, A40 in F0. rewrite A11, A21, A31, A41, A51 in F1. rewrite A30, A40, A11, A21, A31, A41, A51 in M. split; [lra|]. split; lra.
Qed.
