(** The temperature depends on lengths, speed and diffusion through the Peclet number only. *)
From Coq Require Import List Arith Lia Bool Reals Lra.
From Verif Require Import Res SumR DenseModel DenseR DenseSpec ShapeModel QuadModel ElemModel ElemSpec SupgSpec SparseModel SparseSpec AssemblyModel AssemblySpec PatchSpec StaticModel StaticSpec FrameSpec DriftModel DriftSpec.
From Verif Require Import AssemblyProof AssemblyProof2 AssemblyProof3 DriftProof DriftProof2 DriftProof3 DriftProof4.
Import ListNotations.
Local Open Scope R_scope.

Section similar.
Variables (d : drift) (l m : R).
Hypotheses (Hl : 0 < l) (Hm : 0 < m).
Notation d' := (similar d l m).
Lemma similar_px k : px (dr_x d') k = l * px (dr_x d) k.
Proof.
  unfold px. cbn [similar dr_x]. destruct (lt_dec k (length (dr_x d))) as [H|H].
  - rewrite (nth_indep _ [] (grow2 l [])) by (now rewrite map_length). rewrite map_nth. reflexivity.
  - rewrite (nth_overflow (map (grow2 l) (dr_x d)) []) by (rewrite map_length; lia). rewrite (nth_overflow (dr_x d) []) by lia. cbn [nth]. ring.
Qed.
Lemma similar_py k : py (dr_x d') k = l * py (dr_x d) k.
Proof.
  unfold py. cbn [similar dr_x]. destruct (lt_dec k (length (dr_x d))) as [H|H].
  - rewrite (nth_indep _ [] (grow2 l [])) by (now rewrite map_length). rewrite map_nth. reflexivity.
  - rewrite (nth_overflow (map (grow2 l) (dr_x d)) []) by (rewrite map_length; lia). rewrite (nth_overflow (dr_x d) []) by lia. cbn [nth]. ring.
Qed.
Lemma similar_ax : dr_ax d' = m * dr_ax d /\ dr_ay d' = m * dr_ay d.
Proof. unfold dr_ax, dr_ay. cbn [similar dr_a dr_theta]. split; ring. Qed.
Lemma similar_area el : area2 (dr_x d') el = l * l * area2 (dr_x d) el.
Proof. unfold area2. rewrite !similar_px, !similar_py. ring. Qed.
Lemma similar_slope el z j : area2 (dr_x d) el <> 0 -> slope2 (dr_x d') el z j = / l * slope2 (dr_x d) el z j.
Proof. intros HA. unfold slope2. rewrite similar_area, !similar_px, !similar_py. destruct j; field; split; auto; lra. Qed.
Lemma similar_along el z : area2 (dr_x d) el <> 0 -> along2 d' el z = m / l * along2 d el z.
Proof. intros HA. unfold along2. destruct similar_ax as [-> ->]. rewrite !similar_slope by exact HA. field. lra. Qed.
Lemma similar_vel : vel (dr_ax d') (dr_ay d') = m * vel (dr_ax d) (dr_ay d).
Proof.
  unfold vel. destruct similar_ax as [-> ->]. replace (m * dr_ax d * (m * dr_ax d) + m * dr_ay d * (m * dr_ay d)) with (m * m * (dr_ax d * dr_ax d + dr_ay d * dr_ay d)) by ring.
  rewrite sqrt_mult by nra. now rewrite sqrt_square by lra.
Qed.
Lemma similar_length el : area2 (dr_x d) el <> 0 -> 0 < length2 d el -> length2 d' el = l * length2 d el.
Proof.
  intros HA HP. unfold length2 in *. rewrite similar_vel, (bigsum_ext 3 (fun i => Rabs (along2 d' el (corner i))) (fun i => m / l * Rabs (along2 d el (corner i)))).
  - rewrite bigsum_scal. set (sm := bigsum 3 _) in *. assert (sm <> 0). { intros Q. rewrite Q in HP. unfold Rdiv in HP. rewrite Rinv_0, Rmult_0_r in HP. lra. } field. split; [auto|lra].
  - intros i _. rewrite similar_along, Rabs_mult by exact HA. f_equal. apply Rabs_right. left. unfold Rdiv. apply Rmult_lt_0_compat; [exact Hm|now apply Rinv_0_lt_compat].
Qed.
Lemma similar_form el y z : 0 < dr_k d -> dr_a d <> 0 -> ccw (dr_x d) el -> drift_form d' el y z = l * m * drift_form d el y z.
Proof.
  intros Hk Ha HC. pose proof HC as (_ & _ & HA). assert (HA0 : area2 (dr_x d) el <> 0) by lra. destruct (tri_call d el Hk Ha HC) as [HL _].
  assert (HV : vel (dr_ax d) (dr_ay d) <> 0). { intros Q. unfold length2 in HL. rewrite Q in HL. unfold Rdiv in HL. rewrite Rmult_0_r, Rmult_0_l in HL. lra. }
  unfold drift_form. rewrite similar_area, !similar_slope, !similar_along, similar_length by auto.
  assert (ET : tau_supg (dr_ax d') (dr_ay d') (dr_k d') (l * length2 d el) = l / m * tau_supg (dr_ax d) (dr_ay d) (dr_k d) (length2 d el)).
  { unfold tau_supg, upwind, peclet. rewrite similar_vel. cbn [similar dr_k].
    replace (m * vel (dr_ax d) (dr_ay d) * (l * length2 d el) / (2 * (l * m * dr_k d))) with (vel (dr_ax d) (dr_ay d) * length2 d el / (2 * dr_k d)) by (field; repeat split; lra).
    field. split; [exact HV|lra]. }
  rewrite ET. cbn [similar dr_k]. field. repeat split; lra.
Qed.
Lemma similar_outflow sd : outflow d' sd = l * m * outflow d sd.
Proof. unfold outflow. destruct similar_ax as [-> ->]. destruct sd as [|i [|j [|? ?]]]; try ring. rewrite !similar_px, !similar_py. ring. Qed.
Lemma similar_ok : drift_ok d -> drift_ok d'.
Proof.
  intros [A B C E F G]. assert (Hlm : 0 < l * m) by now apply Rmult_lt_0_compat. constructor.
  - cbn [similar dr_k]. now apply Rmult_lt_0_compat.
  - cbn [similar dr_a]. intros Q. apply Rmult_integral in Q. destruct Q as [Q|Q]; [lra|auto].
  - intros el Hel. destruct (C el Hel) as (HL & HN & HA). split; [exact HL|]. split.
    + intros e He. destruct (HN e He) as [H1 H2]. cbn [similar dr_x]. rewrite map_length. split; [exact H1|]. rewrite (nth_indep _ [] (grow2 l [])) by (now rewrite map_length). rewrite map_nth. cbn. lia.
    + rewrite similar_area. apply Rmult_lt_0_compat; [now apply Rmult_lt_0_compat|exact HA].
  - cbn [similar dr_fixed dr_x]. rewrite map_length. exact E.
  - intros sd Hin. destruct (F sd Hin) as [Q|[Q|Q]]; [now left|now right; left|]. right. right. rewrite similar_outflow. apply Rmult_le_pos; [lra|exact Q].
  - cbn [similar dr_fixed dr_x dr_elements]. rewrite map_length. exact G.
Qed.
Lemma drift_similar solve : pd_solver solve -> drift_ok d -> exists T T', dr_run solve d = Ok T /\ dr_run solve d' = Ok T' /\ forall i j, uval T' i j = uval T i j.
Proof.
  intros HS HD. destruct (drift_run solve d HS HD) as (T & E & SH & [B V] & _). destruct (drift_run solve d' HS (similar_ok HD)) as (T' & E' & _ & _ & HU). exists T, T'. splits; auto.
  intros i j. symmetry. apply HU.
  - intros i' j'. rewrite (SH i' j'). cbn [dr_static st_x st_m similar dr_x]. now rewrite map_length.
  - split; [exact B|]. intros y Hy. cbn [similar dr_elements].
    rewrite (sum_ext _ _ (fun el => l * m * drift_form d el (corners y el) (corners (fun i => uval T i 0) el))) by (intros el Hel; apply similar_form; apply HD; auto).
    rewrite sum_over_scal, (V y Hy). ring.
Qed.
End similar.
