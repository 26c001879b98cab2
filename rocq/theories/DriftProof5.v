(** Turning the mesh and the flow together leaves the temperature as it is. *)
From Coq Require Import List Arith Lia Bool Reals Lra.
From Verif Require Import Res SumR DenseModel DenseR DenseSpec ShapeModel QuadModel ElemModel ElemSpec SupgSpec SparseModel SparseSpec AssemblyModel AssemblySpec PatchSpec StaticModel StaticSpec FrameSpec DriftModel DriftSpec.
From Verif Require Import AssemblyProof AssemblyProof2 AssemblyProof3 DriftProof DriftProof2 DriftProof3 DriftProof4.
Import ListNotations.
Local Open Scope R_scope.

Section turn.
Variables (d : drift) (phi : R).
Notation c := (cos (phi * PI / 180)).
Notation s := (sin (phi * PI / 180)).
Notation d' := (turned d phi).
Lemma cs_one : c * c + s * s = 1.
Proof. pose proof (sin2_cos2 (phi * PI / 180)) as Q. unfold Rsqr in Q. lra. Qed.
Lemma turned_px k : px (dr_x d') k = c * px (dr_x d) k - s * py (dr_x d) k.
Proof.
  unfold px, py. cbn [turned dr_x]. destruct (lt_dec k (length (dr_x d))) as [H|H].
  - rewrite (nth_indep _ [] (turn2 phi [])) by (now rewrite map_length). rewrite map_nth. reflexivity.
  - rewrite (nth_overflow (map (turn2 phi) (dr_x d)) []) by (rewrite map_length; lia). rewrite (nth_overflow (dr_x d) []) by lia. cbn [nth]. ring.
Qed.
Lemma turned_py k : py (dr_x d') k = s * px (dr_x d) k + c * py (dr_x d) k.
Proof.
  unfold px, py. cbn [turned dr_x]. destruct (lt_dec k (length (dr_x d))) as [H|H].
  - rewrite (nth_indep _ [] (turn2 phi [])) by (now rewrite map_length). rewrite map_nth. reflexivity.
  - rewrite (nth_overflow (map (turn2 phi) (dr_x d)) []) by (rewrite map_length; lia). rewrite (nth_overflow (dr_x d) []) by lia. cbn [nth]. ring.
Qed.
Lemma turned_ax : dr_ax d' = c * dr_ax d - s * dr_ay d.
Proof. unfold dr_ax, dr_ay. cbn [turned dr_a dr_theta]. replace ((dr_theta d + phi) * PI / 180) with (dr_theta d * PI / 180 + phi * PI / 180) by field. rewrite cos_plus. ring. Qed.
Lemma turned_ay : dr_ay d' = s * dr_ax d + c * dr_ay d.
Proof. unfold dr_ax, dr_ay. cbn [turned dr_a dr_theta]. replace ((dr_theta d + phi) * PI / 180) with (dr_theta d * PI / 180 + phi * PI / 180) by field. rewrite sin_plus. ring. Qed.
Lemma turned_area el : area2 (dr_x d') el = area2 (dr_x d) el.
Proof.
  rewrite <- (Rmult_1_l (area2 (dr_x d) el)), <- cs_one. unfold area2. rewrite !turned_px, !turned_py. ring.
Qed.
Lemma turned_slope el z : slope2 (dr_x d') el z 0 = c * slope2 (dr_x d) el z 0 - s * slope2 (dr_x d) el z 1 /\ slope2 (dr_x d') el z 1 = s * slope2 (dr_x d) el z 0 + c * slope2 (dr_x d) el z 1.
Proof. unfold slope2. rewrite turned_area, !turned_px, !turned_py. unfold Rdiv. split; ring. Qed.
Lemma turned_along el z : along2 d' el z = along2 d el z.
Proof.
  rewrite <- (Rmult_1_l (along2 d el z)), <- cs_one. unfold along2. destruct (turned_slope el z) as [-> ->]. rewrite turned_ax, turned_ay. ring.
Qed.
Lemma turned_dot el y z : slope2 (dr_x d') el y 0 * slope2 (dr_x d') el z 0 + slope2 (dr_x d') el y 1 * slope2 (dr_x d') el z 1 = slope2 (dr_x d) el y 0 * slope2 (dr_x d) el z 0 + slope2 (dr_x d) el y 1 * slope2 (dr_x d) el z 1.
Proof.
  destruct (turned_slope el y) as [-> ->]. destruct (turned_slope el z) as [-> ->].
  match goal with |- _ = ?r => rewrite <- (Rmult_1_l r), <- cs_one end. ring.
Qed.
Lemma turned_vel : vel (dr_ax d') (dr_ay d') = vel (dr_ax d) (dr_ay d).
Proof.
  unfold vel. f_equal. rewrite turned_ax, turned_ay. match goal with |- _ = ?r => rewrite <- (Rmult_1_l r), <- cs_one end. ring.
Qed.
Lemma turned_length el : length2 d' el = length2 d el.
Proof. unfold length2. rewrite turned_vel. rewrite (bigsum_ext 3 (fun i => Rabs (along2 (turned d phi) el (corner i))) (fun i => Rabs (along2 d el (corner i)))); [reflexivity|]. intros i _. now rewrite turned_along. Qed.
Lemma turned_form el y z : drift_form d' el y z = drift_form d el y z.
Proof.
  unfold drift_form. rewrite turned_area, turned_dot, !turned_along, turned_length. unfold tau_supg, upwind, peclet. rewrite turned_vel. reflexivity.
Qed.
Lemma turned_outflow sd : outflow d' sd = outflow d sd.
Proof.
  unfold outflow. destruct sd as [|i [|j [|? ?]]]; auto. rewrite turned_ax, turned_ay, !turned_px, !turned_py. match goal with |- _ = ?r => rewrite <- (Rmult_1_l r), <- cs_one end. ring.
Qed.
Lemma turned_ok : drift_ok d -> drift_ok d'.
Proof.
  intros [A B C E F G]. constructor; auto.
  - intros el Hel. destruct (C el Hel) as (HL & HN & HA). split; [exact HL|]. split; [|now rewrite turned_area].
    intros e He. destruct (HN e He) as [H1 H2]. cbn [turned dr_x]. rewrite map_length. split; [exact H1|]. rewrite (nth_indep _ [] (turn2 phi [])) by (now rewrite map_length). rewrite map_nth. cbn. lia.
  - cbn [turned dr_fixed dr_x]. rewrite map_length. exact E.
  - intros sd Hin. rewrite turned_outflow. exact (F sd Hin).
  - cbn [turned dr_fixed dr_x dr_elements]. rewrite map_length. exact G.
Qed.
Lemma turned_weak T : weak_form d T -> weak_form d' T.
Proof.
  intros [B V]. split; [exact B|]. intros y Hy. rewrite <- (V y Hy). cbn [turned dr_elements]. apply sum_ext. intros el _. apply turned_form.
Qed.
Lemma drift_turned solve : pd_solver solve -> drift_ok d -> exists T T', dr_run solve d = Ok T /\ dr_run solve d' = Ok T' /\ forall i j, uval T' i j = uval T i j.
Proof.
  intros HS HD. destruct (drift_run solve d HS HD) as (T & E & SH & W & _). destruct (drift_run solve d' HS (turned_ok HD)) as (T' & E' & _ & _ & HU). exists T, T'. splits; auto.
  intros i j. symmetry. apply HU; [|now apply turned_weak]. intros i' j'. rewrite (SH i' j'). cbn [dr_static st_x st_m turned dr_x]. now rewrite map_length.
Qed.
End turn.
