(** Least potential energy. *)
From Coq Require Import List Arith Lia Bool Reals Lra.
From Verif Require Import Res SumR DenseModel DenseSpec ShapeModel QuadModel ElemSpec BeamSpec SparseModel AssemblyModel AssemblySpec PatchSpec StaticModel StaticSpec FrameModel FrameSpec.
From Verif Require Import AssemblyProof AssemblyProof2 AssemblyProof3 PatchProof2 FrameProof FrameProof2 FrameProof3.
Import ListNotations.
Local Open Scope R_scope.

Lemma timoshenko_sum E G l a b d1 d2 y z : timoshenko E G l a b d1 d2 (fun i c => y i c + z i c) (fun i c => y i c + z i c) =
  timoshenko E G l a b d1 d2 y y + 2 * timoshenko E G l a b d1 d2 z y + timoshenko E G l a b d1 d2 z z.
Proof.
  assert (S : forall p, stretch (fun i c => y i c + z i c) p = stretch y p + stretch z p) by (intros; unfold stretch, dot3; cbn [bigsum]; ring).
  assert (T : forall p, turn (fun i c => y i c + z i c) p = turn y p + turn z p) by (intros; unfold turn, dot3; cbn [bigsum]; ring).
  assert (M : forall p, mean_turn (fun i c => y i c + z i c) p = mean_turn y p + mean_turn z p) by (intros; unfold mean_turn, dot3; cbn [bigsum]; field).
  unfold timoshenko. rewrite !S, !T, !M. cbv zeta. ring.
Qed.
Lemma least d u W z : frame_ok d -> virtual_work d u -> (forall el, In el (fr_elements d) -> bar_work d el (W el)) ->
  (forall i j v, last_value (fr_fixed d) i j = Some v -> z i j = v) -> potential d W (uval u) <= potential d W z.
Proof.
  intros HD [HB HVW] HW Hz. set (y := fun i j => z i j - uval u i j).
  assert (Hy : forall i j, last_value (fr_fixed d) i j <> None -> y i j = 0).
  { intros i j H. unfold y. destruct (last_value (fr_fixed d) i j) as [v|] eqn:Ev; [|congruence]. rewrite (Hz i j v Ev), (HB i j v Ev). ring. }
  pose proof (HVW W HW y Hy) as Q. unfold potential.
  assert (E1 : sum_over (fr_elements d) (fun el => W el (ends z el) (ends z el)) = sum_over (fr_elements d) (fun el => W el (ends (uval u) el) (ends (uval u) el))
    + 2 * sum_over (fr_elements d) (fun el => W el (ends y el) (ends (uval u) el)) + sum_over (fr_elements d) (fun el => W el (ends y el) (ends y el))).
  { rewrite <- sum_over_scal, <- !sum_over_plus. apply sum_ext. intros el Hel. destruct (HW el Hel) as (l & d1 & d2 & _ & _ & E). rewrite !E, <- timoshenko_sum.
    apply timoshenko_ext; intros i c _ _; unfold ends, y; ring. }
  assert (E2 : sum_over (fr_loads d) (fun w => snd w * z (fst (fst w)) (snd (fst w))) = sum_over (fr_loads d) (fun w => snd w * uval u (fst (fst w)) (snd (fst w))) + sum_over (fr_loads d) (fun w => snd w * y (fst (fst w)) (snd (fst w)))).
  { rewrite <- sum_over_plus. apply sum_ext. intros w _. unfold y. ring. }
  assert (E3 : 0 <= sum_over (fr_elements d) (fun el => W el (ends y el) (ends y el))).
  { apply sum_over_nonneg. intros el Hel. destruct (HW el Hel) as (l & d1 & d2 & Hl & _ & E). rewrite E. apply timoshenko_pos; auto; try apply HD. apply mu_pos; apply HD. }
  rewrite E1, E2, <- Q. lra.
Qed.
