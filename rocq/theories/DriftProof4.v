(** The temperature depends linearly on the prescribed values. *)
From Coq Require Import List Arith Lia Bool Reals Lra.
From Verif Require Import Res SumR DenseModel DenseR DenseSpec ShapeModel QuadModel ElemModel ElemSpec SupgSpec SparseModel SparseSpec AssemblyModel AssemblySpec PatchSpec StaticModel StaticSpec FrameSpec DriftModel DriftSpec.
From Verif Require Import AssemblyProof AssemblyProof2 AssemblyProof3 TopProof4 StaticProof StaticProof2 DriftProof DriftProof2 DriftProof3.
Import ListNotations.
Local Open Scope R_scope.

Lemma last_prescribed g fx i j : last_value (map (fun w : nat * nat * R => (fst w, g (fst (fst w)))) fx) i j = option_map (fun _ => g i) (last_value fx i j).
Proof.
  unfold last_value. induction fx as [|[[i' j'] v] fx IH]; [reflexivity|]. cbn [map fst snd]. rewrite !last_write_cons, IH. destruct (last_write fx i j); [reflexivity|]. cbn [option_map].
  destruct (Nat.eqb_spec i' i) as [->|]; cbn [andb]; [destruct (j' =? j)%nat; reflexivity|reflexivity].
Qed.
Lemma prescribed_none d g i j : last_value (dr_fixed (prescribe d g)) i j <> None <-> last_value (dr_fixed d) i j <> None.
Proof. cbn [prescribe dr_fixed]. rewrite last_prescribed. destruct (last_value (dr_fixed d) i j); cbn [option_map]; split; congruence. Qed.
Lemma prescribe_ok d g : drift_ok d -> drift_ok (prescribe d g).
Proof.
  intros [A B C E F G]. constructor; auto.
  - cbn [prescribe dr_fixed dr_x]. intros i j v Hin. apply in_map_iff in Hin. destruct Hin as ([[i' j'] v'] & Q & Hin). injection Q as <- <- _. exact (E _ _ _ Hin).
  - intros sd Hin. destruct (F sd Hin) as [Q|[Q|Q]]; [now left| |now right; right]. right. left. intros k Hk. now apply prescribed_none, Q.
  - intros i Hi. specialize (G i Hi). clear Hi. induction G as [k Hb|el k k' Hel Hk Hk' _ IH]; [now apply tied_base, prescribed_none|]. exact (tied_elem _ _ el k k' Hel Hk Hk' IH).
Qed.
Lemma form_prescribe d g el y z : drift_form (prescribe d g) el y z = drift_form d el y z.
Proof. reflexivity. Qed.
Lemma form_linear d el y z z' a b w : (forall i, w i = a * z i + b * z' i) -> drift_form d el y w = a * drift_form d el y z + b * drift_form d el y z'.
Proof. intros H. unfold drift_form, along2, slope2. rewrite !H. unfold Rdiv. ring. Qed.

Lemma drift_superpose solve d g h a b : pd_solver solve -> drift_ok d ->
  exists T T' T'', dr_run solve (prescribe d g) = Ok T /\ dr_run solve (prescribe d h) = Ok T' /\
    dr_run solve (prescribe d (fun i => a * g i + b * h i)) = Ok T'' /\
    forall i j, (i < length (dr_x d))%nat -> (j < 1)%nat -> uval T'' i j = a * uval T i j + b * uval T' i j.
Proof.
  intros HS HD. set (G := fun i => a * g i + b * h i). destruct (drift_run solve _ HS (prescribe_ok d g HD)) as (T & E & _ & [B V] & _). destruct (drift_run solve _ HS (prescribe_ok d h HD)) as (T' & E' & _ & [B' V'] & _).
  destruct (drift_run solve _ HS (prescribe_ok d G HD)) as (T'' & E'' & _ & _ & HU). exists T, T', T''. splits; auto. clear E E' E''.
  set (t := fun i => a * uval T i 0 + b * uval T' i 0). set (U := map (fun i => [t i]) (seq 0 (length (dr_x d)))).
  assert (VT : forall i, (i < length (dr_x d))%nat -> nth i U [] = [t i]).
  { intros i Hi. unfold U. rewrite (nth_indep _ [] ([t 0%nat])) by (now rewrite map_length, seq_length). rewrite (map_nth (fun i => [t i])), seq_nth; auto. }
  assert (UT : forall i, (i < length (dr_x d))%nat -> uval U i 0 = t i) by (intros i Hi; unfold uval; now rewrite VT).
  intros i j Hi Hj. replace j with O by lia. rewrite <- (HU U), UT; auto.
  - intros i' j'. cbn [dr_static prescribe dr_x st_x st_m]. unfold in_table. destruct (lt_dec i' (length (dr_x d))) as [A|A]; [rewrite VT by auto; cbn [length]; lia|]. rewrite nth_overflow by (unfold U; rewrite map_length, seq_length; lia). cbn [length]. lia.
  - split.
    + intros i' j' v Hv. cbn [prescribe dr_fixed] in Hv. rewrite last_prescribed in Hv. destruct (last_value (dr_fixed d) i' j') as [w|] eqn:Ew; [|discriminate]. cbn [option_map] in Hv. injection Hv as <-.
      pose proof (last_value_in (dr_fixed d) i' j') as Q. rewrite Ew in Q. destruct (dk_fixed d HD _ _ _ Q) as [A A']. assert (j' = O) as -> by lia. rewrite UT by auto. unfold t, G.
      rewrite (B i' O (g i')), (B' i' O (h i')); [reflexivity| |]; cbn [prescribe dr_fixed]; now rewrite last_prescribed, Ew.
    + intros y Hy. assert (Y1 : forall i, last_value (dr_fixed (prescribe d g)) i 0 <> None -> y i = 0). { intros k Hk. apply Hy. apply prescribed_none. exact (proj1 (prescribed_none d g k 0%nat) Hk). }
      assert (Y2 : forall i, last_value (dr_fixed (prescribe d h)) i 0 <> None -> y i = 0). { intros k Hk. apply Hy. apply prescribed_none. exact (proj1 (prescribed_none d h k 0%nat) Hk). }
      specialize (V y Y1). specialize (V' y Y2). cbn [prescribe dr_elements] in *.
      transitivity (sum_over (dr_elements d) (fun el => a * drift_form d el (corners y el) (corners (fun i => uval T i 0) el) + b * drift_form d el (corners y el) (corners (fun i => uval T' i 0) el))).
      * apply sum_ext. intros el Hel. pose proof (dk_tri d HD el Hel) as (HL & HN & _). transitivity (drift_form d el (corners y el) (corners t el)).
        -- unfold drift_form, along2, slope2, corners. cbn [prescribe dr_x dr_k]. rewrite !UT by (apply HN; apply nth_In; lia). reflexivity.
        -- apply form_linear. reflexivity.
      * rewrite sum_over_plus, !sum_over_scal. change (sum_over (dr_elements d) (fun el => drift_form d el (corners y el) (corners (fun i => uval T i 0) el)) = 0) in V. change (sum_over (dr_elements d) (fun el => drift_form d el (corners y el) (corners (fun i => uval T' i 0) el)) = 0) in V'. rewrite V, V'. ring.
Qed.
