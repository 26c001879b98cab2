(** Reciprocity of the loads of a frame. *)
From Coq Require Import List Arith Lia Bool Reals Lra.
From Verif Require Import Res SumR DenseModel DenseR DenseSpec ShapeModel QuadModel ElemModel ElemSpec BeamModel BeamSpec SparseModel SparseSpec AssemblyModel AssemblySpec PatchSpec TopSpec StaticModel StaticSpec FrameModel FrameSpec.
From Verif Require Import AssemblyProof AssemblyProof2 AssemblyProof3 TopProof4 FrameProof FrameProof2 FrameProof3 FrameProof4 FrameProof5.
Import ListNotations.
Local Open Scope R_scope.

Lemma pick_each {B} (P : list nat -> B -> Prop) (b : B) (els : list (list nat)) : (forall el, In el els -> exists w, P el w) -> exists W, forall el, In el els -> P el (W el).
Proof.
  induction els as [|e els IH]; intros H; [exists (fun _ => b); intros el []|].
  destruct IH as [W HW]; [intros el Hin; apply H; now right|]. destruct (H e (or_introl eq_refl)) as [w Hw].
  exists (fun el => if list_eq_dec Nat.eq_dec el e then w else W el). intros el Hin. destruct (list_eq_dec Nat.eq_dec el e) as [->|Hne]; [exact Hw|]. destruct Hin as [->|Hin]; [congruence|auto].
Qed.
Lemma works_exist d : frame_ok d -> exists W, forall el, In el (fr_elements d) -> bar_work d el (W el).
Proof.
  intros HD. apply pick_each; [exact (fun _ _ => 0)|]. intros el Hel. destruct (fk_bar d HD el Hel) as (_ & _ & _ & _ & l & d1 & d2 & Hl & Hs).
  exists (timoshenko (fr_E d) (lame_mu (fr_E d) (fr_V d)) l (fr_a d) (fr_b d) d1 d2), l, d1, d2. split; [exact Hl|]. split; [exact Hs|reflexivity].
Qed.
Lemma loaded_ok d P : frame_ok d -> loads_fit d P -> frame_ok (loaded d P).
Proof. intros [] HP. constructor; auto. Qed.
Lemma frame_reciprocal solve d P Q : spd_solver solve -> frame_ok d -> loads_fit d P -> loads_fit d Q -> (forall i j v, In (i, j, v) (fr_fixed d) -> v = 0) ->
  exists ur u vr v, fr_run solve (loaded d P) = Ok (ur, u) /\ fr_run solve (loaded d Q) = Ok (vr, v) /\
    sum_over P (fun w => snd w * uval vr (fst (fst w)) (snd (fst w))) = sum_over Q (fun w => snd w * uval ur (fst (fst w)) (snd (fst w))).
Proof.
  intros HS HD HP HQ HZ. destruct (frame_run solve _ HS (loaded_ok d P HD HP)) as (ur & u & E & _ & [B V] & _). destruct (frame_run solve _ HS (loaded_ok d Q HD HQ)) as (vr & v & E' & _ & [B' V'] & _).
  exists ur, u, vr, v. splits; auto. clear E E'. destruct (works_exist d HD) as [W HW].
  assert (Z : forall t, (forall i j v, last_value (fr_fixed d) i j = Some v -> uval t i j = v) -> forall i j, last_value (fr_fixed d) i j <> None -> uval t i j = 0).
  { intros t Ht i j Hn. destruct (last_value (fr_fixed d) i j) as [x|] eqn:Ex; [|congruence]. rewrite (Ht _ _ _ Ex). pose proof (last_value_in (fr_fixed d) i j) as R1. rewrite Ex in R1. exact (HZ _ _ _ R1). }
  pose proof (V W HW (uval vr) (Z vr B')) as Q1. pose proof (V' W HW (uval ur) (Z ur B)) as Q2. cbn [loaded fr_elements fr_loads] in Q1, Q2. rewrite <- Q1, <- Q2.
  apply sum_ext. intros el Hel. destruct (HW el Hel) as (l & d1 & d2 & _ & _ & Ew). rewrite !Ew. apply timoshenko_sym.
Qed.
