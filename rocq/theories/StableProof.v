(** Elements without energy: constant temperature, rigid motion. *)
From Coq Require Import List Arith Lia Bool Reals Lra.
From Verif Require Import Res SumR DenseModel DenseSpec ShapeModel QuadModel QuadSpec ElemModel ElemSpec AssemblyModel AssemblySpec PatchSpec StableSpec.
From Verif Require Import DenseProof ElemProof ElemProof2 ElemProof3 ElemMain.
Import ListNotations.
Local Open Scope R_scope.

Definition still (d m : nat) (H : nat -> nat -> R) : Prop :=
  match m with 1%nat => forall l, (l < d)%nat -> H l O = 0 | _ => m = d /\ forall i j, (i < d)%nat -> (j < d)%nat -> H i j + H j i = 0 end.
Lemma hooke2_zero l m e : 0 < m -> 0 < l + m -> hooke 2 l m e e = 0 -> forall i j, (i < 2)%nat -> (j < 2)%nat -> e i j = 0.
Proof.
  intros Hm Hl Hz i j Hi Hj.
  assert (X : (l + m) * (e 0%nat 0%nat + e 1%nat 1%nat)² + m * ((e 0%nat 0%nat - e 1%nat 1%nat)² + 2 * (e 0%nat 1%nat)² + 2 * (e 1%nat 0%nat)²) = 0)
    by (rewrite <- Hz; unfold hooke, trace, ddot, Rsqr; cbn [bigsum]; ring).
  pose proof (Rle_0_sqr (e 0%nat 0%nat + e 1%nat 1%nat)) as P1. pose proof (Rle_0_sqr (e 0%nat 0%nat - e 1%nat 1%nat)) as P2.
  pose proof (Rle_0_sqr (e 0%nat 1%nat)) as P3. pose proof (Rle_0_sqr (e 1%nat 0%nat)) as P4.
  assert (Q1 : (e 0%nat 0%nat + e 1%nat 1%nat)² = 0) by nra.
  assert (Q2 : (e 0%nat 0%nat - e 1%nat 1%nat)² = 0) by nra.
  assert (Q3 : (e 0%nat 1%nat)² = 0) by nra. assert (Q4 : (e 1%nat 0%nat)² = 0) by nra.
  apply Rsqr_0_uniq in Q1, Q2, Q3, Q4.
  destruct i as [|[|i]]; try lia; destruct j as [|[|j]]; try lia; lra.
Qed.
Lemma hooke3_zero l m e : 0 < m -> 0 < 3 * l + 2 * m -> hooke 3 l m e e = 0 -> forall i j, (i < 3)%nat -> (j < 3)%nat -> e i j = 0.
Proof.
  intros Hm Hl Hz i j Hi Hj.
  assert (X : (3 * l + 2 * m) * ((e 0%nat 0%nat + e 1%nat 1%nat + e 2%nat 2%nat)² / 3) + 2 * m * (((e 0%nat 0%nat - e 1%nat 1%nat)² + (e 1%nat 1%nat - e 2%nat 2%nat)² + (e 2%nat 2%nat - e 0%nat 0%nat)²) / 3
    + (e 0%nat 1%nat)² + (e 1%nat 0%nat)² + (e 0%nat 2%nat)² + (e 2%nat 0%nat)² + (e 1%nat 2%nat)² + (e 2%nat 1%nat)²) = 0)
    by (rewrite <- Hz; unfold hooke, trace, ddot, Rsqr; cbn [bigsum]; field).
  pose proof (Rle_0_sqr (e 0%nat 0%nat + e 1%nat 1%nat + e 2%nat 2%nat)) as P0. pose proof (Rle_0_sqr (e 0%nat 0%nat - e 1%nat 1%nat)) as P1. pose proof (Rle_0_sqr (e 1%nat 1%nat - e 2%nat 2%nat)) as P2. pose proof (Rle_0_sqr (e 2%nat 2%nat - e 0%nat 0%nat)) as P3.
  pose proof (Rle_0_sqr (e 0%nat 1%nat)) as Q1. pose proof (Rle_0_sqr (e 1%nat 0%nat)) as Q2. pose proof (Rle_0_sqr (e 0%nat 2%nat)) as Q3. pose proof (Rle_0_sqr (e 2%nat 0%nat)) as Q4.
  pose proof (Rle_0_sqr (e 1%nat 2%nat)) as Q5. pose proof (Rle_0_sqr (e 2%nat 1%nat)) as Q6.
  assert (A : (((e 0%nat 0%nat - e 1%nat 1%nat)² + (e 1%nat 1%nat - e 2%nat 2%nat)² + (e 2%nat 2%nat - e 0%nat 0%nat)²) / 3
    + (e 0%nat 1%nat)² + (e 1%nat 0%nat)² + (e 0%nat 2%nat)² + (e 2%nat 0%nat)² + (e 1%nat 2%nat)² + (e 2%nat 1%nat)²) = 0) by nra.
  rewrite A in X. assert (B : (e 0%nat 0%nat + e 1%nat 1%nat + e 2%nat 2%nat)² = 0) by nra.
  assert (Z1 : (e 0%nat 0%nat - e 1%nat 1%nat)² = 0) by lra. assert (Z2 : (e 1%nat 1%nat - e 2%nat 2%nat)² = 0) by lra.
  assert (Z3 : (e 0%nat 1%nat)² = 0) by lra. assert (Z4 : (e 1%nat 0%nat)² = 0) by lra. assert (Z5 : (e 0%nat 2%nat)² = 0) by lra.
  assert (Z6 : (e 2%nat 0%nat)² = 0) by lra. assert (Z7 : (e 1%nat 2%nat)² = 0) by lra. assert (Z8 : (e 2%nat 1%nat)² = 0) by lra.
  apply Rsqr_0_uniq in B, Z1, Z2, Z3, Z4, Z5, Z6, Z7, Z8.
  destruct i as [|[|[|i]]]; try lia; destruct j as [|[|[|j]]]; try lia; lra.
Qed.
Lemma strain_zero (d : nat) H : (forall i j, (i < d)%nat -> (j < d)%nat -> strain H i j = 0) -> forall i j, (i < d)%nat -> (j < d)%nat -> H i j + H j i = 0.
Proof. intros HS i j Hi Hj. specialize (HS i j Hi Hj). unfold strain in HS. lra. Qed.

(** the energy density of the routines *)
Lemma routine_energy dou xs d m f : stiff_routine dou xs d m f -> length dou = m -> (2 <= d)%nat /\ (m <> 0)%nat /\ exists W,
  (forall s q el, element_ok d s q el xs -> stiffness_of d m s q el dou xs (f s q el) W) /\
  (forall H, 0 <= W H H) /\ (forall H Z, W H Z = W Z H) /\ forall H, W H H = 0 -> still d m H.
Proof.
  intros HR HD. destruct HR as [alpha t Ha Ht|kap Ha|E V t HE HV Ht|E V t HE HV Ht|E V HE HV]; (split; [lia|]); (split; [lia|]).
  - exists (fun H Z => alpha * t * bigsum 2 (fun l => H l 0%nat * Z l 0%nat)). splits.
    + intros s q el He. now apply call_heat.
    + intros H. apply Rmult_le_pos; [nra|]. apply bigsum_nonneg. intros l _. apply Rle_0_sqr.
    + intros H Z. f_equal. apply bigsum_ext. intros; ring.
    + intros H H0 l Hl. cbv beta in H0. apply Rmult_integral in H0. destruct H0 as [H0|H0]; [nra|].
      apply Rsqr_0_uniq. exact (bigsum_nonneg_eq0 2 (fun l => H l O * H l O) (fun k _ => Rle_0_sqr _) H0 l Hl).
  - exists (fun H Z => kap * bigsum 2 (fun l => H l 0%nat * Z l 0%nat)). splits.
    + intros s q el He. now apply call_diffusion.
    + intros H. apply Rmult_le_pos; [lra|]. apply bigsum_nonneg. intros l _. apply Rle_0_sqr.
    + intros H Z. f_equal. apply bigsum_ext. intros; ring.
    + intros H H0 l Hl. cbv beta in H0. apply Rmult_integral in H0. destruct H0 as [H0|H0]; [lra|].
      apply Rsqr_0_uniq. exact (bigsum_nonneg_eq0 2 (fun l => H l O * H l O) (fun k _ => Rle_0_sqr _) H0 l Hl).
  - assert (Hm : 0 < lame_mu E V) by (unfold lame_mu; apply Rmult_lt_0_compat; auto; apply Rinv_0_lt_compat; lra).
    assert (Hl : 0 < lame_lambda E V + lame_mu E V).
    { replace (lame_lambda E V + lame_mu E V) with (E * / (2 * (1 + V) * (1 - 2 * V))) by (unfold lame_lambda, lame_mu; field; lra).
      apply Rmult_lt_0_compat; auto. apply Rinv_0_lt_compat. nra. }
    exists (fun H Z => t * hooke 2 (lame_lambda E V) (lame_mu E V) (strain H) (strain Z)). splits.
    + intros s q el He. apply call_strain; auto. nra.
    + intros H. apply Rmult_le_pos; [lra|]. apply hooke2_nonneg; lra.
    + intros H Z. now rewrite hooke_sym.
    + intros H H0. cbv beta in H0. apply Rmult_integral in H0. destruct H0 as [H0|H0]; [lra|]. split; [reflexivity|].
      apply strain_zero. exact (hooke2_zero _ _ _ Hm Hl H0).
  - assert (Hm : 0 < lame_mu E V) by (unfold lame_mu; apply Rmult_lt_0_compat; auto; apply Rinv_0_lt_compat; lra).
    assert (Hl : 0 < E * V / ((1 - V) * (1 + V)) + lame_mu E V).
    { replace (E * V / ((1 - V) * (1 + V)) + lame_mu E V) with (E * / (2 * (1 - V))) by (unfold lame_mu; field; lra).
      apply Rmult_lt_0_compat; auto. apply Rinv_0_lt_compat. lra. }
    exists (fun H Z => t * hooke 2 (E * V / ((1 - V) * (1 + V))) (lame_mu E V) (strain H) (strain Z)). splits.
    + intros s q el He. apply call_stress; auto. nra.
    + intros H. apply Rmult_le_pos; [lra|]. apply hooke2_nonneg; lra.
    + intros H Z. now rewrite hooke_sym.
    + intros H H0. cbv beta in H0. apply Rmult_integral in H0. destruct H0 as [H0|H0]; [lra|]. split; [reflexivity|].
      apply strain_zero. exact (hooke2_zero _ _ _ Hm Hl H0).
  - assert (Hm : 0 < lame_mu E V) by (unfold lame_mu; apply Rmult_lt_0_compat; auto; apply Rinv_0_lt_compat; lra).
    assert (Hl : 0 < 3 * lame_lambda E V + 2 * lame_mu E V).
    { replace (3 * lame_lambda E V + 2 * lame_mu E V) with (E * / (1 - 2 * V)) by (unfold lame_lambda, lame_mu; field; lra).
      apply Rmult_lt_0_compat; auto. apply Rinv_0_lt_compat. lra. }
    exists (fun H Z => hooke 3 (lame_lambda E V) (lame_mu E V) (strain H) (strain Z)). splits.
    + intros s q el He. apply call_solid; auto. nra.
    + intros H. apply hooke3_nonneg; lra.
    + intros H Z. now rewrite hooke_sym.
    + intros H H0. split; [reflexivity|]. apply strain_zero. exact (hooke3_zero _ _ _ Hm Hl H0).
Qed.

(** ** Deformations without energy *)
Lemma lin_zero c0 c1 c2 x1 y1 x2 y2 x3 y3 : (x2 - x1) * (y3 - y1) - (y2 - y1) * (x3 - x1) <> 0 ->
  c0 + c1 * x1 + c2 * y1 = 0 -> c0 + c1 * x2 + c2 * y2 = 0 -> c0 + c1 * x3 + c2 * y3 = 0 -> c0 = 0 /\ c1 = 0 /\ c2 = 0.
Proof.
  intros HD H1 H2 H3. set (D := (x2 - x1) * (y3 - y1) - (y2 - y1) * (x3 - x1)) in *.
  assert (E2 : c1 * (x2 - x1) + c2 * (y2 - y1) = 0) by lra. assert (E3 : c1 * (x3 - x1) + c2 * (y3 - y1) = 0) by lra.
  assert (A : c1 * D = 0).
  { replace (c1 * D) with ((y3 - y1) * (c1 * (x2 - x1) + c2 * (y2 - y1)) - (y2 - y1) * (c1 * (x3 - x1) + c2 * (y3 - y1))) by (unfold D; ring). rewrite E2, E3. ring. }
  assert (B : c2 * D = 0).
  { replace (c2 * D) with ((x2 - x1) * (c1 * (x3 - x1) + c2 * (y3 - y1)) - (x3 - x1) * (c1 * (x2 - x1) + c2 * (y2 - y1))) by (unfold D; ring). rewrite E2, E3. ring. }
  apply Rmult_integral in A, B. destruct A as [A|A]; [|contradiction]. destruct B as [B|B]; [|contradiction]. subst. splits; auto. lra.
Qed.
(** two parallel coefficient vectors *)
Lemma parallel a1 a2 a3 b1 b2 b3 : a1 * b2 - a2 * b1 = 0 -> a1 * b3 - a3 * b1 = 0 -> a3 * b2 - a2 * b3 = 0 -> (b1 <> 0 \/ b2 <> 0 \/ b3 <> 0) ->
  exists l, a1 = l * b1 /\ a2 = l * b2 /\ a3 = l * b3.
Proof.
  intros H1 H2 H3 [H|[H|H]].
  - exists (a1 / b1). splits; [field; auto| |]; apply (Rmult_eq_reg_r b1); auto; unfold Rdiv.
    + replace (a1 * / b1 * b2 * b1) with (a1 * b2) by (field; auto). lra.
    + replace (a1 * / b1 * b3 * b1) with (a1 * b3) by (field; auto). lra.
  - exists (a2 / b2). splits; [|field; auto|]; apply (Rmult_eq_reg_r b2); auto; unfold Rdiv.
    + replace (a2 * / b2 * b1 * b2) with (a2 * b1) by (field; auto). lra.
    + replace (a2 * / b2 * b3 * b2) with (a2 * b3) by (field; auto). lra.
  - exists (a3 / b3). splits; [| |field; auto]; apply (Rmult_eq_reg_r b3); auto; unfold Rdiv.
    + replace (a3 * / b3 * b1 * b3) with (a3 * b1) by (field; auto). lra.
    + replace (a3 * / b3 * b2 * b3) with (a3 * b2) by (field; auto). lra.
Qed.
