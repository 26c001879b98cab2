(** Property C116: the plane strain sample. *)
From Coq Require Import List Arith Lia Bool Reals Lra.
From Verif Require Import Res SumR DenseModel DenseR DenseSpec ShapeModel QuadModel QuadSpec ElemModel ElemSpec LoadSpec SparseModel SparseSpec AssemblyModel AssemblySpec KrylovSpec PatchSpec StableSpec TopModel TopSpec PlaneModel PlaneSpec TopMain PlaneMain.
Import ListNotations.
Local Open Scope R_scope.

(** C116, the run: with supports that exclude rigid motions and a solver of
    positive definite systems, the program completes without a fault; the
    displacements carry the prescribed values and are in equilibrium with the
    loads: in every admissible field their stresses do the work of the body
    force, the nodal loads and the tractions.  No other field does. *)
Theorem C116_run : forall solve d, spd_solver solve -> plane_ok d ->
  exists u r, pl_run solve d = Ok (u, r) /\ length u = length (pl_x d) /\ length r = length (pl_x d) /\ equilibrium d u /\
    forall v, equilibrium d v -> forall i j, (i < length (pl_x d))%nat -> (j < 2)%nat -> uval v i j = uval u i j.
Proof. exact C116_run_pf. Qed.
Print Assumptions C116_run.

Example C116_run_ex : exists u r, pl_run cg_exact steel = Ok (u, r) /\ equilibrium steel u /\ uval u 5 0 = 0.
Proof.
  destruct (C116_run cg_exact steel C108_solver_pf steel_ok) as (u & r & E & _ & _ & Q & _). exists u, r. split; [exact E|]. split; [exact Q|]. apply (proj1 Q). reflexivity.
Qed.

(** C116, the energy: among all fields with the prescribed values the
    displacements have the least potential energy (half the work of the stresses
    minus the work of the loads), and they alone have it. *)
Theorem C116_least : forall solve d u r, spd_solver solve -> plane_ok d -> pl_run solve d = Ok (u, r) ->
  forall w Gu Gw, (forall i j v, last_value (pl_ufixed d) i j = Some v -> w i j = v) -> slopes d (uval u) Gu -> slopes d w Gw ->
    potential d (uval u) Gu <= potential d w Gw /\
    (potential d (uval u) Gu = potential d w Gw -> forall i j, (i < length (pl_x d))%nat -> (j < 2)%nat -> w i j = uval u i j).
Proof. exact C116_least_pf. Qed.
Print Assumptions C116_least.

(** the loaded plate has negative energy: less than the field at rest *)
Example C116_least_ex : forall u r Gu G0, pl_run cg_exact steel = Ok (u, r) -> slopes steel (uval u) Gu -> slopes steel (fun _ _ => 0) G0 ->
  potential steel (uval u) Gu < potential steel (fun _ _ => 0) G0.
Proof.
  intros u r Gu G0 E SU S0. destruct (C116_least cg_exact steel u r C108_solver_pf steel_ok E (fun _ _ => 0) Gu G0) as (A & C); auto.
  { intros i j v H. apply fixed_listed in H as L. cbn in L. decompose [or] L; try contradiction; match goal with X : (_, _, _) = (_, _, _) |- _ => now injection X as _ _ <- end. }
  destruct (Req_dec (potential steel (uval u) Gu) (potential steel (fun _ _ => 0) G0)) as [Z|Z]; [|lra]. exfalso.
  assert (U0 : forall i j, (i < 6)%nat -> (j < 2)%nat -> 0 = uval u i j) by (intros i j Hi Hj; apply (C Z i j); auto).
  destruct (C116_run cg_exact steel C108_solver_pf steel_ok) as (u' & r' & E' & _ & _ & (_ & Q) & _). rewrite E in E'. injection E' as <- <-.
  assert (SU' : slopes steel (uval u) G0).
  { intros el Hel. eapply slopes_same; [apply S0; exact Hel|]. intros i c Hi Hc. unfold on. symmetry. apply U0; auto.
    assert (Hn : In (nth i el 0%nat) el) by (apply nth_In; cbn in Hel; decompose [or] Hel; subst; try contradiction; cbn in *; lia).
    revert Hn. generalize (nth i el 0%nat). intros k Hn. cbn in Hel. decompose [or] Hel; subst; try contradiction; cbn in Hn; decompose [or] Hn; subst; try contradiction; lia. }
  assert (HA : admissible steel (spot 3 1)). { intros i j v H. cbn in H. decompose [or] H; try contradiction; match goal with X : (_, _, _) = (_, _, _) |- _ => injection X as <- <- _ end; reflexivity. }
  destruct (slopes_some steel (spot 3 1) steel_ok) as (Gs & Hs). pose proof (Q (spot 3 1) G0 Gs HA SU' Hs) as X. rewrite (rest_work steel G0 Gs steel_ok S0 (ex_intro (fun w => slopes steel w Gs) (spot 3 1) Hs)) in X.
  unfold steel in X. rewrite plate_work in X. unfold spot in X. cbn [Nat.eqb andb] in X. lra.
Qed.

(** C116, the reactions: the exported nodal forces do, in every field, the work
    of the stresses.  Where the displacement is free they are the nodal
    equivalents of the loads.  Their sum vanishes in both directions, also
    their moment. *)
Theorem C116_reaction : forall solve d u r, spd_solver solve -> plane_ok d -> pl_run solve d = Ok (u, r) ->
  (forall w Gu Gw, slopes d (uval u) Gu -> slopes d w Gw -> bigsum (length (pl_x d)) (fun i => bigsum 2 (fun j => w i j * uval r i j)) = stress_work d Gu Gw) /\
  (forall i j, (i < length (pl_x d))%nat -> (j < 2)%nat -> unsupported d i j -> uval r i j = total_work d (spot i j)) /\
  (forall c, (c < 2)%nat -> sum_force d r c = 0) /\ sum_moment d r = 0.
Proof. exact C116_reaction_pf. Qed.
Print Assumptions C116_reaction.

(** at node 3 of the sample: the nodal load and the shares of body force and traction *)
Example C116_reaction_ex : forall u r, pl_run cg_exact steel = Ok (u, r) -> uval r 3 1 = -300 /\ uval r 3 0 = 0 /\ sum_force steel r 1 = 0.
Proof.
  intros u r E. destruct (C116_reaction cg_exact steel u r C108_solver_pf steel_ok E) as (_ & A & C & _). split; [|split; [|apply C; lia]].
  - rewrite (A 3%nat 1%nat) by (try (cbn; lia); apply plate_free; lia). unfold steel. rewrite plate_work. unfold spot. cbn [Nat.eqb andb]. lra.
  - rewrite (A 3%nat 0%nat) by (try (cbn; lia); apply plate_free; lia). unfold steel. rewrite plate_work. unfold spot. cbn [Nat.eqb andb]. lra.
Qed.

(** C116, the plate of the sample, for every admissible material, thickness and
    load: the run completes, and the forces at the supports are determined by the
    loads alone.  The exported vertical force at node 0 is not the force of the
    support: it falls short of the applied load by b * t / 3, the part of
    the body force that acts on the held node itself. *)
Theorem C116_sample : forall solve E V t b f p, spd_solver solve -> 0 < E -> -1 < V < 1 / 2 -> 0 < t ->
  plane_ok (pl_sample E V t b f p) /\
  exists u r, pl_run solve (pl_sample E V t b f p) = Ok (u, r) /\
    uval r 0 1 = - (5 / 3 * b * t + 2 * f * t + p) /\ uval r 5 0 = 2 * b * t + 2 * f * t + 2 * p /\ uval r 0 0 = - uval r 5 0 /\
    total_work (pl_sample E V t b f p) (fun _ c => if (c =? 1)%nat then 1 else 0) = 2 * b * t + 2 * f * t + p /\
    total_work (pl_sample E V t b f p) (fun _ c => if (c =? 1)%nat then 1 else 0) + uval r 0 1 = b * t / 3.
Proof. exact C116_sample_pf. Qed.
Print Assumptions C116_sample.

Example C116_sample_ex : exists u r, pl_run cg_exact steel = Ok (u, r) /\ uval r 0 1 = 1000 /\ uval r 5 0 = -1200 /\ uval r 0 0 = 1200.
Proof.
  destruct (C116_sample cg_exact 210000 (3/10) 1 (-300) (-200) (-100) C108_solver_pf) as (_ & u & r & EQ & A & C & D & _); try lra. exists u, r. split; [exact EQ|]. split; [lra|]. split; lra.
Qed.
