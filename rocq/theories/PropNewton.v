(** Property C117: the load stepping sample. *)
From Coq Require Import List Arith Lia Bool Reals Lra.
From Verif Require Import Res SumR DenseModel DenseR DenseSpec ShapeModel QuadModel QuadSpec ElemModel ElemSpec ElemSpec2 SparseModel SparseSpec AssemblyModel AssemblySpec KrylovSpec NewtonModel NewtonSpec NewtonMain.
Import ListNotations.
Local Open Scope R_scope.

(** C117, the run: for an element routine that succeeds on all displacements, a
    solver that returns vectors of the right size and loads that do not all
    vanish, the program runs through all load steps without a fault.  Every
    step exports displacements with the prescribed values; where the inner loop
    was left by the test, the tested sum of squares is below the tolerance times
    the norm of the scaled loads. *)
Theorem C117_run : forall solve d, total_solver solve -> newton_ok d -> 0 < load_norm d ->
  exists rs, nw_run solve d = Ok rs /\ length rs = nw_steps d /\
    forall k u c, nth_error rs k = Some (u, c) -> keeps d u /\
      (c = true -> free_squares d (fun i j => out d (INR (S k) / INR (nw_steps d)) u i j - held_share d u i j) < nw_tol d * (INR (S k) / INR (nw_steps d) * load_norm d)).
Proof. exact C117_run_pf. Qed.
Print Assumptions C117_run.

Example C117_run_ex : exists rs, nw_run (fun _ b => Ok b) node = Ok rs /\ length rs = 1%nat.
Proof. destruct (C117_run (fun _ b => Ok b) node) as (rs & E & L & _); [intros A b; now exists b|exact node_ok|unfold node; rewrite node_norm; lra|]. exists rs. split; [exact E|exact L]. Qed.

(** C117, equilibrium: when all prescribed values are zero, at the displacements
    of a converged step the scaled loads and the forces of the elements balance
    in every dof that is not held, up to the square root of the tolerance times
    the norm of the scaled loads. *)
Theorem C117_equilibrium : forall solve d rs k u, total_solver solve -> newton_ok d -> 0 < load_norm d -> zero_held d -> nw_run solve d = Ok rs -> nth_error rs k = Some (u, true) ->
  forall i j, (i < length (nw_x d))%nat -> (j < 3)%nat -> held d i j = false ->
    out d (INR (S k) / INR (nw_steps d)) u i j * out d (INR (S k) / INR (nw_steps d)) u i j < nw_tol d * (INR (S k) / INR (nw_steps d) * load_norm d).
Proof. exact C117_equilibrium_pf. Qed.
Print Assumptions C117_equilibrium.

Example C117_equilibrium_ex : zero_held node /\ held node 0 0 = false /\ forall u, out node 1 u 0 0 = 2 * 1 - nth 0 (nth 0 u []) 0 \/ length (nth 0 u []) <> 3%nat.
Proof.
  split; [intros i j v []|]. split; [reflexivity|]. intros u. destruct (nth 0 u []) as [|a [|b [|c [|e r]]]] eqn:E; try (right; cbn; lia). left.
  unfold out, nodal_load, element_load, sum_over. unfold nel. cbn [node NewtonProof6.spring nw_qfixed nw_elements map nw_call]. rewrite E. cbn. ring.
Qed.

(** C117, no loads: if all loads vanish, the program divides zero by zero (or a
    positive number by zero) in the first test. *)
Theorem C117_idle : forall solve d, newton_ok d -> load_norm d = 0 -> (0 < nw_steps d)%nat -> (0 < nw_passes d)%nat -> nw_run solve d = Fail DivByZero.
Proof. exact C117_idle_pf. Qed.
Print Assumptions C117_idle.

Example C117_idle_ex : let d := mkNewton (nw_x node) (nw_elements node) [] [] (nw_call node) 1 1 1 in nw_run (fun _ b => Ok b) d = Fail DivByZero.
Proof.
  intros d. apply C117_idle; [|unfold load_norm, sum_over; cbn; apply sqrt_0|cbn; lia|cbn; lia]. destruct node_ok as [A B _ _]. split; [exact A|exact B| |]; intros i j v [].
Qed.

(** C117, the sample: the total Lagrangian routine on elements without vanishing
    Jacobian at its points is admissible, for all Lame constants. *)
Theorem C117_total : forall d s q E V, total_lagrange d s q E V -> newton_ok d.
Proof. exact C117_total_pf. Qed.
Print Assumptions C117_total.

Example C117_total_ex : newton_ok mild.
Proof. apply (C117_total _ _ _ _ _ mild_total). Qed.

(** C117, the Newton step: with a solver whose answers are solutions, a pass that
    does not accept moves the displacements so that the assembled tangent
    matrices, applied to the movement, give the out-of-balance force less the
    share of the prescribed displacements, in every dof that is not held. *)
Theorem C117_step : forall solve d u0 t n f u u', exact_solver solve -> newton_ok d -> 0 < load_norm d -> (0 < f <= nw_steps d)%nat ->
  nw_start d = Ok (u0, t, n) -> nshape d u -> nw_pass solve d t n f u = Ok (u', false) ->
  forall i j, (i < length (nw_x d))%nat -> (j < 3)%nat -> held d i j = false ->
    tangent_on d u (fun i j => uval u' i j - uval u i j) i j = out d (INR f / INR (nw_steps d)) u i j - held_share d u i j.
Proof. exact C117_step_pf. Qed.
Print Assumptions C117_step.

Example C117_step_ex : exists u', nw_pass checked node three 3 1 [[0;0;0]] = Ok (u', false) /\ uval u' 0 0 = 2.
Proof.
  destruct node_pass as (u' & E). exists u'. split; [exact E|]. pose proof (C117_step checked node [[0;0;0]] three 3 1 [[0;0;0]] u' node_exact node_ok ltac:(unfold node; rewrite node_norm; lra) ltac:(cbn; lia) eq_refl) as H.
  specialize (H ltac:(split; [reflexivity|intros i Hi; cbn in Hi; assert (i = O) as -> by lia; reflexivity]) E 0%nat 0%nat ltac:(cbn; lia) ltac:(lia) eq_refl). unfold tangent_on, out, held_share, nodal_load, element_load, sum_over in H. cbn in H. clear E. unfold uval in H |- *. cbn in H |- *. lra.
Qed.

(** C117, the tangent: along every straight line of displacements the derivative
    of the out-of-balance force of the sample is minus the assembled tangent
    matrices applied to the direction.  With zero prescribed values a step of
    [C117_step] therefore solves the linearised equilibrium equations. *)
Theorem C117_tangent : forall d s q E V c u z us, total_lagrange d s q E V -> line_from d u z us ->
  forall i j, derivable_pt_lim (fun e => out d c (us e) i j) 0 (- tangent_on d u z i j).
Proof. exact C117_tangent_pf. Qed.
Print Assumptions C117_tangent.

Example C117_tangent_ex : line_from mild [[0;0;0]; [0;0;0]; [0;0;0]; [0;0;0]] (fun i j => if (i + j =? 0)%nat then 1 else 0) (fun e => [[e;0;0]; [0;0;0]; [0;0;0]; [0;0;0]]).
Proof.
  split; [reflexivity|]. intros e. split; [split; [reflexivity|]; intros i Hi; cbn in Hi; do 4 (destruct i as [|i]; [reflexivity|]); lia|].
  intros i j Hi Hj. cbn in Hi. do 4 (destruct i as [|i]; [do 3 (destruct j as [|j]; [unfold uval; cbn; ring|]); lia|]). lia.
Qed.

(** C117, small loads: the test compares the squared residual with the norm of
    the loads, not with its square.  If the norm of the loads is below the
    tolerance, the sample accepts the undeformed body in every load step,
    although the loads are not balanced there at all. *)
Theorem C117_small : forall solve d s q E V, total_lagrange d s q E V -> zero_held d -> NoDup (map fst (nw_qfixed d)) -> (forall i j v, In (i, j, v) (nw_qfixed d) -> held d i j = false) ->
  0 < load_norm d < nw_tol d -> (0 < nw_passes d)%nat ->
  exists u, nw_run solve d = Ok (repeat (u, true) (nw_steps d)) /\ nshape d u /\ (forall i j, uval u i j = 0) /\ forall c i j, out d c u i j = c * nodal_load (nw_qfixed d) i j.
Proof. exact C117_small_pf. Qed.
Print Assumptions C117_small.

Example C117_small_ex : exists u, nw_run (fun _ b => Fail AssertFail) mild = Ok (repeat (u, true) 10) /\ uval u 0 0 = 0 /\ out mild 1 u 0 0 = 1 / 1000.
Proof.
  destruct (C117_small (fun _ b => Fail AssertFail) mild _ _ _ _ mild_total mild_held) as (u & E & _ & Z & O).
  - repeat constructor. intros [].
  - intros i j v [E|[]]. injection E as <- <- _. reflexivity.
  - unfold mild. rewrite mild_norm. cbn. lra.
  - cbn. lia.
  - exists u. split; [exact E|]. split; [apply Z|]. rewrite O. unfold nodal_load, sum_over. cbn. field.
Qed.

(** C117, prescribed values: a state that carries the prescribed values and is in
    exact equilibrium is accepted exactly if the tangent matrices, applied to the
    prescribed displacements, are small: every pass moves the prescribed
    displacements to the right-hand side again, although the element forces
    already contain them.  So there are equilibrium states that are not accepted. *)
Theorem C117_prescribed : (forall solve d u0 t n f u, newton_ok d -> 0 < load_norm d -> (0 < f <= nw_steps d)%nat -> nw_start d = Ok (u0, t, n) -> nshape d u ->
    (forall i j, (i < length (nw_x d))%nat -> (j < 3)%nat -> held d i j = false -> out d (INR f / INR (nw_steps d)) u i j = 0) ->
    ((exists u', nw_pass solve d t n f u = Ok (u', true)) <-> free_squares d (held_share d u) < nw_tol d * (INR f / INR (nw_steps d) * load_norm d))) /\
  exists d s q E V u0 t n u, total_lagrange d s q E V /\ 0 < load_norm d /\ nw_steps d = 1%nat /\ nw_start d = Ok (u0, t, n) /\ keeps d u /\
    (forall i j, (i < length (nw_x d))%nat -> (j < 3)%nat -> held d i j = false -> out d 1 u i j = 0) /\
    forall solve u', nw_pass solve d t n 1 u <> Ok (u', true).
Proof. exact C117_prescribed_pf. Qed.
Print Assumptions C117_prescribed.

Example C117_prescribed_ex : newton_ok block /\ held block 0 0 = false /\ held block 1 0 = true /\ load_norm block = 1.
Proof. split; [apply (C117_total _ _ _ _ _ block_total)|]. split; [reflexivity|]. split; [reflexivity|exact block_norm]. Qed.
