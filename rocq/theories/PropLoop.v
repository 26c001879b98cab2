(** Properties C109 and C110: the optimisation loop of the density samples. *)
From Coq Require Import List Arith Lia Bool Reals Lra ZArith.
From Verif Require Import Res SumR DenseModel DenseR DenseSpec ShapeModel QuadModel ElemModel ElemSpec SparseModel FilterModel FilterSpec OCModel MeshModel TopModel TopSpec LoopModel LoopSpec FilterMain LoopMain.
Import ListNotations.
Local Open Scope R_scope.

(** C109, the problem: for every size of the rectangle and every number of
    elements, if the supports include the left side, the set-up of the sample is
    an admissible problem; the prescribed dofs are those at the nodes where the
    predicate holds, the loads act on dof 1 where theirs holds, and the centres
    of the elements are the centres of the cells. *)
Theorem C109_problem : forall lx ly nx ny sup at_load load E0 E1 p scale0 scale1 limit, 0 < lx -> 0 < ly -> (0 < nx)%nat -> (0 < ny)%nat -> (forall y, sup [0; y] = true) -> 0 < E0 <= E1 ->
  exists d cg, ds_problem lx ly nx ny sup at_load load E0 E1 p scale0 scale1 limit = Ok d /\ ds_centers d = Ok cg /\ top_ok d /\
    length (tp_elements d) = (nx * ny)%nat /\ length (tp_x d) = ((nx + 1) * (ny + 1))%nat /\ length cg = (nx * ny)%nat /\
    (forall i j v, In (i, j, v) (tp_ufixed d) <-> (i < length (tp_x d))%nat /\ sup (nth i (tp_x d) []) = true /\ (j < 2)%nat /\ v = 0) /\
    (forall i j v, In (i, j, v) (tp_qfixed d) <-> (i < length (tp_x d))%nat /\ at_load (nth i (tp_x d) []) = true /\ j = 1%nat /\ v = load) /\
    (forall i j, (i < nx)%nat -> (j < ny)%nat -> nth (ny * i + j) cg [] = [lx * ((INR i + 1 / 2) / INR nx); ly * ((INR j + 1 / 2) / INR ny)] /\
       nth (ny * i + j) (tp_elements d) [] = [(ny + 1) * i + j; (ny + 1) * (i + 1) + j; (ny + 1) * (i + 1) + (j + 1); (ny + 1) * i + (j + 1)]%nat) /\
    (0 <= p -> 0 <= scale0 -> 0 < scale1 -> 0 < limit -> loop_consts d) /\ tp_limit d = limit /\ forall c, In c cg -> length c = 2%nat.
Proof. exact C109_problem_pf. Qed.
Print Assumptions C109_problem.

Example C109_problem_ex : exists d cg, ds_problem 3 1 3 1 (fun x => if Req_EM_T (nth 0 x 0) 0 then true else false) (fun x => if Req_EM_T (nth 0 x 0) 3 then true else false) (-1) (1/1000) 1 3 1 1 (1/2) = Ok d /\
  ds_centers d = Ok cg /\ top_ok d /\ nth 1 cg [] = [3 / 2; 1 / 2] /\ nth 2 (tp_elements d) [] = [4; 6; 7; 5]%nat /\ loop_consts d.
Proof.
  destruct (C109_problem 3 1 3 1 (fun x => if Req_EM_T (nth 0 x 0) 0 then true else false) (fun x => if Req_EM_T (nth 0 x 0) 3 then true else false) (-1) (1/1000) 1 3 1 1 (1/2)) as (d & cg & E & EC & T & _ & _ & _ & _ & _ & N & C & _); try lra; try lia.
  { intros y. cbn. destruct (Req_EM_T 0 0); congruence. }
  exists d, cg. splits; auto.
  - pose proof (proj1 (N 1%nat 0%nat ltac:(lia) ltac:(lia))) as Q. cbn [Nat.mul Nat.add INR] in Q. rewrite Q. f_equal; [field|f_equal; field].
  - exact (proj2 (N 2%nat 0%nat ltac:(lia) ltac:(lia))).
  - apply C; lra.
Qed.

(** C109, neighbours: element j is a neighbour of element i exactly when the
    distance of the centres is at most the radius, once, with the weight
    1 - distance / radius; the lists satisfy what the filters need and the
    weights are symmetric. *)
Theorem C109_neighbors : forall cg rad dim, (forall c, In c cg -> length c = dim) -> 0 < rad ->
  exists nbs w, ds_neighbors cg rad = Ok (nbs, w) /\ filter_ok (length cg) nbs w /\ weights_nonneg nbs w /\
    (forall i j v, In (j, v) (links nbs w i) <->
       (i < length cg)%nat /\ (j < length cg)%nat /\ dist (nth i cg []) (nth j cg []) <= rad /\ v = 1 - dist (nth i cg []) (nth j cg []) / rad) /\
    (forall i, (i < length cg)%nat -> In (i, 1) (links nbs w i)) /\ (forall i, NoDup (map fst (links nbs w i))) /\
    (forall i k, link_weight nbs w i k = link_weight nbs w k i).
Proof. exact C109_neighbors_pf. Qed.
Print Assumptions C109_neighbors.

(** three cells in a row: the weights are 1 and 1/3 *)
Example C109_neighbors_ex : exists nbs w, ds_neighbors row3_cg (3 / 2) = Ok (nbs, w) /\ link_weight nbs w 0 1 = 1 / 3 /\ link_weight nbs w 0 2 = 0 /\ weight_sum nbs w 1 = 5 / 3.
Proof.
  exists row3_nbs, row3_w. split; [exact row3_neighbors|]. unfold link_weight, weight_sum, total, links, sumlist. cbn. lra.
Qed.

(** C109, a pass: for every design in (0, 1] the body of the loop runs through;
    the densities lie in (0, 1], the analysis and the weight are those of the
    densities, the constraint that the optimiser evaluates is the weight, no
    sensitivity of the objective is positive and every sensitivity of the weight
    is. *)
Theorem C109_pass : forall solve d nbs w beta s, spd_solver solve -> top_ok d -> loop_consts d -> let n := length (tp_elements d) in
  filter_ok n nbs w -> weights_nonneg nbs w -> 0 < beta -> unit_design n s ->
  exists ps, ds_pass solve d nbs w beta s = Ok ps /\ heaviside_variables n nbs w beta s = Ok (ps_rho ps) /\ unit_design n (ps_rho ps) /\
    top_analysis solve d (ps_rho ps) = Ok (ps_an ps) /\ ds_constraint d nbs w beta s = Ok (ps_g ps) /\
    ps_g ps = tp_scale1 d * (bigsum n (fun i => nth i (ps_rho ps) 0) / INR n / tp_limit d - 1) /\
    0 <= an_f (ps_an ps) /\ length (ps_dfds ps) = n /\ length (ps_dgds ps) = n /\
    forall i, (i < n)%nat -> nth i (ps_dfds ps) 0 <= 0 /\ 0 < nth i (ps_dgds ps) 0.
Proof. exact C109_pass_pf. Qed.
Print Assumptions C109_pass.

Example C109_pass_ex solve : spd_solver solve -> exists d ps, ds_centers d = Ok row3_cg /\ ds_pass solve d row3_nbs row3_w 1 [1; 1; 1] = Ok ps /\ unit_design 3 (ps_rho ps) /\ nth 0 (ps_dfds ps) 0 <= 0.
Proof.
  intros HS. destruct (row3_problem (1 / 2) ltac:(lra)) as (d & _ & EC & T & L & C & _). destruct row3_ok as (F & W & _).
  destruct (C109_pass solve d row3_nbs row3_w 1 [1; 1; 1] HS T C) as (ps & E & _ & U & _ & _ & _ & _ & _ & _ & S); try lra; auto; try (rewrite L; auto).
  { split; [reflexivity|]. intros [|[|[|i]]] Hi; cbn; lra || lia. }
  exists d, ps. rewrite L in U. splits; auto. apply S. rewrite L. lia.
Qed.

(** C109, the run: from every admissible state, for every number of passes, the
    loop ends in an admissible state, or the bisection of the optimiser does not
    end; there is no other failure.  One pass changes every variable by at most
    the move limit. *)
Theorem C109_run : forall solve d nbs w fuel, spd_solver solve -> top_ok d -> loop_consts d -> let n := length (tp_elements d) in
  filter_ok n nbs w -> weights_nonneg nbs w -> let good st := 0 < ds_beta st /\ unit_design n (ds_s st) /\ oc_params n (ds_oc st) in
  (forall k todo st, good st -> (exists stop st', ds_run solve d nbs w fuel k todo st = Ok (stop, st') /\ good st') \/ ds_run solve d nbs w fuel k todo st = Fail OutOfFuel) /\
  (forall k st stop st', good st -> ds_iteration solve d nbs w fuel k st = Ok (stop, st') ->
     (stop = true -> ds_s st' = ds_s st) /\ forall i, (i < n)%nat -> Rabs (nth i (ds_s st') 0 - nth i (ds_s st) 0) <= oc_move (ds_oc st) * nth i (ds_s st) 0).
Proof. exact C109_run_pf. Qed.
Print Assumptions C109_run.

(** one pass on the row moves every variable by at most 15 percent *)
Example C109_run_ex solve fuel : spd_solver solve -> exists d, ds_centers d = Ok row3_cg /\
  forall stop st, ds_run solve d row3_nbs row3_w fuel 0 1 (mkDs (5/10) [1; 1/2; 1/4] (oc_new 3 (5/10) 0 10000 (1/1000) (15/100) (repeat (1/100) 3) (repeat 1 3))) = Ok (stop, st) ->
    Rabs (nth 2 (ds_s st) 0 - 1/4) <= 15/400.
Proof.
  intros HS. destruct (row3_problem (1 / 2) ltac:(lra)) as (d & _ & EC & T & L & C & _). destruct row3_ok as (F & W & _). exists d. split; [exact EC|]. intros stop st E.
  set (st0 := mkDs _ _ _) in E. assert (G : 0 < ds_beta st0 /\ unit_design (length (tp_elements d)) (ds_s st0) /\ oc_params (length (tp_elements d)) (ds_oc st0)).
  { rewrite L. split; [cbn; lra|split; [|apply params_new]]. split; [reflexivity|]. intros [|[|[|i]]] Hi; cbn; lra || lia. }
  cbn [ds_run] in E. destruct (ds_iteration solve d row3_nbs row3_w fuel 0 st0) as [[b st']|] eqn:EI; [|discriminate]. cbn [bind] in E.
  destruct (C109_run solve d row3_nbs row3_w fuel HS T C ltac:(rewrite L; auto) W) as [_ R2]. destruct (R2 0%nat st0 b st' G EI) as [_ M]. specialize (M 2%nat ltac:(rewrite L; lia)). cbn [st0 ds_s ds_oc oc_new oc_move nth] in M.
  assert (st = st') as -> by (destruct b; injection E as _ <-; reflexivity). lra.
Qed.

(** C109, the sample: for every size, every number of elements, every radius and
    every first density in (0, 1], the set-up succeeds and the loop delivers a
    design in (0, 1] after every number of passes, unless the bisection of the
    optimiser does not end. *)
Theorem C109_sample : forall solve lx ly nx ny sup at_load load E0 E1 p scale0 scale1 limit rad s0, spd_solver solve -> 0 < lx -> 0 < ly -> (0 < nx)%nat -> (0 < ny)%nat ->
  (forall y, sup [0; y] = true) -> 0 < E0 <= E1 -> 0 <= p -> 0 <= scale0 -> 0 < scale1 -> 0 < limit -> 0 < rad -> 0 < s0 <= 1 ->
  exists d cg nbs w, ds_problem lx ly nx ny sup at_load load E0 E1 p scale0 scale1 limit = Ok d /\ ds_centers d = Ok cg /\ ds_neighbors cg rad = Ok (nbs, w) /\
    forall fuel passes, (exists stop st, ds_optimize solve d nbs w fuel passes s0 = Ok (stop, st) /\ unit_design (nx * ny) (ds_s st)) \/ ds_optimize solve d nbs w fuel passes s0 = Fail OutOfFuel.
Proof. exact C109_sample_pf. Qed.
Print Assumptions C109_sample.

(** the row with half of the material allowed *)
Example C109_sample_ex solve : spd_solver solve -> exists d, ds_centers d = Ok row3_cg /\
  forall fuel passes, (exists stop st, ds_optimize solve d row3_nbs row3_w fuel passes (1 / 2) = Ok (stop, st) /\ unit_design 3 (ds_s st)) \/ ds_optimize solve d row3_nbs row3_w fuel passes (1 / 2) = Fail OutOfFuel.
Proof.
  intros HS. destruct (row3_problem (1 / 2) ltac:(lra)) as (d & ED & EC & _). exists d. split; [exact EC|].
  destruct (C109_sample solve 3 1 3 1 (fun x => if Req_EM_T (nth 0 x 0) 0 then true else false) (fun x => if Req_EM_T (nth 0 x 0) 3 then true else false) (-1) (1/1000) 1 3 1 1 (1/2) (3 / 2) (1 / 2) HS) as (d' & cg & nbs & w & ED' & EC' & EN & H); try lra; try lia.
  { intros y. cbn. destruct (Req_EM_T 0 0); congruence. }
  rewrite ED in ED'. injection ED' as <-. rewrite EC in EC'. injection EC' as <-. rewrite row3_neighbors in EN. injection EN as <- <-. exact H.
Qed.

(** C109, the bisection: with the lower limit 0 that the samples use, the update
    of the optimiser ends if and only if the design that goes up as far as the
    move limit allows wherever that helps the objective violates the constraint;
    a constraint that holds there keeps the bisection running for ever. *)
Theorem C109_update_ends : forall solve d nbs w beta s ps o, spd_solver solve -> top_ok d -> loop_consts d -> let n := length (tp_elements d) in
  filter_ok n nbs w -> weights_nonneg nbs w -> 0 < beta -> unit_design n s -> oc_params n o -> oc_lmin o = 0 -> ds_pass solve d nbs w beta s = Ok ps ->
  (exists fuel r, oc_update o fuel s (an_f (ps_an ps)) (ps_dfds ps) (ps_dgds ps) (ds_gkp1 d nbs w beta) = Ok r) <->
  exists g, ds_constraint d nbs w beta (largest_step o s (ps_dfds ps)) = Ok g /\ 0 < g.
Proof. exact C109_update_ends_pf. Qed.
Print Assumptions C109_update_ends.

(** the row full of material with at most two fifths allowed: the update ends *)
Example C109_update_ends_ex solve : spd_solver solve -> exists d ps fuel r, ds_centers d = Ok row3_cg /\ ds_pass solve d row3_nbs row3_w 1 [1; 1; 1] = Ok ps /\
  oc_update (oc_new 3 (5/10) 0 10000 (1/1000) (15/100) (repeat (1/100) 3) (repeat 1 3)) fuel [1; 1; 1] (an_f (ps_an ps)) (ps_dfds ps) (ps_dgds ps) (ds_gkp1 d row3_nbs row3_w 1) = Ok r.
Proof.
  intros HS. destruct (row3_problem (2 / 5) ltac:(lra)) as (d & _ & EC & T & L & C & EL & E1). destruct row3_ok as (F & W & _). assert (U : unit_design 3 [1; 1; 1]) by (split; [reflexivity|intros [|[|[|i]]] Hi; cbn; lra || lia]).
  destruct (C109_pass solve d row3_nbs row3_w 1 [1; 1; 1] HS T C) as (ps & E & _); rewrite ?L; auto; try lra.
  set (o := oc_new 3 (5/10) 0 10000 (1/1000) (15/100) (repeat (1/100) 3) (repeat 1 3)). pose proof (params_new 3 : oc_params 3 o) as P.
  destruct (largest_unit 3 o [1; 1; 1] (ps_dfds ps) P U) as [LU LG]. set (z := largest_step o [1; 1; 1] (ps_dfds ps)) in *.
  destruct (C109_pass solve d row3_nbs row3_w 1 z HS T C) as (ps' & _ & ER & _ & _ & EG & V & _); rewrite ?L; auto; try lra. rewrite L, EL, E1 in *.
  destruct (C46_heaviside_pf 3 row3_nbs row3_w 1 [1/2; 1/2; 1/2] F W ltac:(lra) eq_refl) as (r0 & _ & _ & _ & M & FX).
  assert (H : forall i, (i < 3)%nat -> 1 / 2 <= nth i (ps_rho ps') 0).
  { intros i Hi. rewrite <- (FX (1 / 2) ltac:(auto)) with (i := i); [|intros [|[|[|k]]] Hk; cbn; lra || lia|auto]. apply (M z _ (proj1 LU) ER); auto. intros k Hk. specialize (LG k Hk). cbn [o oc_new oc_move] in LG. destruct k as [|[|[|k]]]; try lia; cbn [nth] in LG |- *; lra. }
  destruct (proj2 (C109_update_ends solve d row3_nbs row3_w 1 [1; 1; 1] ps o HS T C ltac:(rewrite L; auto) W ltac:(lra) ltac:(rewrite L; auto) ltac:(rewrite L; auto) eq_refl E)) as (fuel & r & EU).
  { exists (ps_g ps'). split; [exact EG|]. rewrite V. pose proof (H 0%nat ltac:(lia)). pose proof (H 1%nat ltac:(lia)). pose proof (H 2%nat ltac:(lia)). cbn [bigsum INR]. set (a := nth 0 (ps_rho ps') 0) in *. set (b := nth 1 (ps_rho ps') 0) in *. set (c := nth 2 (ps_rho ps') 0) in *. lra. }
  exists d, ps, fuel, r. auto.
Qed.

(** C109, an inactive constraint: if the allowed mean density is 1 or more, the
    bisection never ends. *)
Theorem C109_inactive : forall solve d nbs w beta s ps o, spd_solver solve -> top_ok d -> loop_consts d -> let n := length (tp_elements d) in
  filter_ok n nbs w -> weights_nonneg nbs w -> 0 < beta -> unit_design n s -> oc_params n o -> oc_lmin o = 0 -> ds_pass solve d nbs w beta s = Ok ps -> 1 <= tp_limit d ->
  forall fuel, oc_update o fuel s (an_f (ps_an ps)) (ps_dfds ps) (ps_dgds ps) (ds_gkp1 d nbs w beta) = Fail OutOfFuel.
Proof. exact C109_inactive_pf. Qed.
Print Assumptions C109_inactive.

Example C109_inactive_ex solve fuel : spd_solver solve -> exists d, ds_centers d = Ok row3_cg /\ ds_optimize solve d row3_nbs row3_w fuel 1 1 = Fail OutOfFuel.
Proof.
  intros HS. destruct (row3_problem 1 ltac:(lra)) as (d & _ & EC & T & L & C & EL & E1). destruct row3_ok as (F & W & _). exists d. split; [exact EC|]. assert (U : unit_design 3 [1; 1; 1]) by (split; [reflexivity|intros [|[|[|i]]] Hi; cbn; lra || lia]).
  destruct (C109_pass solve d row3_nbs row3_w 1 [1; 1; 1] HS T C) as (ps & E & _ & _ & _ & _ & _ & PF & _); rewrite ?L; auto; try lra.
  pose proof (C109_inactive solve d row3_nbs row3_w 1 [1; 1; 1] ps (oc_new 3 (5/10) 0 10000 (1/1000) (15/100) (repeat (1/100) 3) (repeat 1 3)) HS T C) as Q. rewrite L in Q. specialize (Q F W ltac:(lra) U (params_new 3) eq_refl E ltac:(lra) fuel).
  unfold ds_optimize. rewrite L. cbn [ds_run]. unfold ds_iteration. change (0 mod 40 =? 0)%nat with true. cbv iota zeta. cbn [ds_beta ds_s ds_oc].
  replace (5 / 10 * 2) with 1 by field. change (ds_pass solve d row3_nbs row3_w 1 (repeat 1 3)) with (ds_pass solve d row3_nbs row3_w 1 [1; 1; 1]). rewrite E. cbn [bind].
  replace (oc_is_convergence _ _) with false; [|symmetry; apply new_runs; exact PF]. cbv iota. change (oc_update ?o fuel (repeat 1 3)) with (oc_update o fuel [1; 1; 1]). rewrite Q. reflexivity.
Qed.

(** C110, the sensitivities that the loop uses: the objective and the constraint
    are differentiable in the design; if the weights sums of the neighbours of
    element i lie between a and b, the sensitivity of element i, times its own
    weight sum, lies between a times and b times the partial derivative, so it
    has the right sign, and it is the partial derivative if all these sums are
    equal. *)
Theorem C110_gradient : forall solve d nbs w beta s ps, spd_solver solve -> top_ok d -> loop_consts d -> let n := length (tp_elements d) in
  filter_ok n nbs w -> weights_nonneg nbs w -> (forall i k, (i < n)%nat -> (k < n)%nat -> link_weight nbs w i k = link_weight nbs w k i) -> 0 < beta -> unit_design n s -> ds_pass solve d nbs w beta s = Ok ps ->
  exists F K, gradient_at n (ds_objective solve d nbs w beta) s F /\ gradient_at n (ds_gkp1 d nbs w beta) s K /\
    (forall i, (i < n)%nat -> nth i F 0 <= 0 /\ 0 < nth i K 0) /\
    (forall i a b, (i < n)%nat -> (forall k, (k < n)%nat -> 0 < link_weight nbs w i k -> a <= weight_sum nbs w k <= b) ->
       b * nth i F 0 <= weight_sum nbs w i * nth i (ps_dfds ps) 0 <= a * nth i F 0 /\
       a * nth i K 0 <= weight_sum nbs w i * nth i (ps_dgds ps) 0 <= b * nth i K 0) /\
    (forall i, (i < n)%nat -> (forall k, (k < n)%nat -> 0 < link_weight nbs w i k -> weight_sum nbs w k = weight_sum nbs w i) ->
       nth i (ps_dfds ps) 0 = nth i F 0 /\ nth i (ps_dgds ps) 0 = nth i K 0).
Proof. exact C110_gradient_pf. Qed.
Print Assumptions C110_gradient.

(** the first cell of the row: the sensitivity is at most a quarter too large *)
Example C110_gradient_ex solve : spd_solver solve -> exists d ps F, ds_centers d = Ok row3_cg /\ ds_pass solve d row3_nbs row3_w 1 [1; 1; 1] = Ok ps /\
  gradient_at 3 (ds_objective solve d row3_nbs row3_w 1) [1; 1; 1] F /\ 5 / 4 * nth 0 F 0 <= nth 0 (ps_dfds ps) 0 <= nth 0 F 0.
Proof.
  intros HS. destruct (row3_problem (1 / 2) ltac:(lra)) as (d & _ & EC & T & L & C & _). destruct row3_ok as (F & W & SY). assert (U : unit_design 3 [1; 1; 1]) by (split; [reflexivity|intros [|[|[|i]]] Hi; cbn; lra || lia]).
  destruct (C109_pass solve d row3_nbs row3_w 1 [1; 1; 1] HS T C) as (ps & E & _); rewrite ?L; auto; try lra.
  destruct (C110_gradient solve d row3_nbs row3_w 1 [1; 1; 1] ps HS T C ltac:(rewrite L; auto) W ltac:(auto) ltac:(lra) ltac:(rewrite L; auto) E) as (G & K & GF & _ & _ & B & _). rewrite L in *.
  exists d, ps, G. splits; auto; destruct (B 0%nat (4 / 3) (5 / 3) ltac:(lia)) as [Q _].
  - intros [|[|[|k]]] Hk P; try lia; unfold weight_sum, total, links, sumlist; cbn; lra.
  - unfold weight_sum, total, links, sumlist in Q. cbn in Q. set (x := nth 0 G 0) in *. set (y := nth 0 (ps_dfds ps) 0) in *. lra.
  - intros [|[|[|k]]] Hk P; try lia; unfold weight_sum, total, links, sumlist; cbn; lra.
  - unfold weight_sum, total, links, sumlist in Q. cbn in Q. set (x := nth 0 G 0) in *. set (y := nth 0 (ps_dfds ps) 0) in *. lra.
Qed.

(** C110, at the border: if the weight sum of an element is the smallest among
    its neighbours and one of them has a larger one, the sensitivity of the
    constraint that the loop uses exceeds the partial derivative; what the loop
    uses is not the gradient. *)
Theorem C110_not_gradient : forall solve d nbs w beta s ps i, spd_solver solve -> top_ok d -> loop_consts d -> let n := length (tp_elements d) in
  filter_ok n nbs w -> weights_nonneg nbs w -> (forall i k, (i < n)%nat -> (k < n)%nat -> link_weight nbs w i k = link_weight nbs w k i) -> 0 < beta -> unit_design n s -> ds_pass solve d nbs w beta s = Ok ps ->
  (i < n)%nat -> (forall k, (k < n)%nat -> 0 < link_weight nbs w i k -> weight_sum nbs w i <= weight_sum nbs w k) ->
  (exists k, (k < n)%nat /\ 0 < link_weight nbs w i k /\ weight_sum nbs w i < weight_sum nbs w k) ->
  (forall K, gradient_at n (ds_gkp1 d nbs w beta) s K -> nth i K 0 < nth i (ps_dgds ps) 0) /\ ~ gradient_at n (ds_gkp1 d nbs w beta) s (ps_dgds ps).
Proof. exact C110_not_gradient_pf. Qed.
Print Assumptions C110_not_gradient.

Example C110_not_gradient_ex solve : spd_solver solve -> exists d ps, ds_centers d = Ok row3_cg /\ ds_pass solve d row3_nbs row3_w 1 [1; 1; 1] = Ok ps /\
  ~ gradient_at 3 (ds_gkp1 d row3_nbs row3_w 1) [1; 1; 1] (ps_dgds ps).
Proof.
  intros HS. destruct (row3_problem (1 / 2) ltac:(lra)) as (d & _ & EC & T & L & C & _). destruct row3_ok as (F & W & SY). assert (U : unit_design 3 [1; 1; 1]) by (split; [reflexivity|intros [|[|[|i]]] Hi; cbn; lra || lia]).
  destruct (C109_pass solve d row3_nbs row3_w 1 [1; 1; 1] HS T C) as (ps & E & _); rewrite ?L; auto; try lra. exists d, ps. splits; auto.
  destruct (C110_not_gradient solve d row3_nbs row3_w 1 [1; 1; 1] ps 0 HS T C) as [_ N]; rewrite ?L in *; auto; try lra; try lia.
  - intros [|[|[|k]]] Hk P; try lia; unfold weight_sum, total, links, sumlist; cbn; lra.
  - exists 1%nat. split; [lia|]. unfold link_weight, weight_sum, total, links, sumlist; cbn; lra.
Qed.
