(** Properties C48, C49 and C71-C75: the MMA and CONLIN solvers. *)
From Coq Require Import List Arith Lia Bool Reals Lra.
From Verif Require Import Res SumR DenseR LUModel KrylovModel SolvelsModel OCModel MMAModel MMASpec MMAMain.
Import ListNotations.
Local Open Scope R_scope.

(** C49: for every nonsingular A (only the zero vector is mapped to zero) solvels returns the solution of A x = b, whatever row exchanges are needed; for a singular A it divides by zero *)
Theorem C49_solvels : forall n A b, (0 < n)%nat -> length A = n -> (forall i, (i < n)%nat -> length (nth i A []) = n) -> length b = n ->
  let regular := forall v : nat -> R, (forall i, (i < n)%nat -> bigsum n (fun j => ent2 A i j * v j) = 0) -> forall j, (j < n)%nat -> v j = 0 in
  (regular -> exists x, solvels A b = Ok x /\ length x = n /\ forall i, (i < n)%nat -> bigsum n (fun j => ent2 A i j * ent x j) = ent b i) /\
  (~ regular -> solvels A b = Fail DivByZero).
Proof. exact C49_solvels_pf. Qed.
Print Assumptions C49_solvels.

(** rows must be exchanged *)
Example C49_ex : exists x, solvels [[0; 2]; [3; 1]] [4; 5] = Ok x /\ ent x 0 = 1 /\ ent x 1 = 2.
Proof.
  destruct (C49_solvels 2 [[0; 2]; [3; 1]] [4; 5]) as (H & _); [lia|reflexivity|intros [|[|i]] Hi; auto; lia|reflexivity|].
  destruct H as (x & E & L & S).
  - intros v Hv j Hj. pose proof (Hv 0%nat ltac:(lia)) as H0. pose proof (Hv 1%nat ltac:(lia)) as H1. cbn in H0, H1. unfold ent2 in *. cbn in H0, H1. destruct j as [|[|j]]; [lra|lra|lia].
  - exists x. split; [exact E|]. pose proof (S 0%nat ltac:(lia)) as H0. pose proof (S 1%nat ltac:(lia)) as H1. unfold ent2, ent in *. cbn in H0, H1 |- *. lra.
Qed.

(** C48: from a usable solver and variables inside the box, UpdateVariables of MMA either runs on for ever or returns variables strictly inside the box, strictly between the asymptotes and strictly within the move limits, and leaves a usable solver; it never divides by zero or leaves a vector *)
Theorem C48_mma : forall s fuel xk f dfdx g dgdx, mma_ready s -> args_ok (mm_n s) (mm_m s) (mm_xmin s) (mm_xmax s) xk dfdx g dgdx ->
  match mma_update s fuel xk f dfdx g dgdx with
  | Ok (s', x) => length x = mm_n s /\ mma_ready s' /\ mm_xmin s' = mm_xmin s /\ mm_xmax s' = mm_xmax s /\
      forall j, (j < mm_n s)%nat -> ent (mm_xmin s) j < ent x j < ent (mm_xmax s) j /\ ent (mm_L s') j < ent x j < ent (mm_U s') j /\
        Rabs (ent x j - ent xk j) < mm_move s * (ent (mm_xmax s) j - ent (mm_xmin s) j) /\
        ent x j - ent (mm_L s') j > mm_albefa s * (ent xk j - ent (mm_L s') j) /\ ent (mm_U s') j - ent x j > mm_albefa s * (ent (mm_U s') j - ent xk j)
  | Fail e => e = OutOfFuel end.
Proof. exact C48_mma_pf. Qed.
Print Assumptions C48_mma.

(** a new solver is usable *)
Example C48_new : forall n m a0 a c d xmin xmax, length xmin = n -> length xmax = n -> length a = m -> length c = m -> length d = m ->
  (forall j, (j < n)%nat -> ent xmin j < ent xmax j) -> (forall i, (i < m)%nat -> 0 <= ent d i) -> mma_ready (mma_new n m a0 a c d xmin xmax).
Proof. exact MMAMain.mma_new_ready. Qed.

(** C48: the same for CONLIN, whose variables must be positive because the reciprocals are used *)
Theorem C48_conlin : forall s fuel xk f dfdx g dgdx, conlin_ready s -> args_ok (cl_n s) (cl_m s) (cl_xmin s) (cl_xmax s) xk dfdx g dgdx -> (forall j, (j < cl_n s)%nat -> 0 < ent xk j) ->
  match conlin_update s fuel xk f dfdx g dgdx with
  | Ok (s', x) => length x = cl_n s /\ conlin_ready s' /\ cl_xmin s' = cl_xmin s /\ cl_xmax s' = cl_xmax s /\
      forall j, (j < cl_n s)%nat -> ent (cl_xmin s) j < ent x j < ent (cl_xmax s) j /\ Rabs (ent x j - ent xk j) < cl_move s * (ent (cl_xmax s) j - ent (cl_xmin s) j)
  | Fail e => e = OutOfFuel end.
Proof. exact C48_conlin_pf. Qed.
Print Assumptions C48_conlin.

Example C48_conlin_ex : conlin_ready (conlin_new 2 2 1 [1; 1] [0; 0] [0; 0] [1; 1] [3; 3]) /\ args_ok 2 2 [1; 1] [3; 3] [2; 2] [0; 0] [0; 0] [[0; 0]; [0; 0]].
Proof. split; [exact MMAMain.cl_bad_ready|exact MMAMain.args_bad]. Qed.

(** C71: the variables returned by MMA belong to a strictly interior primal-dual point of Svanberg's subproblem whose perturbed optimality conditions hold up to 0.9e-6 with barrier parameter at most 1e-6 *)
Theorem C71_mma_kkt : forall s fuel xk f dfdx g dgdx s' x, mma_ready s -> args_ok (mm_n s) (mm_m s) (mm_xmin s) (mm_xmax s) xk dfdx g dgdx ->
  mma_update s fuel xk f dfdx g dgdx = Ok (s', x) ->
  exists P w e, mma_subproblem s xk dfdx g dgdx (mm_L s') (mm_U s') P /\ w_x w = x /\ inside P w /\ 0 < e <= 1/1000000 /\ kkt_within P (mma_shape (mm_L s') (mm_U s')) w e (9/10 * e).
Proof. exact C71_mma_kkt_pf. Qed.
Print Assumptions C71_mma_kkt.

(** C71: the same for CONLIN and the convex linearisation *)
Theorem C71_conlin_kkt : forall s fuel xk f dfdx g dgdx s' x, conlin_ready s -> args_ok (cl_n s) (cl_m s) (cl_xmin s) (cl_xmax s) xk dfdx g dgdx -> (forall j, (j < cl_n s)%nat -> 0 < ent xk j) ->
  conlin_update s fuel xk f dfdx g dgdx = Ok (s', x) ->
  exists P w e, conlin_subproblem s xk dfdx g dgdx P /\ w_x w = x /\ inside P w /\ 0 < e <= 1/1000000 /\ kkt_within P conlin_shape w e (9/10 * e).
Proof. exact C71_conlin_kkt_pf. Qed.
Print Assumptions C71_conlin_kkt.

(** C72: the MMA subproblem agrees with the problem to first order at the current point: constraint values and all derivatives coincide *)
Theorem C72_mma_first_order : forall s xk dfdx g dgdx, mma_ready s -> args_ok (mm_n s) (mm_m s) (mm_xmin s) (mm_xmax s) xk dfdx g dgdx ->
  exists L U P, mma_problem s xk dfdx g dgdx = Ok (L, U, P) /\ mma_subproblem s xk dfdx g dgdx L U P /\
  let h := mma_shape L U in
  (forall i, (i < mm_m s)%nat -> con_value P h xk i - ent (p_b P) i = ent g i) /\
  (forall j, (j < mm_n s)%nat -> derivable_pt_lim (fun t => obj_value P h (upd xk j t)) (ent xk j) (ent dfdx j)) /\
  (forall i j, (i < mm_m s)%nat -> (j < mm_n s)%nat -> derivable_pt_lim (fun t => con_value P h (upd xk j t) i) (ent xk j) (ent2 dgdx i j)).
Proof. exact C72_mma_first_order_pf. Qed.
Print Assumptions C72_mma_first_order.

(** C72: the same for CONLIN *)
Theorem C72_conlin_first_order : forall s xk dfdx g dgdx, conlin_ready s -> args_ok (cl_n s) (cl_m s) (cl_xmin s) (cl_xmax s) xk dfdx g dgdx -> (forall j, (j < cl_n s)%nat -> 0 < ent xk j) ->
  exists P, conlin_problem s xk dfdx g dgdx = Ok P /\ conlin_subproblem s xk dfdx g dgdx P /\
  let h := conlin_shape in
  (forall i, (i < cl_m s)%nat -> con_value P h xk i - ent (p_b P) i = ent g i) /\
  (forall j, (j < cl_n s)%nat -> derivable_pt_lim (fun t => obj_value P h (upd xk j t)) (ent xk j) (ent dfdx j)) /\
  (forall i j, (i < cl_m s)%nat -> (j < cl_n s)%nat -> derivable_pt_lim (fun t => con_value P h (upd xk j t) i) (ent xk j) (ent2 dgdx i j)).
Proof. exact C72_conlin_first_order_pf. Qed.
Print Assumptions C72_conlin_first_order.

(** C72: objective and constraints of the MMA subproblem are convex between the asymptotes, whatever the signs of the derivatives *)
Theorem C72_mma_convex : forall s xk dfdx g dgdx L U P, mma_ready s -> args_ok (mm_n s) (mm_m s) (mm_xmin s) (mm_xmax s) xk dfdx g dgdx ->
  mma_problem s xk dfdx g dgdx = Ok (L, U, P) ->
  let n := mm_n s in let h := mma_shape L U in
  forall x y t, 0 <= t <= 1 -> (forall j, (j < n)%nat -> ent L j < ent x j < ent U j /\ ent L j < ent y j < ent U j) ->
  let v := map (fun j => (1 - t) * ent x j + t * ent y j) (seq 0 n) in
  obj_value P h v <= (1 - t) * obj_value P h x + t * obj_value P h y /\
  forall i, (i < mm_m s)%nat -> con_value P h v i <= (1 - t) * con_value P h x i + t * con_value P h y i.
Proof. exact C72_mma_convex_pf. Qed.
Print Assumptions C72_mma_convex.

(** C72: objective and constraints of the CONLIN subproblem are convex for positive variables *)
Theorem C72_conlin_convex : forall s xk dfdx g dgdx P, conlin_ready s -> args_ok (cl_n s) (cl_m s) (cl_xmin s) (cl_xmax s) xk dfdx g dgdx -> (forall j, (j < cl_n s)%nat -> 0 < ent xk j) ->
  conlin_problem s xk dfdx g dgdx = Ok P ->
  let n := cl_n s in let h := conlin_shape in
  forall x y t, 0 <= t <= 1 -> (forall j, (j < n)%nat -> 0 < ent x j /\ 0 < ent y j) ->
  let v := map (fun j => (1 - t) * ent x j + t * ent y j) (seq 0 n) in
  obj_value P h v <= (1 - t) * obj_value P h x + t * obj_value P h y /\
  forall i, (i < cl_m s)%nat -> con_value P h v i <= (1 - t) * con_value P h x i + t * con_value P h y i.
Proof. exact C72_conlin_convex_pf. Qed.
Print Assumptions C72_conlin_convex.

(** C73: the variables returned by MMA solve the subproblem approximately: constraints are violated by at most 0.9e-6 and no feasible point improves the objective by more than a multiple of 1e-6 of the number of unknowns, the distance and the multipliers *)
Theorem C73_mma_near_optimal : forall s fuel xk f dfdx g dgdx s' x, mma_ready s -> args_ok (mm_n s) (mm_m s) (mm_xmin s) (mm_xmax s) xk dfdx g dgdx ->
  mma_update s fuel xk f dfdx g dgdx = Ok (s', x) ->
  let n := mm_n s in let m := mm_m s in let h := mma_shape (mm_L s') (mm_U s') in
  exists P y z lambda, mma_subproblem s xk dfdx g dgdx (mm_L s') (mm_U s') P /\ sub_feasible P h (9/10000000) x y z /\ (forall i, (i < m)%nat -> 0 < ent lambda i) /\
  forall x' y' z', sub_feasible P h 0 x' y' z' -> (forall j, (j < n)%nat -> ent (mm_L s') j < ent x' j < ent (mm_U s') j) ->
  sub_objective P h x y z <= sub_objective P h x' y' z' + 19/10000000 * INR (2 * n + 2 * m + 1) +
    9/10000000 * (bigsum n (fun j => Rabs (ent x' j - ent x j)) + Rabs (z' - z) + bigsum m (fun i => Rabs (ent y' i - ent y i)) + bigsum m (ent lambda)).
Proof. exact C73_mma_near_optimal_pf. Qed.
Print Assumptions C73_mma_near_optimal.

(** C73: the same for CONLIN *)
Theorem C73_conlin_near_optimal : forall s fuel xk f dfdx g dgdx s' x, conlin_ready s -> args_ok (cl_n s) (cl_m s) (cl_xmin s) (cl_xmax s) xk dfdx g dgdx -> (forall j, (j < cl_n s)%nat -> 0 < ent xk j) ->
  conlin_update s fuel xk f dfdx g dgdx = Ok (s', x) ->
  let n := cl_n s in let m := cl_m s in let h := conlin_shape in
  exists P y z lambda, conlin_subproblem s xk dfdx g dgdx P /\ sub_feasible P h (9/10000000) x y z /\ (forall i, (i < m)%nat -> 0 < ent lambda i) /\
  forall x' y' z', sub_feasible P h 0 x' y' z' -> (forall j, (j < n)%nat -> 0 < ent x' j) ->
  sub_objective P h x y z <= sub_objective P h x' y' z' + 19/10000000 * INR (2 * n + 2 * m + 1) +
    9/10000000 * (bigsum n (fun j => Rabs (ent x' j - ent x j)) + Rabs (z' - z) + bigsum m (fun i => Rabs (ent y' i - ent y i)) + bigsum m (ent lambda)).
Proof. exact C73_conlin_near_optimal_pf. Qed.
Print Assumptions C73_conlin_near_optimal.

(** C74: at every interior point MMA finds a direction, and with more variables than constraints, with one variable, or with a = 0 it is the Newton direction of the complete system of optimality conditions: every residual r satisfies r' = -r along it. The full statement omits the last premise; see the refutation *)
Theorem C74_mma_newton_partial : forall s xk dfdx g dgdx L U P w eps, mma_ready s -> args_ok (mm_n s) (mm_m s) (mm_xmin s) (mm_xmax s) xk dfdx g dgdx ->
  mma_problem s xk dfdx g dgdx = Ok (L, U, P) -> inside P w ->
  exists d, direction P w eps = Ok d /\
    ((mm_m s < mm_n s)%nat \/ mm_n s = 1%nat \/ (forall i, (i < mm_m s)%nat -> ent (mm_a s) i = 0) -> newton_direction P (mma_shape L U) w eps d).
Proof. exact C74_mma_newton_partial_pf. Qed.
Print Assumptions C74_mma_newton_partial.

(** C74: the same for CONLIN *)
Theorem C74_conlin_newton_partial : forall s xk dfdx g dgdx P w eps, conlin_ready s -> args_ok (cl_n s) (cl_m s) (cl_xmin s) (cl_xmax s) xk dfdx g dgdx -> (forall j, (j < cl_n s)%nat -> 0 < ent xk j) ->
  conlin_problem s xk dfdx g dgdx = Ok P -> inside P w ->
  exists d, direction P w eps = Ok d /\
    ((cl_m s < cl_n s)%nat \/ cl_n s = 1%nat \/ (forall i, (i < cl_m s)%nat -> ent (cl_a s) i = 0) -> newton_direction P conlin_shape w eps d).
Proof. exact C74_conlin_newton_partial_pf. Qed.
Print Assumptions C74_conlin_newton_partial.

(** C74 is false with as many constraints as variables: with two of each and a = (1,1) already the first direction of the first call is not the Newton direction, because the squared coefficients a are added once per variable *)
Theorem C74_mma_newton_refuted : exists s xk dfdx g dgdx L U P w d, mma_ready s /\ args_ok (mm_n s) (mm_m s) (mm_xmin s) (mm_xmax s) xk dfdx g dgdx /\
  mma_problem s xk dfdx g dgdx = Ok (L, U, P) /\ start P = Ok w /\ direction P w 1 = Ok d /\ ~ newton_direction P (mma_shape L U) w 1 d.
Proof. exact C74_mma_newton_refuted_pf. Qed.
Print Assumptions C74_mma_newton_refuted.

(** C74 is false for CONLIN in the same way *)
Theorem C74_conlin_newton_refuted : exists s xk dfdx g dgdx P w d, conlin_ready s /\ args_ok (cl_n s) (cl_m s) (cl_xmin s) (cl_xmax s) xk dfdx g dgdx /\
  (forall j, (j < cl_n s)%nat -> 0 < ent xk j) /\
  conlin_problem s xk dfdx g dgdx = Ok P /\ start P = Ok w /\ direction P w 1 = Ok d /\ ~ newton_direction P conlin_shape w 1 d.
Proof. exact C74_conlin_newton_refuted_pf. Qed.
Print Assumptions C74_conlin_newton_refuted.

(** C75: the asymptotes follow Svanberg's rule, moved if necessary to between 0.01 and 10 box widths from the iterate *)
Theorem C75_asymptotes : forall s xk j, mma_ready s -> length xk = mm_n s -> (j < mm_n s)%nat ->
  let w := ent (mm_xmax s) j - ent (mm_xmin s) j in let x := ent xk j in
  exists l u l0 u0, mma_asymptote s xk j = Ok (l, u) /\ asymptote_rule s xk j l0 u0 /\
    (x - 10 * w <= l0 <= x - 1/100 * w -> l = l0) /\ (l0 < x - 10 * w -> l = x - 10 * w) /\ (x - 1/100 * w < l0 -> l = x - 1/100 * w) /\
    (x + 1/100 * w <= u0 <= x + 10 * w -> u = u0) /\ (u0 < x + 1/100 * w -> u = x + 1/100 * w) /\ (x + 10 * w < u0 -> u = x + 10 * w).
Proof. exact C75_asymptotes_pf. Qed.
Print Assumptions C75_asymptotes.
