(** Property C87: the steps of the MMA and CONLIN solvers. *)
From Coq Require Import List Arith Lia Bool Reals Lra.
From Verif Require Import Res SumR DenseR LUModel KrylovModel SolvelsModel OCModel MMAModel MMASpec MMAStepMain.
Import ListNotations.
Local Open Scope R_scope.

(** C87: one pass of MMA's inner loop moves along the computed direction. The first trial is the largest step of at most 1 that keeps every variable and multiplier inside with a margin of one per cent; it is halved until the squared norm of the optimality residuals decreases, at most 49 times *)
Theorem C87_mma_line_search : forall s xk dfdx g dgdx L U P w eps, mma_ready s -> args_ok (mm_n s) (mm_m s) (mm_xmin s) (mm_xmax s) xk dfdx g dgdx ->
  mma_problem s xk dfdx g dgdx = Ok (L, U, P) -> inside P w ->
  exists d tau k, direction P w eps = Ok d /\ largest_step P w d tau /\ inner_pass P w eps = Ok (along P w d (tau / 2 ^ k)) /\
    inside P (along P w d (tau / 2 ^ k)) /\ first_decrease P (mma_shape L U) w d eps tau k.
Proof. exact C87_mma_line_search_pf. Qed.
Print Assumptions C87_mma_line_search.

(** two variables, two constraints: the premises hold at the starting point of the inner loop *)
Example C87_mma_line_search_example : exists L U P w d tau k, mma_problem MMAMain.mm_bad [2; 2] [0; 0] [0; 0] [[0; 0]; [0; 0]] = Ok (L, U, P) /\
  start P = Ok w /\ direction P w 1 = Ok d /\ largest_step P w d tau /\ inner_pass P w 1 = Ok (along P w d (tau / 2 ^ k)) /\ first_decrease P (mma_shape L U) w d 1 tau k.
Proof.
  destruct (MMAMain.mma_problem_ok MMAMain.mm_bad [2; 2] [0; 0] [0; 0] [[0; 0]; [0; 0]] MMAMain.mm_bad_ready MMAMain.args_bad) as (L & U & P & E & SP & PO & _).
  destruct (MMAProof.start_ok P _ PO) as (w & Ew & HI & _). exists L, U, P, w.
  destruct (C87_mma_line_search MMAMain.mm_bad _ _ _ _ L U P w 1 MMAMain.mm_bad_ready MMAMain.args_bad E HI) as (d & tau & k & A1 & A2 & A3 & _ & A4).
  exists d, tau, k. exact (conj E (conj Ew (conj A1 (conj A2 (conj A3 A4))))).
Qed.

(** C87: the same for CONLIN *)
Theorem C87_conlin_line_search : forall s xk dfdx g dgdx P w eps, conlin_ready s -> args_ok (cl_n s) (cl_m s) (cl_xmin s) (cl_xmax s) xk dfdx g dgdx -> (forall j, (j < cl_n s)%nat -> 0 < ent xk j) ->
  conlin_problem s xk dfdx g dgdx = Ok P -> inside P w ->
  exists d tau k, direction P w eps = Ok d /\ largest_step P w d tau /\ inner_pass P w eps = Ok (along P w d (tau / 2 ^ k)) /\
    inside P (along P w d (tau / 2 ^ k)) /\ first_decrease P conlin_shape w d eps tau k.
Proof. exact C87_conlin_line_search_pf. Qed.
Print Assumptions C87_conlin_line_search.

Example C87_conlin_line_search_example : exists P w d tau k, conlin_problem MMAMain.cl_bad [2; 2] [0; 0] [0; 0] [[0; 0]; [0; 0]] = Ok P /\
  start P = Ok w /\ direction P w 1 = Ok d /\ largest_step P w d tau /\ inner_pass P w 1 = Ok (along P w d (tau / 2 ^ k)) /\ first_decrease P conlin_shape w d 1 tau k.
Proof.
  assert (X : forall j, (j < cl_n MMAMain.cl_bad)%nat -> 0 < ent [2; 2] j) by (intros [|[|j]] Hj; unfold ent; cbn in *; try lra; lia).
  destruct (MMAMain.conlin_problem_ok MMAMain.cl_bad [2; 2] [0; 0] [0; 0] [[0; 0]; [0; 0]] MMAMain.cl_bad_ready MMAMain.args_bad X) as (P & E & SP & PO & _).
  destruct (MMAProof.start_ok P _ PO) as (w & Ew & HI & _). exists P, w.
  destruct (C87_conlin_line_search MMAMain.cl_bad _ _ _ _ P w 1 MMAMain.cl_bad_ready MMAMain.args_bad X E HI) as (d & tau & k & A1 & A2 & A3 & _ & A4).
  exists d, tau, k. exact (conj E (conj Ew (conj A1 (conj A2 (conj A3 A4))))).
Qed.

(** C87: where the direction is the Newton direction it is a direction of descent: the squared residual has the slope -2 times its value, so every sufficiently small step decreases it unless all residuals vanish *)
Theorem C87_newton_descent : forall P h w eps d, inside P w -> newton_direction P h w eps d ->
  derivable_pt_lim (fun t => kkt_square P h (along P w d t) eps) 0 (- 2 * kkt_square P h w eps) /\
  (0 < kkt_square P h w eps -> exists t0, 0 < t0 /\ forall t, 0 < t < t0 -> kkt_square P h (along P w d t) eps < kkt_square P h w eps).
Proof. exact C87_newton_descent_pf. Qed.
Print Assumptions C87_newton_descent.

(** an unconstrained problem of one variable with barrier parameter 2: a Newton direction and a positive residual *)
Example C87_newton_descent_example : exists P h w d, inside P w /\ newton_direction P h w 2 d /\ 0 < kkt_square P h w 2.
Proof.
  set (s := mma_new 1 0 1 [] [] [] [1] [3]).
  assert (HR : mma_ready s). { constructor; cbn; auto; try lra; try (intros; lia). intros [|j] Hj; unfold ent; cbn; [lra|lia]. }
  assert (HA : args_ok (mm_n s) (mm_m s) (mm_xmin s) (mm_xmax s) [2] [1] [] []). { constructor; cbn; auto; try (intros; lia). intros [|j] Hj; unfold ent; cbn; [lra|lia]. }
  destruct (MMAMain.mma_problem_ok s [2] [1] [] [] HR HA) as (L & U & P & E & SP & PO & _).
  destruct (MMAProof.start_ok P _ PO) as (w & Ew & HI & Wz & We & _).
  destruct (MMAMain.C74_mma_newton_partial_pf s _ _ _ _ L U P w 2 HR HA E HI) as (d & Ed & HN).
  exists P, (mma_shape L U), w, d. split; auto. split; [apply HN; auto|]. unfold kkt_square.
  assert (Z : 0 < res_zeta w 2 ^ 2) by (unfold res_zeta; rewrite Wz, We; lra).
  assert (N : forall m f, (forall i, 0 <= f i) -> 0 <= bigsum m f) by (induction m as [|m IH]; intros f Hf; cbn [bigsum]; [lra|]; pose proof (IH f Hf); pose proof (Hf m); lra).
  apply Rplus_le_lt_0_compat; auto. repeat apply Rplus_le_le_0_compat; try apply pow2_ge_0; apply N; intros i; repeat apply Rplus_le_le_0_compat; apply pow2_ge_0.
Qed.
