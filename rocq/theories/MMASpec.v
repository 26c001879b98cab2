(** The subproblem of MMA and CONLIN and its optimality conditions, in
    mathematical terms.

    minimise    f0(x) + a0 z + sum_i (c_i y_i + d_i y_i^2 / 2)
    subject to  f_i(x) - a_i z - y_i <= b_i,  alpha <= x <= beta,  y, z >= 0
    with f_i(x) = sum_j p_ij tp_j(x_j) + q_ij tq_j(x_j). *)
From Coq Require Import List Arith Lia Bool Reals.
From Verif Require Import Res SumR MMAModel.
Import ListNotations.
Local Open Scope R_scope.

(** the two families of functions of one variable, with derivatives *)
Record shape := mkShape { tp : nat -> R -> R; tq : nat -> R -> R; tp1 : nat -> R -> R; tq1 : nat -> R -> R; tp2 : nat -> R -> R; tq2 : nat -> R -> R }.
(** MMA: 1/(U-x) and 1/(x-L) *)
Definition mma_shape (L U : list R) : shape := mkShape
  (fun j x => / (nth j U 0 - x)) (fun j x => / (x - nth j L 0))
  (fun j x => / (nth j U 0 - x) ^ 2) (fun j x => - / (x - nth j L 0) ^ 2)
  (fun j x => 2 * / (nth j U 0 - x) ^ 3) (fun j x => 2 * / (x - nth j L 0) ^ 3).
(** CONLIN: x and 1/x *)
Definition conlin_shape : shape := mkShape
  (fun _ x => x) (fun _ x => / x) (fun _ _ => 1) (fun _ x => - / x ^ 2) (fun _ _ => 0) (fun _ x => 2 * / x ^ 3).

(** the entries of a vector or of a vector of rows *)
Definition ent (l : list R) (i : nat) : R := nth i l 0.
Definition ent2 (A : list (list R)) (i j : nat) : R := nth j (nth i A []) 0.

Section Sub.
Variables (P : prob) (h : shape).
Notation n := (p_n P). Notation m := (p_m P).

(** f_0 and f_i *)
Definition obj_value (x : list R) : R := bigsum n (fun j => ent (p_p0 P) j * tp h j (ent x j) + ent (p_q0 P) j * tq h j (ent x j)).
Definition con_value (x : list R) (i : nat) : R := bigsum n (fun j => ent2 (p_p P) i j * tp h j (ent x j) + ent2 (p_q P) i j * tq h j (ent x j)).
Definition obj_slope (x : list R) (j : nat) : R := ent (p_p0 P) j * tp1 h j (ent x j) + ent (p_q0 P) j * tq1 h j (ent x j).
Definition con_slope (x : list R) (i j : nat) : R := ent2 (p_p P) i j * tp1 h j (ent x j) + ent2 (p_q P) i j * tq1 h j (ent x j).

(** strictly feasible primal and dual variables *)
Record shaped (w : point) : Prop := {
  z_x : length (w_x w) = n; z_y : length (w_y w) = m; z_l : length (w_lambda w) = m; z_g : length (w_gsi w) = n;
  z_i : length (w_ita w) = n; z_m : length (w_mu w) = m; z_s : length (w_s w) = m }.
Record inside (w : point) : Prop := {
  i_sh : shaped w;
  i_x : forall j, (j < n)%nat -> ent (p_alpha P) j < ent (w_x w) j < ent (p_beta P) j;
  i_y : forall i, (i < m)%nat -> 0 < ent (w_y w) i; i_l : forall i, (i < m)%nat -> 0 < ent (w_lambda w) i;
  i_g : forall j, (j < n)%nat -> 0 < ent (w_gsi w) j; i_i : forall j, (j < n)%nat -> 0 < ent (w_ita w) j;
  i_m : forall i, (i < m)%nat -> 0 < ent (w_mu w) i; i_s : forall i, (i < m)%nat -> 0 < ent (w_s w) i;
  i_z : 0 < w_z w; i_ze : 0 < w_zeta w }.

(** residuals of the optimality conditions, equations (5.9a)-(5.9i) of
    Svanberg's paper in the order used by KKTNorm *)
Definition res_x w j := obj_slope (w_x w) j + bigsum m (fun i => ent (w_lambda w) i * con_slope (w_x w) i j) - ent (w_gsi w) j + ent (w_ita w) j.
Definition res_y w i := ent (p_c P) i + ent (p_d P) i * ent (w_y w) i - ent (w_lambda w) i - ent (w_mu w) i.
Definition res_z w := p_a0 P - w_zeta w - bigsum m (fun i => ent (w_lambda w) i * ent (p_a P) i).
Definition res_con w i := con_value (w_x w) i - ent (p_a P) i * w_z w - ent (w_y w) i + ent (w_s w) i - ent (p_b P) i.
Definition res_lo w eps j := ent (w_gsi w) j * (ent (w_x w) j - ent (p_alpha P) j) - eps.
Definition res_hi w eps j := ent (w_ita w) j * (ent (p_beta P) j - ent (w_x w) j) - eps.
Definition res_mu w eps i := ent (w_mu w) i * ent (w_y w) i - eps.
Definition res_zeta w eps := w_zeta w * w_z w - eps.
Definition res_s w eps i := ent (w_lambda w) i * ent (w_s w) i - eps.

(** the point w + t d *)
Definition along (w d : point) (t : R) : point :=
  let go k a b := map (fun i => ent a i + t * ent b i) (seq 0 k) in
  mkPt (go n (w_x w) (w_x d)) (go m (w_y w) (w_y d)) (w_z w + t * w_z d) (go m (w_lambda w) (w_lambda d))
    (go n (w_gsi w) (w_gsi d)) (go n (w_ita w) (w_ita d)) (go m (w_mu w) (w_mu d)) (w_zeta w + t * w_zeta d) (go m (w_s w) (w_s d)).
(** the Newton step for one equation r(w) = 0 *)
Definition newton_step (r : point -> R) (w d : point) : Prop := derivable_pt_lim (fun t => r (along w d t)) 0 (- r w).
End Sub.

(** ** what the callers must provide *)
(** an MMA solver in a usable state: vectors of the right sizes, a nonempty box
    and parameters in their usual ranges *)
Record mma_ready (s : mma) : Prop := {
  m_lo : length (mm_xmin s) = mm_n s; m_hi : length (mm_xmax s) = mm_n s;
  m_1 : length (mm_xkm1 s) = mm_n s; m_2 : length (mm_xkm2 s) = mm_n s; m_L : length (mm_L s) = mm_n s; m_U : length (mm_U s) = mm_n s;
  m_a : length (mm_a s) = mm_m s; m_c : length (mm_c s) = mm_m s; m_d : length (mm_d s) = mm_m s;
  m_box : forall j, (j < mm_n s)%nat -> ent (mm_xmin s) j < ent (mm_xmax s) j;
  m_dn : forall i, (i < mm_m s)%nat -> 0 <= ent (mm_d s) i;
  m_raa : 0 <= mm_raa0 s; m_alb : 0 <= mm_albefa s < 1; m_mov : 0 < mm_move s }.
Record conlin_ready (s : conlin) : Prop := {
  l_lo : length (cl_xmin s) = cl_n s; l_hi : length (cl_xmax s) = cl_n s;
  l_a : length (cl_a s) = cl_m s; l_c : length (cl_c s) = cl_m s; l_d : length (cl_d s) = cl_m s;
  l_box : forall j, (j < cl_n s)%nat -> 0 <= ent (cl_xmin s) j < ent (cl_xmax s) j;
  l_dn : forall i, (i < cl_m s)%nat -> 0 <= ent (cl_d s) i;
  l_mov : 0 < cl_move s }.
(** arguments of UpdateVariables: sizes, and variables in the box *)
Record args_ok (n m : nat) (xmin xmax xk dfdx g : list R) (dgdx : list (list R)) : Prop := {
  g_x : length xk = n; g_f : length dfdx = n; g_g : length g = m; g_G : length dgdx = m;
  g_r : forall i, (i < m)%nat -> length (nth i dgdx []) = n;
  g_in : forall j, (j < n)%nat -> ent xmin j <= ent xk j <= ent xmax j }.

(** ** the subproblems of Svanberg (MMA) and Fleury (CONLIN) *)
(** P is the MMA approximation of the problem at xk with asymptotes L and U *)
Definition mma_subproblem (s : mma) (xk dfdx g : list R) (dgdx : list (list R)) (L U : list R) (P : prob) : Prop :=
  let n := mm_n s in let m := mm_m s in
  let w j := ent (mm_xmax s) j - ent (mm_xmin s) j in
  p_n P = n /\ p_m P = m /\ p_a0 P = mm_a0 s /\ p_a P = mm_a s /\ p_c P = mm_c s /\ p_d P = mm_d s /\ length L = n /\ length U = n /\
  (forall j, (j < n)%nat ->
     ent xk j - 10 * w j <= ent L j <= ent xk j - 1/100 * w j /\ ent xk j + 1/100 * w j <= ent U j <= ent xk j + 10 * w j /\
     ent (p_alpha P) j = Rmax (ent (mm_xmin s) j) (Rmax (ent L j + mm_albefa s * (ent xk j - ent L j)) (ent xk j - mm_move s * w j)) /\
     ent (p_beta P) j = Rmin (ent (mm_xmax s) j) (Rmin (ent U j - mm_albefa s * (ent U j - ent xk j)) (ent xk j + mm_move s * w j)) /\
     ent (p_p0 P) j = (ent U j - ent xk j) ^ 2 * (1001/1000 * Rmax (ent dfdx j) 0 + 1/1000 * Rmax (- ent dfdx j) 0 + mm_raa0 s / w j) /\
     ent (p_q0 P) j = (ent xk j - ent L j) ^ 2 * (1/1000 * Rmax (ent dfdx j) 0 + 1001/1000 * Rmax (- ent dfdx j) 0 + mm_raa0 s / w j)) /\
  (forall i j, (i < m)%nat -> (j < n)%nat ->
     ent2 (p_p P) i j = (ent U j - ent xk j) ^ 2 * (1001/1000 * Rmax (ent2 dgdx i j) 0 + 1/1000 * Rmax (- ent2 dgdx i j) 0 + mm_raa0 s / w j) /\
     ent2 (p_q P) i j = (ent xk j - ent L j) ^ 2 * (1/1000 * Rmax (ent2 dgdx i j) 0 + 1001/1000 * Rmax (- ent2 dgdx i j) 0 + mm_raa0 s / w j)) /\
  (forall i, (i < m)%nat -> ent (p_b P) i = - ent g i + bigsum n (fun j => ent2 (p_p P) i j / (ent U j - ent xk j) + ent2 (p_q P) i j / (ent xk j - ent L j))).
(** P is the convex linearisation of the problem at xk *)
Definition conlin_subproblem (s : conlin) (xk dfdx g : list R) (dgdx : list (list R)) (P : prob) : Prop :=
  let n := cl_n s in let m := cl_m s in
  let w j := ent (cl_xmax s) j - ent (cl_xmin s) j in
  p_n P = n /\ p_m P = m /\ p_a0 P = cl_a0 s /\ p_a P = cl_a s /\ p_c P = cl_c s /\ p_d P = cl_d s /\
  (forall j, (j < n)%nat ->
     ent (p_alpha P) j = Rmax (ent (cl_xmin s) j) (ent xk j - cl_move s * w j) /\
     ent (p_beta P) j = Rmin (ent (cl_xmax s) j) (ent xk j + cl_move s * w j) /\
     ent (p_p0 P) j = Rmax (ent dfdx j) 0 /\ ent (p_q0 P) j = Rmax (- ent dfdx j) 0 * ent xk j ^ 2) /\
  (forall i j, (i < m)%nat -> (j < n)%nat ->
     ent2 (p_p P) i j = Rmax (ent2 dgdx i j) 0 /\ ent2 (p_q P) i j = Rmax (- ent2 dgdx i j) 0 * ent xk j ^ 2) /\
  (forall i, (i < m)%nat -> ent (p_b P) i = - ent g i + bigsum n (fun j => ent2 (p_p P) i j * ent xk j + ent2 (p_q P) i j / ent xk j)).

(** the objective of the subproblem and its feasible points *)
Definition sub_objective (P : prob) (h : shape) (x y : list R) (z : R) : R :=
  obj_value P h x + p_a0 P * z + bigsum (p_m P) (fun i => ent (p_c P) i * ent y i + ent (p_d P) i / 2 * ent y i ^ 2).
Definition sub_feasible (P : prob) (h : shape) (slack : R) (x y : list R) (z : R) : Prop :=
  (forall j, (j < p_n P)%nat -> ent (p_alpha P) j <= ent x j <= ent (p_beta P) j) /\ (forall i, (i < p_m P)%nat -> 0 <= ent y i) /\ 0 <= z /\
  forall i, (i < p_m P)%nat -> con_value P h x i - ent (p_a P) i * z - ent y i <= ent (p_b P) i + slack.
(** all residuals of the optimality conditions are smaller than r *)
Definition kkt_within (P : prob) (h : shape) (w : point) (eps r : R) : Prop :=
  (forall j, (j < p_n P)%nat -> Rabs (res_x P h w j) < r /\ Rabs (res_lo P w eps j) < r /\ Rabs (res_hi P w eps j) < r) /\
  (forall i, (i < p_m P)%nat -> Rabs (res_y P w i) < r /\ Rabs (res_con P h w i) < r /\ Rabs (res_mu w eps i) < r /\ Rabs (res_s w eps i) < r) /\
  Rabs (res_z P w) < r /\ Rabs (res_zeta w eps) < r.
(** d is a Newton step for the whole system of optimality conditions *)
Definition newton_direction (P : prob) (h : shape) (w : point) (eps : R) (d : point) : Prop :=
  shaped P d /\
  (forall j, (j < p_n P)%nat -> newton_step P (fun w => res_x P h w j) w d /\ newton_step P (fun w => res_lo P w eps j) w d /\ newton_step P (fun w => res_hi P w eps j) w d) /\
  (forall i, (i < p_m P)%nat -> newton_step P (fun w => res_y P w i) w d /\ newton_step P (fun w => res_con P h w i) w d /\
     newton_step P (fun w => res_mu w eps i) w d /\ newton_step P (fun w => res_s w eps i) w d) /\
  newton_step P (res_z P) w d /\ newton_step P (fun w => res_zeta w eps) w d.

(** the sum of the squares of all residuals *)
Definition kkt_square (P : prob) (h : shape) (w : point) (eps : R) : R :=
  bigsum (p_n P) (fun j => (res_x P h w j) ^ 2 + (res_lo P w eps j) ^ 2 + (res_hi P w eps j) ^ 2) +
  bigsum (p_m P) (fun i => (res_y P w i) ^ 2 + (res_con P h w i) ^ 2 + (res_mu w eps i) ^ 2 + (res_s w eps i) ^ 2) +
  (res_z P w) ^ 2 + (res_zeta w eps) ^ 2.
(** a step t d, prolonged by one per cent, keeps every variable between its
    bounds and every other unknown nonnegative *)
Definition keeps_inside (P : prob) (w d : point) (t : R) : Prop :=
  let go u v := 0 <= u + t * (101/100) * v in
  (forall j, (j < p_n P)%nat -> go (ent (w_x w) j - ent (p_alpha P) j) (ent (w_x d) j) /\ go (ent (p_beta P) j - ent (w_x w) j) (- ent (w_x d) j) /\
     go (ent (w_gsi w) j) (ent (w_gsi d) j) /\ go (ent (w_ita w) j) (ent (w_ita d) j)) /\
  (forall i, (i < p_m P)%nat -> go (ent (w_y w) i) (ent (w_y d) i) /\ go (ent (w_lambda w) i) (ent (w_lambda d) i) /\
     go (ent (w_mu w) i) (ent (w_mu d) i) /\ go (ent (w_s w) i) (ent (w_s d) i)) /\
  go (w_z w) (w_z d) /\ go (w_zeta w) (w_zeta d).
(** the largest step of at most 1 with that property *)
Definition largest_step (P : prob) (w d : point) (tau : R) : Prop :=
  0 < tau <= 1 /\ keeps_inside P w d tau /\ forall t, 0 < t <= 1 -> keeps_inside P w d t -> t <= tau.
(** tau / 2^k is the first of tau, tau/2, ..., tau/2^49 that decreases the
    residuals, or the last one when none does *)
Definition first_decrease (P : prob) (h : shape) (w d : point) (eps tau : R) (k : nat) : Prop :=
  let old := kkt_square P h w eps in let new i := kkt_square P h (along P w d (tau / 2 ^ i)) eps in
  (k < 50)%nat /\ (forall i, (i < k)%nat -> old <= new i) /\ (new k < old \/ k = 49%nat /\ old <= new k).

(** the asymptotes prescribed by Svanberg's rule, before the safeguards: the
    distance to the iterate is asyinit (xmax - xmin) in the first two calls;
    afterwards the old distance is scaled by asydecr when the variable
    oscillates, by asyincr when it keeps its direction, by 1 otherwise *)
Definition asymptote_rule (s : mma) (xk : list R) (j : nat) (l u : R) : Prop :=
  let x := ent xk j in let x1 := ent (mm_xkm1 s) j in let x2 := ent (mm_xkm2 s) j in
  let w := ent (mm_xmax s) j - ent (mm_xmin s) j in
  ((mm_k s < 2)%nat -> x - l = mm_asyinit s * w /\ u - x = mm_asyinit s * w) /\
  ((2 <= mm_k s)%nat -> exists gamma, x - l = gamma * (x1 - ent (mm_L s) j) /\ u - x = gamma * (ent (mm_U s) j - x1) /\
     ((x - x1) * (x1 - x2) < 0 -> gamma = mm_asydecr s) /\ ((x - x1) * (x1 - x2) > 0 -> gamma = mm_asyincr s) /\ ((x - x1) * (x1 - x2) = 0 -> gamma = 1)).
