(** The analysis of one design in the topology optimisation samples:
    /repo/sample/optimize/sample_optimize_density_oc.cpp:96-162.  The shape
    functions, the rule, Poisson's ratio and the thickness are parameters (the
    samples use ShapeFunction4Square, Gauss4Square, 0.3 and 1.0); so is the
    solver (the samples call ScalingCG).  Printing and export are left out. *)
From Coq Require Import List Arith Lia Bool Reals.
From Verif Require Import Res DenseModel DenseR ShapeModel QuadModel ElemModel SparseModel AssemblyModel OCModel.
Import ListNotations.
Local Open Scope R_scope.

(** the data of the sample, lines 22-76: nodes, elements, fixed and loaded dofs,
    moduli of void and material, penalty exponent, scale of the objective *)
Record top := mkTop {
  tp_x : list (list R); tp_elements : list (list nat);
  tp_ufixed : list (nat * nat * R); tp_qfixed : list (nat * nat * R);
  tp_s : shape; tp_q : rule; tp_V : R; tp_t : R;
  tp_E0 : R; tp_E1 : R; tp_p : R; tp_scale0 : R; tp_scale1 : R; tp_limit : R }.

(** lines 126, 145 and 159: the routine with the modulus [E] *)
Definition top_stiffness (d : top) (E : R) (el : list nat) : res (mat R * list (list (nat * nat))) :=
  PlaneStrainStiffness (tp_s d) (tp_q d) el [0%nat; 1%nat] (tp_x d) E (tp_V d) (tp_t d).

(** lines 123 and 142: the modulus of an element *)
Definition top_modulus (d : top) (rho : R) : res R :=
  a <- cpow rho (tp_p d) ;; b <- cpow rho (tp_p d) ;; Ok (tp_E1 d * a + tp_E0 d * (1 - b)).

(** lines 99-105: the weight and its sensitivities *)
Definition top_weight (d : top) (rho : list R) : res (R * list R) :=
  let n := length (tp_elements d) in
  ' (g, dg) <- foldM (fun (s : R * list R) i => let '(g, dg) := s in
      ri <- rd rho i ;;
      a <- Rdiv_res (tp_scale1 d * ri) (tp_limit d * INR n) ;;
      b <- Rdiv_res (tp_scale1 d) (tp_limit d * INR n) ;;
      dg <- wr dg i b ;; Ok (g + a, dg)) (seq 0 n) (0, repeat 0 n) ;;
  Ok (g - 1 * tp_scale1 d, dg).

(** lines 122-128: one element of the system *)
Definition top_add (d : top) (rho : list R) (u : list (list R)) (t : table) (acc : lil R * list R) (i : nat) : res (lil R * list R) :=
  ri <- rd rho i ;;
  E <- top_modulus d ri ;;
  el <- rd (tp_elements d) i ;;
  ' (Ke, ne) <- top_stiffness d E el ;;
  assemble_K_F acc u Ke t ne el.

(** lines 113-133: the displacements; the table is returned for the second part *)
Definition top_displacement (solve : csr R -> list R -> res (list R)) (d : top) (rho : list R) : res (list (list R) * table) :=
  let N := length (tp_x d) in
  ' (u, t) <- set_dirichlet (repeat (vnew R_ops 2) N, repeat (repeat (Some 0%nat) 2) N) (tp_ufixed d) ;;
  let (t, n) := renumber t in
  ' (K, F) <- foldM (top_add d rho u t) (seq 0 (length (tp_elements d))) (lil_new n n, repeat 0 n) ;;
  F <- assemble_N F (tp_qfixed d) t ;;
  ' (A, _) <- csr_of_lil K ;;
  x <- solve A F ;;
  u <- disassemble u x t ;;
  Ok (u, t).

(** lines 141-148: one element of the reaction forces *)
Definition top_react (d : top) (rho : list R) (u : list (list R)) (t : table) (RF : list R) (i : nat) : res (list R) :=
  ri <- rd rho i ;;
  E <- top_modulus d ri ;;
  el <- rd (tp_elements d) i ;;
  ' (Ke, ne) <- top_stiffness d E el ;;
  ue <- element_vector u ne el ;;
  Keue <- mmulv R_ops Ke ue ;;
  assemble_F RF Keue t ne el.

(** lines 136-150: the reaction forces *)
Definition top_reaction (d : top) (rho : list R) (u : list (list R)) (t : table) : res (list (list R)) :=
  let (t, n) := renumber (remove_bc t) in
  RF <- foldM (top_react d rho u t) (seq 0 (length (tp_elements d))) (repeat 0 n) ;;
  disassemble (repeat (vnew R_ops 2) (length (tp_x d))) RF t.

(** line 153: std::inner_product of two fields *)
Definition field_product (u r : list (list R)) : res R :=
  foldM (fun s i => ui <- rd u i ;; ri <- rd r i ;; x <- vdot R_ops ui ri ;; Ok (s + x)) (seq 0 (length u)) 0.

(** lines 156-162: the sensitivity of one element *)
Definition top_sensitivity (d : top) (rho : list R) (u : list (list R)) (i : nat) : res R :=
  el <- rd (tp_elements d) i ;;
  ' (Ke, ne) <- top_stiffness d 1 el ;;
  ue <- element_vector u ne el ;;
  Keue <- mmulv R_ops Ke ue ;;
  e <- vdot R_ops ue Keue ;;
  ri <- rd rho i ;;
  a <- cpow ri (tp_p d - 1) ;;
  Ok (- tp_scale0 d * tp_p d * (- tp_E0 d + tp_E1 d) * a * e).

(** lines 107-162: displacements, reactions, objective and its sensitivities *)
Record analysis := mkAnalysis { an_u : list (list R); an_r : list (list R); an_f : R; an_df : list R }.
Definition top_analysis (solve : csr R -> list R -> res (list R)) (d : top) (rho : list R) : res analysis :=
  ' (u, t) <- top_displacement solve d rho ;;
  r <- top_reaction d rho u t ;;
  ur <- field_product u r ;;
  df <- mapM (top_sensitivity d rho u) (seq 0 (length (tp_elements d))) ;;
  Ok (mkAnalysis u r (tp_scale0 d * ur) df).
