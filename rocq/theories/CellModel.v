(** The homogenization sample: /repo/sample/homogenization/sample_homogenization.cpp:24-92.
    The mesh, the periodic pairs, the shape functions, the rule, the material,
    the thickness, the stiffness of the springs and the volume are parameters (the
    sample uses SquareAnnulusMesh2, Periodic.csv, ShapeFunction4Square,
    Gauss4Square, 100.0 and 0.3, 1.0, 1.0e-9 and 1.0); so is the solver (the sample
    calls ScalingCG).  Printing and export are left out. *)
From Coq Require Import List Arith Lia Bool Reals.
From Verif Require Import Res DenseModel DenseR ShapeModel QuadModel ElemModel SparseModel AssemblyModel.
Import ListNotations.
Local Open Scope R_scope.

(** the data of the sample, lines 24-35 *)
Record cell := mkCell {
  cl_x : list (list R); cl_elements : list (list nat); cl_pairs : list (nat * nat);
  cl_s : shape; cl_q : rule; cl_E : R; cl_V : R; cl_t : R; cl_alpha : R; cl_volume : R }.

(** lines 37-39: a characteristic displacement before the solution *)
Definition cell_zero (d : cell) : list (list R) := repeat (vnew R_ops 2) (length (cl_x d)).

(** lines 40-41: the numbers of the equations and their count *)
Definition cell_table (d : cell) : res (table * nat) :=
  set_periodic (repeat (repeat (Some 0%nat) 2) (length (cl_x d))) (cl_pairs d).

(** the matrix and the three right-hand sides *)
Record loads := mkLoads { ld_K : lil R; ld_F0 : list R; ld_F1 : list R; ld_F2 : list R }.

(** lines 61, 63 and 65: column [c] of the element loads *)
Definition column (Fes : mat R) (c rows : nat) : res (list R) :=
  b <- mblock R_ops Fes 0 c rows 1 ;; vec_of_mat R_ops b.

(** lines 50-67: one element *)
Definition cell_add (d : cell) (chi0 chi1 chi2 : list (list R)) (t : table) (a : loads) (el : list nat) : res loads :=
  ' (Ke, ne) <- PlaneStrainStiffness (cl_s d) (cl_q d) el [0%nat; 1%nat] (cl_x d) (cl_E d) (cl_V d) (cl_t d) ;;
  K <- assemble_K (ld_K a) Ke t ne el ;;
  F0 <- assemble_D (ld_F0 a) chi0 Ke t ne el ;;
  F1 <- assemble_D (ld_F1 a) chi1 Ke t ne el ;;
  F2 <- assemble_D (ld_F2 a) chi2 Ke t ne el ;;
  ' (Fes, ne) <- HomogenizePlaneStrainBodyForce (cl_s d) (cl_q d) el [0%nat; 1%nat] (cl_x d) (cl_E d) (cl_V d) (cl_t d) ;;
  Fe0 <- column Fes 0 (mrow Ke) ;;
  F0 <- assemble_F F0 Fe0 t ne el ;;
  Fe1 <- column Fes 1 (mrow Ke) ;;
  F1 <- assemble_F F1 Fe1 t ne el ;;
  Fe2 <- column Fes 2 (mrow Ke) ;;
  F2 <- assemble_F F2 Fe2 t ne el ;;
  Ok (mkLoads K F0 F1 F2).

(** lines 69-74: the springs of one element *)
Definition cell_spring (d : cell) (t : table) (K : lil R) (el : list nat) : res (lil R) :=
  ' (Ke, ne) <- WeakSpring el [0%nat; 1%nat] (cl_alpha d) ;;
  assemble_K K Ke t ne el.

(** lines 37-76: the numbers, the matrix and the three right-hand sides *)
Record system := mkSystem { sy_t : table; sy_A : csr R; sy_F0 : list R; sy_F1 : list R; sy_F2 : list R }.
Definition cell_system (d : cell) : res system :=
  let z := cell_zero d in
  ' (t, n) <- cell_table d ;;
  a <- foldM (cell_add d z z z t) (cl_elements d) (mkLoads (lil_new n n) (repeat 0 n) (repeat 0 n) (repeat 0 n)) ;;
  K <- foldM (cell_spring d t) (cl_elements d) (ld_K a) ;;
  ' (A, _) <- csr_of_lil K ;;
  Ok (mkSystem t A (ld_F0 a) (ld_F1 a) (ld_F2 a)).

(** lines 88-91: the sums over the elements *)
Definition cell_sum (d : cell) (chi0 chi1 chi2 : list (list R)) (a : mat R * mat R) (el : list nat) : res (mat R * mat R) :=
  let (CH, I) := a in
  C <- HomogenizePlaneStrainConstitutive (cl_s d) (cl_q d) (cl_x d) el chi0 chi1 chi2 (cl_E d) (cl_V d) (cl_t d) ;;
  CH <- madd R_ops CH C ;;
  B <- HomogenizePlaneStrainCheck (cl_s d) (cl_q d) (cl_x d) el chi0 chi1 chi2 (cl_t d) ;;
  I <- madd R_ops I B ;;
  Ok (CH, I).

(** lines 37-92: the characteristic displacements and the two matrices printed *)
Record cell_result := mkResult { cr_chi0 : list (list R); cr_chi1 : list (list R); cr_chi2 : list (list R); cr_I : mat R; cr_CH : mat R }.
Definition cell_run (solve : csr R -> list R -> res (list R)) (d : cell) : res cell_result :=
  sy <- cell_system d ;;
  r0 <- solve (sy_A sy) (sy_F0 sy) ;;
  chi0 <- disassemble (cell_zero d) r0 (sy_t sy) ;;
  r1 <- solve (sy_A sy) (sy_F1 sy) ;;
  chi1 <- disassemble (cell_zero d) r1 (sy_t sy) ;;
  r2 <- solve (sy_A sy) (sy_F2 sy) ;;
  chi2 <- disassemble (cell_zero d) r2 (sy_t sy) ;;
  I <- midentity R_ops 3 ;;
  ' (CH, I) <- foldM (cell_sum d chi0 chi1 chi2) (cl_elements d) (mnew R_ops 3 3, I) ;;
  I <- mdivs R_ops I (cl_volume d) ;;
  CH <- mdivs R_ops CH (cl_volume d) ;;
  Ok (mkResult chi0 chi1 chi2 I CH).
