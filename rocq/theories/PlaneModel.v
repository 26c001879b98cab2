(** The plane strain sample: /repo/sample/planestrain/sample_planestrain.cpp:19-80.
    The mesh, the edges, the prescribed values, the nodal loads, the shape
    functions, the rules, the material, the thickness and the two load functions
    are parameters, also the solver (the sample calls CG).  Export is left out. *)
From Coq Require Import List Arith Lia Bool Reals.
From Verif Require Import Res DenseModel DenseR ShapeModel QuadModel ElemModel SparseModel AssemblyModel.
Import ListNotations.
Local Open Scope R_scope.

(** lines 21-28 and the constants of lines 40-43, 54 and 73 *)
Record plane := mkPlane {
  pl_x : list (list R); pl_elements : list (list nat); pl_edges : list (list nat);
  pl_ufixed : list (nat * nat * R); pl_qfixed : list (nat * nat * R);
  pl_s : shape; pl_q : rule; pl_es : shape; pl_eq : rule;
  pl_E : R; pl_V : R; pl_t : R; pl_body : list R -> list R; pl_surface : list R -> list R }.

(** lines 40 and 73 *)
Definition pl_stiffness (d : plane) (el : list nat) : res (mat R * list (list (nat * nat))) :=
  PlaneStrainStiffness (pl_s d) (pl_q d) el [0%nat; 1%nat] (pl_x d) (pl_E d) (pl_V d) (pl_t d).

(** lines 37-48: one element *)
Definition pl_add (d : plane) (u : list (list R)) (t : table) (acc : lil R * list R) (el : list nat) : res (lil R * list R) :=
  ' (Ke, ne) <- pl_stiffness d el ;;
  ' (K, F) <- assemble_K_F acc u Ke t ne el ;;
  ' (Fe, ne) <- PlaneBodyForce (pl_s d) (pl_q d) el [0%nat; 1%nat] (pl_x d) (pl_body d) (pl_t d) ;;
  F <- assemble_F F Fe t ne el ;;
  Ok (K, F).

(** lines 52-60: one edge *)
Definition pl_edge (d : plane) (t : table) (F : list R) (el : list nat) : res (list R) :=
  ' (Fe, ne) <- PlaneSurfaceForce (pl_es d) (pl_eq d) el [0%nat; 1%nat] (pl_x d) (pl_surface d) (pl_t d) ;;
  assemble_F F Fe t ne el.

(** lines 24, 26 and 31-64: the displacements *)
Definition pl_displacement (solve : csr R -> list R -> res (list R)) (d : plane) : res (list (list R) * table) :=
  let N := length (pl_x d) in
  ' (u, t) <- set_dirichlet (repeat (vnew R_ops 2) N, repeat (repeat (Some 0%nat) 2) N) (pl_ufixed d) ;;
  let (t, n) := renumber t in
  ' (K, F) <- foldM (pl_add d u t) (pl_elements d) (lil_new n n, repeat 0 n) ;;
  F <- assemble_N F (pl_qfixed d) t ;;
  F <- foldM (pl_edge d t) (pl_edges d) F ;;
  ' (A, _) <- csr_of_lil K ;;
  x <- solve A F ;;
  u <- disassemble u x t ;;
  Ok (u, t).

(** lines 70-76: one element of the reaction forces *)
Definition pl_react (d : plane) (u : list (list R)) (t : table) (RF : list R) (el : list nat) : res (list R) :=
  ' (Ke, ne) <- pl_stiffness d el ;;
  ue <- element_vector u ne el ;;
  Keue <- mmulv R_ops Ke ue ;;
  assemble_F RF Keue t ne el.

(** lines 25 and 66-78: the reaction forces *)
Definition pl_reaction (d : plane) (u : list (list R)) (t : table) : res (list (list R)) :=
  let (t, n) := renumber (remove_bc t) in
  RF <- foldM (pl_react d u t) (pl_elements d) (repeat 0 n) ;;
  disassemble (repeat (vnew R_ops 2) (length (pl_x d))) RF t.

(** lines 19-80: displacements and reactions *)
Definition pl_run (solve : csr R -> list R -> res (list R)) (d : plane) : res (list (list R) * list (list R)) :=
  ' (u, t) <- pl_displacement solve d ;;
  r <- pl_reaction d u t ;;
  Ok (u, r).

(** the data of the sample, lines 21-28, with the material, the thickness and the
    three loads as parameters (210000.0, 0.3, 1.0, -300.0, -200.0 and -100.0) *)
Definition pl_sample (E V t b f p : R) : plane :=
  mkPlane [[0; 0]; [1; 0]; [2; 0]; [2; 1]; [1; 1]; [0; 1]]
    [[0; 1; 4]; [1; 2; 3]; [3; 4; 1]; [4; 5; 0]]%nat [[3; 4]; [4; 5]]%nat
    [((0, 0)%nat, 0); ((0, 1)%nat, 0); ((5, 0)%nat, 0)] [((3, 1)%nat, p)]
    sf_3Triangle Gauss1Triangle sf_2Line Gauss1Line E V t (fun _ => [0; b]) (fun _ => [0; f]).
