(** The static samples:
    /repo/sample/heattransfer/sample_heattransfer_static.cpp:19-58 and
    /repo/sample/solid/sample_linear.cpp:19-48.  The mesh, the lists of prescribed
    values (the first sample applies two lists, the second one), the nodal loads
    (none in the first sample), the element routine with its constants, shape
    functions and rule, and the solver (CG, ScalingCG) are parameters.  Mesh
    generation, import and export are left out. *)
From Coq Require Import List Arith Lia Bool Reals.
From Verif Require Import Res DenseModel DenseR ShapeModel QuadModel ElemModel SparseModel AssemblyModel.
Import ListNotations.
Local Open Scope R_scope.

(** sample_heattransfer_static.cpp:20-38 and 48, sample_linear.cpp:20-28 and 41 *)
Record static := mkStatic {
  st_x : list (list R); st_elements : list (list nat); st_fixed : list (list (nat * nat * R)); st_loads : list (nat * nat * R);
  st_m : nat; st_s : shape; st_q : rule; st_f : shape -> rule -> list nat -> res (mat R * list (list (nat * nat))) }.

(** sample_heattransfer_static.cpp:45-50, sample_linear.cpp:38-43: one element *)
Definition st_add (d : static) (u : list (list R)) (t : table) (acc : lil R * list R) (el : list nat) : res (lil R * list R) :=
  ' (Ke, ne) <- st_f d (st_s d) (st_q d) el ;;
  assemble_K_F acc u Ke t ne el.

(** sample_heattransfer_static.cpp:36-54, sample_linear.cpp:29-48 *)
Definition st_run (solve : csr R -> list R -> res (list R)) (d : static) : res (list (list R)) :=
  let N := length (st_x d) in
  ' (u, t) <- foldM set_dirichlet (st_fixed d) (repeat (vnew R_ops (st_m d)) N, repeat (repeat (Some 0%nat) (st_m d)) N) ;;
  let (t, n) := renumber t in
  ' (K, F) <- foldM (st_add d u t) (st_elements d) (lil_new n n, repeat 0 n) ;;
  F <- assemble_N F (st_loads d) t ;;
  ' (A, _) <- csr_of_lil K ;;
  x <- solve A F ;;
  disassemble u x t.

(** sample_heattransfer_static.cpp:28-30: all values of the list *)
Definition st_assign (v : R) (fx : list (nat * nat * R)) : list (nat * nat * R) := map (fun f => (fst f, v)) fx.
(** sample_heattransfer_static.cpp:19-54: the temperature [hot] at the nodes of the
    first list, the second list as generated; conductivity 5, thickness 1 *)
Definition st_heat (x : list (list R)) (elements : list (list nat)) (left right : list (nat * nat * R)) (hot alpha t : R) : static :=
  mkStatic x elements [st_assign hot left; right] [] 1 sf_3Triangle Gauss1Triangle (fun s q el => HeatTransfer s q el [0%nat] x alpha t).
