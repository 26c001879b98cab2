(** The static advection-diffusion sample:
    /repo/sample/advection/sample_advectiondiffusion_static.cpp:19-57.  The mesh, the
    prescribed values, the velocity (speed and direction in degrees), the diffusion
    coefficient and the solver (BiCGSTAB) are parameters.  Import and export are left
    out. *)
From Coq Require Import List Arith Lia Bool Reals.
From Verif Require Import Res DenseModel DenseR ShapeModel QuadModel ElemModel SparseModel AssemblyModel StaticModel.
Import ListNotations.
Local Open Scope R_scope.

(** sample_advectiondiffusion_static.cpp:21-30 *)
Record drift := mkDrift {
  dr_x : list (list R); dr_elements : list (list nat); dr_fixed : list (nat * nat * R); dr_a : R; dr_theta : R; dr_k : R }.
(** sample_advectiondiffusion_static.cpp:44: the components of the velocity *)
Definition dr_ax (d : drift) : R := dr_a d * cos (dr_theta d * PI / 180).
Definition dr_ay (d : drift) : R := dr_a d * sin (dr_theta d * PI / 180).

(** sample_advectiondiffusion_static.cpp:42-51: the four calls and the sum; the
    numbering of the last call is used, its matrix is not *)
Definition dr_routine (d : drift) (s : shape) (q : rule) (el : list nat) : res (mat R * list (list (nat * nat))) :=
  ' (A, _) <- Advection s q el [0%nat] (dr_x d) (dr_ax d) (dr_ay d) ;;
  ' (B, _) <- Diffusion s q el [0%nat] (dr_x d) (dr_k d) ;;
  ' (C, _) <- AdvectionSUPG s q el [0%nat] (dr_x d) (dr_ax d) (dr_ay d) (dr_k d) ;;
  ' (_, ne) <- AdvectionShockCapturing s q el [0%nat] (dr_x d) (dr_ax d) (dr_ay d) (dr_k d) ;;
  AB <- madd R_ops A B ;;
  Ke <- madd R_ops AB C ;;
  Ok (Ke, ne).
(** sample_advectiondiffusion_static.cpp:32-57 is the program of the static samples
    with one component per node and without loads *)
Definition dr_static (d : drift) : static :=
  mkStatic (dr_x d) (dr_elements d) [dr_fixed d] [] 1 sf_3Triangle Gauss1Triangle (dr_routine d).
Definition dr_run (solve : csr R -> list R -> res (list R)) (d : drift) : res (list (list R)) := st_run solve (dr_static d).
