(** The beam sample: /repo/sample/beam/sample_beam_linear.cpp:19-57.  The mesh, the
    directors of the sections, the prescribed values, the loads, the constants and the
    solver (ScalingCG) are parameters.  Import and export are left out. *)
From Coq Require Import List Arith Lia Bool Reals.
From Verif Require Import Res DenseModel DenseR ShapeModel QuadModel ElemModel BeamModel SparseModel AssemblyModel StaticModel.
Import ListNotations.
Local Open Scope R_scope.

(** sample_beam_linear.cpp:21-31 and 45 *)
Record frame := mkFrame {
  fr_x : list (list R); fr_elements : list (list nat); fr_v1 : list (list R); fr_v2 : list (list R);
  fr_fixed : list (nat * nat * R); fr_loads : list (nat * nat * R); fr_E : R; fr_V : R; fr_a : R; fr_b : R }.

(** sample_beam_linear.cpp:45: the call of the routine *)
Definition fr_routine (d : frame) (s : shape) (q : rule) (el : list nat) : res (mat R * list (list (nat * nat))) :=
  BeamLinearIsotropicElastic s q Gauss4Square el [0; 1; 2; 3; 4; 5]%nat (fr_x d) (fr_v1 d) (fr_v2 d) (fr_E d) (fr_V d) (fr_a d) (fr_b d).
(** sample_beam_linear.cpp:33-52 is the program of the static samples with six
    components per node *)
Definition fr_static (d : frame) : static :=
  mkStatic (fr_x d) (fr_elements d) [fr_fixed d] (fr_loads d) 6 sf_2Line Gauss1Line (fr_routine d).

(** sample_beam_linear.cpp:33-57: the displacements are the first three components *)
Definition fr_run (solve : csr R -> list R -> res (list R)) (d : frame) : res (list (list R) * list (list R)) :=
  ur <- st_run solve (fr_static d) ;;
  u <- mapM (fun i => v <- rd ur i ;; vsegment R_ops v 0 3) (seq 0 (length (fr_x d))) ;;
  Ok (ur, u).

(** sample_beam_linear.cpp:19-31 with the files Node.csv, Element.csv, Dirichlet.csv and
    Neumann.csv: n elements of length l along the first axis, the first node clamped,
    the load P in the third direction at the last node; in the files n = 3, l = 5,
    P = -10, and line 45 has E = 210000, V = 0.3, a = b = 1 *)
Definition fr_sample (n : nat) (l P E V a b : R) : frame :=
  mkFrame (map (fun i => [INR i * l; 0; 0]) (seq 0 (S n))) (map (fun p => [p; S p]) (seq 0 n))
    (repeat [0; 1; 0] (S n)) (repeat [0; 0; 1] (S n)) (map (fun c => (0%nat, c, 0)) (seq 0 6)) [(n, 2%nat, P)] E V a b.
