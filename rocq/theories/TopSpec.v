(** Notions used in the statements about the analysis of the topology
    optimisation samples. *)
From Coq Require Import List Arith Lia Bool Reals.
From Verif Require Import Res SumR DenseModel DenseSpec ShapeModel QuadModel QuadSpec ElemModel ElemSpec SparseModel SparseSpec AssemblyModel AssemblySpec KrylovModel KrylovSpec PatchSpec StableSpec TopModel.
Import ListNotations.
Local Open Scope R_scope.

(** an admissible problem: admissible elements on the nodes, all prescribed
    values are zero and hold every free node, admissible constants *)
Record top_ok (d : top) : Prop := mkTopOk {
  tk_piece : forall el, In el (tp_elements d) -> stable_piece 2 (tp_x d) (mkPiece (tp_s d) (tp_q d) el);
  tk_nodes : forall el k, In el (tp_elements d) -> In k el -> (k < length (tp_x d))%nat;
  tk_fixed : forall i j v, In (i, j, v) (tp_ufixed d) -> (i < length (tp_x d))%nat /\ (j < 2)%nat /\ v = 0;
  tk_loads : forall i j v, In (i, j, v) (tp_qfixed d) -> (i < length (tp_x d))%nat /\ (j < 2)%nat;
  tk_held : forall i j, (i < length (tp_x d))%nat -> (j < 2)%nat -> (forall v, ~ In (i, j, v) (tp_ufixed d)) ->
    held (tp_x d) 2 (tp_elements d) (fun k => forall c, (c < 2)%nat -> exists v, In (k, c, v) (tp_ufixed d)) i;
  tk_modulus : 0 < tp_E0 d <= tp_E1 d;
  tk_poisson : -1 < tp_V d < 1 / 2;
  tk_thick : 0 < tp_t d }.
(** a positive density for every element *)
Definition design_ok (d : top) (rho : list R) : Prop :=
  length rho = length (tp_elements d) /\ forall x, In x rho -> 0 < x.

(** a solver that solves the systems with a symmetric positive definite matrix *)
Definition spd_solver (solve : csr R -> list R -> res (list R)) : Prop :=
  forall n A b, square_csr n A -> length b = n -> symmetric n (entry A) -> pos_def n (entry A) ->
    exists x, solve A b = Ok x /\ length x = n /\ csr_mulvec 0 Rplus Rmult A x = Ok b.
(** conjugate gradients, stopped when the residual is zero *)
Fixpoint cg_exact_loop (fuel n : nat) (A : csr R) (s : cg_state) : res (list R) :=
  if forallb (fun i => if Req_EM_T (ix (cg_r s) i) 0 then true else false) (seq 0 n) then Ok (map (ix (cg_x s)) (seq 0 n))
  else match fuel with O => Fail OutOfFuel | S k => s <- cg_step A s ;; cg_exact_loop k n A s end.
Definition cg_exact (A : csr R) (b : list R) : res (list R) := s <- cg_init A b ;; cg_exact_loop (length b) (length b) A s.

(** the modulus of an element of density [r] *)
Definition simp (d : top) (r : R) : R := tp_E0 d + (tp_E1 d - tp_E0 d) * Rpower r (tp_p d).
(** the work of the loads in a field *)
Definition load_work (f : list (nat * nat * R)) (u : list (list R)) : R :=
  sum_over f (fun w => snd w * uval u (fst (fst w)) (snd (fst w))).
(** the objective that an analysis returns *)
Definition objective (r : res analysis) : R := match r with Ok a => an_f a | Fail _ => 0 end.
