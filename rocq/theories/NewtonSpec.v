(** Notions used in the statements about the load stepping sample. *)
From Coq Require Import List Arith Lia Bool Reals.
From Verif Require Import Res SumR DenseModel DenseR DenseSpec ShapeModel QuadModel ElemModel ElemSpec SparseModel AssemblyModel AssemblySpec NewtonModel.
Import ListNotations.
Local Open Scope R_scope.

(** three components for every node *)
Definition nfull (d : newton) {A} (u : list (list A)) : Prop := forall i j, in_table u i j <-> (i < length (nw_x d))%nat /\ (j < 3)%nat.
Definition nshape (d : newton) (u : list (list R)) : Prop := length u = length (nw_x d) /\ forall i, (i < length (nw_x d))%nat -> length (nth i u []) = 3%nat.

(** admissible data: the routine succeeds on every element for all displacements *)
Record newton_ok (d : newton) : Prop := mkNewtonOk {
  no_call : forall el u, In el (nw_elements d) -> nshape d u -> exists K Q ne k, nw_call d el u = Ok (K, Q, ne) /\
    is_mat K (3 * length el) (3 * length el) k /\ length Q = (3 * length el)%nat /\ numbered 3 (length el) [0; 1; 2]%nat ne;
  no_nodes : forall el k, In el (nw_elements d) -> In k el -> (k < length (nw_x d))%nat;
  no_fixed : forall i j v, In (i, j, v) (nw_ufixed d) -> (i < length (nw_x d))%nat /\ (j < 3)%nat;
  no_loads : forall i j v, In (i, j, v) (nw_qfixed d) -> (i < length (nw_x d))%nat /\ (j < 3)%nat }.

(** the solver always returns a vector of the right size *)
Definition total_solver (solve : csr R -> list R -> res (list R)) : Prop := forall A b, exists x, solve A b = Ok x /\ length x = length b.

(** is the displacement of a node prescribed? *)
Definition held (d : newton) (i j : nat) : bool := match last_value (nw_ufixed d) i j with Some _ => true | None => false end.
(** the Euclidean norm of the list of loads *)
Definition load_norm (d : newton) : R := sqrt (sum_over (nw_qfixed d) (fun f => snd f * snd f)).

(** what the routine returns for an element *)
Definition nel (d : newton) (u : list (list R)) (el : list nat) : elem :=
  match nw_call d el u with Ok (K, Q, ne) => mkElem el ne K Q | Fail _ => mkElem el [] (mnew R_ops 0 0) [] end.
(** the out-of-balance force: s times the loads plus the forces of the routine *)
Definition out (d : newton) (s : R) (u : list (list R)) (i j : nat) : R :=
  s * nodal_load (nw_qfixed d) i j + element_load (map (nel d u) (nw_elements d)) i j.
(** the tangent matrices applied to the prescribed displacements *)
Definition held_share (d : newton) (u : list (list R)) (i j : nat) : R :=
  sum_over (map (nel d u) (nw_elements d)) (fun e => sum_over (e_dofs e) (fun a => ind (at_dof i j a)
    (sum_over (e_dofs e) (fun b => ind (held d (dnode b) (ddof b)) (e_k e (dloc a) (dloc b) * duval u b))))).
(** the sum of squares over all dofs that are not held *)
Definition free_squares (d : newton) (g : nat -> nat -> R) : R :=
  bigsum (length (nw_x d)) (fun i => bigsum 3 (fun j => if held d i j then 0 else g i j * g i j)).
Definition zero_held (d : newton) : Prop := forall i j v, In (i, j, v) (nw_ufixed d) -> v = 0.
(** the displacements of one state, as the prescribed values demand *)
Definition keeps (d : newton) (u : list (list R)) : Prop := nshape d u /\ forall i j v, last_value (nw_ufixed d) i j = Some v -> uval u i j = v.
(** the sample: the total Lagrangian routine on admissible elements *)
Definition total_lagrange (d : newton) (s : shape) (q : rule) (E V : R) : Prop :=
  nw_call d = nw_total s q (nw_x d) E V /\ (forall el, In el (nw_elements d) -> element_ok 3 s q el (nw_x d)) /\ (1 + V) * (1 - 2 * V) <> 0 /\
  (forall i j v, In (i, j, v) (nw_ufixed d) -> (i < length (nw_x d))%nat /\ (j < 3)%nat) /\
  (forall i j v, In (i, j, v) (nw_qfixed d) -> (i < length (nw_x d))%nat /\ (j < 3)%nat).
(** the assembled tangent matrices at u, applied to a field *)
Definition tangent_on (d : newton) (u : list (list R)) (z : nat -> nat -> R) (i j : nat) : R :=
  sum_over (map (nel d u) (nw_elements d)) (fun e => sum_over (e_dofs e) (fun a => ind (at_dof i j a)
    (sum_over (e_dofs e) (fun b => e_k e (dloc a) (dloc b) * z (dnode b) (ddof b))))).
(** a straight line of displacements from u in direction z *)
Definition line_from (d : newton) (u : list (list R)) (z : nat -> nat -> R) (us : R -> list (list R)) : Prop :=
  us 0 = u /\ forall e, nshape d (us e) /\ forall i j, (i < length (nw_x d))%nat -> (j < 3)%nat -> uval (us e) i j = uval u i j + e * z i j.
(** an exact solver: what it returns solves the system *)
Definition exact_solver (solve : csr R -> list R -> res (list R)) : Prop :=
  forall A b x, solve A b = Ok x -> length x = length b /\ csr_mulvec 0 Rplus Rmult A x = Ok b.
