(** Notions used in the statements about the homogenization sample. *)
From Coq Require Import List Arith Lia Bool Reals.
From Verif Require Import Res SumR DenseModel DenseSpec ShapeModel QuadModel QuadSpec ElemModel ElemSpec HomSpec SparseModel SparseSpec AssemblyModel AssemblySpec KrylovSpec CellModel.
Import ListNotations.
Local Open Scope R_scope.

(** admissible elements, every slave has one master that is not itself a slave,
    admissible constants *)
Record cell_ok (d : cell) : Prop := mkCellOk {
  ck_element : forall el, In el (cl_elements d) -> element_ok 2 (cl_s d) (cl_q d) el (cl_x d) /\ positive_rule 2 (cl_s d) (cl_q d) (nodal el (cl_x d));
  ck_pairs : forall m s, In (m, s) (cl_pairs d) -> (m < length (cl_x d))%nat /\ (s < length (cl_x d))%nat;
  ck_slaves : NoDup (map snd (cl_pairs d));
  ck_masters : forall m, In m (map fst (cl_pairs d)) -> ~ In m (map snd (cl_pairs d));
  ck_modulus : 0 <= cl_E d; ck_poisson : -1 < cl_V d < 1 / 2; ck_thick : 0 <= cl_t d; ck_spring : 0 <= cl_alpha d; ck_volume : 0 < cl_volume d }.

(** the field has the same value at both nodes of every pair *)
Definition periodic (d : cell) (w : nat -> nat -> R) : Prop :=
  forall m s j, In (m, s) (cl_pairs d) -> (j < 2)%nat -> w s j = w m j.
(** [H] holds the gradients of the field in every element *)
Definition cell_gradients (d : cell) (w : nat -> nat -> R) (H : list nat -> (nat -> R) -> nat -> nat -> R) : Prop :=
  forall el, In el (cl_elements d) -> gradients (cl_s d) (cl_q d) (nodal el (cl_x d)) 2 (fun i j => w (nth i el O) j) (H el).
(** integral over the elements of the product of the stress of the strains [e] with the strains [f] *)
Definition stress_work (d : cell) (e f : list nat -> (nat -> R) -> nat -> nat -> R) : R :=
  sum_over (cl_elements d) (fun el => quad 2 (cl_q d) (fun p => jac (cl_s d) (nodal el (cl_x d)) p *
    (cl_t d * hooke 2 (lame_lambda (cl_E d) (cl_V d)) (lame_mu (cl_E d) (cl_V d)) (e el p) (f el p)))).
(** work of the springs *)
Definition spring_work (d : cell) (u w : nat -> nat -> R) : R :=
  sum_over (cl_elements d) (fun el => cl_alpha d * sum_over el (fun i => (u i 0%nat + u i 1%nat) * (w i 0%nat + w i 1%nat))).
(** the macroscopic strain with engineering components [v] *)
Definition macro (v : nat -> R) (l k : nat) : R := bigsum 3 (fun c => v c * unit_strain c l k).
(** the macroscopic strain less the strain of a field with gradients [H] *)
Definition micro (v : nat -> R) (H : list nat -> (nat -> R) -> nat -> nat -> R) (el : list nat) (p : nat -> R) (l k : nat) : R :=
  macro v l k - strain (H el p) l k.
(** twice the energy of the cell and its springs *)
Definition cell_energy (d : cell) (v : nat -> R) (w : nat -> nat -> R) (H : list nat -> (nat -> R) -> nat -> nat -> R) : R :=
  stress_work d (micro v H) (micro v H) + spring_work d w w.
(** the characteristic displacement of a result *)
Definition cr_chi (r : cell_result) (c : nat) : nat -> nat -> R :=
  uval (match c with O => cr_chi0 r | 1%nat => cr_chi1 r | _ => cr_chi2 r end).
(** the combination of the characteristic displacements for the macroscopic strain [v] *)
Definition cr_field (r : cell_result) (v : nat -> R) (i j : nat) : R := bigsum 3 (fun c => v c * cr_chi r c i j).
(** quadratic form of a matrix of order 3 *)
Definition quad_form (ch : nat -> nat -> R) (v : nat -> R) : R := bigsum 3 (fun a => bigsum 3 (fun c => v a * ch a c * v c)).
(** the same cell with other springs *)
Definition with_springs (d : cell) (a : R) : cell :=
  mkCell (cl_x d) (cl_elements d) (cl_pairs d) (cl_s d) (cl_q d) (cl_E d) (cl_V d) (cl_t d) a (cl_volume d).
Definition sy_F (s : system) (c : nat) : list R := match c with O => sy_F0 s | 1%nat => sy_F1 s | _ => sy_F2 s end.

(** a solver that solves the systems with a symmetric positive semidefinite
    matrix that have a solution *)
Definition psd_solver (solve : csr R -> list R -> res (list R)) : Prop :=
  forall n A b, square_csr n A -> length b = n -> symmetric n (entry A) -> (forall u, 0 <= dot n u (matvec n (entry A) u)) ->
    (exists x, length x = n /\ csr_mulvec 0 Rplus Rmult A x = Ok b) ->
    exists x, solve A b = Ok x /\ length x = n /\ csr_mulvec 0 Rplus Rmult A x = Ok b.
