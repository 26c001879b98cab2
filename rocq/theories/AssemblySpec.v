(** Specification vocabulary for assembly and boundary conditions. *)
From Coq Require Import List Arith Lia Bool Reals.
From Verif Require Import Res SumR SparseModel SparseSpec DenseModel DenseSpec AssemblyModel.
Import ListNotations.
Local Open Scope R_scope.

(** position (node, dof) of a table or displacement field *)
Definition in_table {A} (t : list (list A)) (i j : nat) : Prop := (j < length (nth i t []))%nat.
(** equation number of a dof; [None] if constrained or absent *)
Definition num (t : table) (i j : nat) : option nat := nth j (nth i t []) None.
(** value of a displacement field at a dof *)
Definition uval (u : list (list R)) (i j : nat) : R := nth j (nth i u []) 0.

(** a local dof of an element: node, dof of the node, local index *)
Record ldof := mkDof { dnode : nat; ddof : nat; dloc : nat }.

(** the local dofs of an element in order: node [element[i]] owns the pairs
    [nodetoelement[i]] *)
Fixpoint dofs (element : list nat) (nte : list (list (nat * nat))) : list ldof :=
  match element, nte with
  | e :: es, nt :: nts => map (fun d => mkDof e (fst d) (snd d)) nt ++ dofs es nts
  | _, _ => []
  end.

Definition dnum (t : table) (a : ldof) : option nat := num t (dnode a) (ddof a).
Definition duval (u : list (list R)) (a : ldof) : R := uval u (dnode a) (ddof a).

Definition is_eq (o : option nat) (k : nat) : bool := match o with Some k' => (k' =? k)%nat | None => false end.
Definition ind (b : bool) (x : R) : R := if b then x else 0.
Definition sum_over {A} (l : list A) (f : A -> R) : R := sumlist (map f l).

(** an element with its matrix and load vector, as mathematical data *)
Record elem := mkElem {
  e_nodes : list nat; e_nte : list (list (nat * nat));
  e_K : mat R; e_F : list R }.
Definition e_dofs (e : elem) : list ldof := dofs (e_nodes e) (e_nte e).
Definition e_k (e : elem) (a b : nat) : R := nth (a * mcol (e_K e) + b) (mval (e_K e)) 0.
Definition e_f (e : elem) (a : nat) : R := nth a (e_F e) 0.

(** what the element adds to entry (gi, gj) of the global matrix *)
Definition k_contrib (t : table) (e : elem) (gi gj : nat) : R :=
  sum_over (e_dofs e) (fun a => sum_over (e_dofs e) (fun b =>
    ind (is_eq (dnum t a) gi && is_eq (dnum t b) gj) (e_k e (dloc a) (dloc b)))).
(** element loads on equation gi *)
Definition f_contrib (t : table) (e : elem) (gi : nat) : R :=
  sum_over (e_dofs e) (fun a => ind (is_eq (dnum t a) gi) (e_f e (dloc a))).
(** prescribed values moved to the right-hand side *)
Definition d_contrib (t : table) (u : list (list R)) (e : elem) (gi : nat) : R :=
  sum_over (e_dofs e) (fun a => sum_over (e_dofs e) (fun b =>
    ind (is_eq (dnum t a) gi && match dnum t b with None => true | _ => false end)
      (e_k e (dloc a) (dloc b) * duval u b))).
(** nodal loads on equation gi *)
Definition n_contrib (t : table) (f : list (nat * nat * R)) (gi : nat) : R :=
  sum_over f (fun w => ind (is_eq (num t (fst (fst w)) (snd (fst w))) gi) (snd w)).

(** the data of an element fit the table, the field and the numbering: every
    index used is in range.  [n] is the number of equations. *)
Definition elem_ok (n : nat) (t : table) (u : list (list R)) (e : elem) : Prop :=
  (length (e_nodes e) <= length (e_nte e))%nat /\
  mat_wf (e_K e) /\
  forall a, In a (e_dofs e) ->
    in_table t (dnode a) (ddof a) /\ in_table u (dnode a) (ddof a) /\
    (forall k, dnum t a = Some k -> (k < n)%nat) /\
    (dloc a < mrow (e_K e))%nat /\ (dloc a < mcol (e_K e))%nat /\ (dloc a < length (e_F e))%nat.

(** the data of an element fit the node table, whatever the numbering *)
Definition elem_fits (t : table) (e : elem) : Prop :=
  (length (e_nodes e) <= length (e_nte e))%nat /\
  mat_wf (e_K e) /\
  forall a, In a (e_dofs e) ->
    in_table t (dnode a) (ddof a) /\
    (dloc a < mrow (e_K e))%nat /\ (dloc a < mcol (e_K e))%nat /\ (dloc a < length (e_F e))%nat.

(** the element loop of the samples, e.g. sample/planestrain/sample_planestrain.cpp:
    for every element, Assembling(K, F, u, Ke, Fe, nodetoglobal, nodetoelement, element) *)
Definition asm_all u t (es : list elem) s :=
  foldM (fun s e => assemble_KFe s u (e_K e) (e_F e) t (e_nte e) (e_nodes e)) es s.

(** what the elements [es] do to dof (i, j) under the displacement field [u], the
    element loads there, and the listed nodal loads there; no numbering involved *)
Definition at_dof (i j : nat) (a : ldof) : bool := ((dnode a =? i) && (ddof a =? j))%nat.
Definition internal_force (es : list elem) (u : list (list R)) (i j : nat) : R :=
  sum_over es (fun e => sum_over (e_dofs e) (fun a => ind (at_dof i j a)
    (sum_over (e_dofs e) (fun b => e_k e (dloc a) (dloc b) * duval u b)))).
Definition element_load (es : list elem) (i j : nat) : R :=
  sum_over es (fun e => sum_over (e_dofs e) (fun a => ind (at_dof i j a) (e_f e (dloc a)))).
Definition nodal_load (f : list (nat * nat * R)) (i j : nat) : R :=
  sum_over f (fun w => ind ((fst (fst w) =? i) && (snd (fst w) =? j))%nat (snd w)).

(** a square global matrix with entries [G], a right-hand side with entries [H] *)
Definition mat_is (n : nat) (K : lil R) (G : nat -> nat -> R) : Prop :=
  lil_wf K /\ lrows K = n /\ lcols K = n /\ lil_cols_ok K /\ forall i j, (i < n)%nat -> lil_get 0 K i j = Ok (G i j).
Definition vec_is (n : nat) (F : list R) (H : nat -> R) : Prop :=
  length F = n /\ forall i, (i < n)%nat -> nth i F 0 = H i.

(** the numbers given to the free entries of a table, in node order *)
Definition somes (l : list (option nat)) : list nat :=
  flat_map (fun o => match o with Some k => [k] | None => [] end) l.
Definition numbers (t : table) : list nat := somes (concat t).
(** same shape and same constrained entries *)
Definition same_pattern (t t' : table) : Prop :=
  length t = length t' /\
  (forall i, length (nth i t []) = length (nth i t' [])) /\
  (forall i j, num t i j = None <-> num t' i j = None).
(** distinct free dofs have distinct numbers, all below n *)
Definition numbering (n : nat) (t : table) : Prop :=
  (forall i j k, num t i j = Some k -> (k < n)%nat) /\
  (forall i j i' j' k, num t i j = Some k -> num t i' j' = Some k -> i = i' /\ j = j') /\
  (forall k, (k < n)%nat -> exists i j, num t i j = Some k).

(** the component of a solution vector belonging to a local dof, 0 if constrained *)
Definition xval (t : table) (x : nat -> R) (a : ldof) : R := match dnum t a with Some k => x k | None => 0 end.

(** last value listed for a dof *)
Definition last_value (fx : list (nat * nat * R)) (i j : nat) : option R := last_write fx i j.
