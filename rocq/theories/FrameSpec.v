(** Notions used in the statements about the beam sample. *)
From Coq Require Import List Arith Lia Bool Reals.
From Verif Require Import Res SumR DenseModel DenseSpec ShapeModel QuadModel ElemSpec BeamSpec SparseModel AssemblyModel AssemblySpec PatchSpec StaticModel StaticSpec FrameModel.
Import ListNotations.
Local Open Scope R_scope.

(** nodes connected by elements with a node of [base] *)
Inductive tied (els : list (list nat)) (base : nat -> Prop) : nat -> Prop :=
  | tied_base k : base k -> tied els base k
  | tied_elem el k k' : In el els -> In k el -> In k' el -> tied els base k -> tied els base k'.
(** an element between two nodes along the normal of the section *)
Definition bar_ok (d : frame) (el : list nat) : Prop :=
  length el = 2%nat /\ nodes_ok 3 el (fr_x d) /\ nodes3 el (fr_v1 d) /\ nodes3 el (fr_v2 d) /\
  exists l d1 d2, 0 < l /\ straight el (fr_x d) (fr_v1 d) (fr_v2 d) l d1 d2.
(** admissible data: every node is connected with one whose six components are prescribed *)
Record frame_ok (d : frame) : Prop := mkFrameOk {
  fk_E : 0 < fr_E d; fk_V : 0 < 1 + fr_V d; fk_a : 0 < fr_a d; fk_b : 0 < fr_b d;
  fk_bar : forall el, In el (fr_elements d) -> bar_ok d el;
  fk_fixed : forall i j v, In (i, j, v) (fr_fixed d) -> (i < length (fr_x d))%nat /\ (j < 6)%nat;
  fk_loads : forall i j v, In (i, j, v) (fr_loads d) -> (i < length (fr_x d))%nat /\ (j < 6)%nat;
  fk_tied : forall i, (i < length (fr_x d))%nat -> tied (fr_elements d) (fun k => forall c, (c < 6)%nat -> last_value (fr_fixed d) k c <> None) i }.
(** the displacements and rotations of the two nodes of an element *)
Definition ends (u : nat -> nat -> R) (el : list nat) (i c : nat) : R := u (nth i el O) c.
(** [W el] is the work of the element [el] for its nodal values y and z *)
Definition bar_work (d : frame) (el : list nat) (W : (nat -> nat -> R) -> (nat -> nat -> R) -> R) : Prop :=
  exists l d1 d2, 0 < l /\ straight el (fr_x d) (fr_v1 d) (fr_v2 d) l d1 d2 /\
    forall y z, W y z = timoshenko (fr_E d) (lame_mu (fr_E d) (fr_V d)) l (fr_a d) (fr_b d) d1 d2 y z.
(** the field has the prescribed values, and the work of all elements for every
    virtual field that vanishes in the prescribed components is that of the loads *)
Definition virtual_work (d : frame) (u : list (list R)) : Prop :=
  (forall i j v, last_value (fr_fixed d) i j = Some v -> uval u i j = v) /\
  forall W, (forall el, In el (fr_elements d) -> bar_work d el (W el)) ->
    forall y : nat -> nat -> R, (forall i j, last_value (fr_fixed d) i j <> None -> y i j = 0) ->
      sum_over (fr_elements d) (fun el => W el (ends y el) (ends (uval u) el)) = sum_over (fr_loads d) (fun w => snd w * y (fst (fst w)) (snd (fst w))).
(** the program with its displacements: three components of each node of [ur] *)
Definition first_three (d : frame) (ur u : list (list R)) : Prop :=
  length u = length (fr_x d) /\ forall i, (i < length (fr_x d))%nat -> length (nth i u []) = 3%nat /\ forall c, (c < 3)%nat -> uval u i c = uval ur i c.
(** a cantilever of length n l with the load P at its end: deflection and slope at
    node i, by integration of the moment P (n l - x); the one point rule reduces the
    part of the deflection due to bending by P l^2 x / (12 E I) *)
Definition deflection (n : nat) (l P E V a b : R) (i : nat) : R :=
  let L := INR n * l in let x := INR i * l in
  P * x / (5 / 6 * lame_mu E V * (a * b)) + P / (E * (a * b ^ 3 / 12)) * (L * x ^ 2 / 2 - x ^ 3 / 6 - l ^ 2 * x / 12).
Definition slope (n : nat) (l P E a b : R) (i : nat) : R :=
  let L := INR n * l in let x := INR i * l in P / (E * (a * b ^ 3 / 12)) * (L * x - x ^ 2 / 2).
(** the potential energy of a field: energy of the elements minus work of the loads *)
Definition potential (d : frame) (W : list nat -> (nat -> nat -> R) -> (nat -> nat -> R) -> R) (z : nat -> nat -> R) : R :=
  / 2 * sum_over (fr_elements d) (fun el => W el (ends z el) (ends z el)) - sum_over (fr_loads d) (fun w => snd w * z (fst (fst w)) (snd (fst w))).
(** the frame with other loads *)
Definition loaded (d : frame) (P : list (nat * nat * R)) : frame :=
  mkFrame (fr_x d) (fr_elements d) (fr_v1 d) (fr_v2 d) (fr_fixed d) P (fr_E d) (fr_V d) (fr_a d) (fr_b d).
Definition loads_fit (d : frame) (P : list (nat * nat * R)) : Prop := forall i j v, In (i, j, v) P -> (i < length (fr_x d))%nat /\ (j < 6)%nat.
