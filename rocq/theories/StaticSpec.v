(** Notions used in the statements about the static samples. *)
From Coq Require Import List Arith Lia Bool Reals.
From Verif Require Import Res SumR DenseModel DenseSpec ShapeModel QuadModel QuadSpec ElemModel ElemSpec SparseModel AssemblyModel AssemblySpec PatchSpec StableSpec StaticModel.
Import ListNotations.
Local Open Scope R_scope.

Definition st_fx (d : static) : list (nat * nat * R) := concat (st_fixed d).
Definition st_pieces (d : static) : list piece := map (mkPiece (st_s d) (st_q d)) (st_elements d).
(** the gradient of a scalar field vanishes, the strain of a displacement field
    vanishes *)
Definition unstrained (d m : nat) (H : nat -> nat -> R) : Prop :=
  match m with 1%nat => forall l, (l < d)%nat -> H l 0%nat = 0 | _ => m = d /\ forall i j, (i < d)%nat -> (j < d)%nat -> H i j + H j i = 0 end.
(** nodal values that are unstrained at all points of the rule are constant
    (scalar field) or a rigid motion (displacements) *)
Definition no_mechanism (d m : nat) (xs : list (list R)) (p : piece) : Prop :=
  forall y H, gradients (p_shape p) (p_rule p) (nodal (p_nodes p) xs) m y H -> (forall g, (g < q_n (p_rule p))%nat -> unstrained d m (H (pt (p_rule p) g))) ->
    match m with 1%nat => forall i j, (i < sf_n (p_shape p))%nat -> (j < sf_n (p_shape p))%nat -> y i 0%nat = y j 0%nat | _ => rigid_motion d (sf_n (p_shape p)) (nodal (p_nodes p) xs) y end.
Definition sound_piece (d m : nat) (xs : list (list R)) (p : piece) : Prop :=
  element_ok d (p_shape p) (p_rule p) (p_nodes p) xs /\ positive_rule d (p_shape p) (p_rule p) (nodal (p_nodes p) xs) /\ no_mechanism d m xs p.
(** an element of eight nodes whose edges are parallel: [e] maps the points of
    the parent cube to the nodes *)
Definition brick (xs : list (list R)) (el : list nat) (o : nat -> R) (e : nat -> nat -> R) : Prop :=
  length el = 8%nat /\ nodes_ok 3 el xs /\
  forall i c, (i < 8)%nat -> (c < 3)%nat -> nodal el xs i c = o c + bigsum 3 (fun l => nth l (nth i pts_8Cubic []) 0 * e l c).
(** admissible data: routine, mesh, prescribed values and loads; every node is
    held by the prescribed values *)
Record static_ok (d : static) (dim : nat) : Prop := mkStaticOk {
  sk_routine : stiff_routine (seq 0 (st_m d)) (st_x d) dim (st_m d) (st_f d);
  sk_piece : forall p, In p (st_pieces d) -> sound_piece dim (st_m d) (st_x d) p;
  sk_nodes : forall el k, In el (st_elements d) -> In k el -> (k < length (st_x d))%nat;
  sk_fixed : forall i j v, In (i, j, v) (st_fx d) -> (i < length (st_x d))%nat /\ (j < st_m d)%nat;
  sk_loads : forall i j v, In (i, j, v) (st_loads d) -> (i < length (st_x d))%nat /\ (j < st_m d)%nat;
  sk_held : forall i, (i < length (st_x d))%nat -> held (st_x d) (st_m d) (st_elements d) (fun k => forall c, (c < st_m d)%nat -> last_value (st_fx d) k c <> None) i }.
Definition sshape (d : static) (u : list (list R)) : Prop := forall i j, in_table u i j <-> (i < length (st_x d))%nat /\ (j < st_m d)%nat.
(** the field has the prescribed values (the last one given for each dof), and the
    forces of the elements balance the loads in all other dofs *)
Definition balanced (d : static) (es : list elem) (u : list (list R)) : Prop :=
  (forall i j v, last_value (st_fx d) i j = Some v -> uval u i j = v) /\
  forall i j, (i < length (st_x d))%nat -> (j < st_m d)%nat -> last_value (st_fx d) i j = None -> internal_force es u i j = nodal_load (st_loads d) i j.
(** a side whose nodes have the same second coordinate *)
Definition level (xs : list (list R)) (sd : list nat) : Prop := forall k k', In k sd -> In k' sd -> nth 1 (nth k xs []) 0 = nth 1 (nth k' xs []) 0.
(** every side at node [i] has its reverse in the mesh as often as itself, or is level *)
Definition enclosed (xs : list (list R)) (els : list (list nat)) (i : nat) : Prop :=
  forall sd, In i sd -> level xs sd \/ count_occ (list_eq_dec Nat.eq_dec) (flat_map sides els) sd = count_occ (list_eq_dec Nat.eq_dec) (flat_map sides els) (rev sd).
(** all prescribed values and loads multiplied by [c] *)
Definition st_scaled (c : R) (d : static) : static :=
  let by_c := map (fun w : nat * nat * R => (fst w, c * snd w)) in
  mkStatic (st_x d) (st_elements d) (map by_c (st_fixed d)) (by_c (st_loads d)) (st_m d) (st_s d) (st_q d) (st_f d).
