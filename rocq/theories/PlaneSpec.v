(** Notions used in the statements about the plane strain sample. *)
From Coq Require Import List Arith Lia Bool Reals.
From Verif Require Import Res SumR DenseModel DenseSpec ShapeModel QuadModel QuadSpec ElemModel ElemSpec LoadSpec SparseModel AssemblyModel AssemblySpec PatchSpec StableSpec PlaneModel.
Import ListNotations.
Local Open Scope R_scope.

(** the nodal values of a field on an element *)
Definition on (el : list nat) (w : nat -> nat -> R) (i c : nat) : R := w (nth i el O) c.
(** the field vanishes where the displacement is prescribed *)
Definition unsupported (d : plane) (i j : nat) : Prop := forall v, ~ In (i, j, v) (pl_ufixed d).
Definition admissible (d : plane) (w : nat -> nat -> R) : Prop := forall i j v, In (i, j, v) (pl_ufixed d) -> w i j = 0.
(** the supports exclude every field that moves each element as a rigid body *)
Definition restrained (d : plane) : Prop :=
  forall w, (forall el, In el (pl_elements d) -> rigid_motion 2 (length el) (nodal el (pl_x d)) (on el w)) -> admissible d w ->
    forall i j, (i < length (pl_x d))%nat -> (j < 2)%nat -> w i j = 0.

(** admissible data *)
Record plane_ok (d : plane) : Prop := mkPlaneOk {
  pk_piece : forall el, In el (pl_elements d) -> stable_piece 2 (pl_x d) (mkPiece (pl_s d) (pl_q d) el);
  pk_edge : forall el, In el (pl_edges d) -> line_ok (pl_es d) (pl_eq d) el (pl_x d);
  pk_fixed : forall i j v, In (i, j, v) (pl_ufixed d) -> (i < length (pl_x d))%nat /\ (j < 2)%nat;
  pk_loads : forall i j v, In (i, j, v) (pl_qfixed d) -> (i < length (pl_x d))%nat /\ (j < 2)%nat;
  pk_body : forall v, length v = 2%nat -> length (pl_body d v) = 2%nat;
  pk_surface : forall v, length v = 2%nat -> length (pl_surface d v) = 2%nat;
  pk_restrained : restrained d;
  pk_modulus : 0 < pl_E d; pk_poisson : -1 < pl_V d < 1 / 2; pk_thick : 0 < pl_t d }.

(** [G el] is the gradient of the field on every element, at the points of the rule *)
Definition slopes (d : plane) (w : nat -> nat -> R) (G : list nat -> (nat -> R) -> nat -> nat -> R) : Prop :=
  forall el, In el (pl_elements d) -> gradients (pl_s d) (pl_q d) (nodal el (pl_x d)) 2 (on el w) (G el).
(** the work of the stresses of a field with gradient [Gu] on the strains of a
    field with gradient [Gw] *)
Definition stress_work (d : plane) (Gu Gw : list nat -> (nat -> R) -> nat -> nat -> R) : R :=
  sum_over (pl_elements d) (fun el => quad 2 (pl_q d) (fun p => jac (pl_s d) (nodal el (pl_x d)) p *
    (pl_t d * hooke 2 (lame_lambda (pl_E d) (pl_V d)) (lame_mu (pl_E d) (pl_V d)) (strain (Gu el p)) (strain (Gw el p))))).
(** the work of the body force, of the nodal loads and of the tractions in a field *)
Definition body_work (d : plane) (w : nat -> nat -> R) : R :=
  sum_over (pl_elements d) (fun el => quad 2 (pl_q d) (fun p => jac (pl_s d) (nodal el (pl_x d)) p * pl_t d *
    bigsum 2 (fun c => field_value (pl_s d) p (on el w) c * nth c (pl_body d (at_point (pl_s d) (nodal el (pl_x d)) p)) 0))).
Definition traction_work (d : plane) (w : nat -> nat -> R) : R :=
  sum_over (pl_edges d) (fun el => quad 1 (pl_eq d) (fun p => arc (pl_es d) (nodal el (pl_x d)) p * pl_t d *
    bigsum 2 (fun c => field_value (pl_es d) p (on el w) c * nth c (pl_surface d (at_point (pl_es d) (nodal el (pl_x d)) p)) 0))).
Definition nodal_work (d : plane) (w : nat -> nat -> R) : R :=
  sum_over (pl_qfixed d) (fun f => snd f * w (fst (fst f)) (snd (fst f))).
Definition total_work (d : plane) (w : nat -> nat -> R) : R := body_work d w + nodal_work d w + traction_work d w.

(** the displacements carry the prescribed values and do, in every admissible
    field, the work of the loads *)
Definition equilibrium (d : plane) (u : list (list R)) : Prop :=
  (forall i j v, last_value (pl_ufixed d) i j = Some v -> uval u i j = v) /\
  forall w Gu Gw, admissible d w -> slopes d (uval u) Gu -> slopes d w Gw -> stress_work d Gu Gw = total_work d w.
(** one node, one direction *)
Definition spot (i j k c : nat) : R := if ((k =? i) && (c =? j))%nat then 1 else 0.
(** sum of the nodal forces in direction [c], and their moment about the origin *)
Definition sum_force (d : plane) (r : list (list R)) (c : nat) : R := bigsum (length (pl_x d)) (fun i => uval r i c).
Definition sum_moment (d : plane) (r : list (list R)) : R :=
  bigsum (length (pl_x d)) (fun i => uval (pl_x d) i 0 * uval r i 1 - uval (pl_x d) i 1 * uval r i 0).
(** the potential energy of a field with gradient [G] *)
Definition potential (d : plane) (w : nat -> nat -> R) (G : list nat -> (nat -> R) -> nat -> nat -> R) : R :=
  stress_work d G G / 2 - total_work d w.
