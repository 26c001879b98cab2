(** Notions used in the statements about positive definite systems: meshes that
    are held by the prescribed values. *)
From Coq Require Import List Arith Lia Bool Reals.
From Verif Require Import Res SumR DenseModel DenseSpec ShapeModel QuadModel QuadSpec ElemModel ElemSpec AssemblyModel AssemblySpec PatchSpec.
Import ListNotations.
Local Open Scope R_scope.

(** the rule has three points that are not on a line *)
Definition three_points (q : rule) : Prop :=
  exists g1 g2 g3, (g1 < q_n q)%nat /\ (g2 < q_n q)%nat /\ (g3 < q_n q)%nat /\
    (pt q g2 0%nat - pt q g1 0%nat) * (pt q g3 1%nat - pt q g1 1%nat) - (pt q g2 1%nat - pt q g1 1%nat) * (pt q g3 0%nat - pt q g1 0%nat) <> 0.
(** shape functions with a rule that leaves no deformation without energy *)
Definition stable_pair (s : shape) (q : rule) : Prop :=
  (s = sf_3Triangle /\ (0 < q_n q)%nat) \/ (s = sf_4Square /\ three_points q) \/ (s = sf_4Tetrahedron /\ (0 < q_n q)%nat).
Definition stable_piece (d : nat) (xs : list (list R)) (p : piece) : Prop :=
  stable_pair (p_shape p) (p_rule p) /\ element_ok d (p_shape p) (p_rule p) (p_nodes p) xs /\
  positive_rule d (p_shape p) (p_rule p) (nodal (p_nodes p) xs).

(** heat conduction, diffusion, plane and solid elasticity with admissible
    constants: dimension, components per node, routine *)
Inductive stiff_routine (dou : list nat) (xs : list (list R)) : nat -> nat -> (shape -> rule -> list nat -> res (mat R * list (list (nat * nat)))) -> Prop :=
| sr_heat alpha t : 0 < alpha -> 0 < t -> stiff_routine dou xs 2 1 (fun s q el => HeatTransfer s q el dou xs alpha t)
| sr_diffusion kap : 0 < kap -> stiff_routine dou xs 2 1 (fun s q el => Diffusion s q el dou xs kap)
| sr_strain E V t : 0 < E -> -1 < V < 1 / 2 -> 0 < t -> stiff_routine dou xs 2 2 (fun s q el => PlaneStrainStiffness s q el dou xs E V t)
| sr_stress E V t : 0 < E -> -1 < V < 1 -> 0 < t -> stiff_routine dou xs 2 2 (fun s q el => PlaneStressStiffness s q el dou xs E V t)
| sr_solid E V : 0 < E -> -1 < V < 1 / 2 -> stiff_routine dou xs 3 3 (fun s q el => SolidLinearIsotropicElastic s q el dou xs E V).

(** nodes that hold a body with [m] components per node: one node for a scalar
    field, two nodes at different places in the plane, three nodes that are not
    on a line in space *)
Inductive supports (xs : list (list R)) : nat -> list nat -> Prop :=
| sup1 k : supports xs 1 [k]
| sup2 k l : (exists c, (c < 2)%nat /\ nth c (nth k xs []) 0 <> nth c (nth l xs []) 0) -> supports xs 2 [k; l]
| sup3 k l m :
    (let x i c := nth c (nth i xs []) 0 - nth c (nth k xs []) 0 in
     exists c c', (c < 3)%nat /\ (c' < 3)%nat /\ x l c * x m c' - x l c' * x m c <> 0) -> supports xs 3 [k; l; m].
(** node [k] is held: it is held directly, or it belongs to an element that is
    held at supporting nodes *)
Inductive held (xs : list (list R)) (m : nat) (els : list (list nat)) (base : nat -> Prop) : nat -> Prop :=
| held_base k : base k -> held xs m els base k
| held_elem el ks k : In el els -> supports xs m ks -> (forall k', In k' ks -> In k' el) -> (forall k', In k' ks -> held xs m els base k') -> In k el -> held xs m els base k.
