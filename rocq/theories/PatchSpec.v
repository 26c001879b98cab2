(** Notions used in the statements about the patch test: an affine field on a
    mesh of plane elements. *)
From Coq Require Import List Arith Lia Bool Reals.
From Verif Require Import Res SumR DenseModel DenseSpec ShapeModel QuadModel QuadSpec ElemModel ElemSpec AssemblyModel AssemblySpec.
Import ListNotations.
Local Open Scope R_scope.

(** the sides of an element with 3, 4, 6 or 8 nodes, in the order of its
    corners; a side of an element with mid nodes is corner, mid node, corner *)
Definition sides (el : list nat) : list (list nat) :=
  match el with
  | [a; b; c] => [[a; b]; [b; c]; [c; a]]
  | [a; b; c; d] => [[a; b]; [b; c]; [c; d]; [d; a]]
  | [a; b; c; ab; bc; ca] => [[a; ab; b]; [b; bc; c]; [c; ca; a]]
  | [a; b; c; d; ab; bc; cd; da] => [[a; ab; b]; [b; bc; c]; [c; cd; d]; [d; da; a]]
  | _ => []
  end.
(** node [i] is inside the mesh: every side at [i] occurs as often in the
    opposite direction as it occurs *)
Definition inner (els : list (list nat)) (i : nat) : Prop :=
  forall sd, In i sd -> count_occ (list_eq_dec Nat.eq_dec) (flat_map sides els) sd = count_occ (list_eq_dec Nat.eq_dec) (flat_map sides els) (rev sd).

(** the rule integrates the monomials x^i y^j over the triangle / the square *)
Definition triangle_mono (q : rule) (i j : nat) : Prop :=
  quad 2 q (fun r => r 0%nat ^ i * r 1%nat ^ j) = INR (fact i) * INR (fact j) / INR (fact (i + j + 2)).
Definition square_mono (q : rule) (i j : nat) : Prop :=
  quad 2 q (fun r => r 0%nat ^ i * r 1%nat ^ j) = (1 - (-1) ^ (i + 1)) / INR (i + 1) * ((1 - (-1) ^ (j + 1)) / INR (j + 1)).
(** the plane shape functions, each with a rule of sufficient order *)
Definition plane_pair (s : shape) (q : rule) : Prop :=
  (s = sf_3Triangle /\ triangle_mono q 0 0) \/
  (s = sf_6Triangle /\ forall i j, (i + j <= 2)%nat -> triangle_mono q i j) \/
  (s = sf_4Square /\ forall i j, (i <= 1)%nat -> (j <= 1)%nat -> square_mono q i j) \/
  (s = sf_8Square /\ forall i j, (i <= 3)%nat -> (j <= 3)%nat -> square_mono q i j).

(** an element of the mesh: shape function, rule, nodes *)
Record piece := mkPiece { p_shape : shape; p_rule : rule; p_nodes : list nat }.
Definition piece_ok (xs : list (list R)) (p : piece) : Prop :=
  plane_pair (p_shape p) (p_rule p) /\ element_ok 2 (p_shape p) (p_rule p) (p_nodes p) xs.

(** the routines for plane elasticity and for heat conduction and diffusion,
    with the same material everywhere *)
Inductive plane_routine (dou : list nat) (xs : list (list R)) : nat -> (shape -> rule -> list nat -> res (mat R * list (list (nat * nat)))) -> Prop :=
| pr_strain E V t : (1 - 2 * V) * (1 + V) <> 0 -> plane_routine dou xs 2 (fun s q el => PlaneStrainStiffness s q el dou xs E V t)
| pr_stress E V t : (1 - V) * (1 + V) <> 0 -> plane_routine dou xs 2 (fun s q el => PlaneStressStiffness s q el dou xs E V t)
| pr_plane D t Df : is_mat D 3 3 Df -> plane_routine dou xs 2 (fun s q el => PlaneStiffness s q el dou xs D t)
| pr_heat alpha t : plane_routine dou xs 1 (fun s q el => HeatTransfer s q el dou xs alpha t)
| pr_diffusion kap : plane_routine dou xs 1 (fun s q el => Diffusion s q el dou xs kap).

(** the element [e] has the nodes of [p] and the matrix and numbering returned
    by the routine *)
Definition made_by (f : shape -> rule -> list nat -> res (mat R * list (list (nat * nat)))) (p : piece) (e : elem) : Prop :=
  e_nodes e = p_nodes p /\ f (p_shape p) (p_rule p) (p_nodes p) = Ok (e_K e, e_nte e).
(** dof dou[c] of every node of the element is component c of the affine field
    a + A^T x *)
Definition affine_on (m : nat) (dou : list nat) (xs u : list (list R)) (a : nat -> R) (A : nat -> nat -> R) (el : list nat) : Prop :=
  forall k c, In k el -> (c < m)%nat ->
    uval u k (nth c dou O) = a c + (nth 0 (nth k xs []) 0 * A 0%nat c + nth 1 (nth k xs []) 0 * A 1%nat c).
