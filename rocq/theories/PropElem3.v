(** Property C81 and the energy form of C39: hyperelastic elements. *)
From Coq Require Import List Arith Lia Bool Reals Lra.
From Verif Require Import Res SumR DenseModel DenseR DenseSpec ShapeModel QuadModel QuadSpec ElemModel ElemSpec ElemSpec2 ElemSpec3 PropElem ElemMain3.
Import ListNotations.
Local Open Scope R_scope.

(** C81: the residual of the updated Lagrangian routines is minus the derivative of
    the neo-Hookean energy, integrated over the reference element *)
Theorem C81_potential : forall s q elem dou xs us E V t,
  (element_ok 2 s q elem xs -> nodes_ok 2 elem us -> length dou = 2%nat -> (1 - 2 * V) * (1 + V) <> 0 -> admissible 2 s q elem xs us ->
     potential_of 2 s q elem dou xs us (PlaneStrainStiffnessUpdatedLagrange s q elem dou xs us E V t)
       (neo_energy 2 (lame_lambda E V) (lame_mu E V))) /\
  (element_ok 3 s q elem xs -> nodes_ok 3 elem us -> length dou = 3%nat -> (1 + V) * (1 - 2 * V) <> 0 -> admissible 3 s q elem xs us ->
     potential_of 3 s q elem dou xs us (SolidUpdatedLagrange s q elem dou xs us E V)
       (neo_energy 3 (lame_lambda E V) (lame_mu E V))).
Proof. exact C81_potential_pf. Qed.
Print Assumptions C81_potential.

(** C81: the returned matrix is the exact derivative of the returned residual at
    every displacement that inverts no Gauss point *)
Theorem C81_consistent : forall s q elem dou xs us z E V t,
  (element_ok 2 s q elem xs -> moved 2 elem us z -> length dou = 2%nat -> (1 - 2 * V) * (1 + V) <> 0 -> admissible 2 s q elem xs (us 0) ->
     consistent 2 elem us z (fun u => PlaneStrainStiffnessUpdatedLagrange s q elem dou xs u E V t)) /\
  (element_ok 3 s q elem xs -> moved 3 elem us z -> length dou = 3%nat -> (1 + V) * (1 - 2 * V) <> 0 -> admissible 3 s q elem xs (us 0) ->
     consistent 3 elem us z (fun u => SolidUpdatedLagrange s q elem dou xs u E V)).
Proof. exact C81_consistent_pf. Qed.
Print Assumptions C81_consistent.

(** C81: the tangent is symmetric *)
Theorem C81_symmetric : forall s q elem dou xs us E V t,
  (element_ok 2 s q elem xs -> nodes_ok 2 elem us -> length dou = 2%nat -> (1 - 2 * V) * (1 + V) <> 0 -> admissible 2 s q elem xs us ->
     exists K F ne k, PlaneStrainStiffnessUpdatedLagrange s q elem dou xs us E V t = Ok (K, F, ne) /\ is_mat K (2 * length elem) (2 * length elem) k /\
       forall a b, (a < 2 * length elem)%nat -> (b < 2 * length elem)%nat -> k a b = k b a) /\
  (element_ok 3 s q elem xs -> nodes_ok 3 elem us -> length dou = 3%nat -> (1 + V) * (1 - 2 * V) <> 0 -> admissible 3 s q elem xs us ->
     exists K F ne k, SolidUpdatedLagrange s q elem dou xs us E V = Ok (K, F, ne) /\ is_mat K (3 * length elem) (3 * length elem) k /\
       forall a b, (a < 3 * length elem)%nat -> (b < 3 * length elem)%nat -> k a b = k b a).
Proof. exact C81_symmetric_pf. Qed.
Print Assumptions C81_symmetric.

(** C81: at zero displacement the residual vanishes and the tangent is the linear
    stiffness, of unit thickness in the plane case *)
Theorem C81_zero : forall s q elem dou xs us E V t,
  (element_ok 2 s q elem xs -> nodes_ok 2 elem us -> length dou = 2%nat -> (1 - 2 * V) * (1 + V) <> 0 ->
     (forall i c, (i < length elem)%nat -> (c < 2)%nat -> nodal elem us i c = 0) ->
     exists K ne, PlaneStrainStiffnessUpdatedLagrange s q elem dou xs us E V t = Ok (K, repeat 0 (2 * length elem), ne) /\
       PlaneStrainStiffness s q elem dou xs E V 1 = Ok (K, ne)) /\
  (element_ok 3 s q elem xs -> nodes_ok 3 elem us -> length dou = 3%nat -> (1 + V) * (1 - 2 * V) <> 0 ->
     (forall i c, (i < length elem)%nat -> (c < 3)%nat -> nodal elem us i c = 0) ->
     exists K ne, SolidUpdatedLagrange s q elem dou xs us E V = Ok (K, repeat 0 (3 * length elem), ne) /\
       SolidLinearIsotropicElastic s q elem dou xs E V = Ok (K, ne)).
Proof. exact C81_zero_pf. Qed.
Print Assumptions C81_zero.

(** C81: a rigid motion, however large, causes no residual *)
Theorem C81_rigid : forall s q elem dou xs us E V t,
  (element_ok 2 s q elem xs -> nodes_ok 2 elem us -> length dou = 2%nat -> (1 - 2 * V) * (1 + V) <> 0 -> rotated 2 elem xs us ->
     exists K ne, PlaneStrainStiffnessUpdatedLagrange s q elem dou xs us E V t = Ok (K, repeat 0 (2 * length elem), ne)) /\
  (element_ok 3 s q elem xs -> nodes_ok 3 elem us -> length dou = 3%nat -> (1 + V) * (1 - 2 * V) <> 0 -> rotated 3 elem xs us ->
     exists K ne, SolidUpdatedLagrange s q elem dou xs us E V = Ok (K, repeat 0 (3 * length elem), ne)).
Proof. exact C81_rigid_pf. Qed.
Print Assumptions C81_rigid.

(** C81: a displacement that inverts or flattens a Gauss point has no finite result *)
Theorem C81_inverted : forall s q elem dou xs us E V t,
  (element_ok 2 s q elem xs -> nodes_ok 2 elem us ->
     (exists Hu g, gradients s q (nodal elem xs) 2 (nodal elem us) Hu /\ (g < q_n q)%nat /\ detd 2 (defgrad (Hu (pt q g))) <= 0) ->
     forall v, PlaneStrainStiffnessUpdatedLagrange s q elem dou xs us E V t <> Ok v) /\
  (element_ok 3 s q elem xs -> nodes_ok 3 elem us ->
     (exists Hu g, gradients s q (nodal elem xs) 3 (nodal elem us) Hu /\ (g < q_n q)%nat /\ detd 3 (defgrad (Hu (pt q g))) <= 0) ->
     forall v, SolidUpdatedLagrange s q elem dou xs us E V <> Ok v).
Proof. exact C81_inverted_pf. Qed.
Print Assumptions C81_inverted.

(** C39: the residual of the total Lagrangian routines is minus the derivative of
    the St. Venant-Kirchhoff energy *)
Theorem C39_potential : forall s q elem dou xs us E V t,
  (element_ok 2 s q elem xs -> nodes_ok 2 elem us -> length dou = 2%nat -> (1 - 2 * V) * (1 + V) <> 0 ->
     potential_of 2 s q elem dou xs us (PlaneStrainStiffnessTotalLagrange s q elem dou xs us E V t)
       (svk_energy 2 (lame_lambda E V) (lame_mu E V))) /\
  (element_ok 3 s q elem xs -> nodes_ok 3 elem us -> length dou = 3%nat -> (1 + V) * (1 - 2 * V) <> 0 ->
     potential_of 3 s q elem dou xs us (SolidTotalLagrange s q elem dou xs us E V)
       (svk_energy 3 (lame_lambda E V) (lame_mu E V))).
Proof. exact C39_potential_pf. Qed.
Print Assumptions C39_potential.

(** C39: a rigid motion, however large, causes no residual *)
Theorem C39_rigid : forall s q elem dou xs us E V t,
  (element_ok 2 s q elem xs -> nodes_ok 2 elem us -> length dou = 2%nat -> (1 - 2 * V) * (1 + V) <> 0 -> rotated 2 elem xs us ->
     exists K ne, PlaneStrainStiffnessTotalLagrange s q elem dou xs us E V t = Ok (K, repeat 0 (2 * length elem), ne)) /\
  (element_ok 3 s q elem xs -> nodes_ok 3 elem us -> length dou = 3%nat -> (1 + V) * (1 - 2 * V) <> 0 -> rotated 3 elem xs us ->
     exists K ne, SolidTotalLagrange s q elem dou xs us E V = Ok (K, repeat 0 (3 * length elem), ne)).
Proof. exact C39_rigid_pf. Qed.
Print Assumptions C39_rigid.

(** a quarter turn of a triangle about the origin, with a translation *)
Lemma turn_ok : rotated 2 [2; 0; 1]%nat tri_xs [[1; 7]; [2; 4]; [3; 5]].
Proof.
  exists (fun i j => match i, j with O, 1%nat => -1 | 1%nat, O => 1 | _, _ => 0 end), (fun c => match c with O => 3 | _ => 5 end). splits.
  - intros i j Hi Hj. destruct i as [|[|i]]; try lia; destruct j as [|[|j]]; try lia; unfold kron; cbn [bigsum Nat.eqb]; lra.
  - unfold detd, det2. lra.
  - intros i c Hi Hc. cbn in Hi. destruct i as [|[|[|i]]]; try lia; destruct c as [|[|c]]; try lia; unfold nodal, tri_xs; cbn [nth bigsum]; lra.
Qed.
Lemma turn_nodes : nodes_ok 2 [2; 0; 1]%nat [[1; 7]; [2; 4]; [3; 5]].
Proof. intros i Hi. cbn in Hi. decompose [or] Hi; subst; cbn; try lia; contradiction. Qed.
Example C39_rigid_ex : exists K ne,
  PlaneStrainStiffnessTotalLagrange sf_3Triangle Gauss1Triangle [2; 0; 1]%nat [0; 1]%nat tri_xs [[1; 7]; [2; 4]; [3; 5]] 1 0 1 = Ok (K, repeat 0 6, ne).
Proof. refine (proj1 (C39_rigid sf_3Triangle Gauss1Triangle [2; 0; 1]%nat [0; 1]%nat tri_xs _ 1 0 1) tri_ok turn_nodes eq_refl _ turn_ok). lra. Qed.
Example C81_rigid_ex : exists K ne,
  PlaneStrainStiffnessUpdatedLagrange sf_3Triangle Gauss1Triangle [2; 0; 1]%nat [0; 1]%nat tri_xs [[1; 7]; [2; 4]; [3; 5]] 1 0 1 = Ok (K, repeat 0 6, ne).
Proof. refine (proj1 (C81_rigid sf_3Triangle Gauss1Triangle [2; 0; 1]%nat [0; 1]%nat tri_xs _ 1 0 1) tri_ok turn_nodes eq_refl _ turn_ok). lra. Qed.
(** the hypotheses of C81 hold for a stretch to twice the width, and the inverted
    case is met by a reflection *)
Definition stretch_us (k : R) : list (list R) := [[2 * (k - 1); 0]; [0; 0]; [0; 0]].
Lemma stretch_nodes k : nodes_ok 2 [2; 0; 1]%nat (stretch_us k).
Proof. intros i Hi. cbn in Hi. decompose [or] Hi; subst; cbn; try lia; contradiction. Qed.
Lemma stretch_det k Hu : gradients sf_3Triangle Gauss1Triangle (nodal [2; 0; 1]%nat tri_xs) 2 (nodal [2; 0; 1]%nat (stretch_us k)) Hu ->
  forall g, (g < q_n Gauss1Triangle)%nat -> detd 2 (defgrad (Hu (pt Gauss1Triangle g))) = k.
Proof.
  intros G g Hg. specialize (G g Hg). set (H := Hu (pt Gauss1Triangle g)) in *. clearbody H.
  pose proof (G 0%nat 0%nat ltac:(cbn; lia) ltac:(lia)) as A00. pose proof (G 1%nat 0%nat ltac:(cbn; lia) ltac:(lia)) as A10.
  pose proof (G 0%nat 1%nat ltac:(cbn; lia) ltac:(lia)) as A01. pose proof (G 1%nat 1%nat ltac:(cbn; lia) ltac:(lia)) as A11.
  unfold tangent, dshp, nodal, tri_xs, stretch_us, sf_3Triangle, dN_3Triangle in *. cbn [sf_d sf_n sf_dN bigsum nth] in *.
  unfold detd, det2, defgrad, kron. cbn [Nat.eqb].
  assert (E00 : H 0%nat 0%nat = k - 1) by lra. assert (E10 : H 1%nat 0%nat = 0) by lra.
  assert (E01 : H 0%nat 1%nat = 0) by lra. assert (E11 : H 1%nat 1%nat = 0) by lra. rewrite E00, E10, E01, E11. ring.
Qed.
Example C81_potential_ex : potential_of 2 sf_3Triangle Gauss1Triangle [2; 0; 1]%nat [0; 1]%nat tri_xs (stretch_us 2)
  (PlaneStrainStiffnessUpdatedLagrange sf_3Triangle Gauss1Triangle [2; 0; 1]%nat [0; 1]%nat tri_xs (stretch_us 2) 1 (1 / 4) 1)
  (neo_energy 2 (lame_lambda 1 (1 / 4)) (lame_mu 1 (1 / 4))).
Proof.
  refine (proj1 (C81_potential sf_3Triangle Gauss1Triangle [2; 0; 1]%nat [0; 1]%nat tri_xs _ 1 (1 / 4) 1) tri_ok (stretch_nodes 2) eq_refl _ _); [lra|].
  intros Hu G g Hg. rewrite (stretch_det 2 Hu G g Hg). lra.
Qed.
Example C81_inverted_ex : forall v, PlaneStrainStiffnessUpdatedLagrange sf_3Triangle Gauss1Triangle [2; 0; 1]%nat [0; 1]%nat tri_xs (stretch_us (-1)) 1 (1 / 4) 1 <> Ok v.
Proof.
  refine (proj1 (C81_inverted sf_3Triangle Gauss1Triangle [2; 0; 1]%nat [0; 1]%nat tri_xs _ 1 (1 / 4) 1) tri_ok (stretch_nodes (-1)) _).
  set (Hu := fun (_ : nat -> R) l c => match l, c with O, O => -2 | _, _ => 0 end).
  assert (G : gradients sf_3Triangle Gauss1Triangle (nodal [2; 0; 1]%nat tri_xs) 2 (nodal [2; 0; 1]%nat (stretch_us (-1))) Hu).
  { intros g _ k c Hk Hc. cbn in Hk. unfold Hu, tangent, dshp, nodal, tri_xs, stretch_us, sf_3Triangle, dN_3Triangle. cbn [sf_d sf_n sf_dN bigsum nth].
    destruct k as [|[|k]]; try lia; destruct c as [|[|c]]; try lia; cbn [nth]; lra. }
  exists Hu, 0%nat. splits; auto. rewrite (stretch_det (-1) Hu G 0%nat ltac:(cbn; lia)). lra.
Qed.
