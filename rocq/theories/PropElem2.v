(** Property C39: finite-deformation elements. *)
From Coq Require Import List Arith Lia Bool Reals Lra.
From Verif Require Import Res SumR DenseModel DenseR DenseSpec ShapeModel QuadModel QuadSpec ElemModel ElemSpec ElemSpec2 PropElem ElemMain2.
Import ListNotations.
Local Open Scope R_scope.

(** C39: what the total Lagrangian routines return *)
Theorem C39_forms : forall s q elem dou xs us E V t,
  (element_ok 2 s q elem xs -> nodes_ok 2 elem us -> length dou = 2%nat -> (1 - 2 * V) * (1 + V) <> 0 ->
     finite_of 2 s q elem dou xs us (PlaneStrainStiffnessTotalLagrange s q elem dou xs us E V t)
       (svk_tangent 2 (lame_lambda E V) (lame_mu E V)) (svk_work 2 (lame_lambda E V) (lame_mu E V))) /\
  (element_ok 3 s q elem xs -> nodes_ok 3 elem us -> length dou = 3%nat -> (1 + V) * (1 - 2 * V) <> 0 ->
     finite_of 3 s q elem dou xs us (SolidTotalLagrange s q elem dou xs us E V)
       (svk_tangent 3 (lame_lambda E V) (lame_mu E V)) (svk_work 3 (lame_lambda E V) (lame_mu E V))).
Proof. exact C39_forms_pf. Qed.
Print Assumptions C39_forms.

(** C39: the returned matrix is the exact derivative of the returned residual *)
Theorem C39_consistent : forall s q elem dou xs us z E V t,
  (element_ok 2 s q elem xs -> moved 2 elem us z -> length dou = 2%nat -> (1 - 2 * V) * (1 + V) <> 0 ->
     consistent 2 elem us z (fun u => PlaneStrainStiffnessTotalLagrange s q elem dou xs u E V t)) /\
  (element_ok 3 s q elem xs -> moved 3 elem us z -> length dou = 3%nat -> (1 + V) * (1 - 2 * V) <> 0 ->
     consistent 3 elem us z (fun u => SolidTotalLagrange s q elem dou xs u E V)).
Proof. exact C39_consistent_pf. Qed.
Print Assumptions C39_consistent.

(** a line of displacements on a triangle *)
Example C39_ex : consistent 2 [2; 0; 1]%nat (fun e => [[1; 2 + 3 * e]; [0; 1]; [e; 0]]) (fun i c => match i, c with O, O => 1 | 1%nat, 1%nat => 3 | _, _ => 0 end)
  (fun u => PlaneStrainStiffnessTotalLagrange sf_3Triangle Gauss1Triangle [2; 0; 1]%nat [0; 1]%nat tri_xs u 1 0 1).
Proof.
  apply C39_consistent; [exact tri_ok| |reflexivity|lra]. intros e. split.
  - intros i Hi. cbn in Hi. decompose [or] Hi; subst; cbn; try lia; contradiction.
  - intros i c Hi Hc. cbn in Hi. destruct i as [|[|[|i]]]; try lia; destruct c as [|[|c]]; try lia; cbn; ring.
Qed.

(** C39: at zero displacement the residual vanishes and the tangent is the linear
    stiffness, of unit thickness in the plane case *)
Theorem C39_zero : forall s q elem dou xs us E V t,
  (element_ok 2 s q elem xs -> nodes_ok 2 elem us -> length dou = 2%nat -> (1 - 2 * V) * (1 + V) <> 0 ->
     (forall i c, (i < length elem)%nat -> (c < 2)%nat -> nodal elem us i c = 0) ->
     exists K ne, PlaneStrainStiffnessTotalLagrange s q elem dou xs us E V t = Ok (K, repeat 0 (2 * length elem), ne) /\
       PlaneStrainStiffness s q elem dou xs E V 1 = Ok (K, ne)) /\
  (element_ok 3 s q elem xs -> nodes_ok 3 elem us -> length dou = 3%nat -> (1 + V) * (1 - 2 * V) <> 0 ->
     (forall i c, (i < length elem)%nat -> (c < 3)%nat -> nodal elem us i c = 0) ->
     exists K ne, SolidTotalLagrange s q elem dou xs us E V = Ok (K, repeat 0 (3 * length elem), ne) /\
       SolidLinearIsotropicElastic s q elem dou xs E V = Ok (K, ne)).
Proof. exact C39_zero_pf. Qed.
Print Assumptions C39_zero.

(** C39 with the thickness passed to both routines is false: the total Lagrangian
    routine ignores it *)
Theorem C39_thickness_refuted : exists s q elem dou xs us E V t,
  element_ok 2 s q elem xs /\ nodes_ok 2 elem us /\ length dou = 2%nat /\ (1 - 2 * V) * (1 + V) <> 0 /\ 0 < t /\
  (forall i c, (i < length elem)%nat -> (c < 2)%nat -> nodal elem us i c = 0) /\
  exists K F ne K' ne', PlaneStrainStiffnessTotalLagrange s q elem dou xs us E V t = Ok (K, F, ne) /\
    PlaneStrainStiffness s q elem dou xs E V t = Ok (K', ne') /\ K <> K'.
Proof. exact C39_thickness_refuted_pf. Qed.
Print Assumptions C39_thickness_refuted.
