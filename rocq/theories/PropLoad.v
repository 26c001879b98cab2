(** Properties C82 and C83: distributed loads and follower pressure. *)
From Coq Require Import List Arith Lia Bool Reals Lra.
From Verif Require Import Res SumR DenseModel DenseR DenseSpec ShapeModel QuadModel QuadSpec ElemModel ElemSpec ElemSpec2 FlowModel FlowSpec LoadSpec PropElem LoadMain.
Import ListNotations.
Local Open Scope R_scope.

(** the nodal forces of PlaneStrainSurfaceForce (and PlaneStressSurfaceForce) do
    the virtual work of the traction _f along the edge in every nodal field, so
    they have its resultant force and moment *)
Theorem C82_surface_force : forall s q elem dou xs (f : list R -> list R) t, line_ok s q elem xs -> length dou = 2%nat ->
  (forall v, length v = 2%nat -> length (f v) = 2%nat) ->
  works_as 2 (length elem) dou (PlaneSurfaceForce s q elem dou xs f t)
    (fun y => quad 1 q (fun p => arc s (nodal elem xs) p * t *
       bigsum 2 (fun c => field_value s p y c * nth c (f (at_point s (nodal elem xs) p)) 0))) /\
  has_resultants 1 s q (nodal elem xs) (PlaneSurfaceForce s q elem dou xs f t)
    (fun p c => arc s (nodal elem xs) p * t * nth c (f (at_point s (nodal elem xs) p)) 0).
Proof. exact C82_surface_force_pf. Qed.
Print Assumptions C82_surface_force.

(** an edge of length 5 and a traction that grows with the position *)
Definition edge_xs : list (list R) := [[3; 0]; [0; 4]].
Lemma edge_nodes : nodes_ok 2 [1; 0]%nat edge_xs.
Proof. intros i Hi. cbn in Hi. decompose [or] Hi; subst; cbn; try lia; contradiction. Qed.
Lemma edge_ok : line_ok sf_2Line Gauss1Line [1; 0]%nat edge_xs.
Proof.
  unfold line_ok. splits; try reflexivity; [cbn; auto|apply edge_nodes|].
  unfold rule_ok; cbn [q_n q_points q_weights Gauss1Line length]; splits; try lia; intros g Hg; destruct g as [|g]; try lia; cbn; lia.
Qed.
Lemma edge_arc p : arc sf_2Line (nodal [1; 0]%nat edge_xs) p = 5 / 2.
Proof. unfold arc, tangent, dshp, nodal, edge_xs. cbn [sf_2Line sf_n sf_dN dN_2Line bigsum nth]. apply sqrt_lem_1; lra. Qed.
Example C82_surface_force_ex : exists F ne f, PlaneSurfaceForce sf_2Line Gauss1Line [1; 0]%nat [0; 1]%nat edge_xs (fun v => [nth 0 v 0; 0]) 2 = Ok (F, ne) /\
  is_vec F 4 f /\ total_force 2 f 0 = 15 /\ total_moment 2 (nodal [1; 0]%nat edge_xs) f = -30.
Proof.
  destruct (C82_surface_force _ _ _ [0; 1]%nat _ (fun v => [nth 0 v 0; 0]) 2 edge_ok eq_refl ltac:(reflexivity)) as (_ & F & ne & f & E & Hf & HT & HM).
  exists F, ne, f. cbn [sf_n sf_2Line] in Hf, HT, HM. splits; auto; [rewrite HT by lia|rewrite HM];
    unfold quad, Gauss1Line; cbn [q_n q_weights q_points bigsum nth]; unfold wprod; cbn [bigsum nth]; rewrite ?edge_arc;
    unfold at_point, field_value, shp, nodal, edge_xs; cbn [sf_2Line sf_n sf_N N_2Line bigsum nth]; lra.
Qed.

(** the same for PlaneStrainBodyForce and PlaneStressBodyForce over the area *)
Theorem C82_body_force : forall s q elem dou xs (f : list R -> list R) t, element_ok 2 s q elem xs -> length dou = 2%nat ->
  (forall v, length v = 2%nat -> length (f v) = 2%nat) ->
  works_as 2 (length elem) dou (PlaneBodyForce s q elem dou xs f t)
    (fun y => quad 2 q (fun p => jac s (nodal elem xs) p * t *
       bigsum 2 (fun c => field_value s p y c * nth c (f (at_point s (nodal elem xs) p)) 0))) /\
  has_resultants 2 s q (nodal elem xs) (PlaneBodyForce s q elem dou xs f t)
    (fun p c => jac s (nodal elem xs) p * t * nth c (f (at_point s (nodal elem xs) p)) 0).
Proof. exact C82_body_force_pf. Qed.
Print Assumptions C82_body_force.

(** a constant body force on the triangle: the weight 2 f is shared evenly *)
Example C82_body_force_ex : exists F ne f, PlaneBodyForce sf_3Triangle Gauss1Triangle [2; 0; 1]%nat [0; 1]%nat tri_xs (fun _ => [0; -3]) 2 = Ok (F, ne) /\
  is_vec F 6 f /\ total_force 3 f 0 = 0 /\ total_force 3 f 1 = -6.
Proof.
  destruct (C82_body_force _ _ _ [0; 1]%nat _ (fun _ => [0; -3]) 2 tri_ok eq_refl ltac:(reflexivity)) as (_ & F & ne & f & E & Hf & HT & _).
  exists F, ne, f. cbn [sf_n sf_3Triangle] in Hf, HT. splits; auto; rewrite HT by lia;
    unfold quad, wprod, jac, detd, det2, tangent, dshp, nodal, tri_xs, sf_3Triangle, Gauss1Triangle, dN_3Triangle; cbn [q_n q_weights q_points bigsum nth sf_d sf_n sf_dN];
    pose proof (sqrt_lt_R0 2 ltac:(lra)); pose proof (sqrt_def 2 ltac:(lra)) as S; field_simplify; try lra; replace (sqrt 2 ^ 2) with 2 by (cbn; lra); lra.
Qed.

(** a uniform traction on a straight two-node edge is shared equally: each node
    receives half of length * thickness * traction *)
Theorem C82_uniform_edge : forall q elem dou xs v t, In q [Gauss1Line; Gauss2Line] -> length elem = 2%nat -> nodes_ok 2 elem xs -> length dou = 2%nat -> length v = 2%nat ->
  let len := distance (nodal elem xs) 0 1 in
  exists F ne f, PlaneSurfaceForce sf_2Line q elem dou xs (fun _ => v) t = Ok (F, ne) /\ is_vec F 4 f /\
    forall i c, (i < 2)%nat -> (c < 2)%nat -> f (2 * i + c)%nat = len * t * nth c v 0 / 2.
Proof. exact C82_uniform_edge_pf. Qed.
Print Assumptions C82_uniform_edge.

Example C82_uniform_edge_ex : exists F ne f, PlaneSurfaceForce sf_2Line Gauss2Line [1; 0]%nat [0; 1]%nat edge_xs (fun _ => [1; 2]) 2 = Ok (F, ne) /\
  is_vec F 4 f /\ f 2%nat = 5 /\ f 3%nat = 10.
Proof.
  destruct (C82_uniform_edge Gauss2Line [1; 0]%nat [0; 1]%nat [[3; 0]; [0; 4]] [1; 2] 2) as (F & ne & f & E & Hf & H); auto; [cbn; auto| |].
  { intros i Hi. cbn in Hi. decompose [or] Hi; subst; cbn; try lia; contradiction. }
  assert (S : distance (nodal [1; 0]%nat [[3; 0]; [0; 4]]) 0 1 = 5).
  { unfold distance. apply sqrt_lem_1; unfold nodal; cbn [nth]; lra. }
  exists F, ne, f. splits; auto.
  - pose proof (H 1%nat 0%nat ltac:(lia) ltac:(lia)) as A. rewrite S in A. cbn [nth Nat.mul Nat.add] in A. rewrite A. lra.
  - pose proof (H 1%nat 1%nat ltac:(lia) ltac:(lia)) as A. rewrite S in A. cbn [nth Nat.mul Nat.add] in A. rewrite A. lra.
Qed.

(** HeatTransferSurfaceFlux weighs the flux _f along the edge with the test field *)
Theorem C82_surface_flux : forall s q elem dou xs (f : list R -> R) t, line_ok s q elem xs -> length dou = 1%nat ->
  works_as 1 (length elem) dou (HeatTransferSurfaceFlux s q elem dou xs f t)
    (fun y => quad 1 q (fun p => arc s (nodal elem xs) p * t * (f (at_point s (nodal elem xs) p) * field_value s p y 0))).
Proof. exact C82_surface_flux_pf. Qed.
Print Assumptions C82_surface_flux.

(** a flux of 3 per unit area through the edge *)
Example C82_surface_flux_ex : exists F ne f, HeatTransferSurfaceFlux sf_2Line Gauss1Line [1; 0]%nat [0]%nat edge_xs (fun _ => 3) 2 = Ok (F, ne) /\
  is_vec F 2 f /\ f 0%nat + f 1%nat = 30.
Proof.
  destruct (C82_surface_flux _ _ _ [0]%nat _ (fun _ => 3) 2 edge_ok eq_refl) as (F & ne & f & E & Hf & _ & HW).
  exists F, ne, f. splits; auto. specialize (HW (fun _ _ => 1)). cbn [length Nat.mul Nat.add bigsum] in HW.
  transitivity (0 + f 0%nat * 1 + f 1%nat * 1); [ring|]. rewrite HW. unfold quad, Gauss1Line; cbn [q_n q_weights q_points bigsum nth]. rewrite edge_arc.
  unfold field_value, shp, wprod. cbn [sf_2Line sf_n sf_N N_2Line bigsum nth]. lra.
Qed.

(** ReactionDiffusionReaction evaluates _f at the interpolated value and gradient
    of the concentration and weighs it over the element *)
Theorem C82_reaction : forall s q elem dou xs us (f : R -> list R -> R), element_ok 2 s q elem xs -> nodes_ok 1 elem us -> length dou = 1%nat ->
  exists F ne v, ReactionDiffusionReaction s q elem dou xs us f = Ok (F, ne) /\ is_vec F (length elem) v /\ numbered 1 (length elem) dou ne /\
    forall y H, gradients s q (nodal elem xs) 1 (nodal elem us) H ->
      bigsum (length elem) (fun i => v i * y i) =
      quad 2 q (fun p => jac s (nodal elem xs) p * (f (field_value s p (nodal elem us) 0) [H p 0%nat 0%nat; H p 1%nat 0%nat] * field_value s p (fun i _ => y i) 0)).
Proof. exact C82_reaction_pf. Qed.
Print Assumptions C82_reaction.

(** concentration x0 on the triangle; the reaction is u (1 - du/dx0 / 2) *)
Example C82_reaction_ex : exists F ne v, ReactionDiffusionReaction sf_3Triangle Gauss1Triangle [2; 0; 1]%nat [0]%nat tri_xs [[2]; [0]; [0]] (fun u g => u * (1 - nth 0 g 0 / 2)) = Ok (F, ne) /\
  is_vec F 3 v /\ v 0%nat + v 1%nat + v 2%nat = 1 / 3.
Proof.
  destruct (C82_reaction _ _ _ [0]%nat _ [[2]; [0]; [0]] (fun u g => u * (1 - nth 0 g 0 / 2)) tri_ok) as (F & ne & v & E & Hv & _ & HW); auto.
  { intros i Hi. cbn in Hi. decompose [or] Hi; subst; cbn; try lia; contradiction. }
  exists F, ne, v. splits; auto. specialize (HW (fun _ => 1) (fun _ l _ => match l with O => 1 | _ => 0 end)).
  cbn [length bigsum] in HW. transitivity (0 + v 0%nat * 1 + v 1%nat * 1 + v 2%nat * 1); [ring|]. rewrite HW.
  - unfold quad, wprod, jac, detd, det2, tangent, dshp, field_value, shp, nodal, tri_xs, sf_3Triangle, Gauss1Triangle, dN_3Triangle, N_3Triangle;
      cbn [q_n q_weights q_points bigsum nth sf_d sf_n sf_dN sf_N];
    pose proof (sqrt_lt_R0 2 ltac:(lra)); pose proof (sqrt_def 2 ltac:(lra)) as S; field_simplify; try lra; replace (sqrt 2 ^ 2) with 2 by (cbn; lra); lra.
  - intros g Hg k c Hk Hc. cbn in Hg, Hk. replace g with O by lia. destruct c as [|c]; [|lia].
    unfold tangent, dshp, nodal, tri_xs, sf_3Triangle, dN_3Triangle. destruct k as [|[|k]]; try lia; cbn [bigsum nth sf_d sf_n sf_dN]; lra.
Qed.

(** StokesSurfaceForce does the work of the traction in the velocity field of
    every dof vector; pressures do not enter *)
Theorem C82_stokes_surface_force : forall su sg q elemu elemp dou xs (f : list R -> list R),
  In su all_shapes -> length elemu = sf_n su -> nodes_ok 2 elemu xs -> line_ok sg q elemp xs -> length dou = 3%nat ->
  (forall v, length v = 2%nat -> length (f v) = 2%nat) ->
  let m := length elemu in let n := length elemp in
  exists F nu np k, StokesSurfaceForce su sg q elemu elemp dou xs f = Ok (F, nu, np) /\ is_vec F (2 * m + n) k /\
    numbered_u m dou nu /\ numbered_p m n dou np /\
    forall y, bigsum (2 * m + n) (fun a => k a * y a) =
      quad 1 q (fun p => arc sg (nodal elemp xs) p * bigsum 2 (fun c => field_value su p (vel m y) c * nth c (f (at_point sg (nodal elemp xs) p)) 0)).
Proof. exact C82_stokes_surface_force_pf. Qed.
Print Assumptions C82_stokes_surface_force.

(** unit traction in direction 1 on the edge: the sum of the forces *)
Example C82_stokes_ex : exists F nu np k, StokesSurfaceForce sf_2Line sf_2Line Gauss1Line [1; 0]%nat [1; 0]%nat [0; 1; 2]%nat edge_xs (fun _ => [0; 1]) = Ok (F, nu, np) /\
  is_vec F 6 k /\ k 2%nat + k 3%nat = 5 /\ k 4%nat = 0.
Proof.
  destruct (C82_stokes_surface_force sf_2Line sf_2Line Gauss1Line [1; 0]%nat [1; 0]%nat [0; 1; 2]%nat edge_xs (fun _ => [0; 1])) as (F & nu & np & k & E & Hk & _ & _ & HW); auto.
  - cbn; auto.
  - apply edge_nodes.
  - apply edge_ok.
  - exists F, nu, np, k. splits; auto.
    + specialize (HW (fun a => if (a =? 2)%nat then 1 else if (a =? 3)%nat then 1 else 0)). cbn [length Nat.mul Nat.add bigsum Nat.eqb] in HW.
      transitivity (0 + k 0%nat * 0 + k 1%nat * 0 + k 2%nat * 1 + k 3%nat * 1 + k 4%nat * 0 + k 5%nat * 0); [ring|]. rewrite HW.
      unfold quad, Gauss1Line; cbn [q_n q_weights q_points bigsum nth]. rewrite edge_arc.
      unfold field_value, shp, vel, wprod. cbn [sf_2Line sf_n sf_N N_2Line bigsum nth Nat.eqb Nat.mul Nat.add]. lra.
    + specialize (HW (fun a => if (a =? 4)%nat then 1 else 0)). cbn [length Nat.mul Nat.add bigsum Nat.eqb] in HW.
      transitivity (0 + k 0%nat * 0 + k 1%nat * 0 + k 2%nat * 0 + k 3%nat * 0 + k 4%nat * 1 + k 5%nat * 0); [ring|]. rewrite HW.
      unfold quad, Gauss1Line; cbn [q_n q_weights q_points bigsum nth].
      unfold field_value, shp, vel. cbn [sf_2Line sf_n sf_N N_2Line bigsum nth Nat.eqb Nat.mul Nat.add]. ring.
Qed.

(** the load is that of a pressure P normal to the current edge; the returned
    matrix is symmetric: it is minus the symmetric part of the derivative of the
    load *)
Theorem C83_pressure : forall s q elem dou xs us P t, line_ok s q elem xs -> nodes_ok 2 elem us -> length dou = 2%nat ->
  exists K F ne k f, PlaneStrainSurfacePressureUpdatedLagrange s q elem dou xs us P t = Ok (K, F, ne) /\
    is_mat K (2 * length elem) (2 * length elem) k /\ is_vec F (2 * length elem) f /\ numbered 2 (length elem) dou ne /\
    (forall y, bigsum (2 * length elem) (fun a => f a * y (a / 2)%nat (a mod 2)%nat) =
       quad 1 q (fun p => P * t * pressure_work s (current elem xs us) y p)) /\
    (forall a b, (a < 2 * length elem)%nat -> (b < 2 * length elem)%nat -> k a b = k b a) /\
    (forall us' y z, us' 0 = us -> moved 2 elem us' z ->
       derivable_pt_lim (fun e => bigsum (2 * length elem) (fun a =>
           nth a (residual (PlaneStrainSurfacePressureUpdatedLagrange s q elem dou xs (us' e) P t)) 0 * y (a / 2)%nat (a mod 2)%nat)) 0
         (quad 1 q (fun p => P * t * pressure_work s z y p))) /\
    (forall y z, form 2 (length elem) k y z =
       - (quad 1 q (fun p => P * t * pressure_work s z y p) + quad 1 q (fun p => P * t * pressure_work s y z p)) / 2).
Proof. exact C83_pressure_pf. Qed.
Print Assumptions C83_pressure.

(** pressure 5 on the undisplaced edge: forces (20, 15) on both nodes *)
Example C83_pressure_ex : exists K F ne f,
  PlaneStrainSurfacePressureUpdatedLagrange sf_2Line Gauss1Line [1; 0]%nat [0; 1]%nat edge_xs [[0; 0]; [0; 0]] 5 2 = Ok (K, F, ne) /\
  is_vec F 4 f /\ f 2%nat = 20 /\ f 3%nat = 15.
Proof.
  destruct (C83_pressure _ _ _ [0; 1]%nat _ [[0; 0]; [0; 0]] 5 2 edge_ok) as (K & F & ne & k & f & E & Hk & Hf & _ & HW & _); auto.
  { intros i Hi. cbn in Hi. decompose [or] Hi; subst; cbn; try lia; contradiction. }
  exists K, F, ne, f. splits; auto.
  - specialize (HW (fun i c => match i, c with 1%nat, 0%nat => 1 | _, _ => 0 end)).
    cbn [length Nat.mul Nat.add bigsum Nat.div Nat.modulo Nat.divmod fst snd Nat.sub] in HW.
    match type of HW with ?l = _ => transitivity l; [ring|] end. rewrite HW.
    unfold quad, Gauss1Line, pressure_work, current, nodal, edge_xs, tangent, dshp, field_value, shp, wprod; cbn [q_n q_weights q_points bigsum nth sf_2Line sf_n sf_N N_2Line sf_dN dN_2Line]. lra.
  - specialize (HW (fun i c => match i, c with 1%nat, 1%nat => 1 | _, _ => 0 end)).
    cbn [length Nat.mul Nat.add bigsum Nat.div Nat.modulo Nat.divmod fst snd Nat.sub] in HW.
    match type of HW with ?l = _ => transitivity l; [ring|] end. rewrite HW.
    unfold quad, Gauss1Line, pressure_work, current, nodal, edge_xs, tangent, dshp, field_value, shp, wprod; cbn [q_n q_weights q_points bigsum nth sf_2Line sf_n sf_N N_2Line sf_dN dN_2Line]. lra.
Qed.

(** with the library's line elements and rules the resultant of the pressure load
    is P * thickness times the chord between the current end points, turned by a
    quarter turn; so the forces on a closed polygon of edges balance *)
Theorem C83_resultant : forall s q elem dou xs us P t, In s [sf_2Line; sf_3Line] -> In q [Gauss1Line; Gauss2Line] ->
  length elem = sf_n s -> nodes_ok 2 elem xs -> nodes_ok 2 elem us -> length dou = 2%nat ->
  let x := current elem xs us in
  exists K F ne f, PlaneStrainSurfacePressureUpdatedLagrange s q elem dou xs us P t = Ok (K, F, ne) /\ is_vec F (2 * length elem) f /\
    total_force (length elem) f 0 = - (P * t * (x 1%nat 1%nat - x 0%nat 1%nat)) /\
    total_force (length elem) f 1 = P * t * (x 1%nat 0%nat - x 0%nat 0%nat).
Proof. exact C83_resultant_pf. Qed.
Print Assumptions C83_resultant.

(** the edge from (0,0) to (3,4), displaced by (1,1) and (0,-2) *)
Example C83_resultant_ex : exists K F ne f,
  PlaneStrainSurfacePressureUpdatedLagrange sf_2Line Gauss1Line [0; 1]%nat [0; 1]%nat [[0; 0]; [3; 4]] [[1; 1]; [0; -2]] 5 2 = Ok (K, F, ne) /\
  is_vec F 4 f /\ total_force 2 f 0 = -10 /\ total_force 2 f 1 = 20.
Proof.
  destruct (C83_resultant sf_2Line Gauss1Line [0; 1]%nat [0; 1]%nat [[0; 0]; [3; 4]] [[1; 1]; [0; -2]] 5 2) as (K & F & ne & f & E & Hf & A & B); auto; try (cbn; auto; fail);
    try (intros i Hi; cbn in Hi; decompose [or] Hi; subst; cbn; try lia; contradiction).
  exists K, F, ne, f. cbn [length] in A, B, Hf. splits; auto; [rewrite A|rewrite B]; unfold current, nodal; cbn [nth]; lra.
Qed.

(** the returned matrix differs from minus the derivative of the load only by a
    term at the two end points with opposite signs, which cancels along a closed
    chain of elements and vanishes where the end points are fixed *)
Theorem C83_boundary : forall s q elem dou xs us P t, (s, q) = (sf_2Line, Gauss1Line) \/ (s, q) = (sf_2Line, Gauss2Line) \/ (s, q) = (sf_3Line, Gauss2Line) ->
  length elem = sf_n s -> nodes_ok 2 elem xs -> nodes_ok 2 elem us -> length dou = 2%nat ->
  exists K F ne k, PlaneStrainSurfacePressureUpdatedLagrange s q elem dou xs us P t = Ok (K, F, ne) /\
    is_mat K (2 * length elem) (2 * length elem) k /\
    forall y z, form 2 (length elem) k y z = - quad 1 q (fun p => P * t * pressure_work s z y p)
      + P * t / 2 * (cross y z 1 - cross y z 0).
Proof. exact C83_boundary_pf. Qed.
Print Assumptions C83_boundary.

(** the end-point term is really there: translation of the edge *)
Example C83_boundary_ex : exists K F ne k,
  PlaneStrainSurfacePressureUpdatedLagrange sf_2Line Gauss1Line [1; 0]%nat [0; 1]%nat edge_xs [[0; 0]; [0; 0]] 5 2 = Ok (K, F, ne) /\
  is_mat K 4 4 k /\ form 2 2 k (fun i c => match i, c with 1%nat, 1%nat => 1 | _, _ => 0 end) (fun _ c => match c with O => 1 | _ => 0 end) = 5.
Proof.
  destruct (C83_boundary sf_2Line Gauss1Line [1; 0]%nat [0; 1]%nat edge_xs [[0; 0]; [0; 0]] 5 2) as (K & F & ne & k & E & Hk & HW); auto.
  { apply edge_nodes. }
  { intros i Hi. cbn in Hi. decompose [or] Hi; subst; cbn; try lia; contradiction. }
  exists K, F, ne, k. splits; auto. cbn [length] in HW. rewrite HW. unfold cross, quad, Gauss1Line, pressure_work, tangent, dshp, field_value, shp, wprod;
    cbn [q_n q_weights q_points bigsum nth sf_2Line sf_n sf_N N_2Line sf_dN dN_2Line]. lra.
Qed.

(** on a single element the returned matrix is not the derivative of the load:
    it resists a translation of the edge *)
Theorem C83_consistent_refuted : exists s q elem dou xs us z P t, line_ok s q elem xs /\ moved 2 elem us z /\ length dou = 2%nat /\
  ~ consistent 2 elem us z (fun u => PlaneStrainSurfacePressureUpdatedLagrange s q elem dou xs u P t).
Proof. exact C83_consistent_refuted_pf. Qed.
Print Assumptions C83_consistent_refuted.
