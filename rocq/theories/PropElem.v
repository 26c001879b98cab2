(** Properties C34-C38, C43, C59, C60: element matrices. *)
From Coq Require Import List Arith Lia Bool Reals Lra.
From Verif Require Import Res SumR DenseModel DenseR DenseSpec ShapeModel QuadModel QuadSpec ElemModel ElemSpec ElemMain.
Import ListNotations.
Local Open Scope R_scope.

(** C59: the plane stiffness routines compute the quadrature of the elastic
    energy density; the result is numbered node by node. *)
Theorem C59_plane : forall s q elem dou xs E V t,
  element_ok 2 s q elem xs -> length dou = 2%nat ->
  ((1 - 2 * V) * (1 + V) <> 0 ->
     stiffness_of 2 2 s q elem dou xs (PlaneStrainStiffness s q elem dou xs E V t)
       (fun H Z => t * hooke 2 (lame_lambda E V) (lame_mu E V) (strain H) (strain Z))) /\
  ((1 - V) * (1 + V) <> 0 ->
     stiffness_of 2 2 s q elem dou xs (PlaneStressStiffness s q elem dou xs E V t)
       (fun H Z => t * hooke 2 (E * V / ((1 - V) * (1 + V))) (lame_mu E V) (strain H) (strain Z))) /\
  (forall D Df, is_mat D 3 3 Df ->
     stiffness_of 2 2 s q elem dou xs (PlaneStiffness s q elem dou xs D t)
       (fun H Z => t * bigsum 3 (fun i => bigsum 3 (fun j => eng H i * Df i j * eng Z j)))).
Proof. exact C59_plane_pf. Qed.
Print Assumptions C59_plane.

(** the triangle (0,0), (2,0), (0,1) with nodes listed as 2, 0, 1 *)
Definition tri_xs : list (list R) := [[2; 0]; [0; 1]; [0; 0]].
Example tri_ok : element_ok 2 sf_3Triangle Gauss1Triangle [2; 0; 1]%nat tri_xs.
Proof.
  unfold element_ok. repeat split; try (cbn; tauto); try (cbn; lia).
  - cbn in H. decompose [or] H; subst; cbn; try lia; contradiction.
  - cbn in H. decompose [or] H; subst; cbn; try lia; contradiction.
  - cbn in *. destruct g; [cbn; lia|lia].
  - cbn in *. destruct g; [cbn; lia|lia].
  - intros g Hg. cbn in Hg. replace g with O by lia. unfold jac, detd, det2, tangent, dshp, nodal, tri_xs, sf_3Triangle, dN_3Triangle.
    cbn [sf_d sf_n sf_dN bigsum nth]. lra.
Qed.
Example C59_ex : exists K ne k, PlaneStrainStiffness sf_3Triangle Gauss1Triangle [2; 0; 1]%nat [0; 1]%nat tri_xs 1 0 3 = Ok (K, ne) /\
  is_mat K 6 6 k /\ nth 1 (nth 2 ne []) (O, O) = (1, 5)%nat /\
  (forall y, (forall i, (i < 3)%nat -> y i 0%nat = nodal [2; 0; 1]%nat tri_xs i 0 /\ y i 1%nat = 0) -> form 2 3 k y y = 3).
Proof.
  destruct (C59_plane _ _ _ [0; 1]%nat _ 1 0 3 tri_ok eq_refl) as [H _]. destruct H as (K & ne & k & E & Hk & [_ Hn] & HF); [lra|].
  exists K, ne, k. repeat split; auto; try apply Hk.
  - destruct (Hn 2%nat ltac:(cbn; lia)) as [_ H]. now rewrite (H 1%nat) by lia.
  - intros y Hy.
    assert (G : gradients sf_3Triangle Gauss1Triangle (nodal [2; 0; 1]%nat tri_xs) 2 y (fun _ l c => if (l + c =? 0)%nat then 1 else 0)).
    { intros g _ k0 c Hk0 Hc. cbn in Hk0. destruct (Hy 0 ltac:(lia))%nat as [A0 B0]. destruct (Hy 1 ltac:(lia))%nat as [A1 B1]. destruct (Hy 2 ltac:(lia))%nat as [A2 B2].
      unfold tangent, dshp, nodal, tri_xs, sf_3Triangle, dN_3Triangle in *. cbn [sf_d sf_n sf_dN bigsum nth] in *.
      destruct k0 as [|[|k0]]; try lia; destruct c as [|[|c]]; try lia; cbn [nth Nat.add Nat.eqb]; rewrite ?A0, ?A1, ?A2, ?B0, ?B1, ?B2; lra. }
    change 3%nat with (length [2; 0; 1]%nat) at 1. rewrite (HF y y _ _ G G).
    unfold quad, hooke, trace, ddot, strain, lame_lambda, lame_mu, Gauss1Triangle, wprod, jac, detd, det2, tangent, dshp, nodal, tri_xs, sf_3Triangle, dN_3Triangle.
    cbn [q_n q_points q_weights sf_d sf_n sf_dN bigsum nth Nat.add Nat.eqb].
    pose proof (sqrt_lt_R0 2 ltac:(lra)). pose proof (sqrt_def 2 ltac:(lra)) as S. 
    field_simplify; [|lra]. replace (sqrt 2 ^ 2) with 2 by (cbn; lra). field.
Qed.

(** C59: the solid stiffness *)
Theorem C59_solid : forall s q elem dou xs E V,
  element_ok 3 s q elem xs -> length dou = 3%nat -> (1 + V) * (1 - 2 * V) <> 0 ->
  stiffness_of 3 3 s q elem dou xs (SolidLinearIsotropicElastic s q elem dou xs E V)
    (fun H Z => hooke 3 (lame_lambda E V) (lame_mu E V) (strain H) (strain Z)).
Proof. exact C59_solid_pf. Qed.
Print Assumptions C59_solid.

Example tet_ok : element_ok 3 sf_4Tetrahedron Gauss1Tetrahedron [0; 1; 2; 3]%nat [[0;0;0]; [1;0;0]; [0;1;0]; [0;0;1]].
Proof.
  unfold element_ok. repeat split; try (cbn; tauto); try (cbn; lia).
  - cbn in H. decompose [or] H; subst; cbn; try lia; contradiction.
  - cbn in H. decompose [or] H; subst; cbn; try lia; contradiction.
  - cbn in *. destruct g; [cbn; lia|lia].
  - cbn in *. destruct g; [cbn; lia|lia].
  - intros g Hg. cbn in Hg. replace g with O by lia. unfold jac, detd, det3, tangent, dshp, nodal, sf_4Tetrahedron, dN_4Tetrahedron.
    cbn [sf_d sf_n sf_dN bigsum nth]. lra.
Qed.

(** C59: scalar problems: conduction, diffusion, advection, and all consistent
    mass matrices *)
Theorem C59_scalar : forall s q elem dou xs alpha t kap rho c,
  element_ok 2 s q elem xs -> length dou = 1%nat ->
  stiffness_of 2 1 s q elem dou xs (HeatTransfer s q elem dou xs alpha t)
    (fun H Z => alpha * t * bigsum 2 (fun l => H l 0%nat * Z l 0%nat)) /\
  stiffness_of 2 1 s q elem dou xs (Diffusion s q elem dou xs kap)
    (fun H Z => kap * bigsum 2 (fun l => H l 0%nat * Z l 0%nat)) /\
  mass_of 2 1 s q elem dou xs (HeatCapacity s q elem dou xs rho c t) (rho * c * t) /\
  mass_of 2 1 s q elem dou xs (Mass s q elem dou xs) 1 /\
  mass_of 2 1 s q elem dou xs (ReactionDiffusionConsistentMass s q elem dou xs) 1.
Proof. exact C59_scalar_pf. Qed.
Print Assumptions C59_scalar.

(** C59: the advection matrix is the quadrature of y (c . grad z), where y is the
    interpolated test field *)
Theorem C59_advection : forall s q elem dou xs cx cy,
  element_ok 2 s q elem xs -> length dou = 1%nat ->
  exists K ne k, Advection s q elem dou xs cx cy = Ok (K, ne) /\ is_mat K (length elem) (length elem) k /\
    numbered 1 (length elem) dou ne /\
    forall y z Hz, gradients s q (nodal elem xs) 1 z Hz ->
      form 1 (length elem) k y z =
      quad 2 q (fun p => jac s (nodal elem xs) p * (field_value s p y 0 * (cx * Hz p 0%nat 0%nat + cy * Hz p 1%nat 0%nat))).
Proof. exact C59_advection_pf. Qed.
Print Assumptions C59_advection.

(** C59: the consistent mass matrix of the plane problems *)
Theorem C59_plane_mass : forall s q elem dou xs rho t,
  element_ok 2 s q elem xs -> length dou = 2%nat ->
  mass_of 2 2 s q elem dou xs (PlaneMass s q elem dou xs rho t) (rho * t).
Proof. exact C59_plane_mass_pf. Qed.
Print Assumptions C59_plane_mass.

(** C34: symmetry. *)
Theorem C34_symmetric_plane : forall s q elem dou xs E V t rho D Df,
  element_ok 2 s q elem xs -> length dou = 2%nat -> (1 - 2 * V) * (1 + V) <> 0 -> (1 - V) * (1 + V) <> 0 ->
  is_mat D 3 3 Df -> (forall i j, (i < 3)%nat -> (j < 3)%nat -> Df i j = Df j i) ->
  forall r, In r [ PlaneStrainStiffness s q elem dou xs E V t; PlaneStressStiffness s q elem dou xs E V t;
                   PlaneStiffness s q elem dou xs D t; PlaneMass s q elem dou xs rho t ] ->
  symmetric_result (2 * length elem) r.
Proof. exact C34_symmetric_plane_pf. Qed.
Print Assumptions C34_symmetric_plane.

(** C34: the routines with two quadrature rules are symmetric whatever the rules *)
Theorem C34_symmetric_selective : forall s qv qd elem dou xs E V t D Df,
  element_ok 2 s qv elem xs -> element_ok 2 s qd elem xs -> length dou = 2%nat -> (1 - 2 * V) * (1 + V) <> 0 ->
  is_mat D 3 3 Df -> (forall i j, (i < 3)%nat -> (j < 3)%nat -> Df i j = Df j i) ->
  forall r, In r [ PlaneStrainStiffnessSRI s qv qd elem dou xs E V t; PlaneStrainStiffnessBbar s qv qd elem dou xs E V t;
                   PlaneStiffnessBbar s qv qd elem dou xs D t ] ->
  symmetric_result (2 * length elem) r.
Proof. exact C34_symmetric_selective_pf. Qed.
Print Assumptions C34_symmetric_selective.

Theorem C34_symmetric_solid : forall s q elem dou xs E V,
  element_ok 3 s q elem xs -> length dou = 3%nat -> (1 + V) * (1 - 2 * V) <> 0 ->
  symmetric_result (3 * length elem) (SolidLinearIsotropicElastic s q elem dou xs E V).
Proof. exact C34_symmetric_solid_pf. Qed.
Print Assumptions C34_symmetric_solid.

Theorem C34_symmetric_scalar : forall s q elem dou xs alpha t kap rho c,
  element_ok 2 s q elem xs -> length dou = 1%nat ->
  forall r, In r [ HeatTransfer s q elem dou xs alpha t; Diffusion s q elem dou xs kap; HeatCapacity s q elem dou xs rho c t;
                   Mass s q elem dou xs; ReactionDiffusionConsistentMass s q elem dou xs; ReactionDiffusionLumpedMass s q elem dou xs ] ->
  symmetric_result (length elem) r.
Proof. exact C34_symmetric_scalar_pf. Qed.
Print Assumptions C34_symmetric_scalar.

(** C35: nonnegative energy *)
Theorem C35_psd_plane : forall s q elem dou xs E V t,
  element_ok 2 s q elem xs -> length dou = 2%nat -> positive_rule 2 s q (nodal elem xs) ->
  0 <= E -> -1 < V < 1 / 2 -> 0 <= t ->
  psd_result (2 * length elem) (PlaneStrainStiffness s q elem dou xs E V t) /\
  psd_result (2 * length elem) (PlaneStressStiffness s q elem dou xs E V t).
Proof. exact C35_psd_plane_pf. Qed.
Print Assumptions C35_psd_plane.

Theorem C35_psd_solid : forall s q elem dou xs E V,
  element_ok 3 s q elem xs -> length dou = 3%nat -> positive_rule 3 s q (nodal elem xs) ->
  0 <= E -> -1 < V < 1 / 2 ->
  psd_result (3 * length elem) (SolidLinearIsotropicElastic s q elem dou xs E V).
Proof. exact C35_psd_solid_pf. Qed.
Print Assumptions C35_psd_solid.

(** C35: with E, t > 0 the energy vanishes only if the strain vanishes at every
    point of the rule *)
Theorem C35_zero_energy : forall s q elem dou xs E V t,
  element_ok 2 s q elem xs -> length dou = 2%nat -> positive_rule 2 s q (nodal elem xs) ->
  0 < E -> -1 < V < 1 / 2 -> 0 < t ->
  exists K ne k, PlaneStrainStiffness s q elem dou xs E V t = Ok (K, ne) /\ is_mat K (2 * length elem) (2 * length elem) k /\
    forall y Hy, gradients s q (nodal elem xs) 2 y Hy -> form 2 (length elem) k y y = 0 ->
      forall g i j, (g < q_n q)%nat -> (i < 2)%nat -> (j < 2)%nat -> strain (Hy (pt q g)) i j = 0.
Proof. exact C35_zero_energy_pf. Qed.
Print Assumptions C35_zero_energy.

(** C36: rigid body motions *)
Theorem C36_rigid : forall s q elem dou xs E V t z,
  element_ok 2 s q elem xs -> length dou = 2%nat -> rigid_motion 2 (length elem) (nodal elem xs) z ->
  ((1 - 2 * V) * (1 + V) <> 0 -> kills 2 (length elem) (PlaneStrainStiffness s q elem dou xs E V t) z) /\
  ((1 - V) * (1 + V) <> 0 -> kills 2 (length elem) (PlaneStressStiffness s q elem dou xs E V t) z) /\
  (forall D Df, is_mat D 3 3 Df -> kills 2 (length elem) (PlaneStiffness s q elem dou xs D t) z).
Proof. exact C36_rigid_pf. Qed.
Print Assumptions C36_rigid.

(** rotation about the origin *)
Example C36_ex : rigid_motion 2 3 (nodal [2; 0; 1]%nat tri_xs) (fun i c => match c, i with O, 2%nat => 1 | 1%nat, 1%nat => -2 | _, _ => 0 end).
Proof.
  exists (fun _ => 0), (fun l c => match l, c with O, 1%nat => -1 | 1%nat, O => 1 | _, _ => 0 end). split.
  - intros l c. destruct l as [|[|l]], c as [|[|c]]; ring.
  - intros i c Hi Hc. destruct i as [|[|[|i]]]; try lia; destruct c as [|[|c]]; try lia; cbn; ring.
Qed.

Theorem C36_rigid_solid : forall s q elem dou xs E V z,
  element_ok 3 s q elem xs -> length dou = 3%nat -> (1 + V) * (1 - 2 * V) <> 0 -> rigid_motion 3 (length elem) (nodal elem xs) z ->
  kills 3 (length elem) (SolidLinearIsotropicElastic s q elem dou xs E V) z.
Proof. exact C36_rigid_solid_pf. Qed.
Print Assumptions C36_rigid_solid.

Theorem C36_constant_temperature : forall s q elem dou xs alpha t kap T,
  element_ok 2 s q elem xs -> length dou = 1%nat ->
  kills 1 (length elem) (HeatTransfer s q elem dou xs alpha t) (fun _ _ => T) /\
  kills 1 (length elem) (Diffusion s q elem dou xs kap) (fun _ _ => T).
Proof. exact C36_constant_temperature_pf. Qed.
Print Assumptions C36_constant_temperature.

(** C37: total mass.  Area needs nodes with exactly two coordinates. *)
Theorem C37_total_mass : forall s q elem dou dou1 xs rho t c,
  element_ok 2 s q elem xs -> (forall e, In e elem -> length (nth e xs []) = 2%nat) -> length dou = 2%nat -> length dou1 = 1%nat ->
  exists A, Area s q xs elem = Ok A /\
    (exists K ne k, PlaneMass s q elem dou xs rho t = Ok (K, ne) /\ is_mat K (2 * length elem) (2 * length elem) k /\
       forall i j, (i < 2)%nat -> (j < 2)%nat ->
         bigsum (length elem) (fun a => bigsum (length elem) (fun b => k (2 * a + i)%nat (2 * b + j)%nat)) =
         if (i =? j)%nat then rho * t * A else 0) /\
    forall r m, In (r, m) [ (HeatCapacity s q elem dou1 xs rho c t, rho * c * t); (Mass s q elem dou1 xs, 1);
                            (ReactionDiffusionConsistentMass s q elem dou1 xs, 1); (ReactionDiffusionLumpedMass s q elem dou1 xs, 1) ] ->
      exists K ne k, r = Ok (K, ne) /\ is_mat K (length elem) (length elem) k /\
        bigsum (length elem) (fun a => bigsum (length elem) (fun b => k a b)) = m * A.
Proof. exact C37_total_mass_pf. Qed.
Print Assumptions C37_total_mass.

(** C38: selective integration with one rule *)
Theorem C38_same_rule : forall s q elem dou xs E V t,
  element_ok 2 s q elem xs -> length dou = 2%nat -> (1 - 2 * V) * (1 + V) <> 0 ->
  PlaneStrainStiffnessSRI s q q elem dou xs E V t = PlaneStrainStiffness s q elem dou xs E V t /\
  PlaneStrainStiffnessBbar s q q elem dou xs E V t = PlaneStrainStiffness s q elem dou xs E V t /\
  exists K ne, PlaneStrainStiffness s q elem dou xs E V t = Ok (K, ne).
Proof. exact C38_same_rule_pf. Qed.
Print Assumptions C38_same_rule.

(** C38 for B-bar with a general symmetric D is false: the coupling between the
    spherical and the deviatoric part of the strain is dropped. *)
Theorem C38_bbar_general_refuted : exists s q elem dou xs D Df t,
  element_ok 2 s q elem xs /\ length dou = 2%nat /\ is_mat D 3 3 Df /\
  (forall i j, (i < 3)%nat -> (j < 3)%nat -> Df i j = Df j i) /\
  exists K ne K' ne', PlaneStiffnessBbar s q q elem dou xs D t = Ok (K, ne) /\ PlaneStiffness s q elem dou xs D t = Ok (K', ne') /\ K <> K'.
Proof. exact C38_bbar_general_refuted_pf. Qed.
Print Assumptions C38_bbar_general_refuted.

(** C43: the truss *)
Theorem C43_truss : forall (elem dou : list nat) (xs : list (list R)) E A x0 y0 x1 y1,
  length elem = 2%nat -> length dou = 2%nat -> (forall i, (i < 2)%nat -> (nth i elem O < length xs)%nat) ->
  nth (nth 0 elem O) xs [] = [x0; y0] -> nth (nth 1 elem O) xs [] = [x1; y1] ->
  let l := sqrt ((x1 - x0) ^ 2 + (y1 - y0) ^ 2) in
  (l = 0 -> Truss2D elem dou xs E A = Fail DivByZero) /\
  (l <> 0 -> exists K ne k, Truss2D elem dou xs E A = Ok (K, ne) /\ is_mat K 4 4 k /\ numbered 2 2 dou ne /\
     (forall a b, (a < 4)%nat -> (b < 4)%nat -> k a b = k b a) /\
     (forall u : nat -> nat -> R, form 2 2 k u u =
        E * A / l * (((x1 - x0) * (u 1%nat 0%nat - u 0%nat 0%nat) + (y1 - y0) * (u 1%nat 1%nat - u 0%nat 1%nat)) / l) ^ 2) /\
     (0 <= E * A -> forall u : nat -> nat -> R, 0 <= form 2 2 k u u) /\
     forall u tx ty w, (forall i, (i < 2)%nat -> u i 0%nat = tx - w * nodal elem xs i 1 /\ u i 1%nat = ty + w * nodal elem xs i 0) ->
       forall a, (a < 4)%nat -> apply_field 2 2 k u a = 0).
Proof. exact C43_truss_pf. Qed.
Print Assumptions C43_truss.

Example C43_ex : sqrt ((3 - 0) ^ 2 + (4 - 0) ^ 2) = 5.
Proof. replace ((3 - 0) ^ 2 + (4 - 0) ^ 2) with (5 * 5) by ring. apply sqrt_square. lra. Qed.

(** C60: Area and Volume are the quadrature of the Jacobian determinant *)
Theorem C60_measure : forall s q elem xs, In s all_shapes -> length elem = sf_n s -> rule_ok (sf_d s) q ->
  (forall e, In e elem -> (e < length xs)%nat /\ length (nth e xs []) = sf_d s) ->
  (sf_d s = 2%nat -> Area s q xs elem = Ok (quad 2 q (jac s (nodal elem xs)))) /\
  (sf_d s = 3%nat -> Volume s q xs elem = Ok (quad 3 q (jac s (nodal elem xs)))).
Proof. exact C60_measure_pf. Qed.
Print Assumptions C60_measure.

(** C60: for straight-sided triangles and quadrilaterals the result is the signed
    area by the shoelace formula; for the tetrahedron one sixth of the triple
    product *)
Theorem C60_shoelace : forall a b c d xs ax ay bx by_ cx cy dx dy,
  nth a xs [] = [ax; ay] -> nth b xs [] = [bx; by_] -> nth c xs [] = [cx; cy] -> nth d xs [] = [dx; dy] ->
  (forall e, In e [a; b; c; d] -> (e < length xs)%nat) ->
  (forall q, In q [Gauss1Triangle; Gauss3Triangle] ->
     Area sf_3Triangle q xs [a; b; c] = Ok ((ax * by_ - bx * ay + (bx * cy - cx * by_) + (cx * ay - ax * cy)) / 2)) /\
  (forall q, In q [Gauss1Square; Gauss4Square; Gauss9Square] ->
     Area sf_4Square q xs [a; b; c; d] =
     Ok ((ax * by_ - bx * ay + (bx * cy - cx * by_) + (cx * dy - dx * cy) + (dx * ay - ax * dy)) / 2)).
Proof. exact C60_shoelace_pf. Qed.
Print Assumptions C60_shoelace.

Example C60_ex : Area sf_3Triangle Gauss3Triangle tri_xs [2; 0; 1]%nat = Ok 1.
Proof.
  destruct (C60_shoelace 2 0 1 2 tri_xs 0 0 2 0 0 1 0 0) as [H _]; try reflexivity.
  - intros e He. cbn in *. lia.
  - rewrite (H Gauss3Triangle) by (cbn; tauto). f_equal. lra.
Qed.
Example C35_ex : positive_rule 2 sf_3Triangle Gauss1Triangle (nodal [2; 0; 1]%nat tri_xs).
Proof.
  intros g Hg. cbn in Hg. replace g with O by lia. split.
  - unfold jac, detd, det2, tangent, dshp, nodal, tri_xs, sf_3Triangle, dN_3Triangle. cbn [sf_d sf_n sf_dN bigsum nth]. lra.
  - unfold wprod, Gauss1Triangle. cbn [q_weights nth]. pose proof (Rinv_0_lt_compat _ (sqrt_lt_R0 2 ltac:(lra))).
    unfold Rdiv. rewrite ?Rmult_1_l. try apply Rmult_lt_0_compat; auto.
Qed.
