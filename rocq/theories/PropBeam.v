(** Properties C97-C98: the beam and the shells. *)
From Coq Require Import List Arith Lia Bool Reals Lra.
From Verif Require Import Res SumR DenseModel DenseR DenseSpec ShapeModel QuadModel QuadSpec ElemModel ElemSpec BeamModel BeamSpec ElemProof ElemMain BeamMain1 BeamMain2 BeamMain.
Import ListNotations.
Local Open Scope R_scope.

(** The matrix of BeamLinearIsotropicElastic is that of a solid swept out by the
    two unit directors of the nodes: its form is the quadrature, over the axis and
    over the section, of the volume element times the energy of the axial strain
    and of the two transverse shear strains.  The rotation of a node turns its
    directors.  The dofs of node i are 6 i .. 6 i + 5 in the order of the list of
    degrees of freedom. *)
Theorem C97_beam_form : forall s q0 q1 elem dou xs v1s v2s E v a b,
  beam_ok s q0 q1 elem xs v1s v2s a b -> length dou = 6%nat -> 1 + v <> 0 ->
  let V := beam_dirs elem v1s v2s in
  layer_stiffness_of 6 2 s q0 q1 (half_sides a b) V (rotated V) (beam_W s V E v) elem dou xs
    (BeamLinearIsotropicElastic s q0 q1 elem dou xs v1s v2s E v a b).
Proof. exact C97_beam_form_pf. Qed.
Print Assumptions C97_beam_form.

(** a beam of length 2 along the x axis with section 1 x 3 is admissible *)
Example C97_beam_ok_ex : beam_ok sf_2Line Gauss1Line Gauss4Square [0; 1]%nat beam_xs beam_v1s beam_v2s 1 3.
Proof. exact beam_example_ok. Qed.

(** The matrix is symmetric, and positive semidefinite for E >= 0 and 1 + v > 0 if
    the volume element and the weights are positive. *)
Theorem C97_beam_definite : forall s q0 q1 elem dou xs v1s v2s E v a b,
  beam_ok s q0 q1 elem xs v1s v2s a b -> length dou = 6%nat -> 1 + v <> 0 ->
  let r := BeamLinearIsotropicElastic s q0 q1 elem dou xs v1s v2s E v a b in
  symmetric_result (6 * length elem) r /\
  (0 <= E -> 0 < 1 + v -> positive_layer s q0 q1 2 (layer_tangent s 2 (half_sides a b) (nodal elem xs) (beam_dirs elem v1s v2s)) ->
   psd_result (6 * length elem) r).
Proof. exact C97_beam_definite_pf. Qed.
Print Assumptions C97_beam_definite.

(** the volume element of the beam above is 3/4 *)
Example C97_beam_definite_ex : psd_result 12 (BeamLinearIsotropicElastic sf_2Line Gauss1Line Gauss4Square [0; 1]%nat [0; 1; 2; 3; 4; 5]%nat beam_xs beam_v1s beam_v2s 2 (3 / 10) 1 3).
Proof.
  eapply (C97_beam_definite sf_2Line Gauss1Line Gauss4Square [0; 1]%nat); [exact beam_example_ok|reflexivity|lra|lra|lra|]. unfold positive_layer. splits.
  - intros g h _ _. rewrite (straight_det [0; 1]%nat [0; 1; 2; 3; 4; 5]%nat beam_xs beam_v1s beam_v2s 1 3 2 axis_y axis_z); [lra|reflexivity|exact straight_beam|reflexivity].
  - intros g Hg. destruct g as [|g]; cbn in *; [lra|lia].
  - intros h Hh. destruct h as [|[|[|[|h]]]]; cbn in *; try lra; lia.
Qed.

(** A rigid motion - translation c0 and small rotation om of the nodes, with the
    nodal rotations equal to om - produces no force, whatever the geometry. *)
Theorem C97_beam_rigid : forall s q0 q1 elem dou xs v1s v2s E v a b c0 om z,
  beam_ok s q0 q1 elem xs v1s v2s a b -> length dou = 6%nat -> 1 + v <> 0 ->
  (forall i c, (i < length elem)%nat -> (c < 3)%nat -> z i c = c0 c + cross3 om (nodal elem xs i) c /\ z i (3 + c)%nat = om c) ->
  kills 6 (length elem) (BeamLinearIsotropicElastic s q0 q1 elem dou xs v1s v2s E v a b) z.
Proof. exact C97_beam_rigid_pf. Qed.
Print Assumptions C97_beam_rigid.

(** rotation of the beam about the z axis: the second node moves by 2 in y *)
Example C97_beam_rigid_ex : kills 6 2 (BeamLinearIsotropicElastic sf_2Line Gauss1Line Gauss4Square [0; 1]%nat [0; 1; 2; 3; 4; 5]%nat beam_xs beam_v1s beam_v2s 2 (3 / 10) 1 3)
  (fun i c => match c with 1%nat => 2 * INR i | 5%nat => 1 | _ => 0 end).
Proof.
  apply (C97_beam_rigid sf_2Line Gauss1Line Gauss4Square [0; 1]%nat _ _ _ _ _ _ _ _ (fun _ => 0) axis_z); [exact beam_example_ok|reflexivity|lra|].
  intros i c Hi Hc. destruct i as [|[|i]]; [| |cbn in Hi; lia]; destruct c as [|[|[|c]]]; try lia; cbn; split; ring.
Qed.

(** Closed form: with two nodes, one point on the axis and a section rule exact to
    order 2, the matrix of a straight beam of length len with rectangular section
    a x b is that of the Timoshenko beam with axial stiffness E a b / len, bending
    stiffnesses E a b^3 / 12 and E b a^3 / 12, shear stiffness 5/6 G a b and torsional
    stiffness 5/6 G (a b^3 + b a^3) / 12 (the polar moment), in any position and with
    directors of any length. *)
Theorem C97_straight_beam : forall q1 elem dou xs v1s v2s E v a b len d1 d2,
  length elem = 2%nat -> nodes_ok 3 elem xs -> nodes3 elem v1s -> nodes3 elem v2s -> rule_ok 2 q1 -> section_rule q1 ->
  0 < a -> 0 < b -> 0 < len -> straight elem xs v1s v2s len d1 d2 -> 1 + v <> 0 -> length dou = 6%nat ->
  exists K ne k, BeamLinearIsotropicElastic sf_2Line Gauss1Line q1 elem dou xs v1s v2s E v a b = Ok (K, ne) /\
    is_mat K 12 12 k /\ numbered 6 2 dou ne /\ forall y z, form 6 2 k y z = timoshenko E (lame_mu E v) len a b d1 d2 y z.
Proof. exact C97_straight_beam_pf. Qed.
Print Assumptions C97_straight_beam.

(** the axial entry of the beam above with E = 2 is E A / len = 2 * 3 / 2; the rule
    of four points over the section is exact enough *)
Example C97_straight_ex : exists K ne k, BeamLinearIsotropicElastic sf_2Line Gauss1Line Gauss4Square [0; 1]%nat [0; 1; 2; 3; 4; 5]%nat beam_xs beam_v1s beam_v2s 2 (3 / 10) 1 3 = Ok (K, ne) /\
  is_mat K 12 12 k /\ k 0%nat 0%nat = 3 /\ k 0%nat 6%nat = -3.
Proof.
  destruct (C97_straight_beam Gauss4Square [0; 1]%nat [0; 1; 2; 3; 4; 5]%nat beam_xs beam_v1s beam_v2s 2 (3 / 10) 1 3 2 axis_y axis_z) as (K & ne & k & EK & MK & _ & FK);
    try lra; auto; try (now apply list_nodes); try (now apply list_rule); [exact section4|exact straight_beam|].
  exists K, ne, k. splits; auto.
  - rewrite <- (form_entry 6 2 k 0 0) by (cbn; lia). rewrite FK. unfold timoshenko, stretch, turn, mean_turn, dot3, unitv. cbn. field.
  - rewrite <- (form_entry 6 2 k 0 6) by (cbn; lia). rewrite FK. unfold timoshenko, stretch, turn, mean_turn, dot3, unitv. cbn. field.
Qed.

(** The matrices of ShellLinearIsotropicElastic (five components per node, rotations
    about the two tangents of the node) and ShellLinearIsotropicElastic2 (six
    components) are those of a solid swept out by the unit normals of the surface at
    the nodes: the form is the quadrature, over the surface and over the thickness,
    of the volume element times the energy of plane stress in the layer with
    transverse shear. *)
Theorem C98_shell_form : forall s q0 q1 elem dou xs E v t,
  shell_ok s q0 q1 elem xs t -> 1 - v * v <> 0 ->
  let x := nodal elem xs in let l := first_side elem xs in
  (length dou = 5%nat -> layer_stiffness_of 5 1 s q0 q1 (fun _ => t / 2) (shell_dirs s x) (tilted s x l) (shell_W s x l E v t) elem dou xs
     (ShellLinearIsotropicElastic s q0 q1 elem dou xs E v t)) /\
  (length dou = 6%nat -> layer_stiffness_of 6 1 s q0 q1 (fun _ => t / 2) (shell_dirs s x) (rotated (shell_dirs s x)) (shell_W s x l E v t) elem dou xs
     (ShellLinearIsotropicElastic2 s q0 q1 elem dou xs E v t)).
Proof. exact C98_shell_form_pf. Qed.
Print Assumptions C98_shell_form.

(** a triangle of thickness 1 is admissible *)
Example C98_shell_ok_ex : shell_ok sf_3Triangle Gauss1Triangle Gauss2Line [0; 1; 2]%nat plate_xs 1.
Proof. exact shell_example_ok. Qed.

(** Both matrices are symmetric, and positive semidefinite for E >= 0 and -1 < v < 1
    if the volume element and the weights are positive. *)
Theorem C98_shell_definite : forall s q0 q1 elem dou5 dou6 xs E v t,
  shell_ok s q0 q1 elem xs t -> length dou5 = 5%nat -> length dou6 = 6%nat -> 1 - v * v <> 0 ->
  let r5 := ShellLinearIsotropicElastic s q0 q1 elem dou5 xs E v t in
  let r6 := ShellLinearIsotropicElastic2 s q0 q1 elem dou6 xs E v t in
  symmetric_result (5 * length elem) r5 /\ symmetric_result (6 * length elem) r6 /\
  (0 <= E -> -1 < v < 1 -> positive_layer s q0 q1 1 (shell_T s t (nodal elem xs)) ->
   psd_result (5 * length elem) r5 /\ psd_result (6 * length elem) r6).
Proof. exact C98_shell_definite_pf. Qed.
Print Assumptions C98_shell_definite.

Example C98_shell_definite_ex :
  psd_result 15 (ShellLinearIsotropicElastic sf_3Triangle Gauss1Triangle Gauss2Line [0; 1; 2]%nat [0; 1; 2; 3; 4]%nat plate_xs 2 (3 / 10) 1) /\
  psd_result 18 (ShellLinearIsotropicElastic2 sf_3Triangle Gauss1Triangle Gauss2Line [0; 1; 2]%nat [0; 1; 2; 3; 4; 5]%nat plate_xs 2 (3 / 10) 1).
Proof.
  eapply (C98_shell_definite sf_3Triangle Gauss1Triangle Gauss2Line [0; 1; 2]%nat); [exact shell_example_ok|reflexivity|reflexivity|lra|lra|lra|]. unfold positive_layer. splits.
  - intros g h _ _. rewrite (flat_det sf_3Triangle Gauss1Triangle [0; 1; 2]%nat plate_xs 1 flat_plate), plate_jac. lra.
  - intros g Hg. destruct g as [|g]; [|cbn in Hg; lia]. cbn. pose proof (sqrt_lt_R0 2 ltac:(lra)). assert (0 < 1 / sqrt 2) by (apply Rdiv_lt_0_compat; lra). nra.
  - intros h Hh. destruct h as [|[|h]]; cbn in *; try lra; lia.
Qed.

(** Rigid motions produce no force: the nodal rotations are om, or, for the element
    with five components, the components of om along the two tangents. *)
Theorem C98_shell_rigid : forall s q0 q1 elem dou5 dou6 xs E v t c0 om z5 z6,
  shell_ok s q0 q1 elem xs t -> length dou5 = 5%nat -> length dou6 = 6%nat -> 1 - v * v <> 0 ->
  let x := nodal elem xs in let l := first_side elem xs in
  (forall i c, (i < length elem)%nat -> (c < 3)%nat -> z5 i c = c0 c + cross3 om (x i) c) ->
  (forall i, (i < length elem)%nat -> z5 i 3%nat = dot3 om (shell_v1 s x l i) /\ z5 i 4%nat = dot3 om (shell_v2 s x l i)) ->
  (forall i c, (i < length elem)%nat -> (c < 3)%nat -> z6 i c = c0 c + cross3 om (x i) c /\ z6 i (3 + c)%nat = om c) ->
  kills 5 (length elem) (ShellLinearIsotropicElastic s q0 q1 elem dou5 xs E v t) z5 /\
  kills 6 (length elem) (ShellLinearIsotropicElastic2 s q0 q1 elem dou6 xs E v t) z6.
Proof. exact C98_shell_rigid_pf. Qed.
Print Assumptions C98_shell_rigid.

(** rotation of the triangle about the y axis: the second node sinks by 1 *)
Example C98_shell_rigid_ex : kills 6 3 (ShellLinearIsotropicElastic2 sf_3Triangle Gauss1Triangle Gauss2Line [0; 1; 2]%nat [0; 1; 2; 3; 4; 5]%nat plate_xs 2 (3 / 10) 1)
  (fun i c => match c with 2%nat => if (i =? 1)%nat then -1 else 0 | 4%nat => 1 | _ => 0 end).
Proof.
  pose (x := nodal [0; 1; 2]%nat plate_xs). pose (l := first_side [0; 1; 2]%nat plate_xs).
  apply (C98_shell_rigid sf_3Triangle Gauss1Triangle Gauss2Line [0; 1; 2]%nat [0; 1; 2; 3; 4]%nat _ _ _ _ _ (fun _ => 0) axis_y
    (fun i c => match c with 3%nat => dot3 axis_y (shell_v1 sf_3Triangle x l i) | 4%nat => dot3 axis_y (shell_v2 sf_3Triangle x l i) | _ => 0 + cross3 axis_y (x i) c end));
    [exact shell_example_ok|reflexivity|reflexivity|lra| | |].
  - intros i c Hi Hc. destruct c as [|[|[|c]]]; try lia; reflexivity.
  - intros i Hi. split; reflexivity.
  - intros i c Hi Hc. destruct i as [|[|[|i]]]; [| | |cbn in Hi; lia]; destruct c as [|[|[|c]]]; try lia; cbn; split; ring.
Qed.

(** The element with six components has no stiffness against rotations of the nodes
    about their normals: n further zero energy modes, so that the assembled matrix
    of a flat shell is singular unless these dofs are fixed. *)
Theorem C98_drilling : forall s q0 q1 elem dou xs E v t tau z,
  shell_ok s q0 q1 elem xs t -> length dou = 6%nat -> 1 - v * v <> 0 ->
  (forall i c, (i < length elem)%nat -> (c < 3)%nat -> z i c = 0 /\ z i (3 + c)%nat = tau i * shell_v3 s (nodal elem xs) i c) ->
  kills 6 (length elem) (ShellLinearIsotropicElastic2 s q0 q1 elem dou xs E v t) z.
Proof. exact C98_drilling_pf. Qed.
Print Assumptions C98_drilling.

(** the first node of the triangle turns about the z axis *)
Example C98_drilling_ex : kills 6 3 (ShellLinearIsotropicElastic2 sf_3Triangle Gauss1Triangle Gauss2Line [0; 1; 2]%nat [0; 1; 2; 3; 4; 5]%nat plate_xs 2 (3 / 10) 1)
  (fun i c => if (i =? 0)%nat && (c =? 5)%nat then 1 else 0).
Proof.
  apply (C98_drilling sf_3Triangle Gauss1Triangle Gauss2Line [0; 1; 2]%nat _ _ _ _ _ (fun i => if (i =? 0)%nat then 1 else 0)); [exact shell_example_ok|reflexivity|lra|].
  intros i c Hi Hc. rewrite (flat_v3 sf_3Triangle Gauss1Triangle [0; 1; 2]%nat plate_xs flat_plate) by auto.
  destruct i as [|[|[|i]]]; [| | |cbn in Hi; lia]; destruct c as [|[|[|c]]]; try lia; cbn; split; ring.
Qed.

(** The two elements agree: the energy of the element with six components is that of
    the element with five, applied to the components of the rotations along the two
    tangents of each node. *)
Theorem C98_same_energy : forall s q0 q1 elem dou5 dou6 xs E v t,
  shell_ok s q0 q1 elem xs t -> length dou5 = 5%nat -> length dou6 = 6%nat -> 1 - v * v <> 0 ->
  exists K5 ne5 k5 K6 ne6 k6,
    ShellLinearIsotropicElastic s q0 q1 elem dou5 xs E v t = Ok (K5, ne5) /\ is_mat K5 (5 * length elem) (5 * length elem) k5 /\
    ShellLinearIsotropicElastic2 s q0 q1 elem dou6 xs E v t = Ok (K6, ne6) /\ is_mat K6 (6 * length elem) (6 * length elem) k6 /\
    forall y z, form 6 (length elem) k6 y z =
      form 5 (length elem) k5 (projected s (nodal elem xs) (first_side elem xs) y) (projected s (nodal elem xs) (first_side elem xs) z).
Proof. exact C98_same_energy_pf. Qed.
Print Assumptions C98_same_energy.

(** the deflection entries of the two matrices of the triangle are equal *)
Example C98_same_energy_ex : exists K5 ne5 k5 K6 ne6 k6,
  ShellLinearIsotropicElastic sf_3Triangle Gauss1Triangle Gauss2Line [0; 1; 2]%nat [0; 1; 2; 3; 4]%nat plate_xs 2 (3 / 10) 1 = Ok (K5, ne5) /\ is_mat K5 15 15 k5 /\
  ShellLinearIsotropicElastic2 sf_3Triangle Gauss1Triangle Gauss2Line [0; 1; 2]%nat [0; 1; 2; 3; 4; 5]%nat plate_xs 2 (3 / 10) 1 = Ok (K6, ne6) /\ is_mat K6 18 18 k6 /\
  k6 2%nat 14%nat = k5 2%nat 12%nat.
Proof.
  destruct (C98_same_energy sf_3Triangle Gauss1Triangle Gauss2Line [0; 1; 2]%nat [0; 1; 2; 3; 4]%nat [0; 1; 2; 3; 4; 5]%nat plate_xs 2 (3 / 10) 1 shell_example_ok eq_refl eq_refl ltac:(lra))
    as (K5 & ne5 & k5 & K6 & ne6 & k6 & E5 & M5 & E6 & M6 & F). exists K5, ne5, k5, K6, ne6, k6. splits; auto.
  rewrite <- (form_entry 6 3 k6 2 14), <- (form_entry 5 3 k5 2 12) by (cbn; lia). change 3%nat with (length [0; 1; 2]%nat). rewrite F.
  unfold form. apply bigsum_ext. intros i Hi. apply bigsum_ext. intros j Hj. cbn [length] in Hi, Hj.
  assert (P : forall a b c, (b < 3)%nat -> (c < 5)%nat -> (a = 2 \/ a = 14)%nat -> projected sf_3Triangle (nodal [0; 1; 2]%nat plate_xs) (first_side [0; 1; 2]%nat plate_xs) (unitv 6 a) b c = unitv 5 (if (a =? 2)%nat then 2 else 12) b c).
  { intros a b c Hb Hc Ha. destruct b as [|[|[|b]]]; try lia; destruct c as [|[|[|[|[|c]]]]]; try lia; destruct Ha as [-> | ->]; unfold projected, dot3, unitv; cbn; ring. }
  rewrite !P; auto; try (apply Nat.mod_upper_bound; lia); try (apply Nat.div_lt_upper_bound; lia).
Qed.

(** Flat shells: if the nodes lie in the plane z = 0 and the rule over the thickness
    is exact to order 2, the matrix with six components is that of a Reissner-Mindlin
    plate with membrane stiffness: membrane energy times t, bending energy of the tilt
    (theta_y, - theta_x) times t^3 / 12, and shear energy 5/6 G t of the difference
    between the slope and the rotation, quadrature points of the surface rule only. *)
Theorem C98_flat_shell : forall s q0 q1 elem dou xs E v t,
  flat s q0 elem xs -> rule_ok 1 q1 -> thickness_rule q1 -> 0 < t -> 1 - v * v <> 0 -> length dou = 6%nat ->
  let x := nodal elem xs in
  exists K ne k, ShellLinearIsotropicElastic2 s q0 q1 elem dou xs E v t = Ok (K, ne) /\
    is_mat K (6 * length elem) (6 * length elem) k /\ numbered 6 (length elem) dou ne /\
    forall y z Hy Ky Hz Kz, gradients s q0 x 3 y Hy -> gradients s q0 x 2 (tilt y) Ky -> gradients s q0 x 3 z Hz -> gradients s q0 x 2 (tilt z) Kz ->
      form 6 (length elem) k y z = quad 2 q0 (fun p => jac s x p *
        plate_energy E v t (Hy p) (Ky p) (field_value s p (tilt y)) (Hz p) (Kz p) (field_value s p (tilt z))).
Proof. exact C98_flat_shell_pf. Qed.
Print Assumptions C98_flat_shell.

(** the triangle is flat and the rule of two points is exact enough *)
Example C98_flat_ex : flat sf_3Triangle Gauss1Triangle [0; 1; 2]%nat plate_xs /\ thickness_rule Gauss2Line.
Proof. split; [exact flat_plate|exact thickness2]. Qed.

(** Without deflection and rotation the flat shell is the plane stress element of
    the same thickness. *)
Theorem C98_flat_membrane : forall s q0 q1 elem dou dou2 xs E v t,
  flat s q0 elem xs -> rule_ok 1 q1 -> thickness_rule q1 -> 0 < t -> 1 - v * v <> 0 -> length dou = 6%nat -> length dou2 = 2%nat ->
  exists K ne k K2 ne2 k2,
    ShellLinearIsotropicElastic2 s q0 q1 elem dou xs E v t = Ok (K, ne) /\ is_mat K (6 * length elem) (6 * length elem) k /\
    PlaneStressStiffness s q0 elem dou2 xs E v t = Ok (K2, ne2) /\ is_mat K2 (2 * length elem) (2 * length elem) k2 /\
    forall y z, (forall i c, (i < length elem)%nat -> (2 <= c < 6)%nat -> y i c = 0) -> form 6 (length elem) k y z = form 2 (length elem) k2 y z.
Proof. exact C98_flat_membrane_pf. Qed.
Print Assumptions C98_flat_membrane.

(** the first entry of the two matrices of the triangle *)
Example C98_flat_membrane_ex : exists K ne k K2 ne2 k2,
  ShellLinearIsotropicElastic2 sf_3Triangle Gauss1Triangle Gauss2Line [0; 1; 2]%nat [0; 1; 2; 3; 4; 5]%nat plate_xs 2 (3 / 10) 1 = Ok (K, ne) /\ is_mat K 18 18 k /\
  PlaneStressStiffness sf_3Triangle Gauss1Triangle [0; 1; 2]%nat [0; 1]%nat plate_xs 2 (3 / 10) 1 = Ok (K2, ne2) /\ is_mat K2 6 6 k2 /\ k 0%nat 7%nat = k2 0%nat 3%nat.
Proof.
  destruct (C98_flat_membrane sf_3Triangle Gauss1Triangle Gauss2Line [0; 1; 2]%nat [0; 1; 2; 3; 4; 5]%nat [0; 1]%nat plate_xs 2 (3 / 10) 1 flat_plate ltac:(now apply list_rule) thickness2 ltac:(lra) ltac:(lra) eq_refl eq_refl)
    as (K & ne & k & K2 & ne2 & k2 & EK & MK & E2 & M2 & F). exists K, ne, k, K2, ne2, k2. splits; auto.
  rewrite <- (form_entry 6 3 k 0 7), <- (form_entry 2 3 k2 0 3) by (cbn; lia). transitivity (form 2 3 k2 (unitv 6 0) (unitv 6 7)).
  - apply F. intros i c Hi Hc. destruct i as [|[|[|i]]]; [| | |cbn in Hi; lia]; destruct c as [|[|[|[|[|[|c]]]]]]; try lia; reflexivity.
  - unfold form. apply bigsum_ext. intros i Hi. apply bigsum_ext. intros j Hj.
    assert (P : forall b c, (b < 3)%nat -> (c < 2)%nat -> unitv 6 0 b c = unitv 2 0 b c /\ unitv 6 7 b c = unitv 2 3 b c).
    { intros b c Hb Hc. destruct b as [|[|[|b]]]; try lia; destruct c as [|[|c]]; try lia; split; reflexivity. }
    destruct (P (i / 2)%nat (i mod 2)%nat) as [-> _]; [apply Nat.div_lt_upper_bound; lia|apply Nat.mod_upper_bound; lia|].
    destruct (P (j / 2)%nat (j mod 2)%nat) as [_ ->]; [apply Nat.div_lt_upper_bound; lia|apply Nat.mod_upper_bound; lia|]. reflexivity.
Qed.
