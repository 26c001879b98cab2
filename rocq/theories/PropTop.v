(** Property C108: the analysis of the topology optimisation samples. *)
From Coq Require Import List Arith Lia Bool Reals Lra.
From Verif Require Import Res SumR DenseModel DenseR DenseSpec ShapeModel QuadModel QuadSpec ElemModel ElemSpec SparseModel SparseSpec KrylovModel KrylovSpec AssemblyModel AssemblySpec PatchSpec StableSpec StableMain OCModel TopModel TopSpec TopMain.
Import ListNotations.
Local Open Scope R_scope.

(** C108, the analysis: for every admissible problem and design the analysis
    succeeds.  The field is zero at the fixed dofs; the forces it returns are
    those of the elements with the modulus E0 + (E1 - E0) rho^p, and at the
    other dofs they are the loads; the objective is the scaled work of the
    loads and not negative. *)
Theorem C108_analysis : forall solve d rho, spd_solver solve -> top_ok d -> design_ok d rho ->
  exists a es, top_analysis solve d rho = Ok a /\
    length es = length (tp_elements d) /\
    (forall i e el r, nth_error es i = Some e -> nth_error (tp_elements d) i = Some el -> nth_error rho i = Some r ->
       made_by (fun s q el => PlaneStrainStiffness s q el [0; 1]%nat (tp_x d) (simp d r) (tp_V d) (tp_t d)) (mkPiece (tp_s d) (tp_q d) el) e) /\
    (forall i j, (i < length (tp_x d))%nat -> (j < 2)%nat -> uval (an_r a) i j = internal_force es (an_u a) i j) /\
    (forall i j v, In (i, j, v) (tp_ufixed d) -> uval (an_u a) i j = 0) /\
    (forall i j, (i < length (tp_x d))%nat -> (j < 2)%nat -> (forall v, ~ In (i, j, v) (tp_ufixed d)) -> uval (an_r a) i j = nodal_load (tp_qfixed d) i j) /\
    an_f a = tp_scale0 d * load_work (tp_qfixed d) (an_u a) /\ (0 <= tp_scale0 d -> 0 <= an_f a) /\
    length (an_df a) = length (tp_elements d).
Proof. exact C108_analysis_pf. Qed.
Print Assumptions C108_analysis.

(** one square element of side 1, clamped on the left, pulled down at the corner *)
Definition cant_xs : list (list R) := [[0; 0]; [1; 0]; [1; 1]; [0; 1]].
Definition cant : top := mkTop cant_xs [[0; 1; 2; 3]%nat] [(0%nat, 0%nat, 0); (0%nat, 1%nat, 0); (3%nat, 0%nat, 0); (3%nat, 1%nat, 0)] [(1%nat, 1%nat, -1)]
  sf_4Square Gauss4Square (3 / 10) 1 (1 / 1000) 1 3 1 1 (1 / 2).
Example cant_ok : top_ok cant.
Proof.
  destruct (C106_rules_pf sf_4Square Gauss4Square ltac:(cbn; tauto)) as (PP & RK & WP).
  assert (J : forall r, jac sf_4Square (nodal [0; 1; 2; 3]%nat cant_xs) r = 1 / 4).
  { intros r. unfold jac, detd, det2, tangent, dshp, nodal, cant_xs, sf_4Square, dN_4Square. cbn [sf_d sf_n sf_dN bigsum nth]. lra. }
  split; cbn [cant tp_x tp_elements tp_ufixed tp_qfixed tp_s tp_q tp_V tp_t tp_E0 tp_E1]; try lra.
  - intros el [<-|[]]. split; [exact PP|]. cbn [p_shape p_rule p_nodes]. split.
    + unfold element_ok. split; [cbn; tauto|]. split; [reflexivity|]. split; [reflexivity|]. split; [intros k Hk; cbn in Hk; destruct Hk as [<-|[<-|[<-|[<-|[]]]]]; cbn; lia|]. split; [exact RK|]. intros g _. rewrite J. lra.
    + intros g Hg. rewrite J. split; [lra|now apply WP].
  - intros el k [<-|[]] Hk. cbn in Hk |- *. lia.
  - intros i j v H. cbn in H. destruct H as [H|[H|[H|[H|[]]]]]; injection H as <- <- <-; cbn; splits; lia || lra.
  - intros i j v H. cbn in H. destruct H as [H|[]]; injection H as <- <- <-; cbn; lia.
  - intros i j Hi Hj _. cbn in Hi. apply (held_elem _ _ _ _ [0; 1; 2; 3]%nat [0; 3]%nat); [now left|constructor; exists 1%nat; split; [lia|cbn; lra]|cbn; intros; lia| |cbn; lia].
    intros k Hk. apply held_base. intros c Hc. exists 0. cbn in Hk. destruct Hk as [<-|[<-|[]]], c as [|[|]]; cbn; tauto || lia.
Qed.
Example cant_design z : 0 < z -> design_ok cant [z].
Proof. intros H. split; [reflexivity|]. intros x [<-|[]]. exact H. Qed.
Example C108_analysis_ex solve : spd_solver solve -> exists a, top_analysis solve cant [1 / 2] = Ok a /\ uval (an_r a) 1 1 = -1 /\ uval (an_r a) 2 0 = 0 /\ uval (an_u a) 3 1 = 0 /\ an_f a = - uval (an_u a) 1 1 /\ 0 <= an_f a.
Proof.
  intros HS. destruct (C108_analysis solve cant [1 / 2] HS cant_ok (cant_design (1 / 2) ltac:(lra))) as (a & es & E & _ & _ & _ & Z & L & F & P & _). exists a. split; [exact E|]. split; [|split; [|split; [|split]]].
  - rewrite L; [unfold nodal_load, sum_over; cbn; lra|cbn; lia|lia|]. intros v H. cbn in H. destruct H as [H|[H|[H|[H|[]]]]]; discriminate.
  - rewrite L; [unfold nodal_load, sum_over; cbn; lra|cbn; lia|lia|]. intros v H. cbn in H. destruct H as [H|[H|[H|[H|[]]]]]; discriminate.
  - apply (Z 3%nat 1%nat 0). cbn. tauto.
  - rewrite F. unfold load_work, sum_over. cbn. ring.
  - apply P. cbn. lra.
Qed.

(** C108, balance: the forces that the analysis returns have no resultant and
    no moment, so the reactions at the fixed dofs balance the loads. *)
Theorem C108_balance : forall solve d rho a, spd_solver solve -> top_ok d -> design_ok d rho -> top_analysis solve d rho = Ok a ->
  let N := length (tp_x d) in let x := fun i c => nth c (nth i (tp_x d) []) 0 in
  bigsum N (fun i => uval (an_r a) i 0) = 0 /\ bigsum N (fun i => uval (an_r a) i 1) = 0 /\
  bigsum N (fun i => x i 0%nat * uval (an_r a) i 1 - x i 1%nat * uval (an_r a) i 0) = 0.
Proof. exact C108_balance_pf. Qed.
Print Assumptions C108_balance.

(** the clamp carries the load and its moment *)
Example C108_balance_ex solve a : spd_solver solve -> top_analysis solve cant [1 / 2] = Ok a ->
  uval (an_r a) 0 1 + uval (an_r a) 3 1 = 1 /\ uval (an_r a) 0 0 + uval (an_r a) 3 0 = 0 /\ uval (an_r a) 3 0 = -1.
Proof.
  intros HS E. destruct (C108_balance solve cant [1 / 2] a HS cant_ok (cant_design (1 / 2) ltac:(lra)) E) as (B0 & B1 & B2). cbn [bigsum nth cant cant_xs tp_x length] in B0, B1, B2.
  destruct (C108_analysis solve cant [1 / 2] HS cant_ok (cant_design (1 / 2) ltac:(lra))) as (a' & es & E' & _ & _ & _ & _ & L & _). rewrite E in E'. injection E' as <-.
  assert (F : forall i, (i = 1 \/ i = 2)%nat -> forall j v, ~ In (i, j, v) (tp_ufixed cant)).
  { intros i Hi j v H. cbn in H. destruct Hi as [-> | ->]; destruct H as [H|[H|[H|[H|[]]]]]; discriminate. }
  pose proof (L 1%nat 0%nat ltac:(cbn; lia) ltac:(lia) (F 1%nat ltac:(lia) 0%nat)) as L10. pose proof (L 1%nat 1%nat ltac:(cbn; lia) ltac:(lia) (F 1%nat ltac:(lia) 1%nat)) as L11.
  pose proof (L 2%nat 0%nat ltac:(cbn; lia) ltac:(lia) (F 2%nat ltac:(lia) 0%nat)) as L20. pose proof (L 2%nat 1%nat ltac:(cbn; lia) ltac:(lia) (F 2%nat ltac:(lia) 1%nat)) as L21.
  unfold nodal_load, sum_over in L10, L11, L20, L21. cbn [cant tp_qfixed map sumlist fold_right fst snd Nat.eqb andb ind] in L10, L11, L20, L21. splits; lra.
Qed.

(** C108, the sensitivities: along every differentiable path of designs the
    objective is differentiable and its derivative is the sum of the returned
    sensitivities times the rates of the densities. *)
Theorem C108_sensitivity : forall solve d (rho : R -> list R) (D : nat -> R) z r a, spd_solver solve -> top_ok d -> 0 < r ->
  (forall h, Rabs h < r -> design_ok d (rho (z + h))) ->
  (forall j, (j < length (tp_elements d))%nat -> derivable_pt_lim (fun y => nth j (rho y) 0) z (D j)) ->
  top_analysis solve d (rho z) = Ok a ->
  derivable_pt_lim (fun y => objective (top_analysis solve d (rho y))) z (bigsum (length (tp_elements d)) (fun j => nth j (an_df a) 0 * D j)).
Proof. exact C108_sensitivity_pf. Qed.
Print Assumptions C108_sensitivity.

Example C108_sensitivity_ex solve a : spd_solver solve -> top_analysis solve cant [1] = Ok a ->
  derivable_pt_lim (fun y => objective (top_analysis solve cant [y * y])) 1 (nth 0 (an_df a) 0 * 2).
Proof.
  intros HS E. replace (nth 0 (an_df a) 0 * 2) with (bigsum 1 (fun j => nth j (an_df a) 0 * 2)) by (cbn; ring).
  apply (C108_sensitivity solve cant (fun y => [y * y]) (fun _ => 2) 1 (1 / 2) a HS cant_ok ltac:(lra)).
  - intros h Hh. apply cant_design. apply Rabs_def2 in Hh. nra.
  - intros j Hj. assert (j = 0)%nat as -> by (cbn in Hj; lia). cbn [nth]. replace 2 with (1 * 1 + 1 * 1) by ring. apply (derivable_pt_lim_mult (fun y => y) (fun y => y)); apply derivable_pt_lim_id.
  - replace (1 * 1) with 1 by ring. exact E.
Qed.

(** C108, the gradient: entry i of the sensitivities is the partial derivative
    of the objective with respect to the density of element i. *)
Theorem C108_gradient : forall solve d rho i a, spd_solver solve -> top_ok d -> design_ok d rho -> (i < length rho)%nat -> top_analysis solve d rho = Ok a ->
  derivable_pt_lim (fun z => objective (top_analysis solve d (upd rho i z))) (nth i rho 0) (nth i (an_df a) 0).
Proof. exact C108_gradient_pf. Qed.
Print Assumptions C108_gradient.

Example C108_gradient_ex solve a : spd_solver solve -> top_analysis solve cant [1 / 2] = Ok a ->
  derivable_pt_lim (fun z => objective (top_analysis solve cant [z])) (1 / 2) (nth 0 (an_df a) 0).
Proof. intros HS E. exact (C108_gradient solve cant [1 / 2] 0 a HS cant_ok (cant_design (1 / 2) ltac:(lra)) ltac:(cbn; lia) E). Qed.

(** C108, more material: with a penalty exponent and a scale that are not
    negative, a design that is nowhere thinner does not raise the objective, and
    no sensitivity is positive. *)
Theorem C108_monotone : forall solve d rho rho' a a', spd_solver solve -> top_ok d -> design_ok d rho -> design_ok d rho' -> 0 <= tp_p d -> 0 <= tp_scale0 d ->
  (forall i, (i < length rho)%nat -> nth i rho 0 <= nth i rho' 0) -> top_analysis solve d rho = Ok a -> top_analysis solve d rho' = Ok a' ->
  an_f a' <= an_f a /\ forall x, In x (an_df a) -> x <= 0.
Proof. exact C108_monotone_pf. Qed.
Print Assumptions C108_monotone.

Example C108_monotone_ex solve a a' : spd_solver solve -> top_analysis solve cant [1 / 2] = Ok a -> top_analysis solve cant [1] = Ok a' -> an_f a' <= an_f a.
Proof.
  intros HS E E'. apply (C108_monotone solve cant [1 / 2] [1] a a' HS cant_ok (cant_design (1 / 2) ltac:(lra)) (cant_design 1 ltac:(lra))); try (cbn; lra); auto.
  intros i Hi. assert (i = 0)%nat as -> by (cbn in Hi; lia). cbn. lra.
Qed.

(** C108, the solver: conjugate gradients, run until the residual is zero,
    solves every system with a symmetric positive definite matrix. *)
Theorem C108_solver : spd_solver cg_exact.
Proof. exact C108_solver_pf. Qed.
Print Assumptions C108_solver.

Example C108_solver_ex : exists a, top_analysis cg_exact cant [1 / 2] = Ok a.
Proof. destruct (C108_analysis cg_exact cant [1 / 2] C108_solver cant_ok (cant_design (1 / 2) ltac:(lra))) as (a & es & E & _). now exists a. Qed.

(** C108, the weight: the value is scale * (mean density / limit - 1) and the
    sensitivities are its partial derivatives, so the weight is at most zero
    exactly when the mean density is at most the limit. *)
Theorem C108_weight : forall d rho, length rho = length (tp_elements d) -> tp_elements d <> [] -> tp_limit d <> 0 ->
  exists g dg, top_weight d rho = Ok (g, dg) /\
    g = tp_scale1 d * (bigsum (length rho) (fun i => nth i rho 0) / INR (length rho) / tp_limit d - 1) /\
    length dg = length rho /\ (forall i, (i < length rho)%nat -> nth i dg 0 = tp_scale1 d / (tp_limit d * INR (length rho))) /\
    (forall rho' g' dg', length rho' = length rho -> top_weight d rho' = Ok (g', dg') -> g' - g = bigsum (length rho) (fun i => nth i dg 0 * (nth i rho' 0 - nth i rho 0))) /\
    (0 < tp_scale1 d -> 0 < tp_limit d -> (g <= 0 <-> bigsum (length rho) (fun i => nth i rho 0) / INR (length rho) <= tp_limit d)).
Proof. exact C108_weight_pf. Qed.
Print Assumptions C108_weight.

(** half of the material is the limit *)
Example C108_weight_ex : exists dg, top_weight cant [1 / 2] = Ok (0, dg).
Proof.
  destruct (C108_weight cant [1 / 2] eq_refl ltac:(discriminate) ltac:(cbn; lra)) as (g & dg & E & -> & _). exists dg. rewrite E. f_equal. f_equal. cbn. field.
Qed.
