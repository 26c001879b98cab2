(** Property C84: homogenization of a unit cell. *)
From Coq Require Import List Arith Lia Bool Reals Lra.
From Verif Require Import Res SumR DenseModel DenseR DenseSpec ShapeModel QuadModel QuadSpec ElemModel ElemSpec HomSpec PropElem HomMain.
Import ListNotations.
Local Open Scope R_scope.

(** C84: column c of the body force does on a displacement the work of the stress
    of the unit strain c, and is the stiffness matrix applied to any nodal field
    of that homogeneous strain *)
Theorem C84_body_force : forall s q elem dou xs E V t, element_ok 2 s q elem xs -> length dou = 2%nat -> (1 - 2 * V) * (1 + V) <> 0 ->
  exists F ne f, HomogenizePlaneStrainBodyForce s q elem dou xs E V t = Ok (F, ne) /\
    is_mat F (2 * length elem) 3 f /\ numbered 2 (length elem) dou ne /\
    (forall c y Hy, (c < 3)%nat -> gradients s q (nodal elem xs) 2 y Hy ->
       bigsum (2 * length elem) (fun a => f a c * y (a / 2)%nat (a mod 2)%nat) =
       quad 2 q (fun p => jac s (nodal elem xs) p * (t * hooke 2 (lame_lambda E V) (lame_mu E V) (unit_strain c) (strain (Hy p))))) /\
    (forall K ne' k c z, PlaneStrainStiffness s q elem dou xs E V t = Ok (K, ne') -> is_mat K (2 * length elem) (2 * length elem) k ->
       (c < 3)%nat -> homogeneous (length elem) (nodal elem xs) c z ->
       ne' = ne /\ forall a, (a < 2 * length elem)%nat -> f a c = apply_field 2 (length elem) k z a).
Proof. exact C84_body_force_pf. Qed.
Print Assumptions C84_body_force.

(** the triangle of area 1, thickness 3, stretched along x: the column for e00 *)
Example C84_body_force_ex : exists F ne f, HomogenizePlaneStrainBodyForce sf_3Triangle Gauss1Triangle [2; 0; 1]%nat [0; 1]%nat tri_xs 1 0 3 = Ok (F, ne) /\
  is_mat F 6 3 f /\
  forall y, (forall i, (i < 3)%nat -> y i 0%nat = nodal [2; 0; 1]%nat tri_xs i 0 /\ y i 1%nat = 0) ->
    bigsum 6 (fun a => f a 0%nat * y (a / 2)%nat (a mod 2)%nat) = 3.
Proof.
  destruct (C84_body_force _ _ _ [0; 1]%nat _ 1 0 3 tri_ok eq_refl ltac:(lra)) as (F & ne & f & E & Hf & _ & HW & _).
  exists F, ne, f. repeat split; auto; try apply Hf. intros y Hy.
  assert (G : gradients sf_3Triangle Gauss1Triangle (nodal [2; 0; 1]%nat tri_xs) 2 y (fun _ l c => if (l + c =? 0)%nat then 1 else 0)).
  { intros g _ k0 c Hk0 Hc. cbn in Hk0. destruct (Hy 0 ltac:(lia))%nat as [A0 B0]. destruct (Hy 1 ltac:(lia))%nat as [A1 B1]. destruct (Hy 2 ltac:(lia))%nat as [A2 B2].
    unfold tangent, dshp, nodal, tri_xs, sf_3Triangle, dN_3Triangle in *. cbn [sf_d sf_n sf_dN bigsum nth] in *.
    destruct k0 as [|[|k0]]; try lia; destruct c as [|[|c]]; try lia; cbn [nth Nat.add Nat.eqb]; rewrite ?A0, ?A1, ?A2, ?B0, ?B1, ?B2; lra. }
  refine (eq_trans (HW 0%nat y _ ltac:(lia) G) _).
  unfold quad, hooke, trace, ddot, strain, unit_strain, lame_lambda, lame_mu, Gauss1Triangle, wprod, jac, detd, det2, tangent, dshp, nodal, tri_xs, sf_3Triangle, dN_3Triangle.
  cbn [q_n q_points q_weights sf_d sf_n sf_dN bigsum nth Nat.add Nat.eqb andb].
  pose proof (sqrt_lt_R0 2 ltac:(lra)). pose proof (sqrt_def 2 ltac:(lra)) as S.
  field_simplify; [|lra]. replace (sqrt 2 ^ 2) with 2 by (cbn; lra). field.
Qed.

(** C84: entry (r, c) of the constitutive matrix is the work on the unit strain r
    of the stress of the unit strain c less the strain of chi_c *)
Theorem C84_constitutive : forall s q elem xs E V t chi0 chi1 chi2, element_ok 2 s q elem xs ->
  nodes_ok 2 elem chi0 -> nodes_ok 2 elem chi1 -> nodes_ok 2 elem chi2 -> (1 - 2 * V) * (1 + V) <> 0 ->
  exists C ch, HomogenizePlaneStrainConstitutive s q xs elem chi0 chi1 chi2 E V t = Ok C /\ is_mat C 3 3 ch /\
    forall r c H, (r < 3)%nat -> (c < 3)%nat -> gradients s q (nodal elem xs) 2 (chi_of elem chi0 chi1 chi2 c) H ->
      ch r c = quad 2 q (fun p => jac s (nodal elem xs) p * (t * hooke 2 (lame_lambda E V) (lame_mu E V)
        (unit_strain r) (fun l k => unit_strain c l k - strain (H p) l k))).
Proof. exact C84_constitutive_pf. Qed.
Print Assumptions C84_constitutive.

(** C84: entry (r, c) of the check matrix is minus the integral of engineering
    strain component r of chi_c *)
Theorem C84_check : forall s q elem xs t chi0 chi1 chi2, element_ok 2 s q elem xs ->
  nodes_ok 2 elem chi0 -> nodes_ok 2 elem chi1 -> nodes_ok 2 elem chi2 ->
  exists C ch, HomogenizePlaneStrainCheck s q xs elem chi0 chi1 chi2 t = Ok C /\ is_mat C 3 3 ch /\
    forall r c H, (r < 3)%nat -> (c < 3)%nat -> gradients s q (nodal elem xs) 2 (chi_of elem chi0 chi1 chi2 c) H ->
      ch r c = - quad 2 q (fun p => jac s (nodal elem xs) p * (t * eng (H p) r)).
Proof. exact C84_check_pf. Qed.
Print Assumptions C84_check.

(** C84: where chi_c is a rigid motion the matrix is thickness times area times the
    material's own matrix, and where chi_c carries the whole unit strain it is zero
    while the check matrix is minus the volume on its diagonal *)
Theorem C84_uniform : forall s q elem xs E V t chi0 chi1 chi2, element_ok 2 s q elem xs ->
  nodes_ok 2 elem chi0 -> nodes_ok 2 elem chi1 -> nodes_ok 2 elem chi2 -> (1 - 2 * V) * (1 + V) <> 0 ->
  exists C ch B bh, HomogenizePlaneStrainConstitutive s q xs elem chi0 chi1 chi2 E V t = Ok C /\ is_mat C 3 3 ch /\
    HomogenizePlaneStrainCheck s q xs elem chi0 chi1 chi2 t = Ok B /\ is_mat B 3 3 bh /\
    forall r c, (r < 3)%nat -> (c < 3)%nat ->
      (rigid_motion 2 (length elem) (nodal elem xs) (chi_of elem chi0 chi1 chi2 c) ->
         ch r c = t * quad 2 q (fun p => jac s (nodal elem xs) p) * hooke 2 (lame_lambda E V) (lame_mu E V) (unit_strain r) (unit_strain c) /\ bh r c = 0) /\
      (homogeneous (length elem) (nodal elem xs) c (chi_of elem chi0 chi1 chi2 c) ->
         ch r c = 0 /\ bh r c = if (r =? c)%nat then - (t * quad 2 q (fun p => jac s (nodal elem xs) p)) else 0).
Proof. exact C84_uniform_pf. Qed.
Print Assumptions C84_uniform.

Definition chi_zero : list (list R) := [[0; 0]; [0; 0]; [0; 0]].
Lemma chi_zero_ok : nodes_ok 2 [2; 0; 1]%nat chi_zero.
Proof. intros e [<-|[<-|[<-|[]]]]; cbn; lia. Qed.
Lemma chi_zero_rigid c : rigid_motion 2 3 (nodal [2; 0; 1]%nat tri_xs) (chi_of [2; 0; 1]%nat chi_zero chi_zero chi_zero c).
Proof.
  exists (fun _ => 0), (fun _ _ => 0). split; [intros; lra|]. intros i k Hi Hk. cbn [bigsum]. unfold chi_of, nodal, chi_zero.
  destruct c as [|[|c]]; destruct i as [|[|[|i]]]; try lia; destruct k as [|[|k]]; try lia; cbn; lra.
Qed.
Lemma tri_area : quad 2 Gauss1Triangle (fun p => jac sf_3Triangle (nodal [2; 0; 1]%nat tri_xs) p) = 1.
Proof.
  unfold quad, Gauss1Triangle, wprod, jac, detd, det2, tangent, dshp, nodal, tri_xs, sf_3Triangle, dN_3Triangle.
  cbn [q_n q_points q_weights sf_d sf_n sf_dN bigsum nth].
  pose proof (sqrt_lt_R0 2 ltac:(lra)). pose proof (sqrt_def 2 ltac:(lra)) as S.
  field_simplify; [|lra]. replace (sqrt 2 ^ 2) with 2 by (cbn; lra). field.
Qed.
(** chi = 0: D itself times thickness 3 and area 1 *)
Example C84_uniform_ex : exists C ch, HomogenizePlaneStrainConstitutive sf_3Triangle Gauss1Triangle tri_xs [2; 0; 1]%nat chi_zero chi_zero chi_zero 1 0 3 = Ok C /\
  is_mat C 3 3 ch /\ ch 0%nat 0%nat = 3 /\ ch 0%nat 1%nat = 0 /\ ch 2%nat 2%nat = 3 / 2.
Proof.
  destruct (C84_uniform _ _ _ _ 1 0 3 _ _ _ tri_ok chi_zero_ok chi_zero_ok chi_zero_ok ltac:(lra)) as (C & ch & B & bh & E & Hc & _ & _ & HU).
  exists C, ch. split; [exact E|]. split; [exact Hc|]. repeat split;
    [ rewrite (proj1 (proj1 (HU 0%nat 0%nat ltac:(lia) ltac:(lia)) (chi_zero_rigid _)))
    | rewrite (proj1 (proj1 (HU 0%nat 1%nat ltac:(lia) ltac:(lia)) (chi_zero_rigid _)))
    | rewrite (proj1 (proj1 (HU 2%nat 2%nat ltac:(lia) ltac:(lia)) (chi_zero_rigid _))) ];
    rewrite tri_area; unfold hooke, trace, ddot, unit_strain, lame_lambda, lame_mu; cbn [bigsum Nat.eqb andb]; field.
Qed.

(** C84: up to the work of chi_r on the residual of the cell equations K chi = F,
    the constitutive matrix is the elastic energy of the strains e - eps(chi) *)
Theorem C84_energy : forall s q elem dou xs E V t chi0 chi1 chi2, element_ok 2 s q elem xs -> length dou = 2%nat ->
  nodes_ok 2 elem chi0 -> nodes_ok 2 elem chi1 -> nodes_ok 2 elem chi2 -> (1 - 2 * V) * (1 + V) <> 0 ->
  forall C ch F ne f K ne' k,
    HomogenizePlaneStrainConstitutive s q xs elem chi0 chi1 chi2 E V t = Ok C -> is_mat C 3 3 ch ->
    HomogenizePlaneStrainBodyForce s q elem dou xs E V t = Ok (F, ne) -> is_mat F (2 * length elem) 3 f ->
    PlaneStrainStiffness s q elem dou xs E V t = Ok (K, ne') -> is_mat K (2 * length elem) (2 * length elem) k ->
    forall r c Hr Hc, (r < 3)%nat -> (c < 3)%nat ->
      gradients s q (nodal elem xs) 2 (chi_of elem chi0 chi1 chi2 r) Hr -> gradients s q (nodal elem xs) 2 (chi_of elem chi0 chi1 chi2 c) Hc ->
      ch r c = quad 2 q (fun p => jac s (nodal elem xs) p * (t * hooke 2 (lame_lambda E V) (lame_mu E V)
          (fun l j => unit_strain r l j - strain (Hr p) l j) (fun l j => unit_strain c l j - strain (Hc p) l j)))
        + residual_work (length elem) f k (chi_of elem chi0 chi1 chi2) r c.
Proof. exact C84_energy_pf. Qed.
Print Assumptions C84_energy.

(** C84: if the assembled characteristic displacements solve the cell equations,
    tested with themselves, the homogenized matrix summed over the elements is
    symmetric and positive semidefinite *)
Theorem C84_effective : forall (m : nat) (el : nat -> cell_element) dou xs chi0 chi1 chi2 (C F K : nat -> mat R) (ch f k : nat -> nat -> nat -> R) ne ne',
  (forall e, (e < m)%nat -> let ce := el e in
     element_ok 2 (ce_s ce) (ce_q ce) (ce_elem ce) xs /\ positive_rule 2 (ce_s ce) (ce_q ce) (nodal (ce_elem ce) xs) /\
     nodes_ok 2 (ce_elem ce) chi0 /\ nodes_ok 2 (ce_elem ce) chi1 /\ nodes_ok 2 (ce_elem ce) chi2 /\
     0 <= ce_E ce /\ -1 < ce_V ce < 1 / 2 /\ 0 <= ce_t ce /\
     HomogenizePlaneStrainConstitutive (ce_s ce) (ce_q ce) xs (ce_elem ce) chi0 chi1 chi2 (ce_E ce) (ce_V ce) (ce_t ce) = Ok (C e) /\ is_mat (C e) 3 3 (ch e) /\
     HomogenizePlaneStrainBodyForce (ce_s ce) (ce_q ce) (ce_elem ce) dou xs (ce_E ce) (ce_V ce) (ce_t ce) = Ok (F e, ne e) /\ is_mat (F e) (2 * length (ce_elem ce)) 3 (f e) /\
     PlaneStrainStiffness (ce_s ce) (ce_q ce) (ce_elem ce) dou xs (ce_E ce) (ce_V ce) (ce_t ce) = Ok (K e, ne' e) /\
     is_mat (K e) (2 * length (ce_elem ce)) (2 * length (ce_elem ce)) (k e)) ->
  length dou = 2%nat ->
  (forall r c, (r < 3)%nat -> (c < 3)%nat ->
     bigsum m (fun e => residual_work (length (ce_elem (el e))) (f e) (k e) (chi_of (ce_elem (el e)) chi0 chi1 chi2) r c) = 0) ->
  (forall r c, (r < 3)%nat -> (c < 3)%nat -> bigsum m (fun e => ch e r c) = bigsum m (fun e => ch e c r)) /\
  (forall v : nat -> R, 0 <= bigsum 3 (fun r => bigsum 3 (fun c => v r * bigsum m (fun e => ch e r c) * v c))).
Proof. exact C84_effective_pf. Qed.
Print Assumptions C84_effective.

(** one element with chi = 0, which does no work on any residual *)
Example C84_effective_ex : exists C ch, HomogenizePlaneStrainConstitutive sf_3Triangle Gauss1Triangle tri_xs [2; 0; 1]%nat chi_zero chi_zero chi_zero 2 (1 / 4) 3 = Ok C /\
  is_mat C 3 3 ch /\ ch 0%nat 1%nat = ch 1%nat 0%nat /\
  forall v : nat -> R, 0 <= bigsum 3 (fun r => bigsum 3 (fun c => v r * (0 + ch r c) * v c)).
Proof.
  destruct (C84_constitutive _ _ _ _ 2 (1 / 4) 3 _ _ _ tri_ok chi_zero_ok chi_zero_ok chi_zero_ok ltac:(lra)) as (C & ch & E & Hc & _).
  destruct (C84_body_force _ _ _ [0; 1]%nat _ 2 (1 / 4) 3 tri_ok eq_refl ltac:(lra)) as (F & ne & f & EF & Hf & _).
  destruct (proj1 (C59_plane _ _ _ [0; 1]%nat _ 2 (1 / 4) 3 tri_ok eq_refl) ltac:(lra)) as (K & ne' & k & EK & Hk & _).
  exists C, ch. split; [exact E|]. split; [exact Hc|].
  destruct (C84_effective 1 (fun _ => CellElement sf_3Triangle Gauss1Triangle [2; 0; 1]%nat 2 (1 / 4) 3) [0; 1]%nat tri_xs chi_zero chi_zero chi_zero
    (fun _ => C) (fun _ => F) (fun _ => K) (fun _ => ch) (fun _ => f) (fun _ => k) (fun _ => ne) (fun _ => ne')) as [HS HP].
  - intros e _. cbn [ce_s ce_q ce_elem ce_E ce_V ce_t]. split; [exact tri_ok|].
    assert (HP : positive_rule 2 sf_3Triangle Gauss1Triangle (nodal [2; 0; 1]%nat tri_xs)); [|repeat (split; [first [exact HP|exact chi_zero_ok|lra|eassumption]|]); exact Hk].
    intros g Hg. cbn in Hg. replace g with O by lia.
    unfold Gauss1Triangle, wprod, jac, detd, det2, tangent, dshp, nodal, tri_xs, sf_3Triangle, dN_3Triangle. cbn [q_n q_points q_weights sf_d sf_n sf_dN bigsum nth].
    split; [lra|]. pose proof (sqrt_lt_R0 2 ltac:(lra)) as S. assert (0 < 1 / sqrt 2) by (apply Rdiv_lt_0_compat; lra). nra.
  - reflexivity.
  - intros r c Hr _. cbn [bigsum ce_elem]. rewrite Rplus_0_l. unfold residual_work. apply bigsum_zero. intros a Ha.
    destruct (chi_zero_rigid r) as (t & W & _ & HR).
    replace (chi_of [2; 0; 1]%nat chi_zero chi_zero chi_zero r (a / 2)%nat (a mod 2)%nat) with 0; [ring|].
    unfold chi_of, nodal, chi_zero. cbn in Ha.
    destruct r as [|[|r]]; do 6 (destruct a as [|a]; [reflexivity|]); lia.
  - split; [|exact HP]. pose proof (HS 0%nat 1%nat ltac:(lia) ltac:(lia)) as A. cbn [bigsum] in A. lra.
Qed.
