(** Properties C40, C41 and C61-C67: flow elements. *)
From Coq Require Import List Arith Lia Bool Reals Lra.
From Verif Require Import Res SumR DenseModel DenseR DenseSpec ShapeModel QuadModel QuadSpec ElemModel ElemSpec FlowModel FlowSpec FlowMain.
Import ListNotations.
Local Open Scope R_scope.

(** C41: the form of StokesStiffness is the Stokes weak form plus an extra viscous term; the off-diagonal viscous blocks are exchanged *)
Theorem C41_form : forall su sg q elemu elemp dou xs mu, mixed_ok su sg q elemu elemp dou xs ->
  flow_of su sg q elemu elemp dou xs (StokesStiffness su sg q elemu elemp dou xs mu) (fun _ Y Z =>
    viscous mu Y Z - sp Z * dvg Y - sp Y * dvg Z
    + mu * (vgrad Y 0 0 * vgrad Z 1 1 + vgrad Y 1 1 * vgrad Z 0 0 - vgrad Y 1 0 * vgrad Z 0 1 - vgrad Y 0 1 * vgrad Z 1 0)).
Proof. exact C41_form_pf. Qed.
Print Assumptions C41_form.

(** C41: StokesStiffness is symmetric and annihilates rigid translations *)
Theorem C41_symmetric : forall su sg q elemu elemp dou xs mu, mixed_ok su sg q elemu elemp dou xs ->
  let N := (2 * length elemu + length elemp)%nat in
  exists K nu np k, StokesStiffness su sg q elemu elemp dou xs mu = Ok (K, nu, np) /\ is_mat K N N k /\
    (forall a b, (a < N)%nat -> (b < N)%nat -> k a b = k b a) /\
    (forall v a, (a < N)%nat -> applyv N k (dofs (length elemu) (fun _ c => v c) (fun _ => 0)) a = 0).
Proof. exact C41_symmetric_pf. Qed.
Print Assumptions C41_symmetric.

(** C41: on every element of nonzero area and with nonzero viscosity a rigid rotation produces a viscous force *)
Theorem C41_rotation_force : forall su sg q elemu elemp dou xs mu, mixed_ok su sg q elemu elemp dou xs -> compatible su sg q elemu elemp xs ->
  mu <> 0 -> quad 2 q (jac sg (nodal elemp xs)) <> 0 -> forall w, w <> 0 ->
  let N := (2 * length elemu + length elemp)%nat in
  exists K nu np k a, StokesStiffness su sg q elemu elemp dou xs mu = Ok (K, nu, np) /\ is_mat K N N k /\ (a < N)%nat /\
    applyv N k (rigid_velocity elemu elemp xs (fun _ => 0) w) a <> 0.
Proof. exact C41_rotation_force_pf. Qed.
Print Assumptions C41_rotation_force.

(** C41 as stated is false: the triangle (0,0), (2,0), (0,1) with mu = 1 and unit angular velocity *)
Theorem C41_refuted : exists su sg q elemu elemp dou xs mu w K nu np k a, mixed_ok su sg q elemu elemp dou xs /\ compatible su sg q elemu elemp xs /\
  StokesStiffness su sg q elemu elemp dou xs mu = Ok (K, nu, np) /\
  is_mat K (2 * length elemu + length elemp) (2 * length elemu + length elemp) k /\ (a < 2 * length elemu + length elemp)%nat /\
  applyv (2 * length elemu + length elemp) k (rigid_velocity elemu elemp xs (fun _ => 0) w) a <> 0.
Proof. exact C41_refuted_pf. Qed.
Print Assumptions C41_refuted.

(** C40: the returned vector is minus the weak form of the steady Navier-Stokes equations; the returned matrix is its derivative plus a spurious viscous term *)
Theorem C40_forms : forall su sg q elemu elemp dou xs ups rho mu, mixed_ok su sg q elemu elemp dou xs ->
  nodes_ok 2 elemu ups -> nodes_ok 3 elemp ups ->
  let m := length elemu in let n := length elemp in let N := (2 * m + n)%nat in let x := nodal elemp xs in
  exists K F nu np k f, NavierStokesTangent su sg q elemu elemp dou xs ups rho mu = Ok (K, F, nu, np) /\
    is_mat K N N k /\ is_vec F N f /\ numbered_u m dou nu /\ numbered_p m n dou np /\
    forall y z S Y Z, flow_at su sg q x m (up_dofs elemu elemp ups) S -> flow_at su sg q x m y Y -> flow_at su sg q x m z Z ->
      mform N k y z = quad 2 q (fun p => jac sg x p * (ns_tangent rho mu (S p) (Y p) (Z p)
        + mu * (vgrad (Y p) 1 0 * (vgrad (Z p) 0 0 - vgrad (Z p) 0 1) + vgrad (Y p) 0 1 * (vgrad (Z p) 1 1 - vgrad (Z p) 1 0)))) /\
      bigsum N (fun a => f a * y a) = - quad 2 q (fun p => jac sg x p * ns_work rho mu (S p) (Y p)).
Proof. exact C40_forms_pf. Qed.
Print Assumptions C40_forms.

(** C40: the true derivative of the returned residual along every line of states *)
Theorem C40_derivative : forall su sg q elemu elemp dou xs ups rho mu z y S Y Z, mixed_ok su sg q elemu elemp dou xs -> moved_flow elemu elemp ups z ->
  let m := length elemu in let N := (2 * m + length elemp)%nat in let x := nodal elemp xs in
  flow_at su sg q x m (up_dofs elemu elemp (ups 0)) S -> flow_at su sg q x m y Y -> flow_at su sg q x m z Z ->
  derivable_pt_lim (fun e => bigsum N (fun a => nth a (flow_residual (NavierStokesTangent su sg q elemu elemp dou xs (ups e) rho mu)) 0 * y a)) 0
    (- quad 2 q (fun p => jac sg x p * ns_tangent rho mu (S p) (Y p) (Z p))).
Proof. exact C40_derivative_pf. Qed.
Print Assumptions C40_derivative.

(** C40 for zero viscosity: the matrix is minus the derivative of the residual. The full statement, for every mu, is false: C40_refuted *)
Theorem C40_inviscid_partial : forall su sg q elemu elemp dou xs ups rho z, mixed_ok su sg q elemu elemp dou xs -> moved_flow elemu elemp ups z ->
  let N := (2 * length elemu + length elemp)%nat in
  exists K F nu np k, NavierStokesTangent su sg q elemu elemp dou xs (ups 0) rho 0 = Ok (K, F, nu, np) /\ is_mat K N N k /\
    forall a, (a < N)%nat ->
      derivable_pt_lim (fun e => nth a (flow_residual (NavierStokesTangent su sg q elemu elemp dou xs (ups e) rho 0)) 0) 0 (- applyv N k z a).
Proof. exact C40_inviscid_partial_pf. Qed.
Print Assumptions C40_inviscid_partial.

(** C40 as stated is false: for positive viscosity the matrix is not the derivative of the residual, on the triangle with a stretching flow *)
Theorem C40_refuted : exists su sg q elemu elemp dou xs ups rho mu z K F nu np k a, mixed_ok su sg q elemu elemp dou xs /\ compatible su sg q elemu elemp xs /\
  moved_flow elemu elemp ups z /\ 0 < mu /\
  NavierStokesTangent su sg q elemu elemp dou xs (ups 0) rho mu = Ok (K, F, nu, np) /\
  is_mat K (2 * length elemu + length elemp) (2 * length elemu + length elemp) k /\ (a < 2 * length elemu + length elemp)%nat /\
  ~ derivable_pt_lim (fun e => nth a (flow_residual (NavierStokesTangent su sg q elemu elemp dou xs (ups e) rho mu)) 0) 0
      (- applyv (2 * length elemu + length elemp) k z a).
Proof. exact C40_refuted_pf. Qed.
Print Assumptions C40_refuted.

(** C61: NavierStokesStiffness is convection by the given velocity plus the symmetric viscous form *)
Theorem C61_form : forall su sg q elemu elemp dou xs us rho mu, mixed_ok su sg q elemu elemp dou xs -> nodes_ok 2 elemu us ->
  flow_of su sg q elemu elemp dou xs (NavierStokesStiffness su sg q elemu elemp dou xs us rho mu) (fun p Y Z =>
    rho * dot2 (val Y) (convect (speed su elemu us p) Z) + viscous mu Y Z).
Proof. exact C61_form_pf. Qed.
Print Assumptions C61_form.

(** C61: its viscous part is symmetric, annihilates every rigid body velocity and is positive semi-definite *)
Theorem C61_viscous : forall su sg q elemu elemp dou xs us mu, mixed_ok su sg q elemu elemp dou xs -> nodes_ok 2 elemu us ->
  let N := (2 * length elemu + length elemp)%nat in
  exists K nu np k, NavierStokesStiffness su sg q elemu elemp dou xs us 0 mu = Ok (K, nu, np) /\ is_mat K N N k /\
    (forall a b, (a < N)%nat -> (b < N)%nat -> k a b = k b a) /\
    (compatible su sg q elemu elemp xs -> forall v w a, (a < N)%nat -> applyv N k (rigid_velocity elemu elemp xs v w) a = 0) /\
    (0 <= mu -> (forall g, (g < q_n q)%nat -> 0 <= wprod 2 (nth g (q_weights q) []) * jac sg (nodal elemp xs) (pt q g)) -> forall y, 0 <= mform N k y y).
Proof. exact C61_viscous_pf. Qed.
Print Assumptions C61_viscous.

(** the shear flow u = (y, 0) on the triangle (0,0), (2,0), (0,1) of area 1 dissipates mu *)
Example C61_ex : exists K nu np k, NavierStokesStiffness sf_3Triangle sf_3Triangle Gauss1Triangle [2; 0; 1]%nat [2; 0; 1]%nat [0; 1; 2]%nat tri3 tri3 0 7 = Ok (K, nu, np) /\
  is_mat K 9 9 k /\ mform 9 k (fun a => nth a [0; 0; 1; 0; 0; 0; 0; 0; 0] 0) (fun a => nth a [0; 0; 1; 0; 0; 0; 0; 0; 0] 0) = 7.
Proof.
  destruct (C61_form _ _ _ _ _ _ _ tri3 0 7 (tri_mixed [0; 1; 2]%nat eq_refl)) as (K & nu & np & k & E & Hk & _ & _ & HF).
  { intros e He. cbn in He. decompose [or] He; subst; cbn; try lia; contradiction. }
  exists K, nu, np, k. splits; auto.
  assert (HY : flow_at sf_3Triangle sf_3Triangle Gauss1Triangle (nodal [2; 0; 1]%nat tri3) 3 (fun a => nth a [0; 0; 1; 0; 0; 0; 0; 0; 0] 0) (fun _ => mkS (1/3) 0 0 0 1 0 0 0 0)).
  { intros g Hg. cbn in Hg. replace g with O by lia. split; split.
    - intros c Hc. destruct c as [|[|c]]; [| |lia]; cbn; field.
    - intros j c Hj Hc. destruct j as [|[|j]]; [| |lia]; (destruct c as [|[|c]]; [| |lia]); cbn; field.
    - cbn. field.
    - intros j c Hj Hc. destruct j as [|[|j]]; [| |lia]; (destruct c as [|c]; [|lia]); cbn; field. }
  cbn [length Nat.mul Nat.add] in HF. rewrite (HF _ _ _ _ HY HY).
  apply tri_const. intros. unfold viscous, ddot, strain. cbn [bigsum vgrad sH00 sH01 sH10 sH11]. field.
Qed.

(** C62: the residual of NavierStokesTangent is minus the Picard system (NavierStokesStiffness with the current velocity plus ContinuityStiffness) applied to the current state *)
Theorem C62_residual : forall su sg q elemu elemp dou xs ups rho mu, mixed_ok su sg q elemu elemp dou xs ->
  nodes_ok 2 elemu ups -> nodes_ok 3 elemp ups ->
  let N := (2 * length elemu + length elemp)%nat in
  exists K F nu np Kv Kc kv kc, NavierStokesTangent su sg q elemu elemp dou xs ups rho mu = Ok (K, F, nu, np) /\
    NavierStokesStiffness su sg q elemu elemp dou xs ups rho mu = Ok (Kv, nu, np) /\
    ContinuityStiffness su sg q elemu elemp dou xs = Ok (Kc, nu, np) /\ is_mat Kv N N kv /\ is_mat Kc N N kc /\ length F = N /\
    forall a, (a < N)%nat -> nth a F 0 = - (applyv N kv (up_dofs elemu elemp ups) a + applyv N kc (up_dofs elemu elemp ups) a).
Proof. exact C62_residual_pf. Qed.
Print Assumptions C62_residual.

(** C63: the adjoint matrix is the transpose of the exact derivative of the residual, with the sign of the pressure unknowns and equations changed *)
Theorem C63_adjoint : forall su sg q elemu elemp dou xs ups rho mu, mixed_ok su sg q elemu elemp dou xs ->
  nodes_ok 2 elemu ups -> nodes_ok 3 elemp ups ->
  let m := length elemu in let n := length elemp in let N := (2 * m + n)%nat in let x := nodal elemp xs in
  exists K nu np k, NavierStokesAdjoint su sg q elemu elemp dou xs ups rho mu = Ok (K, nu, np) /\ is_mat K N N k /\
    numbered_u m dou nu /\ numbered_p m n dou np /\
    (forall y z S Y Z, flow_at su sg q x m (up_dofs elemu elemp ups) S -> flow_at su sg q x m y Y -> flow_at su sg q x m z Z ->
      mform N k y z = quad 2 q (fun p => jac sg x p * ns_tangent rho mu (S p) (flip (Z p)) (flip (Y p)))) /\
    (forall y z line, moved_flow elemu elemp line (flipv m y) -> line 0 = ups ->
      derivable_pt_lim (fun e => bigsum N (fun a => nth a (flow_residual (NavierStokesTangent su sg q elemu elemp dou xs (line e) rho mu)) 0 * flipv m z a)) 0
        (- mform N k y z)).
Proof. exact C63_adjoint_pf. Qed.
Print Assumptions C63_adjoint.

(** C64: ContinuityStiffness is skew: it does no work on any flow, and a uniform velocity satisfies it *)
Theorem C64_continuity : forall su sg q elemu elemp dou xs, mixed_ok su sg q elemu elemp dou xs ->
  let m := length elemu in let N := (2 * m + length elemp)%nat in
  flow_of su sg q elemu elemp dou xs (ContinuityStiffness su sg q elemu elemp dou xs) (fun _ Y Z => sp Y * dvg Z - sp Z * dvg Y) /\
  exists K nu np k, ContinuityStiffness su sg q elemu elemp dou xs = Ok (K, nu, np) /\ is_mat K N N k /\
    (forall a b, (a < N)%nat -> (b < N)%nat -> k a b = - k b a) /\ (forall y, mform N k y y = 0) /\
    (forall v a, (a < N)%nat -> applyv N k (dofs m (fun _ c => v c) (fun _ => 0)) a = 0).
Proof. exact C64_continuity_pf. Qed.
Print Assumptions C64_continuity.

(** C64: if dt and rho are not 0 and the stream length exists at every point the three stabilisation routines return; every result weights the momentum residual with tau (u.grad y + grad q), where tau is the parameter of stream length, viscosity and time step and 0 < tau <= |dt|/2 *)
Theorem C64_stabilised : forall su sg q elemu elemp dou xs us rho mu dt, mixed_ok su sg q elemu elemp dou xs -> nodes_ok 2 elemu us ->
  let u := speed su elemu us in let tau := supg_parameter su sg q elemu elemp xs us rho mu dt in
  (dt <> 0 -> rho <> 0 ->
   (forall g, (g < q_n q)%nat -> stream_ok su sg (length elemu) (nodal elemp xs) (pt q g) (u (pt q g)) (quad 2 q (jac sg (nodal elemp xs)))) ->
   (exists K nu np, NavierStokesSUPGPSPGStiffness su sg q elemu elemp dou xs us rho mu dt = Ok (K, nu, np)) /\
   (exists K nu np, ContinuitySUPGPSPGStiffness su sg q elemu elemp dou xs us rho mu dt = Ok (K, nu, np)) /\
   (exists K nu np, NavierStokesSUPGPSPGConsistentMass su sg q elemu elemp dou xs us rho mu dt = Ok (K, nu, np))) /\
  stabilised_of su sg q elemu elemp dou xs tau dt (NavierStokesSUPGPSPGStiffness su sg q elemu elemp dou xs us rho mu dt)
    (fun p Y Z => rho * dot2 (supg_test (u p) Y) (convect (u p) Z)) /\
  stabilised_of su sg q elemu elemp dou xs tau dt (ContinuitySUPGPSPGStiffness su sg q elemu elemp dou xs us rho mu dt)
    (fun p Y Z => dot2 (supg_test (u p) Y) (pgrad Z)) /\
  stabilised_of su sg q elemu elemp dou xs tau dt (NavierStokesSUPGPSPGConsistentMass su sg q elemu elemp dou xs us rho mu dt)
    (fun p Y Z => rho * dot2 (supg_test (u p) Y) (val Z)).
Proof. exact C64_stabilised_pf. Qed.
Print Assumptions C64_stabilised.

(** at rest on the triangle of area 1 with rho = mu = 1 and dt = 2/3: h = 1 and tau = 1/sqrt(9 + 16) = 1/5; the routine returns *)
Example C64_tau_ex : let us := [[0; 0]; [0; 0]; [0; 0]] in let el := [2; 0; 1]%nat in
  supg_parameter sf_3Triangle sf_3Triangle Gauss1Triangle el el tri3 us 1 1 (2 / 3) 0 = 1 / 5 /\
  exists K nu np, NavierStokesSUPGPSPGStiffness sf_3Triangle sf_3Triangle Gauss1Triangle el el [0; 1; 2]%nat tri3 us 1 1 (2 / 3) = Ok (K, nu, np).
Proof.
  intros us el.
  assert (N0 : forall p, sqrt (dot2 (speed sf_3Triangle el us p) (speed sf_3Triangle el us p)) = 0).
  { intros p. rewrite <- sqrt_0. f_equal. unfold dot2, speed, field_value. cbn. ring. }
  assert (NL : ~ (/ 10 ^ 10 < 0)) by (apply Rle_not_lt, Rlt_le, Rinv_0_lt_compat, pow_lt; lra).
  split.
  - unfold supg_parameter, stream_length. rewrite N0. unfold el; rewrite tri_area. destruct (Rlt_dec (/ 10 ^ 10) 0); [contradiction|].
    rewrite sqrt_1. replace (_ + _ + _) with (5 * 5) by field. rewrite sqrt_square by lra. reflexivity.
  - refine (proj1 (proj1 (C64_stabilised _ _ _ _ _ _ _ us 1 1 (2 / 3) (tri_mixed [0; 1; 2]%nat eq_refl) _) _ _ _)); try lra.
    + intros e He. cbn in He. destruct He as [<-|[<-|[<-|[]]]]; cbn; split; auto; repeat constructor.
    + intros g Hg. unfold stream_ok. rewrite N0. unfold el; rewrite tri_area. destruct (Rlt_dec (/ 10 ^ 10) 0); [contradiction|lra].
Qed.

(** C65: the mass matrices are the quadrature of rho y.z, symmetric, positive semi-definite and reproduce the total mass *)
Theorem C65_mass : forall su sg q elemu elemp dou xs rho, mixed_ok su sg q elemu elemp dou xs ->
  let m := length elemu in let N := (2 * m + length elemp)%nat in
  exists K nu np k, StokesMass su sg q elemu elemp dou xs rho = Ok (K, nu, np) /\
    NavierStokesConsistentMass su sg q elemu elemp dou xs rho = Ok (K, nu, np) /\ is_mat K N N k /\
    (forall y z Y Z, flow_at su sg q (nodal elemp xs) m y Y -> flow_at su sg q (nodal elemp xs) m z Z ->
       mform N k y z = quad 2 q (fun p => jac sg (nodal elemp xs) p * (rho * dot2 (val (Y p)) (val (Z p))))) /\
    (forall a b, (a < N)%nat -> (b < N)%nat -> k a b = k b a) /\
    (0 <= rho -> (forall g, (g < q_n q)%nat -> 0 <= wprod 2 (nth g (q_weights q) []) * jac sg (nodal elemp xs) (pt q g)) -> forall y, 0 <= mform N k y y) /\
    (forall v w, mform N k (dofs m (fun _ c => v c) (fun _ => 0)) (dofs m (fun _ c => w c) (fun _ => 0)) =
       rho * dot2 v w * quad 2 q (jac sg (nodal elemp xs))).
Proof. exact C65_mass_pf. Qed.
Print Assumptions C65_mass.

(** density 5 on the triangle of area 1 moving with velocity (1, 2) *)
Example C65_ex : exists K nu np k, StokesMass sf_3Triangle sf_3Triangle Gauss1Triangle [2; 0; 1]%nat [2; 0; 1]%nat [0; 1; 2]%nat tri3 5 = Ok (K, nu, np) /\
  mform 9 k (fun a => nth a [1; 1; 1; 2; 2; 2; 0; 0; 0] 0) (fun a => nth a [1; 1; 1; 2; 2; 2; 0; 0; 0] 0) = 25.
Proof.
  destruct (C65_mass _ _ _ _ _ _ _ 5 (tri_mixed [0; 1; 2]%nat eq_refl)) as (K & nu & np & k & E & _ & Hk & _ & _ & _ & HF).
  exists K, nu, np, k. split; [exact E|]. specialize (HF (fun c => nth c [1; 2] 0) (fun c => nth c [1; 2] 0)). rewrite tri_area in HF.
  transitivity (5 * dot2 (fun c => nth c [1; 2] 0) (fun c => nth c [1; 2] 0) * 1); [|unfold dot2; cbn; ring]. rewrite <- HF.
  unfold mform. cbn. ring.
Qed.

(** C65: the Brinkman drag is the quadrature of y . k z *)
Theorem C65_brinkman : forall su sg q elemu elemp dou xs km k, mixed_ok su sg q elemu elemp dou xs -> is_mat km 2 2 k ->
  flow_of su sg q elemu elemp dou xs (BrinkmanBodyForce su sg q elemu elemp dou xs km)
    (fun _ Y Z => bigsum 2 (fun a => bigsum 2 (fun b => val Y a * k a b * val Z b))).
Proof. exact C65_brinkman_pf. Qed.
Print Assumptions C65_brinkman.

(** C65: the decoupled consistent and lumped masses; the lumped mass is diagonal and conserves the mass of the element in both components *)
Theorem C65_decoupled : forall s q elem dou xs rho, element_ok 2 s q elem xs -> length dou = 2%nat ->
  let m := length elem in
  vflow_of s q elem dou xs (NavierStokesDecoupledConsistentMass s q elem dou xs rho) (fun _ Y Z => rho * dot2 (val Y) (val Z)) /\
  exists K nu k, NavierStokesDecoupledLumpedMass s q elem dou xs rho = Ok (K, nu) /\ numbered_u m dou nu /\ is_mat K (2 * m) (2 * m) k /\
    (forall a b, (a < 2 * m)%nat -> (b < 2 * m)%nat -> a <> b -> k a b = 0) /\
    (forall c, (c < 2)%nat -> bigsum m (fun i => k (c * m + i)%nat (c * m + i)%nat) = rho * quad 2 q (jac s (nodal elem xs))).
Proof. exact C65_decoupled_pf. Qed.
Print Assumptions C65_decoupled.

(** C66: the body force is the quadrature of f . y; its components add up to the total force and no pressure equation is loaded *)
Theorem C66_body_force : forall su sg q elemu elemp dou xs f, mixed_ok su sg q elemu elemp dou xs ->
  (forall v, length v = 2%nat -> (2 <= length (f v))%nat) ->
  let m := length elemu in let n := length elemp in let N := (2 * m + n)%nat in let x := nodal elemp xs in
  let force p c := nth c (f [field_value sg p x 0; field_value sg p x 1]) 0 in
  exists F nu np b, StokesBodyForce su sg q elemu elemp dou xs f = Ok (F, nu, np) /\ is_vec F N b /\
    numbered_u m dou nu /\ numbered_p m n dou np /\
    (forall y Y, flow_at su sg q x m y Y -> bigsum N (fun a => b a * y a) = quad 2 q (fun p => jac sg x p * dot2 (force p) (val (Y p)))) /\
    (forall c, (c < 2)%nat -> bigsum m (fun i => b (c * m + i)%nat) = quad 2 q (fun p => jac sg x p * force p c)) /\
    (forall j, (j < n)%nat -> b (2 * m + j)%nat = 0).
Proof. exact C66_body_force_pf. Qed.
Print Assumptions C66_body_force.

(** C67: the pressure equation of the decoupled method: Laplacian (symmetric, positive semi-definite, constants in the kernel) against -rho/dt div u *)
Theorem C67_poisson : forall s q elem dou xs us rho dt, element_ok 2 s q elem xs -> length dou = 1%nat -> nodes_ok 2 elem us -> dt <> 0 ->
  let m := length elem in let x := nodal elem xs in
  exists K F ne k f, NavierStokesPressurePoisson s q elem dou xs us rho dt = Ok (K, F, ne) /\ numbered 1 m dou ne /\ is_mat K m m k /\ is_vec F m f /\
    (forall y z Gy Gz, gradients s q x 1 (fun i _ => y i) Gy -> gradients s q x 1 (fun i _ => z i) Gz ->
       mform m k y z = quad 2 q (fun p => jac s x p * bigsum 2 (fun l => Gy p l 0%nat * Gz p l 0%nat))) /\
    (forall y Hu, gradients s q x 2 (nodal elem us) Hu ->
       bigsum m (fun a => f a * y a) = quad 2 q (fun p => jac s x p * (- (rho / dt) * field_value s p (fun i _ => y i) 0 * trace 2 (Hu p)))) /\
    (forall a b, (a < m)%nat -> (b < m)%nat -> k a b = k b a) /\ (forall c a, (a < m)%nat -> applyv m k (fun _ => c) a = 0) /\
    ((forall g, (g < q_n q)%nat -> 0 <= wprod 2 (nth g (q_weights q) []) * jac s x (pt q g)) -> forall y, 0 <= mform m k y y).
Proof. exact C67_poisson_pf. Qed.
Print Assumptions C67_poisson.

(** C67: the right-hand sides of the two velocity steps: minus convection and diffusion of the current velocity, and minus the pressure gradient *)
Theorem C67_velocity : forall s q elem dou xs us ps rho mu, element_ok 2 s q elem xs -> length dou = 2%nat -> nodes_ok 2 elem us -> nodes_ok 1 elem ps ->
  let x := nodal elem xs in forall S G, velocities s q x (length elem) (v_dofs elem us) S -> gradients s q x 1 (nodal elem ps) G ->
  vload_of s q elem dou xs (NavierStokesAuxiliaryVelocity s q elem dou xs us rho mu)
    (fun p Y => - (rho * dot2 (val Y) (convect (val (S p)) (S p)) + mu * ddot 2 (vgrad (S p)) (vgrad Y))) /\
  vload_of s q elem dou xs (NavierStokesNextstepVelocity s q elem dou xs us ps rho)
    (fun p Y => - dot2 (fun l => G p l 0%nat) (val Y)).
Proof. exact C67_velocity_pf. Qed.
Print Assumptions C67_velocity.
