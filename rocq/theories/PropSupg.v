(** Property C85: streamline upwind and shock capturing terms. *)
From Coq Require Import List Arith Lia Bool Reals Lra.
From Verif Require Import Res SumR DenseModel DenseR DenseSpec ShapeModel QuadModel QuadSpec ElemModel ElemSpec SupgSpec PropElem SupgMain.
Import ListNotations.
Local Open Scope R_scope.

(** C85: the three routines for a nonzero velocity; the element length along the flow
    is positive, whatever the element *)
Theorem C85_forms : forall s q elem dou xs ax ay k Hn, element_ok 2 s q elem xs -> length dou = 1%nat -> ax <> 0 \/ ay <> 0 -> k <> 0 ->
  shape_gradients s q (nodal elem xs) Hn ->
  let h p := stream_length (length elem) ax ay (fun i => Hn i p) in
  let n := length elem in
  (forall g, (g < q_n q)%nat -> 0 < h (pt q g)) /\
  (exists K ne A, AdvectionSUPG s q elem dou xs ax ay k = Ok (K, ne) /\ is_mat K n n A /\ numbered 1 n dou ne /\
     forall y z Hy Hz, gradients s q (nodal elem xs) 1 y Hy -> gradients s q (nodal elem xs) 1 z Hz ->
       form 1 n A y z = quad 2 q (fun p => jac s (nodal elem xs) p * (tau_supg ax ay k (h p) * (along ax ay (Hy p) * along ax ay (Hz p))))) /\
  (exists K ne A, AdvectionShockCapturing s q elem dou xs ax ay k = Ok (K, ne) /\ is_mat K n n A /\ numbered 1 n dou ne /\
     forall y z Hy Hz, gradients s q (nodal elem xs) 1 y Hy -> gradients s q (nodal elem xs) 1 z Hz ->
       form 1 n A y z = quad 2 q (fun p => jac s (nodal elem xs) p * (kappa_shock ax ay k (h p) * bigsum 2 (fun l => Hy p l 0%nat * Hz p l 0%nat)))) /\
  (exists K ne A, MassSUPG s q elem dou xs ax ay k = Ok (K, ne) /\ is_mat K n n A /\ numbered 1 n dou ne /\
     forall y z Hy, gradients s q (nodal elem xs) 1 y Hy ->
       form 1 n A y z = quad 2 q (fun p => jac s (nodal elem xs) p * (tau_supg ax ay k (h p) * (along ax ay (Hy p) * field_value s p z 0)))).
Proof. exact C85_forms_pf. Qed.
Print Assumptions C85_forms.

(** on the triangle (0,0), (2,0), (0,1) with velocity (1,0) and k = 1: h = 2,
    tau = 1/3, and the field x has SUPG energy tau * area = 1/3 *)
Definition tri_grad (i : nat) (_ : nat -> R) (l c : nat) : R :=
  match i, l with O, O => - (1 / 2) | O, _ => -1 | 1%nat, O => 1 / 2 | 1%nat, _ => 0 | _, O => 0 | _, _ => 1 end.
Lemma tri_grad_ok : shape_gradients sf_3Triangle Gauss1Triangle (nodal [2; 0; 1]%nat tri_xs) tri_grad.
Proof.
  intros i Hi g _ k c Hk Hc. cbn in Hi, Hk. unfold tangent, dshp, nodal, tri_xs, sf_3Triangle, dN_3Triangle, hat, tri_grad. cbn [sf_d sf_n sf_dN bigsum nth].
  destruct i as [|[|[|i]]]; try lia; destruct k as [|[|k]]; try lia; cbn [nth Nat.eqb]; lra.
Qed.
Lemma tri_stream p : stream_length 3 1 0 (fun i => tri_grad i p) = 2.
Proof.
  unfold stream_length, vel, along, tri_grad. cbn [bigsum]. replace (1 * 1 + 0 * 0) with 1 by ring. rewrite sqrt_1.
  replace (1 * - (1 / 2) + 0 * -1) with (- (1 / 2)) by ring. replace (1 * (1 / 2) + 0 * 0) with (1 / 2) by ring. replace (1 * 0 + 0 * 1) with 0 by ring.
  rewrite Rabs_Ropp, Rabs_R0, (Rabs_right (1 / 2)) by lra. field.
Qed.
Lemma tri_tau : tau_supg 1 0 1 2 = 1 / 3.
Proof.
  unfold tau_supg, upwind, peclet, vel. replace (1 * 1 + 0 * 0) with 1 by ring. rewrite sqrt_1. rewrite Rmin_right by lra. field.
Qed.
Example C85_forms_ex : exists K ne A, AdvectionSUPG sf_3Triangle Gauss1Triangle [2; 0; 1]%nat [0]%nat tri_xs 1 0 1 = Ok (K, ne) /\ is_mat K 3 3 A /\
  form 1 3 A (fun i _ => nodal [2; 0; 1]%nat tri_xs i 0) (fun i _ => nodal [2; 0; 1]%nat tri_xs i 0) = 1 / 3.
Proof.
  destruct (C85_forms _ _ _ [0]%nat _ 1 0 1 tri_grad tri_ok eq_refl ltac:(lra) ltac:(lra) tri_grad_ok) as (_ & (K & ne & A & E & HA & _ & HF) & _).
  exists K, ne, A. split; [exact E|]. split; [exact HA|].
  assert (G : gradients sf_3Triangle Gauss1Triangle (nodal [2; 0; 1]%nat tri_xs) 1 (fun i _ => nodal [2; 0; 1]%nat tri_xs i 0) (fun _ l c => if (l =? 0)%nat then 1 else 0)).
  { intros g _ k0 c Hk0 Hc. cbn in Hk0. unfold tangent, dshp, nodal, tri_xs, sf_3Triangle, dN_3Triangle. cbn [sf_d sf_n sf_dN bigsum nth].
    destruct k0 as [|[|k0]]; try lia; cbn [nth Nat.eqb]; lra. }
  refine (eq_trans (HF _ _ _ _ G G) _). cbn [length]. unfold quad. cbn [q_n Gauss1Triangle bigsum]. rewrite tri_stream, tri_tau. unfold along.
  unfold Gauss1Triangle, wprod, jac, detd, det2, tangent, dshp, nodal, tri_xs, sf_3Triangle, dN_3Triangle.
  cbn [q_n q_points q_weights sf_d sf_n sf_dN bigsum nth Nat.eqb].
  pose proof (sqrt_lt_R0 2 ltac:(lra)). pose proof (sqrt_def 2 ltac:(lra)) as S.
  field_simplify; [|lra]. replace (sqrt 2 ^ 2) with 2 by (cbn; lra). field.
Qed.

(** C85: the stabilisation parameter is positive, never above its advective and
    diffusive limits, equal to one of them, and continuous where they meet *)
Theorem C85_parameter : forall ax ay k h, ax <> 0 \/ ay <> 0 -> 0 < k -> 0 < h ->
  0 < tau_supg ax ay k h /\ tau_supg ax ay k h <= h / (2 * vel ax ay) /\ tau_supg ax ay k h <= h * h / (12 * k) /\
  kappa_shock ax ay k h = tau_supg ax ay k h * (ax * ax + ay * ay) /\
  (peclet ax ay k h <= 3 -> tau_supg ax ay k h = h * h / (12 * k)) /\
  (3 <= peclet ax ay k h -> tau_supg ax ay k h = h / (2 * vel ax ay)).
Proof. exact C85_parameter_pf. Qed.
Print Assumptions C85_parameter.

(** both limits at Peclet number 3 *)
Example C85_parameter_ex : tau_supg 3 4 (5 / 6) 1 = 1 / 10.
Proof.
  assert (V : vel 3 4 = 5) by (unfold vel; replace (3 * 3 + 4 * 4) with (5 * 5) by ring; apply sqrt_square; lra).
  destruct (C85_parameter 3 4 (5 / 6) 1 ltac:(lra) ltac:(lra) ltac:(lra)) as (_ & _ & _ & _ & A & B).
  rewrite B; [rewrite V; field|]. unfold peclet. rewrite V. lra.
Qed.

(** C85: both added matrices are symmetric and positive semidefinite, the streamline
    term is at most the shock capturing term, the first vanishes only without change
    along the flow and the second only without gradient *)
Theorem C85_dissipative : forall s q elem dou xs ax ay k, element_ok 2 s q elem xs -> length dou = 1%nat -> ax <> 0 \/ ay <> 0 -> 0 < k ->
  positive_rule 2 s q (nodal elem xs) ->
  exists K ne A K' ne' B, AdvectionSUPG s q elem dou xs ax ay k = Ok (K, ne) /\ is_mat K (length elem) (length elem) A /\
    AdvectionShockCapturing s q elem dou xs ax ay k = Ok (K', ne') /\ is_mat K' (length elem) (length elem) B /\
    (forall i j, (i < length elem)%nat -> (j < length elem)%nat -> A i j = A j i /\ B i j = B j i) /\
    (forall y, 0 <= form 1 (length elem) A y y <= form 1 (length elem) B y y) /\
    (forall y Hy, gradients s q (nodal elem xs) 1 y Hy -> form 1 (length elem) A y y = 0 ->
       forall g, (g < q_n q)%nat -> along ax ay (Hy (pt q g)) = 0) /\
    (forall y Hy, gradients s q (nodal elem xs) 1 y Hy -> form 1 (length elem) B y y = 0 ->
       forall g l, (g < q_n q)%nat -> (l < 2)%nat -> Hy (pt q g) l 0%nat = 0).
Proof. exact C85_dissipative_pf. Qed.
Print Assumptions C85_dissipative.

Example C85_dissipative_ex : exists K ne A, AdvectionSUPG sf_3Triangle Gauss1Triangle [2; 0; 1]%nat [0]%nat tri_xs 1 0 1 = Ok (K, ne) /\ is_mat K 3 3 A /\
  forall y, 0 <= form 1 3 A y y.
Proof.
  destruct (C85_dissipative _ _ _ [0]%nat _ 1 0 1 tri_ok eq_refl ltac:(lra) ltac:(lra)) as (K & ne & A & K' & ne' & B & E & HA & _ & _ & _ & HP & _).
  - intros g Hg. cbn in Hg. replace g with O by lia.
    unfold Gauss1Triangle, wprod, jac, detd, det2, tangent, dshp, nodal, tri_xs, sf_3Triangle, dN_3Triangle. cbn [q_n q_points q_weights sf_d sf_n sf_dN bigsum nth].
    split; [lra|]. pose proof (sqrt_lt_R0 2 ltac:(lra)) as S. assert (0 < 1 / sqrt 2) by (apply Rdiv_lt_0_compat; lra). nra.
  - exists K, ne, A. split; [exact E|]. split; [exact HA|]. intros y. apply HP.
Qed.

(** C85: constant fields are not changed by the added terms, and nothing is added to
    the balance of the element: all row and column sums vanish; for the SUPG mass
    matrix all column sums *)
Theorem C85_constants : forall s q elem dou xs ax ay k, element_ok 2 s q elem xs -> length dou = 1%nat -> ax <> 0 \/ ay <> 0 -> k <> 0 ->
  let n := length elem in
  (forall r, In r [AdvectionSUPG s q elem dou xs ax ay k; AdvectionShockCapturing s q elem dou xs ax ay k] ->
     exists K ne A, r = Ok (K, ne) /\ is_mat K n n A /\
       forall i, (i < n)%nat -> bigsum n (fun j => A i j) = 0 /\ bigsum n (fun j => A j i) = 0) /\
  (exists K ne A, MassSUPG s q elem dou xs ax ay k = Ok (K, ne) /\ is_mat K n n A /\
     forall i, (i < n)%nat -> bigsum n (fun j => A j i) = 0).
Proof. exact C85_constants_pf. Qed.
Print Assumptions C85_constants.

(** C85: with zero velocity the parameter is zero divided by zero, on every element *)
Theorem C85_zero_velocity : forall s q elem dou xs k, element_ok 2 s q elem xs -> length dou = 1%nat -> (0 < q_n q)%nat ->
  forall r, In r [AdvectionSUPG s q elem dou xs 0 0 k; AdvectionShockCapturing s q elem dou xs 0 0 k; MassSUPG s q elem dou xs 0 0 k] ->
  r = Fail DivByZero.
Proof. exact C85_zero_velocity_pf. Qed.
Print Assumptions C85_zero_velocity.

Example C85_zero_velocity_ex : AdvectionSUPG sf_3Triangle Gauss1Triangle [2; 0; 1]%nat [0]%nat tri_xs 0 0 1 = Fail DivByZero.
Proof. apply (C85_zero_velocity _ _ _ [0]%nat _ 1 tri_ok eq_refl ltac:(cbn; lia)). now left. Qed.
