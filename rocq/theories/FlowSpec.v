(** Specification vocabulary for the two-dimensional flow elements.  Nothing here
    depends on the modelled routines. *)
From Coq Require Import List Arith Reals.
From Verif Require Import Res SumR DenseModel DenseSpec ShapeModel QuadModel QuadSpec ElemSpec.
Import ListNotations.
Local Open Scope R_scope.

(** an element dof vector: component c of velocity node i is dof c*m + i, the
    pressure of pressure node j is dof 2m + j *)
Definition vel (m : nat) (y : nat -> R) (i c : nat) : R := y (c * m + i)%nat.
Definition prs (m : nat) (y : nat -> R) (j _c : nat) : R := y (2 * m + j)%nat.
(** the dof vector of nodal velocities u and pressures p *)
Definition dofs (m : nat) (u : nat -> nat -> R) (p : nat -> R) (a : nat) : R :=
  if (a <? m)%nat then u a 0%nat else if (a <? 2 * m)%nat then u (a - m)%nat 1%nat else p (a - 2 * m)%nat.

(** the flow at one point: velocity, pressure, and their derivatives; sHlc is the
    derivative in direction x_l of velocity component c, sGl that of the pressure *)
Record pstate := mkS { sv0 : R; sv1 : R; sH00 : R; sH01 : R; sH10 : R; sH11 : R; sp : R; sG0 : R; sG1 : R }.
Definition val (S : pstate) (c : nat) : R := match c with O => sv0 S | _ => sv1 S end.
Definition vgrad (S : pstate) (l c : nat) : R :=
  match l, c with O, O => sH00 S | O, _ => sH01 S | _, O => sH10 S | _, _ => sH11 S end.
Definition pgrad (S : pstate) (l : nat) : R := match l with O => sG0 S | _ => sG1 S end.
(** divergence of the velocity, and u . grad v *)
Definition dvg (S : pstate) : R := trace 2 (vgrad S).
Definition convect (u : nat -> R) (S : pstate) (c : nat) : R := bigsum 2 (fun l => u l * vgrad S l c).
Definition dot2 (u v : nat -> R) : R := bigsum 2 (fun c => u c * v c).
(** 2 mu e(y) : e(z), e the symmetric gradient *)
Definition viscous (mu : R) (Y Z : pstate) : R := 2 * mu * ddot 2 (strain (vgrad Y)) (strain (vgrad Z)).

(** [H l c] is the derivative in direction x_l of component c of the field with
    nodal values u and shape functions su, where the geometry is interpolated by
    sg with nodes x (chain rule) *)
Definition gradient_via (sg su : shape) (x : nat -> nat -> R) (r : nat -> R) (mc : nat)
  (u H : nat -> nat -> R) : Prop :=
  forall k c, (k < 2)%nat -> (c < mc)%nat ->
    bigsum 2 (fun l => tangent sg x r k l * H l c) = bigsum (sf_n su) (fun i => dshp su r k i * u i c).

(** S describes the flow with dof vector y at the parent point r *)
Definition velocity_at (su sg : shape) (x : nat -> nat -> R) (m : nat) (y : nat -> R) (r : nat -> R) (S : pstate) : Prop :=
  (forall c, (c < 2)%nat -> val S c = field_value su r (vel m y) c) /\
  gradient_via sg su x r 2 (vel m y) (vgrad S).
Definition pressure_at (sg : shape) (x : nat -> nat -> R) (m : nat) (y : nat -> R) (r : nat -> R) (S : pstate) : Prop :=
  sp S = field_value sg r (prs m y) 0 /\ gradient_via sg sg x r 1 (prs m y) (fun l _ => pgrad S l).
Definition flow_at (su sg : shape) (q : rule) (x : nat -> nat -> R) (m : nat) (y : nat -> R) (S : (nat -> R) -> pstate) : Prop :=
  forall g, (g < q_n q)%nat -> velocity_at su sg x m y (pt q g) (S (pt q g)) /\ pressure_at sg x m y (pt q g) (S (pt q g)).
Definition velocities (s : shape) (q : rule) (x : nat -> nat -> R) (m : nat) (y : nat -> R) (S : (nat -> R) -> pstate) : Prop :=
  forall g, (g < q_n q)%nat -> velocity_at s s x m y (pt q g) (S (pt q g)).

(** an admissible call: plane library shape functions, one node each, existing
    pressure nodes, nonzero Jacobian at the points used *)
Definition mixed_ok (su sg : shape) (q : rule) (elemu elemp dou : list nat) (xs : list (list R)) : Prop :=
  In su all_shapes /\ In sg all_shapes /\ sf_d su = 2%nat /\ sf_d sg = 2%nat /\
  length elemu = sf_n su /\ length elemp = sf_n sg /\ length dou = 3%nat /\
  nodes_ok 2 elemu xs /\ nodes_ok 2 elemp xs /\ rule_ok 2 q /\
  forall g, (g < q_n q)%nat -> jac sg (nodal elemp xs) (pt q g) <> 0.
(** the velocity nodes lie on the same geometry as the pressure nodes *)
Definition compatible (su sg : shape) (q : rule) (elemu elemp : list nat) (xs : list (list R)) : Prop :=
  forall g k l, (g < q_n q)%nat -> (k < 2)%nat -> (l < 2)%nat ->
    tangent su (nodal elemu xs) (pt q g) k l = tangent sg (nodal elemp xs) (pt q g) k l.

(** the local numbering of the mixed elements *)
Definition numbered_u (m : nat) (dou : list nat) (nu : list (list (nat * nat))) : Prop :=
  nu = map (fun i => [(nth 0 dou O, i); (nth 1 dou O, (m + i)%nat)]) (seq 0 m).
Definition numbered_p (m n : nat) (dou : list nat) (np : list (list (nat * nat))) : Prop :=
  np = map (fun i => [(nth 2 dou O, (2 * m + i)%nat)]) (seq 0 n).

(** the bilinear form of N x N entries k *)
Definition mform (N : nat) (k : nat -> nat -> R) (y z : nat -> R) : R :=
  bigsum N (fun a => bigsum N (fun b => y a * k a b * z b)).
Definition applyv (N : nat) (k : nat -> nat -> R) (z : nat -> R) (a : nat) : R := bigsum N (fun b => k a b * z b).

(** a call that returns a matrix: its form on dof vectors is the quadrature of
    W (flow of y) (flow of z) *)
Definition flow_of (su sg : shape) (q : rule) (elemu elemp dou : list nat) (xs : list (list R))
  (r : res (mat R * list (list (nat * nat)) * list (list (nat * nat)))) (W : (nat -> R) -> pstate -> pstate -> R) : Prop :=
  let m := length elemu in let n := length elemp in let N := (2 * m + n)%nat in let x := nodal elemp xs in
  exists K nu np k, r = Ok (K, nu, np) /\ is_mat K N N k /\ numbered_u m dou nu /\ numbered_p m n dou np /\
    forall y z Y Z, flow_at su sg q x m y Y -> flow_at su sg q x m z Z ->
      mform N k y z = quad 2 q (fun p => jac sg x p * W p (Y p) (Z p)).
(** a call that returns a vector: paired with y it is the quadrature of L *)
Definition load_of (su sg : shape) (q : rule) (elemu elemp dou : list nat) (xs : list (list R))
  (r : res (list R * list (list (nat * nat)) * list (list (nat * nat)))) (L : (nat -> R) -> pstate -> R) : Prop :=
  let m := length elemu in let n := length elemp in let N := (2 * m + n)%nat in let x := nodal elemp xs in
  exists F nu np f, r = Ok (F, nu, np) /\ is_vec F N f /\ numbered_u m dou nu /\ numbered_p m n dou np /\
    forall y Y, flow_at su sg q x m y Y ->
      bigsum N (fun a => f a * y a) = quad 2 q (fun p => jac sg x p * L p (Y p)).
(** the same for the velocity-only (decoupled) routines *)
Definition vflow_of (s : shape) (q : rule) (elem dou : list nat) (xs : list (list R))
  (r : res (mat R * list (list (nat * nat)))) (W : (nat -> R) -> pstate -> pstate -> R) : Prop :=
  let m := length elem in let x := nodal elem xs in
  exists K nu k, r = Ok (K, nu) /\ is_mat K (2 * m) (2 * m) k /\ numbered_u m dou nu /\
    forall y z Y Z, velocities s q x m y Y -> velocities s q x m z Z ->
      mform (2 * m) k y z = quad 2 q (fun p => jac s x p * W p (Y p) (Z p)).
Definition vload_of (s : shape) (q : rule) (elem dou : list nat) (xs : list (list R))
  (r : res (list R * list (list (nat * nat)))) (L : (nat -> R) -> pstate -> R) : Prop :=
  let m := length elem in let x := nodal elem xs in
  exists F nu f, r = Ok (F, nu) /\ is_vec F (2 * m) f /\ numbered_u m dou nu /\
    forall y Y, velocities s q x m y Y ->
      bigsum (2 * m) (fun a => f a * y a) = quad 2 q (fun p => jac s x p * L p (Y p)).

(** the velocity field interpolated from a nodal table *)
Definition speed (su : shape) (elemu : list nat) (us : list (list R)) (p : nat -> R) (c : nat) : R :=
  field_value su p (nodal elemu us) c.

(** weak form of the steady Navier-Stokes equations for the flow S, tested with Y *)
Definition ns_work (rho mu : R) (S Y : pstate) : R :=
  rho * dot2 (val Y) (convect (val S) S) + viscous mu S Y - sp S * dvg Y + sp Y * dvg S.
(** its derivative in direction Z *)
Definition ns_tangent (rho mu : R) (S Y Z : pstate) : R :=
  rho * (dot2 (val Y) (convect (val S) Z) + dot2 (val Y) (convect (val Z) S)) + viscous mu Y Z - sp Z * dvg Y + sp Y * dvg Z.
(** the flow with the sign of the pressure changed *)
Definition flip (Y : pstate) : pstate :=
  mkS (sv0 Y) (sv1 Y) (sH00 Y) (sH01 Y) (sH10 Y) (sH11 Y) (- sp Y) (- sG0 Y) (- sG1 Y).
Definition flipv (m : nat) (y : nat -> R) (a : nat) : R := if (a <? 2 * m)%nat then y a else - y a.

(** the table ups e is ups 0 changed by e z in the dofs of the element *)
Definition moved_flow (elemu elemp : list nat) (ups : R -> list (list R)) (z : nat -> R) : Prop :=
  forall e, nodes_ok 2 elemu (ups e) /\ nodes_ok 3 elemp (ups e) /\
    (forall i c, (i < length elemu)%nat -> (c < 2)%nat ->
       nodal elemu (ups e) i c = nodal elemu (ups 0) i c + e * vel (length elemu) z i c) /\
    (forall j, (j < length elemp)%nat ->
       nodal elemp (ups e) j 2 = nodal elemp (ups 0) j 2 + e * prs (length elemu) z j 0).
(** the residual vector of a call *)
Definition flow_residual (r : res (mat R * list R * list (list (nat * nat)) * list (list (nat * nat)))) : list R :=
  match r with Ok (_, F, _, _) => F | Fail _ => [] end.
(** dof vector of the table ups *)
Definition up_dofs (elemu elemp : list nat) (ups : list (list R)) : nat -> R :=
  dofs (length elemu) (nodal elemu ups) (fun j => nodal elemp ups j 2).

(** rigid body velocity: a + w (-x_1, x_0), no pressure *)
Definition rigid_velocity (elemu elemp : list nat) (xs : list (list R)) (a : nat -> R) (w : R) : nat -> R :=
  dofs (length elemu) (fun i c => a c + match c with O => - w * nodal elemu xs i 1 | _ => w * nodal elemu xs i 0 end)
    (fun _ => 0).

(** weak form of the stabilised terms for the advection velocity u: the test
    function is advected and its pressure gradient added *)
Definition supg_test (u : nat -> R) (Y : pstate) (c : nat) : R := convect u Y c + pgrad Y c.
(** gradient of the i-th velocity shape function by the chain rule, with the inverse of the tangent of the geometry *)
Definition mixed_grad (sg su : shape) (x : nat -> nat -> R) (p : nat -> R) (i c : nat) : R :=
  let t := tangent sg x p in let d := dshp su p in
  match c with
  | O => (t 1%nat 1%nat * d 0%nat i - t 0%nat 1%nat * d 1%nat i) / jac sg x p
  | _ => (t 0%nat 0%nat * d 1%nat i - t 1%nat 0%nat * d 0%nat i) / jac sg x p
  end.
(** the parameter tau = ((2/dt)^2 + (2|u|/h)^2 + (4 mu/(rho h^2))^2)^(-1/2) for the velocity u at the point p, where h is
    2|u| / sum_i |u.grad M_i| for a moving flow and the square root of the element area for one at rest *)
Definition stream_length (su sg : shape) (m : nat) (x : nat -> nat -> R) (p u : nat -> R) (area : R) : R :=
  let un := sqrt (dot2 u u) in
  if Rlt_dec (/ 10 ^ 10) un then 2 * un / bigsum m (fun i => Rabs (dot2 u (mixed_grad sg su x p i))) else sqrt area.
(** the length exists and is not 0: the flow does not stand still relative to every shape function, or the area is positive *)
Definition stream_ok (su sg : shape) (m : nat) (x : nat -> nat -> R) (p u : nat -> R) (area : R) : Prop :=
  if Rlt_dec (/ 10 ^ 10) (sqrt (dot2 u u)) then bigsum m (fun i => Rabs (dot2 u (mixed_grad sg su x p i))) <> 0 else 0 < area.
Definition supg_parameter (su sg : shape) (q : rule) (elemu elemp : list nat) (xs us : list (list R)) (rho mu dt : R) (g : nat) : R :=
  let x := nodal elemp xs in let u := speed su elemu us (pt q g) in
  let h := stream_length su sg (length elemu) x (pt q g) u (quad 2 q (jac sg x)) in
  1 / sqrt ((2 / dt) ^ 2 + (2 * sqrt (dot2 u u) / h) ^ 2 + (4 * mu / (rho * h ^ 2)) ^ 2).
(** a call that, if it returns, has the form  sum_g w_g tau_g J_g W_g  on dof vectors *)
Definition stabilised_of (su sg : shape) (q : rule) (elemu elemp dou : list nat) (xs : list (list R)) (tau : nat -> R) (dt : R)
  (r : res (mat R * list (list (nat * nat)) * list (list (nat * nat)))) (W : (nat -> R) -> pstate -> pstate -> R) : Prop :=
  let m := length elemu in let n := length elemp in let N := (2 * m + n)%nat in let x := nodal elemp xs in
  forall K nu np, r = Ok (K, nu, np) -> exists k, is_mat K N N k /\ numbered_u m dou nu /\ numbered_p m n dou np /\
    (forall g, (g < q_n q)%nat -> 0 < tau g <= Rabs dt / 2) /\
    forall y z Y Z, flow_at su sg q x m y Y -> flow_at su sg q x m z Z ->
      mform N k y z = bigsum (q_n q) (fun g => wprod 2 (nth g (q_weights q) []) *
        (tau g * (jac sg x (pt q g) * W (pt q g) (Y (pt q g)) (Z (pt q g))))).

(** velocity-only flow of a nodal table *)
Definition v_dofs (elem : list nat) (us : list (list R)) : nat -> R := dofs (length elem) (nodal elem us) (fun _ => 0).
