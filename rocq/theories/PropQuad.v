(** Property C33: quadrature rules. *)
From Coq Require Import List Arith Lia Bool Reals Lra.
From Coquelicot Require Import Coquelicot.
From Verif Require Import Res SumR QuadModel QuadSpec QuadMain.
Import ListNotations.
Local Open Scope R_scope.

(** C33, line rules: the rule value of every polynomial up to the degree equals
    its integral over [-1,1]: 1 for the one point rules, 3, 3, 5 and 7 for the
    two point Gauss rule and the 3, 5 and 7 point Newton-Cotes rules. *)
Theorem C33_line : forall (q : rule) (p : nat) (c : nat -> R),
  In (q, p) [(Gauss1Line, 1); (Gauss2Line, 3); (NewtonCotes1Line, 1); (NewtonCotes3Line, 3); (NewtonCotes5Line, 5); (NewtonCotes7Line, 7)]%nat ->
  is_RInt (poly1 p c) (-1) 1 (quad 1 q (fun x => poly1 p c (x 0%nat))).
Proof. exact C33_line_pf. Qed.
Print Assumptions C33_line.

Example C33_line_ex : quad 1 NewtonCotes3Line (fun x => poly1 3 (fun i => match i with O => 1 | S (S O) => 3 | _ => 7 end) (x 0%nat)) = 4.
Proof. unfold quad, NewtonCotes3Line, poly1. cbn [q_n q_points q_weights bigsum nth wprod pow]. field. Qed.

(** C33, square rules: exact for degree 1, 3, 5 in each variable. *)
Theorem C33_square : forall (q : rule) (p : nat) (c : nat -> nat -> R),
  In (q, p) [(Gauss1Square, 1); (Gauss4Square, 3); (Gauss9Square, 5)]%nat ->
  is_RInt (fun y => RInt (fun x => poly2 p c x y) (-1) 1) (-1) 1 (quad 2 q (fun x => poly2 p c (x 0%nat) (x 1%nat))).
Proof. exact C33_square_pf. Qed.
Print Assumptions C33_square.

Example C33_square_ex : quad 2 Gauss1Square (fun x => poly2 1 (fun i j => INR (1 + i)) (x 0%nat) (x 1%nat)) = 4.
Proof. unfold quad, Gauss1Square, poly2. cbn [q_n q_points q_weights bigsum nth wprod pow INR Nat.add]. field. Qed.

(** C33, cube rules: exact for degree 3 and 5 in each variable. *)
Theorem C33_cube : forall (q : rule) (p : nat) (c : nat -> nat -> nat -> R),
  In (q, p) [(Gauss8Cubic, 3); (Gauss27Cubic, 5)]%nat ->
  is_RInt (fun z => RInt (fun y => RInt (fun x => poly3 p c x y z) (-1) 1) (-1) 1) (-1) 1
    (quad 3 q (fun x => poly3 p c (x 0%nat) (x 1%nat) (x 2%nat))).
Proof. exact C33_cube_pf. Qed.
Print Assumptions C33_cube.

(** C33, triangle rules over 0 <= x <= 1, 0 <= y <= 1 - x: the one point rule is
    exact for affine integrands, the three point rule for quadratic ones. *)
Theorem C33_triangle : forall a b c d e g : R,
  (let f := fun x y => a + b * x + c * y in
   is_RInt (fun x => RInt (fun y => f x y) 0 (1 - x)) 0 1 (quad 2 Gauss1Triangle (fun x => f (x 0%nat) (x 1%nat)))) /\
  (let f := fun x y => a + b * x + c * y + d * x * x + e * x * y + g * y * y in
   is_RInt (fun x => RInt (fun y => f x y) 0 (1 - x)) 0 1 (quad 2 Gauss3Triangle (fun x => f (x 0%nat) (x 1%nat)))).
Proof. exact C33_triangle_pf. Qed.
Print Assumptions C33_triangle.

(** C33, tetrahedron rule over 0 <= x, 0 <= y, 0 <= z, x + y + z <= 1: exact for
    affine integrands. *)
Theorem C33_tetrahedron : forall a b c d : R,
  let f := fun x y z => a + b * x + c * y + d * z in
  is_RInt (fun x => RInt (fun y => RInt (fun z => f x y z) 0 (1 - x - y)) 0 (1 - x)) 0 1
    (quad 3 Gauss1Tetrahedron (fun x => f (x 0%nat) (x 1%nat) (x 2%nat))).
Proof. exact C33_tetrahedron_pf. Qed.
Print Assumptions C33_tetrahedron.
