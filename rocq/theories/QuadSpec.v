(** Specification vocabulary for the quadrature rules. *)
From Coq Require Import List Arith Reals.
From Coquelicot Require Import Coquelicot.
From Verif Require Import SumR QuadModel.
Import ListNotations.
Local Open Scope R_scope.

(** product of the first d weight factors of a point *)
Fixpoint wprod (d : nat) (w : list R) : R :=
  match d with O => 1 | S k => wprod k w * nth k w 0 end.

(** value of the d-dimensional rule q on the integrand f (all element routines
    loop over the points, multiply by the d weight factors and accumulate) *)
Definition quad (d : nat) (q : rule) (f : (nat -> R) -> R) : R :=
  bigsum (q_n q) (fun g => wprod d (nth g (q_weights q) []) * f (fun k => nth k (nth g (q_points q) []) 0)).

(** polynomials whose degree in each variable is at most p *)
Definition poly1 (p : nat) (c : nat -> R) (x : R) : R := bigsum (S p) (fun i => c i * x ^ i).
Definition poly2 (p : nat) (c : nat -> nat -> R) (x y : R) : R :=
  bigsum (S p) (fun j => bigsum (S p) (fun i => c i j * x ^ i * y ^ j)).
Definition poly3 (p : nat) (c : nat -> nat -> nat -> R) (x y z : R) : R :=
  bigsum (S p) (fun k => bigsum (S p) (fun j => bigsum (S p) (fun i => c i j k * x ^ i * y ^ j * z ^ k))).
