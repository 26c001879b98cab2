(** Specification vocabulary for the homogenization routines. *)
From Coq Require Import List Arith Reals.
From Verif Require Import Res SumR DenseModel DenseSpec ShapeModel QuadModel QuadSpec ElemSpec.
Import ListNotations.
Local Open Scope R_scope.

(** macroscopic unit strains: e00 = 1, e11 = 1, 2 e01 = 1 *)
Definition unit_strain (c l k : nat) : R :=
  match c with
  | O => if ((l =? 0) && (k =? 0))%nat%bool then 1 else 0
  | 1%nat => if ((l =? 1) && (k =? 1))%nat%bool then 1 else 0
  | _ => if (l =? k)%nat then 0 else 1 / 2
  end.
(** a nodal field with the homogeneous strain c *)
Definition homogeneous (n : nat) (x : nat -> nat -> R) (c : nat) (z : nat -> nat -> R) : Prop :=
  exists (a : nat -> R) (A : nat -> nat -> R),
    (forall i k, (i < n)%nat -> (k < 2)%nat -> z i k = a k + bigsum 2 (fun l => x i l * A l k)) /\
    forall l k, (l < 2)%nat -> (k < 2)%nat -> strain A l k = unit_strain c l k.
(** the characteristic displacement c at the nodes of the element *)
Definition chi_of (elem : list nat) (chi0 chi1 chi2 : list (list R)) (c : nat) : nat -> nat -> R :=
  nodal elem (match c with O => chi0 | 1%nat => chi1 | _ => chi2 end).
(** work of the characteristic displacement r on what is left of the equations
    K chi_c = F_c of the element *)
Definition residual_work (n : nat) (f k : nat -> nat -> R) (chi : nat -> nat -> nat -> R) (r c : nat) : R :=
  bigsum (2 * n) (fun a => chi r (a / 2)%nat (a mod 2)%nat * (f a c - apply_field 2 n k (chi c) a)).
(** an element of the unit cell: shape, rule, nodes, material and thickness *)
Record cell_element := CellElement { ce_s : shape; ce_q : rule; ce_elem : list nat; ce_E : R; ce_V : R; ce_t : R }.
