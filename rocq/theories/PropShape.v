(** Properties C29-C32: shape functions. *)
From Coq Require Import List Arith Lia Bool Reals Lra.
From Coquelicot Require Import Coquelicot.
From Verif Require Import Res SumR ShapeModel ShapeMain.
Import ListNotations.
Local Open Scope R_scope.

(** C29: for every element family and every point r, the n shape function values
    sum to 1 and each of the d rows of dNdr has n entries summing to 0. *)
Theorem C29_partition_of_unity : forall (s : shape) (r : nat -> R), In s all_shapes ->
  length (sf_N s r) = sf_n s /\ sumlist (sf_N s r) = 1 /\
  length (sf_dN s r) = sf_d s /\
  forall row, In row (sf_dN s r) -> length row = sf_n s /\ sumlist row = 0.
Proof. exact C29_partition_of_unity_pf. Qed.
Print Assumptions C29_partition_of_unity.

Example C29_ex : sf_N sf_4Square (fun _ => 1/2) = [(1/4) * (1 - 1/2) * (1 - 1/2); (1/4) * (1 + 1/2) * (1 - 1/2); (1/4) * (1 + 1/2) * (1 + 1/2); (1/4) * (1 - 1/2) * (1 + 1/2)].
Proof. reflexivity. Qed.

(** C30: for all families except the 20 node hexahedron, Points has n entries
    and N_i(Points[j]) = 1 if i = j, else 0. *)
Theorem C30_kronecker : forall (s : shape), In s all_shapes -> s <> sf_20Cubic ->
  length (sf_points s) = sf_n s /\
  forall i j, (i < sf_n s)%nat -> (j < sf_n s)%nat ->
    nth i (sf_N s (coords (nth j (sf_points s) []))) 0 = if (i =? j)%nat then 1 else 0.
Proof. exact C30_kronecker_pf. Qed.
Print Assumptions C30_kronecker.

(** C30 for the 20 node hexahedron: the table Points has 21 entries (entry 12
    repeats the corner (-1,1,1)); skipping that entry the interpolation
    property holds. *)
Theorem C30_kronecker_20 : forall i j, (i < 20)%nat -> (j < 20)%nat ->
  nth i (sf_N sf_20Cubic (coords (nth (if (j <? 12)%nat then j else S j) (sf_points sf_20Cubic) []))) 0 =
  if (i =? j)%nat then 1 else 0.
Proof. exact C30_kronecker_20_pf. Qed.
Print Assumptions C30_kronecker_20.

(** C30 is false of the table of the 20 node hexahedron as it stands: it has one
    entry too many and shape function 12 vanishes at its own Points entry. *)
Theorem C30_kronecker_refuted : exists s, In s all_shapes /\
  length (sf_points s) <> sf_n s /\
  exists i, (i < sf_n s)%nat /\ nth i (sf_N s (coords (nth i (sf_points s) []))) 0 <> 1.
Proof. exact C30_kronecker_refuted_pf. Qed.
Print Assumptions C30_kronecker_refuted.

(** C31: entry (k,i) of dNdr is the partial derivative of N_i with respect to r_k. *)
Theorem C31_gradient : forall (s : shape) (r : nat -> R) (k i : nat), In s all_shapes ->
  (k < sf_d s)%nat -> (i < sf_n s)%nat ->
  derivable_pt_lim (fun t => nth i (sf_N s (move r k t)) 0) (r k) (nth i (nth k (sf_dN s r) []) 0).
Proof. exact C31_gradient_pf. Qed.
Print Assumptions C31_gradient.

(** C32: every affine field is interpolated exactly: if u = a + b . r at the
    points of the table, sum_i N_i(r) u_i = a + b . r everywhere, and the
    gradient computed from dNdr is b.  (20 node hexahedron: its table without
    the surplus entry.) *)
Theorem C32_completeness : forall (s : shape) (r : nat -> R) (a : R) (b : nat -> R), In s all_shapes ->
  let pts := fun i => if (sf_n s =? 20)%nat && (12 <=? i)%nat then S i else i in
  let u := fun i => a + bigsum (sf_d s) (fun k => b k * nth k (nth (pts i) (sf_points s) []) 0) in
  bigsum (sf_n s) (fun i => nth i (sf_N s r) 0 * u i) = a + bigsum (sf_d s) (fun k => b k * r k) /\
  forall k, (k < sf_d s)%nat ->
    bigsum (sf_n s) (fun i => nth i (nth k (sf_dN s r) []) 0 * u i) = b k.
Proof. exact C32_completeness_pf. Qed.
Print Assumptions C32_completeness.

(** C32: the quadratic families reproduce every quadratic field: 3 node line,
    6 node triangle, 8 node square, 20 node hexahedron. *)
Theorem C32_quadratic : forall (s : shape) (r : nat -> R) (c : nat -> nat -> R),
  In s [sf_3Line; sf_6Triangle; sf_8Square; sf_20Cubic] ->
  let pts := fun i => if (sf_n s =? 20)%nat && (12 <=? i)%nat then S i else i in
  let q := fun x : nat -> R => bigsum (sf_d s) (fun k => bigsum (sf_d s) (fun l => c k l * x k * x l)) in
  bigsum (sf_n s) (fun i => nth i (sf_N s r) 0 * q (coords (nth (pts i) (sf_points s) []))) = q r.
Proof. exact C32_quadratic_pf. Qed.
Print Assumptions C32_quadratic.
