(** Properties C17 and C18: Determinant and Inverse. *)
From Coq Require Import List Arith Lia Bool.
From mathcomp Require Import all_ssreflect all_algebra perm.
From Verif Require Import Res DenseModel DenseSpec DenseProof DetProof DetMain.
Import GRing.Theory.
Local Open Scope ring_scope.

(** C17: for a matrix of any order n >= 1 over any commutative ring,
    Determinant() is the sum over the permutations of n points of the signed
    products of entries. *)
Theorem C17_determinant : forall (R : comRingType) (div : R -> R -> res R) (n : nat) (a : mat R) (f : nat -> nat -> R),
  is_mat a n.+1 n.+1 f ->
  mdet (ring_ops div) a = Ok (\sum_(s : 'S_n.+1) (-1) ^+ s * \prod_(i < n.+1) f i (s i)).
Proof. exact C17_determinant_pf. Qed.
Print Assumptions C17_determinant.

Example C17_ex : mdet (@ring_ops int_comRing (fun _ _ => Fail DivByZero))
    (mkMat 4 4 (List.map Posz [:: 2;0;0;1; 0;3;0;0; 0;0;1;0; 1;0;0;1]%N)) = Ok (Posz 3).
Proof. by vm_compute. Qed.

(** C17: the determinant of an empty matrix and of a non-square matrix aborts. *)
Theorem C17_domain : forall (R : comRingType) (div : R -> R -> res R) (a : mat R),
  mrow a <> mcol a \/ mrow a = 0%N -> mdet (ring_ops div) a = Fail AssertFail.
Proof. exact C17_domain_pf. Qed.
Print Assumptions C17_domain.

(** C18: over any field, for every order n >= 1 and every matrix with nonzero
    determinant, Inverse() returns a matrix which multiplied on either side by
    the argument gives the identity. *)
Theorem C18_inverse : forall (F : fieldType) (n : nat) (a : mat F) (f : nat -> nat -> F),
  is_mat a n.+1 n.+1 f ->
  \sum_(s : 'S_n.+1) (-1) ^+ s * \prod_(i < n.+1) f i (s i) != 0 ->
  exists (m p q : mat F) (g : nat -> nat -> F),
    minv (field_ops F) a = Ok m /\ is_mat m n.+1 n.+1 g /\
    mmul (field_ops F) a m = Ok p /\ is_mat p n.+1 n.+1 (fun i j => if i =? j then 1 else 0) /\
    mmul (field_ops F) m a = Ok q /\ is_mat q n.+1 n.+1 (fun i j => if i =? j then 1 else 0).
Proof. exact C18_inverse_pf. Qed.
Print Assumptions C18_inverse.

Example C18_ex : minv (field_ops rat_fieldType) (mkMat 2 2 [:: 2%:R; 1; 1; 1]) = Ok (mkMat 2 2 [:: 1; -1; -1; 2%:R]).
Proof. by vm_compute. Qed.

(** C18: a singular matrix makes Inverse() divide by zero. *)
Theorem C18_singular : forall (F : fieldType) (n : nat) (a : mat F) (f : nat -> nat -> F),
  is_mat a n.+1 n.+1 f ->
  \sum_(s : 'S_n.+1) (-1) ^+ s * \prod_(i < n.+1) f i (s i) = 0 ->
  minv (field_ops F) a = Fail DivByZero.
Proof. exact C18_singular_pf. Qed.
Print Assumptions C18_singular.

Example C18_singular_ex : minv (field_ops rat_fieldType) (mkMat 2 2 [:: 2%:R; 1; 2%:R; 1]) = Fail DivByZero.
Proof. by vm_compute. Qed.
