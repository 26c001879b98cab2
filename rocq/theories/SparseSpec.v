(** Specification vocabulary for the sparse containers, independent of the
    model's scanning functions. *)
From Coq Require Import List Arith Lia Bool Reals.
From Verif Require Import Res SparseModel SumR.
Import ListNotations.

(** the value most recently written at (i,j) by a history *)
Definition last_write {T} (h : list (nat * nat * T)) (i j : nat) : option T :=
  fold_left (fun acc w => match w with (i', j', v) =>
               if (i' =? i) && (j' =? j) then Some v else acc end) h None.

Definition value_or {T} (d : T) (o : option T) : T :=
  match o with Some v => v | None => d end.

Definition is_some {T} (o : option T) : bool :=
  match o with Some _ => true | None => false end.

(** the k-th call of a history, was its position written before? *)
Definition flags {T} (h : list (nat * nat * T)) : list bool :=
  map (fun k => match nth_error h k with
                | Some (i, j, _) => is_some (last_write (firstn k h) i j)
                | None => false end) (seq 0 (length h)).

(** storage invariant of LILCSR: one slot list per row, one slot per column *)
Definition lil_wf {T} (m : lil T) : Prop :=
  length (ldata m) = lrows m /\
  forall row, In row (ldata m) -> NoDup (map fst row).

(** storage invariant of CSR *)
Definition csr_wf {T} (m : csr T) : Prop :=
  length (indptr m) = S (crows m) /\
  nth_error (indptr m) 0 = Some 0 /\
  nth_error (indptr m) (crows m) = Some (length (indices m)) /\
  length (cdata m) = length (indices m) /\
  (forall i lo hi, nth_error (indptr m) i = Some lo ->
     nth_error (indptr m) (S i) = Some hi -> lo <= hi) /\
  (forall i lo hi k a b, nth_error (indptr m) i = Some lo ->
     nth_error (indptr m) (S i) = Some hi ->
     lo <= k -> S k < hi ->
     nth_error (indices m) k = Some a -> nth_error (indices m) (S k) = Some b -> a < b).

(** all stored columns are valid positions of a vector of length [ccols] *)
Definition csr_cols_ok {T} (m : csr T) : Prop :=
  forall c, In c (indices m) -> c < ccols m.
Definition lil_cols_ok {T} (m : lil T) : Prop :=
  forall row c, In row (ldata m) -> In c (map fst row) -> c < lcols m.

(** the matrix denoted by a container, as reported by [get] *)
Definition lil_entry {T} (z : T) (m : lil T) (i j : nat) : T :=
  match lil_get z m i j with Ok v => v | Fail _ => z end.
Definition csr_entry {T} (z : T) (m : csr T) (i j : nat) : T :=
  match csr_get z m i j with Ok v => v | Fail _ => z end.

(** matrix-vector product, textbook *)
Definition matvec (n : nat) (A : nat -> nat -> R) (x : nat -> R) (i : nat) : R :=
  bigsum n (fun j => A i j * x j)%R.
