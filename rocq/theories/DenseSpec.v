(** Specification vocabulary for the dense classes. *)
From Coq Require Import List Arith Lia Bool.
From Verif Require Import Res DenseModel.
Import ListNotations.

(** a live Matrix object: the storage has row*col cells *)
Definition mat_wf {T} (a : mat T) : Prop := length (mval a) = mrow a * mcol a.

(** f(0) + ... + f(n-1) *)
Fixpoint gsum {T} (O : ops T) (n : nat) (f : nat -> T) : T :=
  match n with 0 => o0 O | S k => oadd O (gsum O k f) (f k) end.

(** [a] is the r x c matrix with entries [f], as seen through operator() *)
Definition is_mat {T} (a : mat T) (r c : nat) (f : nat -> nat -> T) : Prop :=
  mat_wf a /\ mrow a = r /\ mcol a = c /\
  (forall i j, i < r -> j < c -> mget a i j = Ok (f i j)) /\
  (forall i j, ~ (i < r /\ j < c) -> mget a i j = Fail AssertFail).

(** [v] is the n-vector with components [f] *)
Definition is_vec {T} (v : list T) (n : nat) (f : nat -> T) : Prop :=
  length v = n /\
  (forall i, i < n -> vget v i = Ok (f i)) /\
  (forall i, n <= i -> vget v i = Fail AssertFail).
