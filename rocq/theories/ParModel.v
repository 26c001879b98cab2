(** Interleaving model of the OpenMP loop in
      /repo/src/LinearAlgebra/Models/CSR.h:108-122  (CSR * std::vector).

    [#pragma omp parallel for] distributes the iterations of the row loop over
    a team of threads; the distribution is arbitrary here: a list of row lists,
    one per thread, which together contain every row exactly once (that much is
    the OpenMP worksharing guarantee, for every schedule clause and team size).
    Each thread runs its rows in order.  The compound assignment on CSR.h:117
    [v[i] += data[j]*vec[indices[j]]] is split into a load of [v[i]] and a
    store; other shared data are only read.  Memory is sequentially
    consistent, which is justified a posteriori by the race-freedom theorem. *)
From Coq Require Import List Arith Lia Bool Permutation.
From Verif Require Import Res SparseModel.
Import ListNotations.

Section Par.
Context {T : Type}.
Variable zero : T.
Variables (add mul : T -> T -> T).

Inductive pc :=
| Idle                                  (* between rows *)
| At (i j hi : nat)                     (* in row i, before entry j of [.., hi) *)
| Loaded (i j hi : nat) (tmp : T).      (* v[i] has been loaded *)

Record thread := mkThread { todo : list nat; at_ : pc }.

Definition pstate := (list T * list thread)%type.

(** one micro-step of a thread; [None]: nothing left to do *)
Definition tstep (m : csr T) (x : list T) (v : list T) (t : thread)
  : option (res (list T * thread)) :=
  match at_ t with
  | Idle =>
      match todo t with
      | [] => None
      | i :: rest => Some (
          lo <- rd (indptr m) i ;;
          hi <- rd (indptr m) (S i) ;;
          Ok (v, mkThread rest (At i lo hi)))
      end
  | At i j hi =>
      if j <? hi then Some (vi <- rd v i ;; Ok (v, mkThread (todo t) (Loaded i j hi vi)))
      else Some (Ok (v, mkThread (todo t) Idle))
  | Loaded i j hi tmp => Some (
      d <- rd (cdata m) j ;;
      c <- rd (indices m) j ;;
      xc <- rd x c ;;
      v' <- wr v i (add tmp (mul d xc)) ;;
      Ok (v', mkThread (todo t) (At i (S j) hi)))
  end.

(** a step of the team: any thread that can move, moves *)
Inductive pstep (m : csr T) (x : list T) : pstate -> pstate -> Prop :=
| PStep v ts k t v' t' :
    nth_error ts k = Some t ->
    tstep m x v t = Some (Ok (v', t')) ->
    pstep m x (v, ts) (v', upd ts k t').

Inductive psteps (m : csr T) (x : list T) : pstate -> pstate -> Prop :=
| PRefl s : psteps m x s s
| PTrans s1 s2 s3 : psteps m x s1 s2 -> pstep m x s2 s3 -> psteps m x s1 s3.

Definition pinit (m : csr T) (asg : list (list nat)) : pstate :=
  (repeat zero (crows m), map (fun rows => mkThread rows Idle) asg).

(** a distribution of the loop: every row exactly once *)
Definition distribution (m : csr T) (asg : list (list nat)) : Prop :=
  Permutation (concat asg) (seq 0 (crows m)).

Definition finished (s : pstate) : Prop :=
  forall k t, nth_error (snd s) k = Some t -> at_ t = Idle /\ todo t = [].

(** the shared location a thread is about to access, and whether it writes *)
Definition access (t : thread) : option (nat * bool) :=
  match at_ t with
  | At i j hi => if j <? hi then Some (i, false) else None
  | Loaded i _ _ _ => Some (i, true)
  | Idle => None
  end.
End Par.
Arguments pc T : clear implicits.
Arguments thread T : clear implicits.
