(** Model of the dense solver [solvels] of src/Optimize/Solver/MMA.h:464-509,
    which is the same text as CONLIN.h:410-455, over exact reals.  The matrix
    is a vector of rows.  Both callers pass at least one equation; with none
    [_b.size() - 1] wraps around and the first pass reads [_A[0][0]]. *)
From Coq Require Import List Arith Lia Bool Reals.
From Verif Require Import Res DenseR LUModel.
Import ListNotations.
Local Open Scope R_scope.

(** [A[i][j]] and [A[i][j] = v] for a vector of vectors *)
Definition rd2 (A : list (list R)) (i j : nat) : res R := row <- rd A i ;; rd row j.
Definition wr2 (A : list (list R)) (i j : nat) (v : R) : res (list (list R)) :=
  row <- rd A i ;; row' <- wr row j v ;; wr A i row'.

(** MMA.h:468-475, the row with the largest entry in column i *)
Definition ls_pivot (A : list (list R)) (n i : nat) : res nat :=
  p <- rd2 A i i ;;
  '(_, q) <- foldM (fun '(p, q) j => v <- rd2 A j i ;;
      if Rltb p (Rabs v) then Ok (Rabs v, j) else Ok (p, q)) (seq (S i) (n - S i)) (Rabs p, i) ;;
  Ok q.

(** MMA.h:478-488, exchange of rows i and q from column i on *)
Definition ls_swap (A : list (list R)) (b : list R) (n i q : nat) : res (list (list R) * list R) :=
  if (q =? i)%nat then Ok (A, b) else
  t <- rd b i ;; u <- rd b q ;; b <- wr b i u ;; b <- wr b q t ;;
  A <- foldM (fun A j => t <- rd2 A i j ;; u <- rd2 A q j ;; A <- wr2 A i j u ;; wr2 A q j t) (seq i (n - i)) A ;;
  Ok (A, b).

(** MMA.h:491-496, elimination below row i *)
Definition ls_elim (A : list (list R)) (b : list R) (n i : nat) : res (list (list R) * list R) :=
  foldM (fun '(A, b) j =>
    A <- foldM (fun A k => x <- rd2 A j k ;; u <- rd2 A i k ;; l <- rd2 A j i ;; d <- rd2 A i i ;;
           t <- Rdiv_res (u * l) d ;; wr2 A j k (x - t)) (seq (S i) (n - S i)) A ;;
    y <- rd b j ;; bi <- rd b i ;; l <- rd2 A j i ;; d <- rd2 A i i ;;
    t <- Rdiv_res (bi * l) d ;; b <- wr b j (y - t) ;;
    Ok (A, b)) (seq (S i) (n - S i)) (A, b).

(** MMA.h:466-497 *)
Definition ls_forward (A : list (list R)) (b : list R) (n : nat) : res (list (list R) * list R) :=
  foldM (fun '(A, b) i => q <- ls_pivot A n i ;; '(A, b) <- ls_swap A b n i q ;; ls_elim A b n i) (seq 0 (n - 1)) (A, b).

(** MMA.h:500-506 *)
Definition ls_back (A : list (list R)) (b : list R) (n : nat) : res (list R) :=
  foldM (fun x i =>
    bi <- rd b i ;; x <- wr x i bi ;;
    x <- foldM (fun x j => xi <- rd x i ;; xj <- rd x j ;; a <- rd2 A i j ;; wr x i (xi - xj * a)) (rev (seq (S i) (n - S i))) x ;;
    xi <- rd x i ;; d <- rd2 A i i ;; t <- Rdiv_res xi d ;; wr x i t) (rev (seq 0 n)) (repeat 0 n).

(** MMA.h:464-509 *)
Definition solvels (A : list (list R)) (b : list R) : res (list R) :=
  let n := length b in
  if (n =? 0)%nat then Fail OutOfBounds else
  '(A, b) <- ls_forward A b n ;; ls_back A b n.
