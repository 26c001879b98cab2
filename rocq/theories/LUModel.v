(** Model of /repo/src/LinearAlgebra/Solvers/LU.h over exact reals. *)
From Coq Require Import List Arith Lia Bool Reals.
From Verif Require Import Res DenseModel DenseR.
Import ListNotations.

(** exact comparison of doubles *)
Definition Rltb (x y : R) : bool := if Rlt_dec x y then true else false.

(** LU.h:31-38: search of the pivot row in column k *)
Definition lu_search (a : mat R) (k n : nat) : res (R * nat) :=
  x <- mget a k k ;;
  foldM (fun '(pv, pi) i =>
    y <- mget a i k ;;
    if Rltb pv (Rabs y) then (z <- mget a i k ;; Ok (Rabs z, i)) else Ok (pv, pi))
    (seq (S k) (n - S k)) (Rabs x, k).

(** std::swap(_pivot[k], _pivot[pivi]), LU.h:42 *)
Definition lu_swap_piv (p : list nat) (k q : nat) : res (list nat) :=
  x <- rd p k ;; y <- rd p q ;; p <- wr p k y ;; wr p q x.

(** LU.h:43-45: exchange of two rows, entry by entry *)
Definition lu_swap_rows (a : mat R) (k q n : nat) : res (mat R) :=
  foldM (fun a j => x <- mget a k j ;; y <- mget a q j ;; a <- mset a k j y ;; mset a q j x) (seq 0 n) a.

(** LU.h:49-51 *)
Definition lu_scale (a : mat R) (k n : nat) : res (mat R) :=
  foldM (fun a i => x <- mget a i k ;; d <- mget a k k ;; q <- Rdiv_res x d ;; mset a i k q)
    (seq (S k) (n - S k)) a.

(** LU.h:52-56 *)
Definition lu_elim (a : mat R) (k n : nat) : res (mat R) :=
  foldM (fun a j =>
    foldM (fun a i => x <- mget a i j ;; l <- mget a i k ;; u <- mget a k j ;; mset a i j (x - l * u)%R)
      (seq (S k) (n - S k)) a)
    (seq (S k) (n - S k)) a.

(** LU.h:30-57, one step of the outer loop *)
Definition lu_step (n : nat) (s : mat R * list nat) (k : nat) : res (mat R * list nat) :=
  let '(a, p) := s in
  '(_, q) <- lu_search a k n ;;
  '(a, p) <- (if k =? q then Ok (a, p)
              else p <- lu_swap_piv p k q ;; a <- lu_swap_rows a k q n ;; Ok (a, p)) ;;
  a <- lu_scale a k n ;;
  a <- lu_elim a k n ;;
  Ok (a, p).

(** LU.h:22-58.  The caller's pivot vector only contributes its length. *)
Definition lu (a : mat R) (p : list nat) : res (mat R * list nat) :=
  let n := mrow a in
  _ <- assert_ (n =? mcol a) ;;
  _ <- assert_ (n =? length p) ;;
  foldM (lu_step n) (seq 0 (n - 1)) (a, seq 0 n).

(** b(i) -= LU(i,j)*b(j), LU.h:78, 85 *)
Definition lu_sub (a : mat R) (i : nat) (b : list R) (j : nat) : res (list R) :=
  x <- vget b i ;; l <- mget a i j ;; y <- vget b j ;; vset b i (x - l * y)%R.

(** LU.h:62-89 SolveLU; returns the final contents of b *)
Definition solve_lu (a : mat R) (b : list R) (p : list nat) : res (list R) :=
  let n := mrow a in
  _ <- assert_ (n =? mcol a) ;;
  _ <- assert_ (n =? length b) ;;
  _ <- assert_ (n =? length p) ;;
  let tmp := b in
  b <- foldM (fun b i => k <- rd p i ;; x <- vget tmp k ;; vset b i x) (seq 0 n) b ;;
  b <- foldM (fun b i => foldM (lu_sub a i) (seq 0 i) b) (seq 0 n) b ;;
  foldM (fun b i =>
    b <- foldM (lu_sub a i) (seq (S i) (n - S i)) b ;;
    x <- vget b i ;; d <- mget a i i ;; q <- Rdiv_res x d ;; vset b i q)
    (rev (seq 0 n)) b.
