(** Model of /repo/src/LinearAlgebra/Solvers/Lanczos.h over exact reals.

    Vectors are std::vector<double>, here [list R]; the arrays alpha, beta and q
    have their final size from the start and are written in place, as in the
    C++.  A division by zero is the fault [DivByZero] (inf or NaN in the C++,
    which goes on).  The while loop of the bisection takes fuel; the modes are
    natural numbers.  pow(x, 2.0) is the square.  The square root of a negative
    number (NaN in the C++) is 0, as in Coq's library; dividing by it is a fault. *)
From Coq Require Import List Arith Lia Bool Reals.
From Verif Require Import Res SparseModel DenseModel DenseR LUModel KrylovModel.
Import ListNotations.
Local Open Scope R_scope.

(** Lanczos.h:18-24 *)
Definition xexda (x : list R) (a : R) : res (list R) := mapM (fun xi => Rdiv_res xi a) x.
(** Lanczos.h:28-35; the loop runs over the size of [x], whose values are overwritten *)
Fixpoint xeyda (x y : list R) (a : R) : res (list R) :=
  match x, y with
  | [], _ => Ok []
  | _ :: x, yi :: y => d <- Rdiv_res yi a ;; r <- xeyda x y a ;; Ok (d :: r)
  | _ :: _, [] => Fail OutOfBounds
  end.

(** ** BisectionMethod, Lanczos.h:39-81 *)
(** lines 43-48 *)
Definition bis_bound (alpha beta : list R) : res R :=
  a0 <- rd alpha 0 ;; b0 <- rd beta 0 ;;
  foldM (fun b i =>
           bm <- rd beta (i - 1) ;; ai <- rd alpha i ;; bi <- rd beta i ;;
           let s := Rabs bm + Rabs ai + Rabs bi in
           Ok (if Rltb b s then s else b)) (seq 1 (length alpha - 1)) (Rabs a0 + Rabs b0).
(** lines 56-70; the state is (pkm1, pk, sign, Nlambda) *)
Definition sign_count (alpha beta : list R) (lambda : R) : res nat :=
  a0 <- rd alpha 0 ;;
  let pk := a0 - lambda in
  let s0 := if Rltb (1 * pk) 0 then (1, pk, 1 * -1, 1%nat) else (1, pk, 1, 0%nat) in
  '(_, _, _, n) <- foldM (fun s k =>
      let '(pkm1, pk, sign, n) := s in
      a <- rd alpha (k + 1) ;; b <- rd beta k ;;
      let pkp1 := (a - lambda) * pk - b ^ 2 * pkm1 in
      if Rltb (sign * pkp1) 0 then Ok (pk, pkp1, sign * -1, (n + 1)%nat) else Ok (pk, pkp1, sign, n))
    (seq 0 (length alpha - 1)) s0 ;;
  Ok n.
(** lines 50-80: the variable lambda is uninitialised before the first pass *)
Fixpoint bisect (fuel : nat) (alpha beta : list R) (mode : nat) (b a1 a2 : R) (lambda : res R) : res R :=
  if Rltb (1 / 10 ^ 13 * b) (a2 - a1) then
    match fuel with
    | O => Fail OutOfFuel
    | S fuel =>
        let l := 1 / 2 * (a1 + a2) in
        n <- sign_count alpha beta l ;;
        if (n <=? mode)%nat then bisect fuel alpha beta mode b l a2 (Ok l)
        else bisect fuel alpha beta mode b a1 l (Ok l)
    end
  else lambda.
Definition bisection_method (fuel : nat) (alpha beta : list R) (mode : nat) : res R :=
  b <- bis_bound alpha beta ;; bisect fuel alpha beta mode b (- b) b (Fail Uninit).

(** ** InversePowerMethod, Lanczos.h:85-113 *)
(** lines 95-100: forward sweep; the state is (p, q) *)
Definition thomas_down (alpha beta : list R) (lambda : R) (yk p q : list R) : res (list R * list R) :=
  b0 <- rd beta 0 ;; a0 <- rd alpha 0 ;; y0 <- rd yk 0 ;;
  p0 <- Rdiv_res (- b0) (a0 - lambda) ;;
  q0 <- Rdiv_res y0 (a0 - lambda) ;;
  p <- wr p 0 p0 ;; q <- wr q 0 q0 ;;
  foldM (fun s i =>
           let '(p, q) := s in
           bi <- rd beta i ;; ai <- rd alpha i ;; bm <- rd beta (i - 1) ;; yi <- rd yk i ;;
           pm <- rd p (i - 1) ;; qm <- rd q (i - 1) ;;
           pi <- Rdiv_res (- bi) ((ai - lambda) + bm * pm) ;;
           qi <- Rdiv_res (yi - bm * qm) ((ai - lambda) + bm * pm) ;;
           p <- wr p i pi ;; q <- wr q i qi ;; Ok (p, q)) (seq 1 (length alpha - 1)) (p, q).
(** lines 102-105: backward sweep *)
Definition thomas_up (p q yk : list R) : res (list R) :=
  let m := length yk in
  ql <- rd q (m - 1) ;; yk <- wr yk (m - 1) ql ;;
  foldM (fun yk i => pi <- rd p i ;; yn <- rd yk (i + 1) ;; qi <- rd q i ;; wr yk i (pi * yn + qi)) (rev (seq 0 (m - 1))) yk.
(** lines 93-110: one pass; the state is (yk, p, q) *)
Definition power_pass (alpha beta : list R) (lambda : R) (s : list R * list R * list R) : res (list R * list R * list R) :=
  let '(yk, p, q) := s in
  '(p, q) <- thomas_down alpha beta lambda yk p q ;;
  yk <- thomas_up p q yk ;;
  nn <- inner yk yk ;;
  yk <- xexda yk (sqrt nn) ;;
  Ok (yk, p, q).
Fixpoint passes {S} (f : S -> res S) (k : nat) (s : S) : res S :=
  match k with O => Ok s | Datatypes.S k => s <- f s ;; passes f k s end.
(** lines 86-92 and 112 *)
Definition inverse_power (alpha beta : list R) (lambda : R) : res (list R) :=
  let m := length alpha in
  yk <- wr (repeat 0 m) 0 1 ;;
  '(yk, _, _) <- passes (power_pass alpha beta lambda) (100 * 100) (yk, repeat 0 m, repeat 0 m) ;;
  Ok yk.

(** ** ReconvertVector, Lanczos.h:117-128 *)
Definition reconvert (y : list R) (q : list (list R)) : res (list R) :=
  q0 <- rd q 0 ;;
  let n := length q0 in
  foldM (fun x k => foldM (fun x i => qk <- rd q k ;; qki <- rd qk i ;; yk <- rd y k ;; xi <- rd x i ;; wr x i (xi + qki * yk)) (seq 0 n) x)
    (seq 0 (length y)) (repeat 0 n).

(** ** The Lanczos process *)
(** one pass of the loops of Lanczos (lines 144-155), RestartLanczos (178-192,
    [re] = true) and ShiftedInvertLanczos (221-232); [op] applies the matrix
    to q[k]; the state is (alpha, beta, q) *)
Definition lanczos_step (op : list R -> res (list R)) (re : bool) (m : nat) (s : list R * list R * list (list R)) (k : nat)
  : res (list R * list R * list (list R)) :=
  let '(alpha, beta, q) := s in
  qk <- rd q k ;;
  p <- op qk ;;
  p <- (if re then foldM (fun p i => qi <- rd q i ;; c <- inner p qi ;; xexpay p (- c) qi) (seq 0 (k - 2)) p else Ok p) ;;
  p <- (if (k =? 0)%nat then Ok p else bm <- rd beta (k - 1) ;; qm <- rd q (k - 1) ;; xexpay p (- bm) qm) ;;
  ak <- inner qk p ;;
  alpha <- wr alpha k ak ;;
  p <- xexpay p (- ak) qk ;;
  pp <- inner p p ;;
  beta <- wr beta k (sqrt pp) ;;
  q <- (if (k =? m - 1)%nat then Ok q else qn <- rd q (k + 1) ;; qn <- xeyda qn p (sqrt pp) ;; wr q (k + 1) qn) ;;
  Ok (alpha, beta, q).
(** lines 138-141: the diagonal of A, normalised, in q[0] *)
Definition start (A : csr R) (m : nat) : res (list (list R)) :=
  d <- get_diagonal A ;;
  q <- wr (repeat (repeat 0 (crows A)) m) 0 d ;;
  dd <- inner d d ;;
  q0 <- xexda d (sqrt dd) ;;
  wr q 0 q0.
Definition process (op : list R -> res (list R)) (re : bool) (A : csr R) (m : nat) : res (list R * list R * list (list R)) :=
  q <- start A m ;;
  foldM (lanczos_step op re m) (seq 0 m) (repeat 0 m, repeat 0 m, q).
(** Lanczos.h:132-162 (lines 157-161: eigenvalues and eigenvectors, here as pairs) *)
Definition lanczos (fuel : nat) (A : csr R) (m : nat) : res (list (R * list R)) :=
  '(alpha, beta, q) <- process (Amul A) false A m ;;
  mapM (fun k => e <- bisection_method fuel alpha beta k ;; y <- inverse_power alpha beta e ;; x <- reconvert y q ;; Ok (e, x)) (seq 0 m).
(** Lanczos.h:166-199 *)
Definition restart_lanczos (fuel : nat) (A : csr R) (m : nat) : res (list (R * list R)) :=
  '(alpha, beta, q) <- process (Amul A) true A m ;;
  mapM (fun k => e <- bisection_method fuel alpha beta k ;; y <- inverse_power alpha beta e ;; x <- reconvert y q ;; Ok (e, x)) (seq 0 m).

(** the result of ScalingCG; its convergence message is ignored by the callers *)
Definition solve (A : csr R) (itrmax : nat) (b : list R) : res (list R) :=
  '(_, x) <- scaling_cg A b itrmax (1 / 10 ^ 10) ;; Ok x.
(** lines 234-239, 274-279, 318-323 *)
Definition inverted_ritz (fuel : nat) (alpha beta : list R) (q : list (list R)) (m : nat) (sigma : R) : res (list (R * list R)) :=
  mapM (fun k => e <- bisection_method fuel alpha beta (m - k - 1) ;; ie <- Rdiv_res 1 e ;;
                 y <- inverse_power alpha beta e ;; x <- reconvert y q ;; Ok (sigma + ie, x)) (seq 0 m).
(** Lanczos.h:205-209: A - sigma I *)
Definition shift_identity (A : csr R) (sigma : R) : res (csr R) :=
  I <- foldM (fun l i => '(_, l) <- lil_set l i i sigma ;; Ok l) (seq 0 (crows A)) (lil_new (crows A) (ccols A)) ;;
  '(I, _) <- csr_of_lil I ;;
  csr_zip 0 Rminus A I.
(** Lanczos.h:203-240 *)
Definition shifted_invert (fuel : nat) (A0 : csr R) (m : nat) (sigma : R) : res (list (R * list R)) :=
  A <- shift_identity A0 sigma ;;
  '(alpha, beta, q) <- process (solve A (Nat.max (crows A0) 1000)) false A m ;;
  inverted_ritz fuel alpha beta q m sigma.

(** one pass of the loops of GeneralShiftedInvertLanczos (lines 258-271) and
    GeneralRestartShiftedInvertLanczos (298-315, [re] = true); the state is
    (alpha, beta, q, p), where a fault in the quotient p = r/beta[k] is reported
    when the next pass reads p (the last one is never read) *)
Definition general_step (A B : csr R) (itrmax : nat) (re : bool) (m : nat) (s : list R * list R * list (list R) * res (list R)) (k : nat)
  : res (list R * list R * list (list R) * res (list R)) :=
  let '(alpha, beta, q, p) := s in
  p <- p ;;
  sv <- solve A itrmax p ;;
  sv <- (if re then foldM (fun sv i => qi <- rd q i ;; Bq <- Amul B qi ;; c <- inner sv Bq ;; xexpay sv (- c) Bq) (seq 0 (k - 2)) sv else Ok sv) ;;
  sv <- (if (k =? 0)%nat then Ok sv else bm <- rd beta (k - 1) ;; qm <- rd q (k - 1) ;; xexpay sv (- bm) qm) ;;
  ak <- inner p sv ;;
  alpha <- wr alpha k ak ;;
  qk <- rd q k ;;
  sv <- xexpay sv (- ak) qk ;;
  r <- Amul B sv ;;
  rs <- inner r sv ;;
  beta <- wr beta k (sqrt rs) ;;
  let p := xeyda p r (sqrt rs) in
  q <- (if (k =? m - 1)%nat then Ok q else qn <- rd q (k + 1) ;; qn <- xeyda qn sv (sqrt rs) ;; wr q (k + 1) qn) ;;
  Ok (alpha, beta, q, p).
Definition general_process (A B : csr R) (itrmax : nat) (re : bool) (m : nat) : res (list R * list R * list (list R)) :=
  q <- start A m ;;
  q0 <- rd q 0 ;;
  p <- Amul B q0 ;;
  '(alpha, beta, q, _) <- foldM (general_step A B itrmax re m) (seq 0 m) (repeat 0 m, repeat 0 m, q, Ok p) ;;
  Ok (alpha, beta, q).
(** Lanczos.h:244-280 ([re] = false) and 284-324 ([re] = true) *)
Definition general_shifted_invert (fuel : nat) (re : bool) (A0 B : csr R) (m : nat) (sigma : R) : res (list (R * list R)) :=
  A <- csr_zip 0 Rminus A0 (csr_map (fun v => v * sigma) B) ;;
  '(alpha, beta, q) <- general_process A B (Nat.max (crows A0) (100 * 100)) re m ;;
  inverted_ritz fuel alpha beta q m sigma.
