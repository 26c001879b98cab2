(** Model of src/Optimize/Solver/OC.h over exact reals.  An infinite or NaN
    intermediate value of a design variable is a DivByZero fault. *)
From Coq Require Import List Arith Lia Bool Reals ZArith.
From Verif Require Import Res DenseModel DenseR LUModel.
Import ListNotations.
Local Open Scope R_scope.

(** std::pow on real arguments *)
Definition cpow (x y : R) : res R :=
  if Rlt_dec 0 x then Ok (Rpower x y)
  else if Req_EM_T x 0 then
    (if Rlt_dec 0 y then Ok 0 else if Req_EM_T y 0 then Ok 1 else Fail DivByZero)
  else let z := (up y - 1)%Z in
    if Req_EM_T (IZR z) y then Ok (powerRZ x z) else Fail DivByZero.

(** the members of the class, OC.h:29-41 *)
Record oc := mkOC {
  oc_k : nat; oc_n : nat; oc_prev : R; oc_eps : R; oc_xmin : list R; oc_xmax : list R;
  oc_iota : R; oc_lmin : R; oc_lmax : R; oc_leps : R; oc_move : R }.

(** OC.h:45-60, constructor *)
Definition oc_new (n : nat) (iota lmin lmax leps move : R) (xmin xmax : list R) : oc :=
  mkOC 0 n 0 (1 / 100000) xmin xmax iota lmin lmax leps move.

(** fabs(a - b)/(a + b) < eps as in OC.h:68, MMA.h:108 and CONLIN.h:81: with a
    vanishing sum the quotient is inf or NaN and the comparison is false *)
Definition relative_change (a b eps : R) : bool :=
  if Req_EM_T (a + b) 0 then false else Rltb (Rabs (a - b) / (a + b)) eps.

(** OC.h:66-73 IsConvergence *)
Definition oc_is_convergence (o : oc) (f0 : R) : bool := relative_change f0 (oc_prev o) (oc_eps o).

(** OC.h:85-92, the candidate for the multiplier lambda *)
Definition oc_candidate (o : oc) (xk dfdx dgdx : list R) (lambda : R) : res (list R) :=
  mapM (fun i =>
    df <- rd dfdx i ;; dg <- rd dgdx i ;; xi <- rd xk i ;;
    q <- Rdiv_res (- df) (dg * lambda) ;;
    p <- cpow q (oc_iota o) ;;
    let x := p * xi in
    let lo := Rmax 0 ((1 - oc_move o) * xi) in
    let hi := Rmin 1 ((1 + oc_move o) * xi) in
    Ok (if Rltb x lo then lo else if Rltb hi x then hi else x)) (seq 0 (oc_n o)).

(** OC.h:82-99, the bisection loop; lambda is uninitialised before the first pass *)
Fixpoint oc_loop (o : oc) (xk dfdx dgdx : list R) (g : list R -> R) (fuel : nat)
  (l0 l1 : R) (lambda : option R) (x : list R) : res (option R * list R) :=
  q <- Rdiv_res (l1 - l0) (l1 + l0) ;;
  if Rltb (oc_leps o) q then
    match fuel with
    | O => Fail OutOfFuel
    | S fuel' =>
      let lam := 5/10 * (l1 + l0) in
      x <- oc_candidate o xk dfdx dgdx lam ;;
      if Rltb 0 (g x) then oc_loop o xk dfdx dgdx g fuel' lam l1 (Some lam) x
      else oc_loop o xk dfdx dgdx g fuel' l0 lam (Some lam) x
    end
  else Ok (lambda, x).

(** OC.h:76-107 UpdateVariables: new solver state and design variables *)
Definition oc_update (o : oc) (fuel : nat) (xk : list R) (f : R) (dfdx : list R) (dgdx : list R) (g : list R -> R) : res (oc * list R) :=
  '(lambda, x) <- oc_loop o xk dfdx dgdx g fuel (oc_lmin o) (oc_lmax o) None (repeat 0 (oc_n o)) ;;
  _ <- (match lambda with Some l => Ok l | None => Fail Uninit end) ;;  (* printed, OC.h:101 *)
  Ok (mkOC (S (oc_k o)) (oc_n o) f (oc_eps o) (oc_xmin o) (oc_xmax o) (oc_iota o) (oc_lmin o) (oc_lmax o) (oc_leps o) (oc_move o), x).
