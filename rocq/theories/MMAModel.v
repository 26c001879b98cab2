(** Model of src/Optimize/Solver/MMA.h and src/Optimize/Solver/CONLIN.h over
    exact reals.  The two classes share the text of the inner loop apart from
    the approximating functions; [sep] carries these.  Vectors filled entry by
    entry are built with [mapM], sums accumulated in place with [addM].  A
    division by zero, which gives inf or NaN in C++, is a DivByZero fault. *)
From Coq Require Import List Arith Lia Bool Reals.
From Verif Require Import Res DenseR LUModel KrylovModel OCModel SolvelsModel.
Import ListNotations.
Local Open Scope R_scope.

(** [s += f(0); ...; s += f(n-1)] *)
Definition addM (n : nat) (f : nat -> res R) (s : R) : res R :=
  foldM (fun acc i => v <- f i ;; Ok (acc + v)) (seq 0 n) s.
(** a vector of n entries *)
Definition tab (n : nat) (f : nat -> res R) : res (list R) := mapM f (seq 0 n).
Definition tab2 (m n : nat) (f : nat -> nat -> res R) : res (list (list R)) := mapM (fun i => tab n (f i)) (seq 0 m).

(** the separable approximation of a function: for variable j and coefficients
    p, q its term, the derivative of the term and the second derivative *)
Record sep := mkSep {
  s_term : nat -> R -> R -> R -> res R;
  s_grad : nat -> R -> R -> R -> res R;
  s_curv : nat -> R -> R -> R -> res R }.

(** MMA.h:215, 222-223, 243: p/(U-x) + q/(x-L) *)
Definition mma_sep (L U : list R) : sep := mkSep
  (fun j p q x => u <- rd U j ;; l <- rd L j ;; s <- Rdiv_res p (u - x) ;; t <- Rdiv_res q (x - l) ;; Ok (s + t))
  (fun j p q x => u <- rd U j ;; l <- rd L j ;; s <- Rdiv_res p ((u - x) ^ 2) ;; t <- Rdiv_res q ((x - l) ^ 2) ;; Ok (s - t))
  (fun j p q x => u <- rd U j ;; l <- rd L j ;; s <- Rdiv_res (2 * p) ((u - x) ^ 3) ;; t <- Rdiv_res (2 * q) ((x - l) ^ 3) ;; Ok (s + t)).

(** CONLIN.h:163, 170-171, 191: p x + q/x *)
Definition conlin_sep : sep := mkSep
  (fun _ p q x => t <- Rdiv_res q x ;; Ok (p * x + t))
  (fun _ p q x => t <- Rdiv_res q (x ^ 2) ;; Ok (p - t))
  (fun _ p q x => Rdiv_res (2 * q) (x ^ 3)).

(** the convex subproblem handed to the inner loop *)
Record prob := mkProb {
  p_n : nat; p_m : nat; p_a0 : R; p_a : list R; p_c : list R; p_d : list R;
  p_p0 : list R; p_q0 : list R; p_p : list (list R); p_q : list (list R);
  p_alpha : list R; p_beta : list R; p_b : list R; p_sep : sep }.

(** the primal and dual variables of the inner loop (also used for directions) *)
Record point := mkPt {
  w_x : list R; w_y : list R; w_z : R; w_lambda : list R; w_gsi : list R; w_ita : list R;
  w_mu : list R; w_zeta : R; w_s : list R }.

(** MMA.h:201-210 (= 427-436): p0 + sum lambda_i p_i *)
Definition coef_lambda (P : prob) (lambda : list R) (p0 : list R) (p : list (list R)) : res (list R) :=
  tab (p_n P) (fun j => v <- rd p0 j ;; addM (p_m P) (fun i => l <- rd lambda i ;; w <- rd2 p i j ;; Ok (l * w)) v).

(** the term of constraint i and variable j *)
Definition term_at (P : prob) (x : list R) (i j : nat) : res R :=
  p <- rd2 (p_p P) i j ;; q <- rd2 (p_q P) i j ;; xj <- rd x j ;; s_term (p_sep P) j p q xj.

(** MMA.h:422-461 KKTNorm *)
Definition kkt_norm (P : prob) (w : point) (eps : R) : res R :=
  pl <- coef_lambda P (w_lambda w) (p_p0 P) (p_p P) ;;
  ql <- coef_lambda P (w_lambda w) (p_q0 P) (p_q P) ;;
  g <- tab (p_m P) (fun i => addM (p_n P) (term_at P (w_x w) i) 0) ;;
  n1 <- addM (p_n P) (fun j =>
    p <- rd pl j ;; q <- rd ql j ;; x <- rd (w_x w) j ;; ga <- rd (w_gsi w) j ;; it <- rd (w_ita w) j ;;
    al <- rd (p_alpha P) j ;; be <- rd (p_beta P) j ;; d <- s_grad (p_sep P) j p q x ;;
    Ok ((d - ga + it) ^ 2 + (ga * (x - al) - eps) ^ 2 + (it * (be - x) - eps) ^ 2)) 0 ;;
  n2 <- addM (p_m P) (fun i =>
    c <- rd (p_c P) i ;; d <- rd (p_d P) i ;; y <- rd (w_y w) i ;; l <- rd (w_lambda w) i ;; mu <- rd (w_mu w) i ;;
    gi <- rd g i ;; a <- rd (p_a P) i ;; s <- rd (w_s w) i ;; b <- rd (p_b P) i ;;
    Ok ((c + d * y - l - mu) ^ 2 + (gi - a * w_z w - y + s - b) ^ 2 + (mu * y - eps) ^ 2 + (l * s - eps) ^ 2)) n1 ;;
  la <- inner (w_lambda w) (p_a P) ;;
  Ok (sqrt (n2 + (p_a0 P - w_zeta w - la) ^ 2 + (w_zeta w * w_z w - eps) ^ 2)).

(** MMA.h:212-249, the coefficients of the Newton system *)
Record newton := mkNewton {
  nt_G : list (list R); nt_Dx : list R; nt_dtx : list R; nt_Dy : list R; nt_dty : list R; nt_dtz : R;
  nt_Dly : list R; nt_dtly : list R }.
Definition newton_coefs (P : prob) (w : point) (eps : R) : res newton :=
  pl <- coef_lambda P (w_lambda w) (p_p0 P) (p_p P) ;;
  ql <- coef_lambda P (w_lambda w) (p_q0 P) (p_q P) ;;
  G <- tab2 (p_m P) (p_n P) (fun i j => p <- rd2 (p_p P) i j ;; q <- rd2 (p_q P) i j ;; x <- rd (w_x w) j ;; s_grad (p_sep P) j p q x) ;;
  Dx <- tab (p_n P) (fun j =>
    p <- rd pl j ;; q <- rd ql j ;; x <- rd (w_x w) j ;; al <- rd (p_alpha P) j ;; be <- rd (p_beta P) j ;;
    ga <- rd (w_gsi w) j ;; it <- rd (w_ita w) j ;;
    c <- s_curv (p_sep P) j p q x ;; s <- Rdiv_res ga (x - al) ;; t <- Rdiv_res it (be - x) ;; Ok (c + s + t)) ;;
  dtx <- tab (p_n P) (fun j =>
    p <- rd pl j ;; q <- rd ql j ;; x <- rd (w_x w) j ;; al <- rd (p_alpha P) j ;; be <- rd (p_beta P) j ;;
    g <- s_grad (p_sep P) j p q x ;; s <- Rdiv_res eps (x - al) ;; t <- Rdiv_res eps (be - x) ;; Ok (g - s + t)) ;;
  Dy <- tab (p_m P) (fun i => d <- rd (p_d P) i ;; mu <- rd (w_mu w) i ;; y <- rd (w_y w) i ;; t <- Rdiv_res mu y ;; Ok (d + t)) ;;
  Dl <- tab (p_m P) (fun i => s <- rd (w_s w) i ;; l <- rd (w_lambda w) i ;; Rdiv_res s l) ;;
  dty <- tab (p_m P) (fun i =>
    c <- rd (p_c P) i ;; d <- rd (p_d P) i ;; y <- rd (w_y w) i ;; l <- rd (w_lambda w) i ;; t <- Rdiv_res eps y ;;
    Ok (c + d * y - l - t)) ;;
  ez <- Rdiv_res eps (w_z w) ;; la <- inner (w_lambda w) (p_a P) ;;
  dtl <- tab (p_m P) (fun i =>
    a <- rd (p_a P) i ;; y <- rd (w_y w) i ;; b <- rd (p_b P) i ;; l <- rd (w_lambda w) i ;; t <- Rdiv_res eps l ;;
    addM (p_n P) (term_at P (w_x w) i) (- a * w_z w - y - b + t)) ;;
  Dly <- tab (p_m P) (fun i => d <- rd Dl i ;; y <- rd Dy i ;; t <- Rdiv_res 1 y ;; Ok (d + t)) ;;
  dtly <- tab (p_m P) (fun i => l <- rd dtl i ;; dy <- rd dty i ;; y <- rd Dy i ;; t <- Rdiv_res dy y ;; Ok (l + t)) ;;
  Ok (mkNewton G Dx dtx Dy dty (p_a0 P - ez - la) Dly dtly).

(** MMA.h:263-292, reduced system in (lambda, z): dx, dlambda, dz *)
Definition newton_wide (P : prob) (w : point) (N : newton) : res (list R * list R * R) :=
  let n := p_n P in let m := p_m P in
  zz <- Rdiv_res (- w_zeta w) (w_z w) ;;
  A <- tab2 (S m) (S m) (fun ii jj =>
    if (ii <? m)%nat then
      if (jj <? m)%nat then
        s <- addM n (fun k => gi <- rd2 (nt_G N) ii k ;; gj <- rd2 (nt_G N) jj k ;; d <- rd (nt_Dx N) k ;; Rdiv_res (gi * gj) d) 0 ;;
        if (ii =? jj)%nat then d <- rd (nt_Dly N) ii ;; Ok (s + d) else Ok s
      else rd (p_a P) ii
    else if (jj <? m)%nat then rd (p_a P) jj else Ok zz) ;;
  B <- tab (S m) (fun ii =>
    if (ii <? m)%nat then
      b <- rd (nt_dtly N) ii ;;
      addM n (fun j => g <- rd2 (nt_G N) ii j ;; t <- rd (nt_dtx N) j ;; d <- rd (nt_Dx N) j ;; q <- Rdiv_res (g * t) d ;; Ok (- q)) b
    else Ok (nt_dtz N)) ;;
  r <- solvels A B ;;
  dlambda <- tab m (fun i => rd r i) ;;
  dz <- rd r m ;;
  dx <- tab n (fun j =>
    t <- rd (nt_dtx N) j ;; d <- rd (nt_Dx N) j ;; s <- Rdiv_res (- t) d ;;
    addM m (fun i => g <- rd2 (nt_G N) i j ;; l <- rd dlambda i ;; q <- Rdiv_res (g * l) d ;; Ok (- q)) s) ;;
  Ok (dx, dlambda, dz).

(** MMA.h:293-330, reduced system in (x, z); the term a^2/Dlambday of the last
    diagonal entry is added once for every ii (MMA.h:301-305) *)
Definition newton_tall (P : prob) (w : point) (N : newton) : res (list R * list R * R) :=
  let n := p_n P in let m := p_m P in
  let ga ii := addM m (fun j => g <- rd2 (nt_G N) j ii ;; a <- rd (p_a P) j ;; d <- rd (nt_Dly N) j ;; q <- Rdiv_res (g * a) d ;; Ok (- q)) 0 in
  zz <- Rdiv_res (w_zeta w) (w_z w) ;;
  A <- tab2 (S n) (S n) (fun ii jj =>
    if (ii <? n)%nat then
      if (jj <? n)%nat then
        s <- addM m (fun k => gi <- rd2 (nt_G N) k ii ;; gj <- rd2 (nt_G N) k jj ;; d <- rd (nt_Dly N) k ;; Rdiv_res (gi * gj) d) 0 ;;
        if (ii =? jj)%nat then d <- rd (nt_Dx N) ii ;; Ok (s + d) else Ok s
      else ga ii
    else if (jj <? n)%nat then ga jj
    else
      s <- addM n (fun _ => addM m (fun j => a <- rd (p_a P) j ;; d <- rd (nt_Dly N) j ;; Rdiv_res (a * a) d) 0) 0 ;;
      Ok (s + zz)) ;;
  B <- tab (S n) (fun ii =>
    if (ii <? n)%nat then
      t <- rd (nt_dtx N) ii ;;
      addM m (fun j => g <- rd2 (nt_G N) j ii ;; l <- rd (nt_dtly N) j ;; d <- rd (nt_Dly N) j ;; q <- Rdiv_res (g * l) d ;; Ok (- q)) (- t)
    else addM m (fun j => a <- rd (p_a P) j ;; l <- rd (nt_dtly N) j ;; d <- rd (nt_Dly N) j ;; Rdiv_res (a * l) d) (- nt_dtz N)) ;;
  r <- solvels A B ;;
  dx <- tab n (fun j => rd r j) ;;
  dz <- rd r n ;;
  dlambda <- tab m (fun i =>
    a <- rd (p_a P) i ;; d <- rd (nt_Dly N) i ;; l <- rd (nt_dtly N) i ;;
    s <- Rdiv_res (- a * dz) d ;; t <- Rdiv_res l d ;;
    addM n (fun j => g <- rd2 (nt_G N) i j ;; x <- rd dx j ;; Rdiv_res (g * x) d) (s + t)) ;;
  Ok (dx, dlambda, dz).

(** MMA.h:250-343, the Newton direction *)
Definition direction (P : prob) (w : point) (eps : R) : res point :=
  N <- newton_coefs P w eps ;;
  '(dx, dlambda, dz) <- (if (p_m P <? p_n P)%nat then newton_wide P w N else newton_tall P w N) ;;
  dy <- tab (p_m P) (fun i => l <- rd dlambda i ;; d <- rd (nt_Dy N) i ;; t <- rd (nt_dty N) i ;; s <- Rdiv_res l d ;; u <- Rdiv_res t d ;; Ok (s - u)) ;;
  dmu <- tab (p_m P) (fun i => mu <- rd (w_mu w) i ;; d <- rd dy i ;; y <- rd (w_y w) i ;; s <- Rdiv_res (- mu * d) y ;; t <- Rdiv_res eps y ;; Ok (s - mu + t)) ;;
  ds <- tab (p_m P) (fun i => s <- rd (w_s w) i ;; d <- rd dlambda i ;; l <- rd (w_lambda w) i ;; u <- Rdiv_res (- s * d) l ;; t <- Rdiv_res eps l ;; Ok (u - s + t)) ;;
  dgsi <- tab (p_n P) (fun j => ga <- rd (w_gsi w) j ;; d <- rd dx j ;; x <- rd (w_x w) j ;; al <- rd (p_alpha P) j ;;
    s <- Rdiv_res (- ga * d) (x - al) ;; t <- Rdiv_res eps (x - al) ;; Ok (s - ga + t)) ;;
  dita <- tab (p_n P) (fun j => it <- rd (w_ita w) j ;; d <- rd dx j ;; x <- rd (w_x w) j ;; be <- rd (p_beta P) j ;;
    s <- Rdiv_res (it * d) (be - x) ;; t <- Rdiv_res eps (be - x) ;; Ok (s - it + t)) ;;
  s <- Rdiv_res (- w_zeta w * dz) (w_z w) ;; t <- Rdiv_res eps (w_z w) ;;
  Ok (mkPt dx dy dz dlambda dgsi dita dmu (s - w_zeta w + t) ds).

(** [if(t < v) t = v] over a loop *)
Definition maxM (n : nat) (f : nat -> res R) : res R :=
  foldM (fun t i => v <- f i ;; Ok (if Rltb t v then v else t)) (seq 0 n) 0.

(** MMA.h:346-360, the first step size *)
Definition step_size (P : prob) (w d : point) : res R :=
  tx <- maxM (p_n P) (fun j =>
    dx <- rd (w_x d) j ;; x <- rd (w_x w) j ;; al <- rd (p_alpha P) j ;; be <- rd (p_beta P) j ;;
    dg <- rd (w_gsi d) j ;; g <- rd (w_gsi w) j ;; di <- rd (w_ita d) j ;; i <- rd (w_ita w) j ;;
    t1 <- Rdiv_res (- (101/100) * dx) (x - al) ;; t2 <- Rdiv_res (101/100 * dx) (be - x) ;;
    t3 <- Rdiv_res (- (101/100) * dg) g ;; t4 <- Rdiv_res (- (101/100) * di) i ;;
    Ok (Rmax t1 (Rmax t2 (Rmax t3 t4)))) ;;
  ty <- maxM (p_m P) (fun i =>
    dy <- rd (w_y d) i ;; y <- rd (w_y w) i ;; dl <- rd (w_lambda d) i ;; l <- rd (w_lambda w) i ;;
    dm <- rd (w_mu d) i ;; mu <- rd (w_mu w) i ;; ds <- rd (w_s d) i ;; s <- rd (w_s w) i ;;
    t1 <- Rdiv_res (- (101/100) * dy) y ;; t2 <- Rdiv_res (- (101/100) * dl) l ;;
    t3 <- Rdiv_res (- (101/100) * dm) mu ;; t4 <- Rdiv_res (- (101/100) * ds) s ;;
    Ok (Rmax t1 (Rmax t2 (Rmax t3 t4)))) ;;
  tz <- Rdiv_res (- (101/100) * w_z d) (w_z w) ;; te <- Rdiv_res (- (101/100) * w_zeta d) (w_zeta w) ;;
  Rdiv_res 1 (Rmax 1 (Rmax tx (Rmax ty (Rmax tz te)))).

(** MMA.h:372-385, w + tau d *)
Definition advance (P : prob) (w d : point) (tau : R) : res point :=
  let go n a b := tab n (fun i => u <- rd a i ;; v <- rd b i ;; Ok (u + tau * v)) in
  x <- go (p_n P) (w_x w) (w_x d) ;; gsi <- go (p_n P) (w_gsi w) (w_gsi d) ;; ita <- go (p_n P) (w_ita w) (w_ita d) ;;
  y <- go (p_m P) (w_y w) (w_y d) ;; lambda <- go (p_m P) (w_lambda w) (w_lambda d) ;;
  mu <- go (p_m P) (w_mu w) (w_mu d) ;; s <- go (p_m P) (w_s w) (w_s d) ;;
  Ok (mkPt x y (w_z w + tau * w_z d) lambda gsi ita mu (w_zeta w + tau * w_zeta d) s).

(** MMA.h:371-391, at most [tries] halvings; the last trial point is kept *)
Fixpoint line_search (P : prob) (w d : point) (eps norm0 : R) (tries : nat) (tau : R) (last : point) : res point :=
  match tries with
  | O => Ok last
  | S tries' =>
    w' <- advance P w d tau ;; norm <- kkt_norm P w' eps ;;
    if Rltb norm norm0 then Ok w' else line_search P w d eps norm0 tries' (tau * (5/10)) w'
  end.

(** MMA.h:200-402, one pass of the inner loop *)
Definition inner_pass (P : prob) (w : point) (eps : R) : res point :=
  d <- direction P w eps ;; tau <- step_size P w d ;; norm0 <- kkt_norm P w eps ;;
  line_search P w d eps norm0 50 tau w.

(** MMA.h:199-411, the inner loop *)
Fixpoint inner_loop (P : prob) (fuel : nat) (w : point) (eps : R) : res point :=
  if Rltb (1/10000000) eps then
    match fuel with
    | O => Fail OutOfFuel
    | S fuel' =>
      w <- inner_pass P w eps ;; norm <- kkt_norm P w eps ;;
      inner_loop P fuel' w (if Rltb norm (9/10 * eps) then eps * (1/10) else eps * 1)
    end
  else Ok w.

(** MMA.h:177-197, the starting point *)
Definition start (P : prob) : res point :=
  mu <- tab (p_m P) (fun i => c <- rd (p_c P) i ;; Ok (Rmax 1 (5/10 * c))) ;;
  x <- tab (p_n P) (fun j => al <- rd (p_alpha P) j ;; be <- rd (p_beta P) j ;; Ok (5/10 * (al + be))) ;;
  gsi <- tab (p_n P) (fun j => x <- rd x j ;; al <- rd (p_alpha P) j ;; t <- Rdiv_res 1 (x - al) ;; Ok (Rmax 1 t)) ;;
  ita <- tab (p_n P) (fun j => x <- rd x j ;; be <- rd (p_beta P) j ;; t <- Rdiv_res 1 (be - x) ;; Ok (Rmax 1 t)) ;;
  Ok (mkPt x (repeat 1 (p_m P)) 1 (repeat 1 (p_m P)) gsi ita mu 1 (repeat 1 (p_m P))).

(** ** MMA *)
Record mma := mkMMA {
  mm_k : nat; mm_n : nat; mm_m : nat; mm_prev : R; mm_eps : R; mm_xmin : list R; mm_xmax : list R;
  mm_xkm2 : list R; mm_xkm1 : list R; mm_a0 : R; mm_a : list R; mm_c : list R; mm_d : list R;
  mm_raa0 : R; mm_albefa : R; mm_move : R; mm_asyinit : R; mm_asydecr : R; mm_asyincr : R;
  mm_L : list R; mm_U : list R }.

(** MMA.h:63-88, constructor *)
Definition mma_new (n m : nat) (a0 : R) (a c d xmin xmax : list R) : mma :=
  mkMMA 0 n m 0 (1/100000) xmin xmax (repeat 0 n) (repeat 0 n) a0 a c d
    (1/100000) (1/10) (5/10) (5/10) (7/10) (12/10) (repeat 0 n) (repeat 0 n).

(** MMA.h:107-113 *)
Definition mma_is_convergence (s : mma) (f0 : R) : bool := relative_change f0 (mm_prev s) (mm_eps s).

(** MMA.h:118-142, the new asymptotes of variable j *)
Definition mma_asymptote (s : mma) (xk : list R) (j : nat) : res (R * R) :=
  x <- rd xk j ;; lo <- rd (mm_xmin s) j ;; hi <- rd (mm_xmax s) j ;;
  '(l, u) <-
    (if (mm_k s <? 2)%nat then Ok (x - mm_asyinit s * (hi - lo), x + mm_asyinit s * (hi - lo))
     else
       x1 <- rd (mm_xkm1 s) j ;; x2 <- rd (mm_xkm2 s) j ;; l0 <- rd (mm_L s) j ;; u0 <- rd (mm_U s) j ;;
       let tmp := (x - x1) * (x1 - x2) in
       if Rltb tmp 0 then Ok (x - mm_asydecr s * (x1 - l0), x + mm_asydecr s * (u0 - x1))
       else if Rltb 0 tmp then Ok (x - mm_asyincr s * (x1 - l0), x + mm_asyincr s * (u0 - x1))
       else Ok (x - (x1 - l0), x + (u0 - x1))) ;;
  Ok (Rmin (Rmax (x - 10 * (hi - lo)) l) (x - 1/100 * (hi - lo)), Rmin (Rmax (x + 1/100 * (hi - lo)) u) (x + 10 * (hi - lo))).

(** MMA.h:157-158 and 170-171: coefficients for a derivative *)
Definition mma_p (s : mma) (xk U : list R) (j : nat) (df : R) : res R :=
  x <- rd xk j ;; u <- rd U j ;; lo <- rd (mm_xmin s) j ;; hi <- rd (mm_xmax s) j ;; t <- Rdiv_res (mm_raa0 s) (hi - lo) ;;
  Ok ((u - x) ^ 2 * (1001/1000 * Rmax df 0 + 1/1000 * Rmax (- df) 0 + t)).
Definition mma_q (s : mma) (xk L : list R) (j : nat) (df : R) : res R :=
  x <- rd xk j ;; l <- rd L j ;; lo <- rd (mm_xmin s) j ;; hi <- rd (mm_xmax s) j ;; t <- Rdiv_res (mm_raa0 s) (hi - lo) ;;
  Ok ((x - l) ^ 2 * (1/1000 * Rmax df 0 + 1001/1000 * Rmax (- df) 0 + t)).

(** MMA.h:118-175, the subproblem *)
Definition mma_problem (s : mma) (xk dfdx g : list R) (dgdx : list (list R)) : res (list R * list R * prob) :=
  let n := mm_n s in let m := mm_m s in
  LU <- mapM (mma_asymptote s xk) (seq 0 n) ;;
  let L := map fst LU in let U := map snd LU in
  alpha <- tab n (fun j => lo <- rd (mm_xmin s) j ;; hi <- rd (mm_xmax s) j ;; l <- rd L j ;; x <- rd xk j ;;
    Ok (Rmax lo (Rmax (l + mm_albefa s * (x - l)) (x - mm_move s * (hi - lo))))) ;;
  beta <- tab n (fun j => lo <- rd (mm_xmin s) j ;; hi <- rd (mm_xmax s) j ;; u <- rd U j ;; x <- rd xk j ;;
    Ok (Rmin hi (Rmin (u - mm_albefa s * (u - x)) (x + mm_move s * (hi - lo))))) ;;
  p0 <- tab n (fun j => df <- rd dfdx j ;; mma_p s xk U j df) ;;
  q0 <- tab n (fun j => df <- rd dfdx j ;; mma_q s xk L j df) ;;
  p <- tab2 m n (fun i j => df <- rd2 dgdx i j ;; mma_p s xk U j df) ;;
  q <- tab2 m n (fun i j => df <- rd2 dgdx i j ;; mma_q s xk L j df) ;;
  b <- tab m (fun i => gi <- rd g i ;; addM n (fun j =>
    pij <- rd2 p i j ;; qij <- rd2 q i j ;; x <- rd xk j ;; s_term (mma_sep L U) j pij qij x) (- gi)) ;;
  Ok (L, U, mkProb n m (mm_a0 s) (mm_a s) (mm_c s) (mm_d s) p0 q0 p q alpha beta b (mma_sep L U)).

(** MMA.h:116-419 UpdateVariables: the new solver state and variables *)
Definition mma_update (s : mma) (fuel : nat) (xk : list R) (f : R) (dfdx g : list R) (dgdx : list (list R)) : res (mma * list R) :=
  '(L, U, P) <- mma_problem s xk dfdx g dgdx ;;
  w <- start P ;; w <- inner_loop P fuel w 1 ;;
  Ok (mkMMA (S (mm_k s)) (mm_n s) (mm_m s) f (mm_eps s) (mm_xmin s) (mm_xmax s) (mm_xkm1 s) xk (mm_a0 s) (mm_a s) (mm_c s) (mm_d s)
        (mm_raa0 s) (mm_albefa s) (mm_move s) (mm_asyinit s) (mm_asydecr s) (mm_asyincr s) L U, w_x w).

(** ** CONLIN *)
Record conlin := mkCONLIN {
  cl_k : nat; cl_n : nat; cl_m : nat; cl_prev : R; cl_eps : R; cl_xmin : list R; cl_xmax : list R;
  cl_a0 : R; cl_a : list R; cl_c : list R; cl_d : list R; cl_move : R }.

(** CONLIN.h:54-67, constructor *)
Definition conlin_new (n m : nat) (a0 : R) (a c d xmin xmax : list R) : conlin :=
  mkCONLIN 0 n m 0 (1/100000) xmin xmax a0 a c d (5/10).

(** CONLIN.h:80-86 *)
Definition conlin_is_convergence (s : conlin) (f0 : R) : bool := relative_change f0 (cl_prev s) (cl_eps s).

(** CONLIN.h:91-123, the subproblem *)
Definition conlin_problem (s : conlin) (xk dfdx g : list R) (dgdx : list (list R)) : res prob :=
  let n := cl_n s in let m := cl_m s in
  alpha <- tab n (fun j => lo <- rd (cl_xmin s) j ;; hi <- rd (cl_xmax s) j ;; x <- rd xk j ;; Ok (Rmax lo (x - cl_move s * (hi - lo)))) ;;
  beta <- tab n (fun j => lo <- rd (cl_xmin s) j ;; hi <- rd (cl_xmax s) j ;; x <- rd xk j ;; Ok (Rmin hi (x + cl_move s * (hi - lo)))) ;;
  p0 <- tab n (fun j => df <- rd dfdx j ;; Ok (Rmax df 0)) ;;
  q0 <- tab n (fun j => df <- rd dfdx j ;; x <- rd xk j ;; Ok (Rmax (- df) 0 * x ^ 2)) ;;
  p <- tab2 m n (fun i j => df <- rd2 dgdx i j ;; Ok (Rmax df 0)) ;;
  q <- tab2 m n (fun i j => df <- rd2 dgdx i j ;; x <- rd xk j ;; Ok (Rmax (- df) 0 * x ^ 2)) ;;
  b <- tab m (fun i => gi <- rd g i ;; addM n (fun j =>
    pij <- rd2 p i j ;; qij <- rd2 q i j ;; x <- rd xk j ;; s_term conlin_sep j pij qij x) (- gi)) ;;
  Ok (mkProb n m (cl_a0 s) (cl_a s) (cl_c s) (cl_d s) p0 q0 p q alpha beta b conlin_sep).

(** CONLIN.h:90-365 UpdateVariables *)
Definition conlin_update (s : conlin) (fuel : nat) (xk : list R) (f : R) (dfdx g : list R) (dgdx : list (list R)) : res (conlin * list R) :=
  P <- conlin_problem s xk dfdx g dgdx ;;
  w <- start P ;; w <- inner_loop P fuel w 1 ;;
  Ok (mkCONLIN (S (cl_k s)) (cl_n s) (cl_m s) f (cl_eps s) (cl_xmin s) (cl_xmax s) (cl_a0 s) (cl_a s) (cl_c s) (cl_d s) (cl_move s), w_x w).
