(** Model of /repo/src/LinearAlgebra/Solvers/CG.h over exact reals.

    Vectors are std::vector<double>, here [list R].  The helper functions walk
    several vectors with iterators in lockstep; dereferencing an iterator past
    the end of a shorter vector is [OutOfBounds].  A division by zero, which in
    C++ gives inf or NaN and lets the loop go on, is the fault [DivByZero]
    (except for the error estimate of SOR, see there).  The coefficient beta is
    used only for the next search direction, after the convergence test; a
    fault in it is therefore kept in the state (the direction has type
    [res (list R)]) and reported when the next iteration begins.  Output to std::cout is
    not modelled; instead every solver returns a flag telling which of its two
    return statements was taken: [true] after the convergence test, [false]
    after "Convergence:faild". *)
From Coq Require Import List Arith Lia Bool Reals.
From Verif Require Import Res SparseModel DenseModel DenseR LUModel.
Import ListNotations.
Local Open Scope R_scope.

Notation Amul := (csr_mulvec 0 Rplus Rmult).

(** iterator walks: the first vector drives the loop *)
Fixpoint walk2 (f : R -> R -> R) (x y : list R) : res (list R) :=
  match x, y with
  | [], _ => Ok []
  | a :: x, b :: y => r <- walk2 f x y ;; Ok (f a b :: r)
  | _ :: _, [] => Fail OutOfBounds
  end.
Fixpoint walk3 (f : R -> R -> R -> R) (x y z : list R) : res (list R) :=
  match x, y, z with
  | [], _, _ => Ok []
  | a :: x, b :: y, c :: z => r <- walk3 f x y z ;; Ok (f a b c :: r)
  | _, _, _ => Fail OutOfBounds
  end.
Fixpoint walk4 (f : R -> R -> R -> R -> R) (w x y z : list R) : res (list R) :=
  match w, x, y, z with
  | [], _, _, _ => Ok []
  | a :: w, b :: x, c :: y, d :: z => r <- walk4 f w x y z ;; Ok (f a b c d :: r)
  | _, _, _, _ => Fail OutOfBounds
  end.

(** std::inner_product(x.begin(), x.end(), y.begin(), T()) *)
Fixpoint inner_from (acc : R) (x y : list R) : res R :=
  match x, y with
  | [], _ => Ok acc
  | a :: x, b :: y => inner_from (acc + a * b) x y
  | _ :: _, [] => Fail OutOfBounds
  end.
Definition inner := inner_from 0.

(** CG.h:16-27; the loop runs over the size of [b] *)
Definition subtract (a b : list R) : res (list R) := walk2 (fun bi ai => ai - bi) b a.
(** CG.h:30-38 *)
Definition xexpay (x : list R) (a : R) (y : list R) := walk2 (fun xi yi => xi + a * yi) x y.
(** CG.h:42-49 *)
Definition xeaxpy (a : R) (x y : list R) := walk2 (fun xi yi => a * xi + yi) x y.
(** CG.h:53-62 *)
Definition zeawpbxmypcz (a : R) (w : list R) (b : R) (x y : list R) (c : R) (z : list R) :=
  walk4 (fun zi wi xi yi => a * wi + b * (xi - yi + c * zi)) z w x y.
(** CG.h:66-74 *)
Definition xeaxpbypcz (a : R) (x : list R) (b : R) (y : list R) (c : R) (z : list R) :=
  walk3 (fun xi yi zi => a * xi + b * yi + c * zi) x y z.
(** CG.h:78-88 *)
Definition zeaxpby (a : R) (x : list R) (b : R) (y : list R) :=
  walk2 (fun xi yi => a * xi + b * yi) x y.
(** CG.h:92-103; the loop runs over the size of [x] *)
Definition zeawpbxpcy (a : R) (w : list R) (b : R) (x : list R) (c : R) (y : list R) :=
  walk3 (fun xi wi yi => a * wi + b * xi + c * yi) x w y.
(** CG.h:107-119; the loop runs over the size of [x] *)
Definition zeavpbwpcxpdy (a : R) (v : list R) (b : R) (w : list R) (c : R) (x : list R) (d : R) (y : list R) :=
  walk4 (fun xi vi wi yi => a * vi + b * wi + c * xi + d * yi) x v w y.

(** for(int k = 0; k < itrmax; ++k){ s = step(k, s); if(done(s)) return (true, s); }
    return (false, s); [left] iterations remain, the next index is [k] *)
Fixpoint iterate {S} (step : nat -> S -> res S) (done : S -> res bool) (left k : nat) (s : S) : res (bool * S) :=
  match left with
  | 0%nat => Ok (false, s)
  | Datatypes.S left' =>
      s <- step k s ;;
      d <- done s ;;
      if d then Ok (true, s) else iterate step done left' (Datatypes.S k) s
  end.

(** rnorm < _eps*bnorm *)
Definition converged (eps : R) (b r : list R) : res bool :=
  bb <- inner b b ;; rr <- inner r r ;; Ok (Rltb (sqrt rr) (eps * sqrt bb)).

(** ** CG, CG.h:123-154 *)
Record cg_state := mkCg { cg_x : list R; cg_r : list R; cg_p : res (list R); cg_rr : R }.

Definition cg_step (A : csr R) (s : cg_state) : res cg_state :=
  pk <- cg_p s ;;
  Ap <- Amul A pk ;;
  pAp <- inner pk Ap ;;
  alpha <- Rdiv_res (cg_rr s) pAp ;;
  x <- xexpay (cg_x s) alpha pk ;;
  r <- xexpay (cg_r s) (- alpha) Ap ;;
  rr <- inner r r ;;
  let p := (beta <- Rdiv_res rr (cg_rr s) ;; xeaxpy beta pk r) in
  Ok (mkCg x r p rr).

Definition cg_init (A : csr R) (b : list R) : res cg_state :=
  let x := repeat 0 (length b) in
  Ax <- Amul A x ;;
  r <- subtract b Ax ;;
  rr <- inner r r ;;
  Ok (mkCg x r (Ok r) rr).

(** rnorm = sqrt(rkrk) *)
Definition cg_done (eps : R) (b : list R) (s : cg_state) : res bool :=
  bb <- inner b b ;; Ok (Rltb (sqrt (cg_rr s)) (eps * sqrt bb)).

Definition cg (A : csr R) (b : list R) (itrmax : nat) (eps : R) : res (bool * list R) :=
  s <- cg_init A b ;;
  '(c, s) <- iterate (fun _ => cg_step A) (cg_done eps b) itrmax 0 s ;;
  Ok (c, cg_x s).

(** ** Preconditioned CG: ILU0CG (CG.h:319-352), ScalingCG (419-453) and SORCG
    (535-568) are the same text except for the preconditioner [pre]. *)
Record pcg_state := mkPcg { pc_x : list R; pc_r : list R; pc_p : res (list R); pc_mrr : R }.

Definition pcg_step (A : csr R) (pre : list R -> res (list R)) (s : pcg_state) : res pcg_state :=
  pk <- pc_p s ;;
  Ap <- Amul A pk ;;
  pAp <- inner pk Ap ;;
  alpha <- Rdiv_res (pc_mrr s) pAp ;;
  x <- xexpay (pc_x s) alpha pk ;;
  r <- xexpay (pc_r s) (- alpha) Ap ;;
  Mr <- pre r ;;
  mrr <- inner Mr r ;;
  let p := (beta <- Rdiv_res mrr (pc_mrr s) ;; xeaxpy beta pk Mr) in
  Ok (mkPcg x r p mrr).

Definition pcg_init (A : csr R) (pre : list R -> res (list R)) (b : list R) : res pcg_state :=
  let x := repeat 0 (length b) in
  Ax <- Amul A x ;;
  r <- subtract b Ax ;;
  p <- pre r ;;
  mrr <- inner p r ;;
  Ok (mkPcg x r (Ok p) mrr).

Definition pcg (A : csr R) (pre : list R -> res (list R)) (b : list R) (itrmax : nat) (eps : R) : res (bool * list R) :=
  s <- pcg_init A pre b ;;
  '(c, s) <- iterate (fun _ => pcg_step A pre) (fun s => converged eps b (pc_r s)) itrmax 0 s ;;
  Ok (c, pc_x s).

(** CG.h:397-404 *)
Definition get_diagonal (A : csr R) : res (list R) := mapM (fun i => csr_get 0 A i i) (seq 0 (crows A)).
(** CG.h:408-415 *)
Definition scaling (D b : list R) : res (list R) :=
  mapM (fun i => x <- rd b i ;; d <- rd D i ;; Rdiv_res x d) (seq 0 (length D)).

(** CG.h:419-453 *)
Definition scaling_cg (A : csr R) (b : list R) (itrmax : nat) (eps : R) : res (bool * list R) :=
  D <- get_diagonal A ;; pcg A (scaling D) b itrmax eps.

(** ** ILU(0) *)
(** CG.h:266-267: std::binary_search in the index range of row i: the libstdc++
    definition, lower_bound followed by a comparison *)
Definition row_has (A : csr R) (i c : nat) : res bool :=
  '(lo, hi) <- row_range A i ;;
  k <- lower_bound (hi - lo) (indices A) lo (hi - lo) c ;;
  if (k =? hi)%nat then Ok false else x <- rd (indices A) k ;; Ok (negb (c <? x)%nat).

(** CG.h:265-275: the loop over k = k0, k0+1, ..., with its break *)
Fixpoint ilu_k (A : csr R) (i j : nat) (q : lil R) (left k : nat) (qij : R) : res R :=
  match left with
  | 0%nat => Ok qij
  | S left' =>
      h1 <- row_has A i k ;;
      if h1 then
        h2 <- row_has A k j ;;
        if h2 then
          if ((i <=? j) && (k <? i) || (j <? i) && (k <? j))%nat then
            x <- lil_get 0 q i k ;; y <- lil_get 0 q k j ;;
            ilu_k A i j q left' (S k) (qij - x * y)
          else Ok qij
        else ilu_k A i j q left' (S k) qij
      else ilu_k A i j q left' (S k) qij
  end.

(** CG.h:263-279 *)
Definition ilu_entry (A : csr R) (i : nat) (q : lil R) (n : nat) : res (lil R) :=
  j <- rd (indices A) n ;;
  a <- rd (cdata A) n ;;
  qij <- ilu_k A i j q (crows A) 0 a ;;
  qij <- (if (j <? i)%nat then d <- lil_get 0 q j j ;; Rdiv_res qij d else Ok qij) ;;
  '(_, q) <- lil_set q i j qij ;; Ok q.

(** CG.h:257-284 *)
Definition ilu0 (A : csr R) : res (csr R) :=
  q <- lil_of_csr A ;;
  q <- foldM (fun q i =>
         lo <- rd (indptr A) i ;; hi <- rd (indptr A) (S i) ;;
         foldM (ilu_entry A i) (seq lo (hi - lo)) q) (seq 0 (crows A)) q ;;
  '(m, _) <- csr_of_lil q ;; Ok m.

(** CG.h:293-299: entries of row i from position k, up to the first column >= i *)
Fixpoint pre_lower (A : csr R) (i : nat) (left k : nat) (v : list R) : res (list R) :=
  match left with
  | 0%nat => Ok v
  | S left' =>
      c <- rd (indices A) k ;;
      if (c <? i)%nat then
        d <- rd (cdata A) k ;; vc <- rd v c ;; vi <- rd v i ;; v <- wr v i (vi - d * vc) ;;
        pre_lower A i left' (S k) v
      else Ok v
  end.
(** CG.h:304-310: backwards, down to the first column <= i *)
Fixpoint pre_upper (A : csr R) (i : nat) (lo left : nat) (v : list R) : res (list R) :=
  match left with
  | 0%nat => Ok v
  | S left' =>
      c <- rd (indices A) (lo + left') ;;
      if (i <? c)%nat then
        d <- rd (cdata A) (lo + left') ;; vc <- rd v c ;; vi <- rd v i ;; v <- wr v i (vi - d * vc) ;;
        pre_upper A i lo left' v
      else Ok v
  end.

(** CG.h:288-315 *)
Definition pre_ilu0 (A : csr R) (b : list R) : res (list R) :=
  v <- foldM (fun v i => lo <- rd (indptr A) i ;; hi <- rd (indptr A) (S i) ;; pre_lower A i (hi - lo) lo v)
         (seq 0 (length b)) b ;;
  foldM (fun v i => hi <- rd (indptr A) (S i) ;; lo <- rd (indptr A) i ;;
           v <- pre_upper A i lo (hi - lo) v ;;
           vi <- rd v i ;; d <- csr_get 0 A i i ;; q <- Rdiv_res vi d ;; wr v i q)
    (rev (seq 0 (length b))) v.

(** CG.h:319-352 *)
Definition ilu0_cg (A M : csr R) (b : list R) (itrmax : nat) (eps : R) := pcg A (pre_ilu0 M) b itrmax eps.

(** ** SOR, CG.h:499-531.  The error estimate divides by the previous value,
    which is 0 on the first sweep; [None] stands for an estimate that is not
    finite (inf or NaN), for which the test [error < eps] is false. *)
Definition sor_entry (A : csr R) (i : nat) (s : list R * R) (k : nat) : res (list R * R) :=
  let '(x, aii) := s in
  j <- rd (indices A) k ;;
  if negb (i =? j)%nat then
    d <- rd (cdata A) k ;; xj <- rd x j ;; xi <- rd x i ;; x <- wr x i (xi - d * xj) ;; Ok (x, aii)
  else d <- rd (cdata A) k ;; Ok (x, d).

(** CG.h:506-518: the update of x[i]; also returns the old value *)
Definition sor_row (A : csr R) (b : list R) (w : R) (x : list R) (i : nat) : res (list R * R) :=
  tmp <- rd x i ;;
  bi <- rd b i ;;
  x <- wr x i bi ;;
  lo <- rd (indptr A) i ;; hi <- rd (indptr A) (S i) ;;
  '(x, aii) <- foldM (sor_entry A i) (seq lo (hi - lo)) (x, 0) ;;
  xi <- rd x i ;; q <- Rdiv_res xi aii ;;
  x <- wr x i (tmp + w * (q - tmp)) ;;
  Ok (x, tmp).

(** CG.h:520 *)
Definition sor_err (e : option R) (old new : R) : option R :=
  match e with
  | None => None
  | Some e => if Req_EM_T old 0 then None else Some (e + Rabs ((old - new) / old))
  end.

(** CG.h:504-521: one sweep *)
Definition sor_sweep (A : csr R) (b : list R) (w : R) (x : list R) : res (list R * option R) :=
  foldM (fun '(x, e) i => '(x, old) <- sor_row A b w x i ;; new <- rd x i ;; Ok (x, sor_err e old new))
    (seq 0 (crows A)) (x, Some 0).

Definition sor (A : csr R) (b : list R) (w : R) (itrmax : nat) (eps : R) : res (bool * list R) :=
  '(c, s) <- iterate (fun _ s => sor_sweep A b w (fst s))
       (fun s => Ok (match snd s with Some e => Rltb e eps | None => false end)) itrmax 0 (repeat 0 (crows A), Some 0) ;;
  Ok (c, fst s).

(** CG.h:535-568 *)
Definition sor_cg (A : csr R) (b : list R) (itrmax : nat) (eps w : R) (soritr : nat) (soreps : R) :=
  pcg A (fun r => '(_, x) <- sor A r w soritr soreps ;; Ok x) b itrmax eps.

(** ** BiCGSTAB.  CG.h:158-193 is the instance [pre = copy], [p0 = r] of the
    common text of ILU0BiCGSTAB (356-393, [p0 = r]) and ScalingBiCGSTAB (457-495,
    [p0 = Scaling(D, r)]); [pre] is the preconditioner. *)
Record bcg_state := mkBcg { bs_x : list R; bs_r : list R; bs_p : res (list R); bs_rr : R }.

Definition bcg_step (A : csr R) (pre : list R -> res (list R)) (rdash : list R) (s : bcg_state) : res bcg_state :=
  pk <- bs_p s ;;
  Mp <- pre pk ;;
  AMp <- Amul A Mp ;;
  rAp <- inner rdash AMp ;;
  alpha <- Rdiv_res (bs_rr s) rAp ;;
  sk <- zeaxpby 1 (bs_r s) (- alpha) AMp ;;
  Ms <- pre sk ;;
  AMs <- Amul A Ms ;;
  n1 <- inner AMs sk ;; n2 <- inner AMs AMs ;;
  omega <- Rdiv_res n1 n2 ;;
  x <- xeaxpbypcz 1 (bs_x s) alpha Mp omega Ms ;;
  r <- zeaxpby 1 sk (- omega) AMs ;;
  rr <- inner rdash r ;;
  let p := (ao <- Rdiv_res alpha omega ;;
            beta <- Rdiv_res (ao * rr) (bs_rr s) ;;
            xeaxpbypcz beta pk 1 r (- beta * omega) AMp) in
  Ok (mkBcg x r p rr).

Definition bcg (A : csr R) (pre p0 : list R -> res (list R)) (b : list R) (itrmax : nat) (eps : R) : res (bool * list R) :=
  let x := repeat 0 (length b) in
  Ax <- Amul A x ;;
  r <- subtract b Ax ;;
  p <- p0 r ;;
  rr <- inner r r ;;
  '(c, s) <- iterate (fun _ => bcg_step A pre r) (fun s => converged eps b (bs_r s)) itrmax 0 (mkBcg x r (Ok p) rr) ;;
  Ok (c, bs_x s).

Definition bicgstab (A : csr R) := bcg A (fun v => Ok v) (fun r => Ok r).
Definition ilu0_bicgstab (A M : csr R) := bcg A (pre_ilu0 M) (fun r => Ok r).
Definition scaling_bicgstab (A : csr R) (b : list R) (itrmax : nat) (eps : R) : res (bool * list R) :=
  D <- get_diagonal A ;; bcg A (scaling D) (scaling D) b itrmax eps.

(** ** BiCGSTAB2, CG.h:197-253 *)
Record b2_state := mkB2 { b2_x : list R; b2_r : list R; b2_p : list R; b2_u : list R; b2_t : list R;
  b2_w : res (list R); b2_z : list R; b2_beta : res R; b2_rr : R }.

(** CG.h:219-232: the coefficients zeta and eta *)
Definition b2_coef (k : nat) (yk tk Atk : list R) : res (R * R) :=
  att <- inner Atk tk ;; atat <- inner Atk Atk ;;
  if Nat.even k then
    zeta <- Rdiv_res att atat ;; Ok (zeta, 0)
  else
    yy <- inner yk yk ;; yt <- inner yk tk ;; aty <- inner Atk yk ;;
    zeta <- Rdiv_res (yy * att - yt * aty) (atat * yy - aty * aty) ;;
    ita <- Rdiv_res (atat * yt - aty * att) (atat * yy - aty * aty) ;;
    Ok (zeta, ita).

Definition b2_step (A : csr R) (rdash : list R) (k : nat) (s : b2_state) : res b2_state :=
  bk <- b2_beta s ;; wk <- b2_w s ;;
  p <- xeaxpbypcz bk (b2_p s) 1 (b2_r s) (- bk) (b2_u s) ;;
  Ap <- Amul A p ;;
  rAp <- inner rdash Ap ;;
  alpha <- Rdiv_res (b2_rr s) rAp ;;
  y <- zeavpbwpcxpdy 1 (b2_t s) (- 1) (b2_r s) (- alpha) wk alpha Ap ;;
  t <- zeaxpby 1 (b2_r s) (- alpha) Ap ;;
  At <- Amul A t ;;
  '(zeta, ita) <- b2_coef k y t At ;;
  u <- zeawpbxmypcz zeta Ap ita (b2_t s) (b2_r s) bk (b2_u s) ;;
  z <- xeaxpbypcz ita (b2_z s) zeta (b2_r s) (- alpha) u ;;
  x <- xeaxpbypcz 1 (b2_x s) alpha p 1 z ;;
  r <- zeawpbxpcy 1 t (- ita) y (- zeta) At ;;
  rr <- inner rdash r ;;
  let beta := Rdiv_res (alpha * rr) (zeta * b2_rr s) in
  let w := (b <- beta ;; zeaxpby 1 At b Ap) in
  Ok (mkB2 x r p u t w z beta rr).

Definition bicgstab2 (A : csr R) (b : list R) (itrmax : nat) (eps : R) : res (bool * list R) :=
  let o := repeat 0 (length b) in
  Ax <- Amul A o ;;
  r <- subtract b Ax ;;
  rr <- inner r r ;;
  '(c, s) <- iterate (b2_step A r) (fun s => converged eps b (b2_r s)) itrmax 0 (mkB2 o r o o o (Ok o) o (Ok 0) rr) ;;
  Ok (c, b2_x s).
