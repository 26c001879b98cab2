(** Model of src/FEM/Equation/Stokes.h and src/FEM/Equation/NavierStokes.h.

    The routines are templates over the velocity and pressure shape functions
    SFU, SFP and the integration class IC; here all three are arguments.  The
    geometry is interpolated with the pressure shape functions and the nodes of
    the pressure element.  Element dofs are ordered by component: dof i is the
    first and dof m + i the second velocity component of velocity node i, dof
    2m + i is the pressure of pressure node i.

    Each matrix K of the source starts from zero and every entry is assigned at
    most once; it is built by [mixed] from a table with one row and column per
    block, in which an entry that the source leaves alone is 0.  Doubles are
    modelled by exact reals; inf and NaN are the fault [DivByZero]. *)
From Coq Require Import List Arith Lia Bool Reals.
From Verif Require Import Res SumR DenseModel DenseR ShapeModel QuadModel ElemModel.
Import ListNotations.
Local Open Scope R_scope.

(** ** Lifted arithmetic *)
Definition rmul (a b : res R) : res R := x <- a ;; y <- b ;; Ok (x * y).
Definition radd (a b : res R) : res R := x <- a ;; y <- b ;; Ok (x + y).
Definition rsub (a b : res R) : res R := x <- a ;; y <- b ;; Ok (x - y).
Definition ropp (a : res R) : res R := x <- a ;; Ok (- x).
Infix "*!" := rmul (at level 40, left associativity).
Infix "+!" := radd (at level 50, left associativity).
Infix "-!" := rsub (at level 50, left associativity).
(** sqrt(x): NaN for x < 0 *)
Definition rsqrt (x : R) : res R := if Rle_dec 0 x then Ok (sqrt x) else Fail DivByZero.

(** ** Shared steps *)
(** block and index within the block of element dof a *)
Definition split (m a : nat) : nat * nat :=
  if (a <? m)%nat then (0, a)%nat else if (a <? 2 * m)%nat then (1, a - m)%nat else (2, a - 2 * m)%nat.
(** the (2m+n) x (2m+n) matrix with block table t; t i j lists the entries in
    row i and column j of the blocks *)
Definition mixed (m n : nat) (t : nat -> nat -> list (list (res R))) : res (mat R) :=
  mbuild R_ops (2 * m + n) (2 * m + n) (fun a b =>
    let '(c, i) := split m a in let '(e, j) := split m b in ent2 (t i j) c e).
Definition mixedv (m n : nat) (t : nat -> list (res R)) : res (list R) :=
  mapM (fun a => let '(c, i) := split m a in nth c (t i) (Fail OutOfBounds)) (seq 0 (2 * m + n)).

(** _nodetoelementu and _nodetoelementp (Stokes.h:25-34 and every other mixed
    routine): component k < 2 of velocity node i is dof k*m + i *)
Definition nte_u (m : nat) (dou : list nat) : res nte_t :=
  mapM (fun i => mapM (fun k => d <- rd dou k ;; Ok (d, (k * m + i)%nat)) (seq 0 2)) (seq 0 m).
Definition nte_p (m n : nat) (dou : list nat) : res nte_t :=
  mapM (fun i => d <- rd dou 2 ;; Ok [(d, (2 * m + i)%nat)]) (seq 0 n).

(** the values at an integration point: J, SFP::N, SFU::N, and the derivatives
    of both (Stokes.h:48-56) *)
Record point := mkPoint { pJ : R; pN : list R; pM : list R; pdN : mat R; pdM : mat R }.
Definition mixed_point (su sp : shape) (q : rule) (g : nat) (Xp : mat R) : res point :=
  p <- gpoint q g ;;
  j <- jacobian sp q g Xp ;; let '(J, dXdr, dNdr) := j in
  inv <- minv R_ops dXdr ;;
  dNdX <- mmul R_ops inv dNdr ;;
  dMdX <- mmul R_ops inv (sf_mat su p) ;;
  Ok (mkPoint J (sf_vec sp p) (sf_vec su p) dNdX dMdX).

(** _Ke += K*J*w0*w1 over the integration points, K from a table *)
Definition mixed_loop (su sp : shape) (q : rule) (m n : nat) (Xp : mat R)
  (t : point -> res (nat -> nat -> list (list (res R)))) : res (mat R) :=
  gauss q (fun g =>
    P <- mixed_point su sp q g Xp ;; T <- t P ;; k <- mixed m n T ;;
    weigh 2 q g (mscal R_ops (pJ P) k)) (mnew R_ops (2 * m + n) (2 * m + n)).
(** the same for the routines which do not invert dXdr (Stokes.h:106-121) *)
Definition value_loop (su sp : shape) (q : rule) (m n : nat) (Xp : mat R)
  (t : list R -> nat -> nat -> list (list (res R))) : res (mat R) :=
  gauss q (fun g =>
    p <- gpoint q g ;;
    j <- jacobian sp q g Xp ;; let '(J, _, _) := j in
    k <- mixed m n (t (sf_vec su p)) ;;
    weigh 2 q g (mscal R_ops J k)) (mnew R_ops (2 * m + n) (2 * m + n)).

Definition flow_t : Type := mat R * nte_t * nte_t.
Definition flowv_t : Type := list R * nte_t * nte_t.

(** ** Stokes.h *)
(** Stokes.h:58-71 *)
Definition stokes_table (mu : R) (P : point) (i j : nat) : list (list (res R)) :=
  let d := mget (pdM P) in let N := vget (pN P) in
  [ [Ok (2 * mu)%R *! d 0 i *! d 0 j +! Ok mu *! d 1 i *! d 1 j;  Ok mu *! d 0 i *! d 1 j;  ropp (N j) *! d 0 i];
    [Ok mu *! d 1 i *! d 0 j;  Ok mu *! d 0 i *! d 0 j +! Ok (2 * mu)%R *! d 1 i *! d 1 j;  ropp (N j) *! d 1 i];
    [ropp (N i) *! d 0 j;  ropp (N i) *! d 1 j;  Ok 0%R] ]%nat.
(** Stokes.h:19-75 *)
Definition StokesStiffness (su sp : shape) (q : rule) (elemu elemp dou : list nat) (xs : list (list R)) (mu : R) : res flow_t :=
  _ <- assert_ (length dou =? 3) ;;
  let m := length elemu in let n := length elemp in
  nu <- nte_u m dou ;; np <- nte_p m n dou ;;
  _ <- node_mat 2 elemu xs ;; Xp <- node_mat 2 elemp xs ;;
  K <- mixed_loop su sp q m n Xp (fun P => Ok (stokes_table mu P)) ;;
  Ok (K, nu, np).

(** Stokes.h:113-119, NavierStokes.h:197-203, 564-570 *)
Definition mass_table (rho : R) (M : list R) (i j : nat) : list (list (res R)) :=
  [ [Ok rho *! vget M i *! vget M j;  Ok 0;  Ok 0];
    [Ok 0;  Ok rho *! vget M i *! vget M j;  Ok 0];
    [Ok 0;  Ok 0;  Ok 0] ].
(** Stokes.h:79-123 *)
Definition StokesMass (su sp : shape) (q : rule) (elemu elemp dou : list nat) (xs : list (list R)) (rho : R) : res flow_t :=
  _ <- assert_ (length dou =? 3) ;;
  let m := length elemu in let n := length elemp in
  nu <- nte_u m dou ;; np <- nte_p m n dou ;;
  _ <- node_mat 2 elemu xs ;; Xp <- node_mat 2 elemp xs ;;
  K <- value_loop su sp q m n Xp (mass_table rho) ;;
  Ok (K, nu, np).

(** Stokes.h:127-172; _f is an arbitrary function of the position *)
Definition StokesSurfaceForce (su sp : shape) (q : rule) (elemu elemp dou : list nat) (xs : list (list R))
  (f : list R -> list R) : res flowv_t :=
  _ <- assert_ (length dou =? 3) ;;
  let m := length elemu in let n := length elemp in
  nu <- nte_u m dou ;; np <- nte_p m n dou ;;
  _ <- node_mat 2 elemu xs ;; Xp <- node_mat 2 elemp xs ;;
  F <- gaussv q (fun g =>
         p <- gpoint q g ;;
         x <- interpolate Xp (sf_vec sp p) ;;
         dXdr <- mmul R_ops (sf_mat sp p) Xp ;;
         dl <- length_element dXdr ;;
         let M := sf_vec su p in
         B <- mbuild R_ops 2 (2 * m + n) (fun r a => let '(c, i) := split m a in ent2
                [ [vget M i; Ok 0; Ok 0];
                  [Ok 0; vget M i; Ok 0] ] r c) ;;
         Bt <- mtrans R_ops B ;; v <- mmulv R_ops Bt (f x) ;;
         weighv 1 q g (vscal R_ops dl v)) (vnew R_ops (2 * m + n)) ;;
  Ok (F, nu, np).

(** Stokes.h:176-215 and NavierStokes.h:490-529 (the same text) *)
Definition StokesBodyForce (su sp : shape) (q : rule) (elemu elemp dou : list nat) (xs : list (list R))
  (f : list R -> list R) : res flowv_t :=
  _ <- assert_ (length dou =? 3) ;;
  let m := length elemu in let n := length elemp in
  nu <- nte_u m dou ;; np <- nte_p m n dou ;;
  Xp <- node_mat 2 elemp xs ;;
  F <- gaussv q (fun g =>
         p <- gpoint q g ;;
         j <- jacobian sp q g Xp ;; let '(J, _, _) := j in
         let M := sf_vec su p in
         x <- interpolate Xp (sf_vec sp p) ;;
         let b := f x in
         v <- mixedv m n (fun i => [vget b 0 *! vget M i; vget b 1 *! vget M i; Ok 0]) ;;
         weighv 2 q g (vscal R_ops J v)) (vnew R_ops (2 * m + n)) ;;
  Ok (F, nu, np).
Definition NavierStokesBodyForce := StokesBodyForce.

(** Stokes.h:248-254, NavierStokes.h:863-869 *)
Definition brinkman_table (k : mat R) (M : list R) (i j : nat) : list (list (res R)) :=
  [ [vget M i *! mget k 0 0 *! vget M j;  vget M i *! mget k 0 1 *! vget M j;  Ok 0];
    [vget M i *! mget k 1 0 *! vget M j;  vget M i *! mget k 1 1 *! vget M j;  Ok 0];
    [Ok 0;  Ok 0;  Ok 0] ].
(** Stokes.h:219-258 and NavierStokes.h:834-872 (the same text) *)
Definition BrinkmanBodyForce (su sp : shape) (q : rule) (elemu elemp dou : list nat) (xs : list (list R)) (k : mat R) : res flow_t :=
  _ <- assert_ (length dou =? 3) ;;
  let m := length elemu in let n := length elemp in
  nu <- nte_u m dou ;; np <- nte_p m n dou ;;
  Xp <- node_mat 2 elemp xs ;;
  K <- value_loop su sp q m n Xp (brinkman_table k) ;;
  Ok (K, nu, np).
Definition NavierStokesBrinkmanBodyForce := BrinkmanBodyForce.

(** ** NavierStokes.h, coupled method *)
(** NavierStokes.h:82-96 *)
Definition tangent_table (rho mu : R) (P : point) (U : list R) (dU : mat R) (i j : nat) : list (list (res R)) :=
  let d := mget (pdM P) in let N := vget (pN P) in let M := vget (pM P) in
  let u := vget U in let du := mget dU in
  [ [Ok rho *! M i *! M j *! du 0 0 +! Ok rho *! M i *! d 0 j *! u 0 +! Ok rho *! M i *! d 1 j *! u 1
       +! Ok (2 * mu)%R *! d 0 i *! d 0 j +! Ok mu *! d 1 i *! d 1 j +! Ok mu *! d 1 i *! d 0 j;
     Ok rho *! M i *! M j *! du 1 0;
     ropp (d 0 i) *! N j];
    [Ok rho *! M i *! M j *! du 0 1;
     Ok rho *! M i *! M j *! du 1 1 +! Ok rho *! M i *! d 1 j *! u 1 +! Ok rho *! M i *! d 0 j *! u 0
       +! Ok mu *! d 0 i *! d 1 j +! Ok mu *! d 0 i *! d 0 j +! Ok (2 * mu)%R *! d 1 i *! d 1 j;
     ropp (d 1 i) *! N j];
    [N i *! d 0 j;  N i *! d 1 j;  Ok 0%R] ]%nat.
(** NavierStokes.h:99-106 *)
Definition residual_table (rho mu : R) (P : point) (U : list R) (dU : mat R) (p : R) (i : nat) : list (res R) :=
  let d := mget (pdM P) in let N := vget (pN P) in let M := vget (pM P) in
  let u := vget U in let du := mget dU in
  [ Ok rho *! M i *! u 0 *! du 0 0 +! Ok rho *! M i *! u 1 *! du 1 0 +! Ok (2 * mu)%R *! d 0 i *! du 0 0
      +! Ok mu *! d 1 i *! du 1 0 +! Ok mu *! d 1 i *! du 0 1 -! d 0 i *! Ok p;
    Ok rho *! M i *! u 0 *! du 0 1 +! Ok rho *! M i *! u 1 *! du 1 1 +! Ok mu *! d 0 i *! du 1 0
      +! Ok mu *! d 0 i *! du 0 1 +! Ok (2 * mu)%R *! d 1 i *! du 1 1 -! d 1 i *! Ok p;
    N i *! du 0 0 +! N i *! du 1 1 ]%nat.
(** p(i) = _up[_elementp[i]](k) (NavierStokes.h:59-62) *)
Definition node_vec (k : nat) (elem : list nat) (us : list (list R)) : res (list R) :=
  mapM (fun e => v <- rd us e ;; vget v k) elem.
(** NavierStokes.h:25-109 *)
Definition NavierStokesTangent (su sp : shape) (q : rule) (elemu elemp dou : list nat) (xs ups : list (list R)) (rho mu : R)
  : res (mat R * list R * nte_t * nte_t) :=
  _ <- assert_ (length dou =? 3) ;;
  let m := length elemu in let n := length elemp in
  nu <- nte_u m dou ;; np <- nte_p m n dou ;;
  _ <- node_mat 2 elemu xs ;; Xp <- node_mat 2 elemp xs ;;
  u <- node_mat 2 elemu ups ;; p <- node_vec 2 elemp ups ;;
  st <- foldM (fun st g =>
      let '(K, F) := st in
      P <- mixed_point su sp q g Xp ;;
      U <- interpolate u (pM P) ;; dU <- mmul R_ops (pdM P) u ;;
      pr <- vdot R_ops p (pN P) ;; _ <- mmulv R_ops (pdN P) p ;;
      k <- mixed m n (tangent_table rho mu P U dU) ;;
      k <- weigh 2 q g (mscal R_ops (pJ P) k) ;; K <- madd R_ops K k ;;
      f <- mixedv m n (residual_table rho mu P U dU pr) ;;
      f <- weighv 2 q g (vscal R_ops (pJ P) f) ;; F <- vsub R_ops F f ;;
      Ok (K, F)) (seq 0 (q_n q))
    (mnew R_ops (2 * m + n) (2 * m + n), vnew R_ops (2 * m + n)) ;;
  let '(K, F) := st in
  Ok (K, F, nu, np).

(** NavierStokes.h:150-159 *)
Definition picard_table (rho mu : R) (P : point) (U : list R) (i j : nat) : list (list (res R)) :=
  let d := mget (pdM P) in let M := vget (pM P) in let u := vget U in
  [ [Ok rho *! (M i *! d 0 j *! u 0 +! M i *! d 1 j *! u 1) +! Ok mu *! (Ok 2%R *! d 0 i *! d 0 j +! d 1 i *! d 1 j);
     Ok mu *! d 1 i *! d 0 j;  Ok 0%R];
    [Ok mu *! d 0 i *! d 1 j;
     Ok rho *! (M i *! d 1 j *! u 1 +! M i *! d 0 j *! u 0) +! Ok mu *! (d 0 i *! d 0 j +! Ok 2%R *! d 1 i *! d 1 j);  Ok 0%R];
    [Ok 0%R;  Ok 0%R;  Ok 0%R] ]%nat.
(** NavierStokes.h:112-162 *)
Definition NavierStokesStiffness (su sp : shape) (q : rule) (elemu elemp dou : list nat) (xs ubars : list (list R)) (rho mu : R)
  : res flow_t :=
  _ <- assert_ (length dou =? 3) ;;
  let m := length elemu in let n := length elemp in
  nu <- nte_u m dou ;; np <- nte_p m n dou ;;
  Xp <- node_mat 2 elemp xs ;; u <- node_mat 2 elemu ubars ;;
  K <- mixed_loop su sp q m n Xp (fun P => U <- interpolate u (pM P) ;; Ok (picard_table rho mu P U)) ;;
  Ok (K, nu, np).

(** NavierStokes.h:166-205 *)
Definition NavierStokesConsistentMass (su sp : shape) (q : rule) (elemu elemp dou : list nat) (xs : list (list R)) (rho : R) : res flow_t :=
  _ <- assert_ (length dou =? 3) ;;
  let m := length elemu in let n := length elemp in
  nu <- nte_u m dou ;; np <- nte_p m n dou ;;
  Xp <- node_mat 2 elemp xs ;;
  K <- value_loop su sp q m n Xp (mass_table rho) ;;
  Ok (K, nu, np).

(** NavierStokes.h:240-249 *)
Definition continuity_table (P : point) (i j : nat) : list (list (res R)) :=
  let d := mget (pdM P) in let N := vget (pN P) in
  [ [Ok 0%R;  Ok 0%R;  ropp (d 0 i) *! N j];
    [Ok 0%R;  Ok 0%R;  ropp (d 1 i) *! N j];
    [N i *! d 0 j;  N i *! d 1 j;  Ok 0%R] ]%nat.
(** NavierStokes.h:209-252 *)
Definition ContinuityStiffness (su sp : shape) (q : rule) (elemu elemp dou : list nat) (xs : list (list R)) : res flow_t :=
  _ <- assert_ (length dou =? 3) ;;
  let m := length elemu in let n := length elemp in
  nu <- nte_u m dou ;; np <- nte_p m n dou ;;
  Xp <- node_mat 2 elemp xs ;;
  K <- mixed_loop su sp q m n Xp (fun P => Ok (continuity_table P)) ;;
  Ok (K, nu, np).

(** NavierStokes.h:284-290: the area by the rule of the element *)
Definition flow_area (sp : shape) (q : rule) (Xp : mat R) : res R :=
  gausss q (fun g => j <- jacobian sp q g Xp ;; weighs 2 q g (fst (fst j))) 0.
(** NavierStokes.h:304-315 (also 373-384, 452-463): stabilisation parameter *)
Definition tau_flow (m : nat) (P : point) (U : list R) (area rho mu dt : R) : res R :=
  un <- vnorm U ;;
  he <- (if Rlt_dec (/ 10 ^ 10) un
         then T <- mtrans R_ops (pdM P) ;; dU <- mmulv R_ops T U ;;
              h <- foldM (fun h i => x <- vget dU i ;; Ok (h + Rabs x)) (seq 0 m) 0 ;;
              Rdiv_res (2 * un) h
         else rsqrt area) ;;
  a <- Rdiv_res 2 dt ;; b <- Rdiv_res (2 * un) he ;; c <- Rdiv_res (4 * mu) (rho * (he * he)) ;;
  Rdiv_res 1 (sqrt (a * a + b * b + c * c)).
(** the loop _Ke += tau*K*J*w0*w1 *)
Definition supg_loop (su sp : shape) (q : rule) (m n : nat) (Xp u : mat R) (rho mu dt : R)
  (t : point -> list R -> nat -> nat -> list (list (res R))) : res (mat R) :=
  area <- flow_area sp q Xp ;;
  gauss q (fun g =>
    P <- mixed_point su sp q g Xp ;;
    U <- interpolate u (pM P) ;;
    tau <- tau_flow m P U area rho mu dt ;;
    k <- mixed m n (t P U) ;;
    weigh 2 q g (mscal R_ops (pJ P) (mscal R_ops tau k))) (mnew R_ops (2 * m + n) (2 * m + n)).
Definition supg_routine (su sp : shape) (q : rule) (elemu elemp dou : list nat) (xs ubars : list (list R)) (rho mu dt : R)
  (t : point -> list R -> nat -> nat -> list (list (res R))) : res flow_t :=
  _ <- assert_ (length dou =? 3) ;;
  let m := length elemu in let n := length elemp in
  nu <- nte_u m dou ;; np <- nte_p m n dou ;;
  Xp <- node_mat 2 elemp xs ;; u <- node_mat 2 elemu ubars ;;
  K <- supg_loop su sp q m n Xp u rho mu dt t ;;
  Ok (K, nu, np).
(** NavierStokes.h:317-327 *)
Definition supg_table (rho : R) (P : point) (U : list R) (i j : nat) : list (list (res R)) :=
  let d := mget (pdM P) in let e := mget (pdN P) in let u := vget U in
  let k := Ok rho *! (u 0 *! u 0 *! d 0 i *! d 0 j +! u 1 *! u 0 *! d 1 i *! d 0 j
                      +! u 0 *! u 1 *! d 0 i *! d 1 j +! u 1 *! u 1 *! d 1 i *! d 1 j)%nat in
  [ [k;  Ok 0%R;  Ok 0%R];
    [Ok 0%R;  k;  Ok 0%R];
    [Ok rho *! (u 0 *! e 0 i *! d 0 j +! u 1 *! e 0 i *! d 1 j);
     Ok rho *! (u 0 *! e 1 i *! d 0 j +! u 1 *! e 1 i *! d 1 j);  Ok 0%R] ]%nat.
(** NavierStokes.h:256-330 *)
Definition NavierStokesSUPGPSPGStiffness su sp q elemu elemp dou xs ubars (rho mu dt : R) : res flow_t :=
  supg_routine su sp q elemu elemp dou xs ubars rho mu dt (supg_table rho).
(** NavierStokes.h:396-405 *)
Definition supg_mass_table (rho : R) (P : point) (U : list R) (i j : nat) : list (list (res R)) :=
  let d := mget (pdM P) in let e := mget (pdN P) in let u := vget U in let M := vget (pM P) in
  let k := Ok rho *! (u 0 *! d 0 i *! M j +! u 1 *! d 1 i *! M j)%nat in
  [ [k;  Ok 0%R;  Ok 0%R];
    [Ok 0%R;  k;  Ok 0%R];
    [Ok rho *! e 0 i *! M j;  Ok rho *! e 1 i *! M j;  Ok 0%R] ]%nat.
(** NavierStokes.h:334-408 *)
Definition NavierStokesSUPGPSPGConsistentMass su sp q elemu elemp dou xs ubars (rho mu dt : R) : res flow_t :=
  supg_routine su sp q elemu elemp dou xs ubars rho mu dt (supg_mass_table rho).
(** NavierStokes.h:475-483 *)
Definition supg_continuity_table (P : point) (U : list R) (i j : nat) : list (list (res R)) :=
  let d := mget (pdM P) in let e := mget (pdN P) in let u := vget U in
  [ [Ok 0%R;  Ok 0%R;  u 0 *! d 0 i *! e 0 j +! u 1 *! d 1 i *! e 0 j];
    [Ok 0%R;  Ok 0%R;  u 0 *! d 0 i *! e 1 j +! u 1 *! d 1 i *! e 1 j];
    [Ok 0%R;  Ok 0%R;  e 0 i *! e 0 j +! e 1 i *! e 1 j] ]%nat.
(** NavierStokes.h:412-486 *)
Definition ContinuitySUPGPSPGStiffness su sp q elemu elemp dou xs ubars (rho mu dt : R) : res flow_t :=
  supg_routine su sp q elemu elemp dou xs ubars rho mu dt supg_continuity_table.

(** ** NavierStokes.h, adjoint equation *)
(** NavierStokes.h:813-827 *)
Definition adjoint_table (rho mu : R) (P : point) (U : list R) (dU : mat R) (i j : nat) : list (list (res R)) :=
  let d := mget (pdM P) in let N := vget (pN P) in let M := vget (pM P) in
  let u := vget U in let du := mget dU in
  [ [Ok rho *! (M i *! M j *! du 0 0 +! d 0 i *! u 0 *! M j +! d 1 i *! u 1 *! M j)
       +! Ok mu *! (Ok 2%R *! d 0 i *! d 0 j +! d 1 i *! d 1 j);
     Ok rho *! M i *! M j *! du 0 1 +! Ok mu *! d 1 i *! d 0 j;
     ropp (d 0 i) *! N j];
    [Ok rho *! M i *! M j *! du 1 0 +! Ok mu *! d 0 i *! d 1 j;
     Ok rho *! (d 0 i *! u 0 *! M j +! M i *! M j *! du 1 1 +! d 1 i *! u 1 *! M j)
       +! Ok mu *! (d 0 i *! d 0 j +! Ok 2%R *! d 1 i *! d 1 j);
     ropp (d 1 i) *! N j];
    [N i *! d 0 j;  N i *! d 1 j;  Ok 0%R] ]%nat.
(** NavierStokes.h:758-830 *)
Definition NavierStokesAdjoint (su sp : shape) (q : rule) (elemu elemp dou : list nat) (xs ups : list (list R)) (rho mu : R)
  : res flow_t :=
  _ <- assert_ (length dou =? 3) ;;
  let m := length elemu in let n := length elemp in
  nu <- nte_u m dou ;; np <- nte_p m n dou ;;
  _ <- node_mat 2 elemu xs ;; Xp <- node_mat 2 elemp xs ;;
  u <- node_mat 2 elemu ups ;; p <- node_vec 2 elemp ups ;;
  K <- mixed_loop su sp q m n Xp (fun P =>
         U <- interpolate u (pM P) ;; dU <- mmul R_ops (pdM P) u ;;
         _ <- vdot R_ops p (pN P) ;; _ <- mmulv R_ops (pdN P) p ;;
         Ok (adjoint_table rho mu P U dU)) ;;
  Ok (K, nu, np).

(** ** NavierStokes.h, decoupled method: one shape function, no pressure dofs *)
(** N, J and dNdX at a point (NavierStokes.h:557-561) *)
Definition single_point (s : shape) (q : rule) (g : nat) (X : mat R) : res (R * list R * mat R) :=
  p <- gpoint q g ;;
  jd <- gradient s q g X ;; let '(J, dNdX) := jd in
  Ok (J, sf_vec s p, dNdX).
(** NavierStokes.h:538-572 *)
Definition NavierStokesDecoupledConsistentMass (s : shape) (q : rule) (elem dou : list nat) (xs : list (list R)) (rho : R) : res (mat R * nte_t) :=
  _ <- assert_ (length dou =? 2) ;;
  let m := length elem in
  ne <- nte_u m dou ;;
  X <- node_mat 2 elem xs ;;
  K <- gauss q (fun g =>
         P <- single_point s q g X ;; let '(J, N, _) := P in
         k <- mixed m 0 (mass_table rho N) ;;
         weigh 2 q g (mscal R_ops J k)) (mnew R_ops (2 * m + 0) (2 * m + 0)) ;;
  Ok (K, ne).
(** NavierStokes.h:576-606 *)
Definition NavierStokesDecoupledLumpedMass (s : shape) (q : rule) (elem dou : list nat) (xs : list (list R)) (rho : R) : res (mat R * nte_t) :=
  _ <- assert_ (length dou =? 2) ;;
  let m := length elem in
  ne <- nte_u m dou ;;
  X <- node_mat 2 elem xs ;;
  area <- flow_area s q X ;;
  K <- mixed m 0 (fun i j =>
         let e := if (i =? j)%nat then Rdiv_res (rho * area) (INR (length elem)) else Ok 0 in
         [ [e; Ok 0]; [Ok 0; e] ]) ;;
  Ok (K, ne).
(** NavierStokes.h:610-650 *)
Definition NavierStokesAuxiliaryVelocity (s : shape) (q : rule) (elem dou : list nat) (xs us : list (list R)) (rho mu : R) : res (list R * nte_t) :=
  _ <- assert_ (length dou =? 2) ;;
  let m := length elem in
  ne <- nte_u m dou ;;
  X <- node_mat 2 elem xs ;; u <- node_mat 2 elem us ;;
  F <- foldM (fun F g =>
         P <- single_point s q g X ;; let '(J, N, dN) := P in
         U <- interpolate u N ;; dU <- mmul R_ops dN u ;;
         f <- mixedv m 0 (fun i =>
           [ Ok rho *! vget N i *! (vget U 0 *! mget dU 0 0 +! vget U 1 *! mget dU 1 0)
               +! Ok mu *! (mget dN 0 i *! mget dU 0 0 +! mget dN 1 i *! mget dU 1 0);
             Ok rho *! vget N i *! (vget U 0 *! mget dU 0 1 +! vget U 1 *! mget dU 1 1)
               +! Ok mu *! (mget dN 0 i *! mget dU 0 1 +! mget dN 1 i *! mget dU 1 1) ]) ;;
         f <- weighv 2 q g (vscal R_ops J f) ;;
         vsub R_ops F f) (seq 0 (q_n q)) (vnew R_ops (2 * m + 0)) ;;
  Ok (F, ne).
(** NavierStokes.h:654-700 *)
Definition NavierStokesPressurePoisson (s : shape) (q : rule) (elem dou : list nat) (xs us : list (list R)) (rho dt : R)
  : res (mat R * list R * nte_t) :=
  _ <- assert_ (length dou =? 1) ;;
  let m := length elem in
  ne <- nte_of 1 m dou ;;
  X <- node_mat 2 elem xs ;; u <- node_mat 2 elem us ;;
  st <- foldM (fun st g =>
      let '(K, F) := st in
      P <- single_point s q g X ;; let '(J, N, dN) := P in
      dU <- mmul R_ops dN u ;;
      k <- mbuild R_ops m m (fun i j => mget dN 0 i *! mget dN 0 j +! mget dN 1 i *! mget dN 1 j) ;;
      k <- weigh 2 q g (mscal R_ops J k) ;; K <- madd R_ops K k ;;
      f <- mapM (fun i => Rdiv_res (- rho) dt *! vget N i *! (mget dU 0 0 +! mget dU 1 1)) (seq 0 m) ;;
      f <- weighv 2 q g (vscal R_ops J f) ;; F <- vadd R_ops F f ;;
      Ok (K, F)) (seq 0 (q_n q))
    (mnew R_ops m m, vnew R_ops m) ;;
  let '(K, F) := st in
  Ok (K, F, ne).
(** NavierStokes.h:704-750; the argument _rho is not used by the source *)
Definition NavierStokesNextstepVelocity (s : shape) (q : rule) (elem dou : list nat) (xs us ps : list (list R)) (rho : R) : res (list R * nte_t) :=
  _ <- assert_ (length dou =? 2) ;;
  let m := length elem in
  ne <- nte_u m dou ;;
  X <- node_mat 2 elem xs ;; u <- node_mat 2 elem us ;; p <- node_vec 0 elem ps ;;
  F <- foldM (fun F g =>
         P <- single_point s q g X ;; let '(J, N, dN) := P in
         _ <- interpolate u N ;; dP <- mmulv R_ops dN p ;;
         f <- mixedv m 0 (fun i => [ vget N i *! vget dP 0; vget N i *! vget dP 1 ]) ;;
         f <- weighv 2 q g (vscal R_ops J f) ;;
         vsub R_ops F f) (seq 0 (q_n q)) (vnew R_ops (2 * m + 0)) ;;
  Ok (F, ne).
