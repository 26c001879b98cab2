(** Model of the element routines of src/FEM/Equation: General.h (geometry and
    springs), PlaneStrain.h, PlaneStress.h, HeatTransfer.h, ReactionDiffusion.h,
    Advection.h, Homogenization.h, Solid.h and Truss.h.

    The routines are templates over the shape function class SF and the
    integration class IC; here both are arguments (records of ShapeModel and
    QuadModel).  All matrix arithmetic goes through the operations of DenseModel,
    so every assertion of the dense classes is part of the model.  Doubles are
    modelled by exact reals; a division by zero is the fault [DivByZero].
    Matrices which the source fills entry by entry (each entry exactly once) are
    built with [mbuild] from a table of their entries. *)
From Coq Require Import List Arith Lia Bool Reals.
From Verif Require Import Res SumR DenseModel DenseR ShapeModel QuadModel.
Import ListNotations.
Local Open Scope R_scope.

Definition nte_t := list (list (nat * nat)).

(** ** Shared steps *)
(** the table entry in row i, column j *)
Definition ent2 (t : list (list (res R))) (i j : nat) : res R :=
  nth j (nth i t []) (Fail OutOfBounds).

(** X(i, k) = _x[_element[i]](k), k < d (for instance PlaneStrain.h:31-35) *)
Definition node_mat (d : nat) (elem : list nat) (xs : list (list R)) : res (mat R) :=
  mbuild R_ops (length elem) d (fun i k => e <- rd elem i ;; v <- rd xs e ;; vget v k).

(** _nodetoelement[i][j] = (_doulist[j], m*i + j), j < m (for instance
    PlaneStrain.h:25-29) *)
Definition nte_of (m n : nat) (dou : list nat) : res nte_t :=
  mapM (fun i => mapM (fun j => d <- rd dou j ;; Ok (d, (m * i + j)%nat)) (seq 0 m)) (seq 0 n).

(** IC<T>::Points[g] and IC<T>::Weights[g][k] *)
Definition gpoint (q : rule) (g : nat) : res (list R) := rd (q_points q) g.
Definition gweight (q : rule) (g k : nat) : res R := w <- rd (q_weights q) g ;; rd w k.

(** SF<T>::N(r) and SF<T>::dNdr(r) as Vector and Matrix *)
Definition sf_vec (s : shape) (p : list R) : list R := sf_N s (fun k => nth k p 0).
Definition sf_mat (s : shape) (p : list R) : mat R :=
  mkMat (sf_d s) (sf_n s) (concat (sf_dN s (fun k => nth k p 0))).

(** dNdr = SF::dNdr(IC::Points[g]); dXdr = dNdr*X; J = dXdr.Determinant()
    (for instance PlaneStrain.h:44-46) *)
Definition jacobian (s : shape) (q : rule) (g : nat) (X : mat R) : res (R * mat R * mat R) :=
  p <- gpoint q g ;;
  let dNdr := sf_mat s p in
  dXdr <- mmul R_ops dNdr X ;;
  J <- mdet R_ops dXdr ;;
  Ok (J, dXdr, dNdr).
(** the same followed by dNdX = dXdr.Inverse()*dNdr (PlaneStrain.h:44-47) *)
Definition gradient (s : shape) (q : rule) (g : nat) (X : mat R) : res (R * mat R) :=
  j <- jacobian s q g X ;;
  let '(J, dXdr, dNdr) := j in
  inv <- minv R_ops dXdr ;;
  dNdX <- mmul R_ops inv dNdr ;;
  Ok (J, dNdX).

(** k*IC::Weights[g][0]*...*IC::Weights[g][d-1] *)
Definition weigh (d : nat) (q : rule) (g : nat) (k : mat R) : res (mat R) :=
  foldM (fun k i => w <- gweight q g i ;; Ok (mscal R_ops w k)) (seq 0 d) k.
Definition weighv (d : nat) (q : rule) (g : nat) (k : list R) : res (list R) :=
  foldM (fun k i => w <- gweight q g i ;; Ok (vscal R_ops w k)) (seq 0 d) k.
Definition weighs (d : nat) (q : rule) (g : nat) (k : R) : res R :=
  foldM (fun k i => w <- gweight q g i ;; Ok (k * w)) (seq 0 d) k.

(** for(g < IC::N) K += body(g) *)
Definition gauss (q : rule) (body : nat -> res (mat R)) (K : mat R) : res (mat R) :=
  foldM (fun K g => k <- body g ;; madd R_ops K k) (seq 0 (q_n q)) K.
Definition gaussv (q : rule) (body : nat -> res (list R)) (F : list R) : res (list R) :=
  foldM (fun F g => f <- body g ;; vadd R_ops F f) (seq 0 (q_n q)) F.
Definition gausss (q : rule) (body : nat -> res R) (v : R) : res R :=
  foldM (fun v g => x <- body g ;; Ok (v + x)) (seq 0 (q_n q)) v.

(** A.Transpose()*D*B *)
Definition atdb (A D B : mat R) : res (mat R) :=
  At <- mtrans R_ops A ;; M <- mmul R_ops At D ;; mmul R_ops M B.
(** A.Transpose()*B *)
Definition atb (A B : mat R) : res (mat R) := At <- mtrans R_ops A ;; mmul R_ops At B.

(** ** Strain-displacement tables *)
(** PlaneStrain.h:49-54 (also PlaneStress.h:45-50, Homogenization.h:47-52) *)
Definition plane_B (n : nat) (dN : mat R) : res (mat R) :=
  mbuild R_ops 3 (2 * n) (fun i j => let k := (j / 2)%nat in ent2
    [ [mget dN 0 k; Ok 0];
      [Ok 0;        mget dN 1 k];
      [mget dN 1 k; mget dN 0 k] ] i (j mod 2)).
(** 0.5*x and -0.5*x *)
Definition half (x : res R) : res R := v <- x ;; Ok (1 / 2 * v).
Definition mhalf (x : res R) : res R := v <- x ;; Ok (- (1 / 2) * v).
(** PlaneStrain.h:155-160 *)
Definition plane_Bvol (n : nat) (dN : mat R) : res (mat R) :=
  mbuild R_ops 3 (2 * n) (fun i j => let k := (j / 2)%nat in ent2
    [ [half (mget dN 0 k); half (mget dN 1 k)];
      [half (mget dN 0 k); half (mget dN 1 k)];
      [Ok 0;               Ok 0] ] i (j mod 2)).
(** PlaneStrain.h:174-179 *)
Definition plane_Bdev (n : nat) (dN : mat R) : res (mat R) :=
  mbuild R_ops 3 (2 * n) (fun i j => let k := (j / 2)%nat in ent2
    [ [half (mget dN 0 k);  mhalf (mget dN 1 k)];
      [mhalf (mget dN 0 k); half (mget dN 1 k)];
      [mget dN 1 k;         mget dN 0 k] ] i (j mod 2)).
(** PlaneStrain.h:400-404: rows N and N interleaved *)
Definition plane_N (n : nat) (N : list R) : res (mat R) :=
  mbuild R_ops 2 (2 * n) (fun i j => let k := (j / 2)%nat in ent2
    [ [vget N k; Ok 0];
      [Ok 0;     vget N k] ] i (j mod 2)).
(** PlaneStrain.h:291-297 *)
Definition plane_BNL (n : nat) (dN : mat R) : res (mat R) :=
  mbuild R_ops 4 (2 * n) (fun i j => let k := (j / 2)%nat in ent2
    [ [mget dN 0 k; Ok 0];
      [Ok 0;        mget dN 0 k];
      [mget dN 1 k; Ok 0];
      [Ok 0;        mget dN 1 k] ] i (j mod 2)).
(** F(a,b)*dNdX(c,n) and the sum of two such products *)
Definition fd (F dN : mat R) (a b c k : nat) : res R := x <- mget F a b ;; y <- mget dN c k ;; Ok (x * y).
Definition fd2 (F dN : mat R) (a b c a' b' c' k : nat) : res R :=
  x <- fd F dN a b c k ;; y <- fd F dN a' b' c' k ;; Ok (x + y).
(** PlaneStrain.h:278-283 *)
Definition plane_BL (n : nat) (F dN : mat R) : res (mat R) :=
  mbuild R_ops 3 (2 * n) (fun i j => let k := (j / 2)%nat in ent2
    [ [fd F dN 0 0 0 k;            fd F dN 1 0 0 k];
      [fd F dN 0 1 1 k;            fd F dN 1 1 1 k];
      [fd2 F dN 0 1 0 0 0 1 k;     fd2 F dN 1 1 0 1 0 1 k] ] i (j mod 2)).
(** Solid.h:49-57 *)
Definition solid_B (n : nat) (dN : mat R) : res (mat R) :=
  mbuild R_ops 6 (3 * n) (fun i j => let k := (j / 3)%nat in ent2
    [ [mget dN 0 k; Ok 0;        Ok 0];
      [Ok 0;        mget dN 1 k; Ok 0];
      [Ok 0;        Ok 0;        mget dN 2 k];
      [mget dN 1 k; mget dN 0 k; Ok 0];
      [Ok 0;        mget dN 2 k; mget dN 1 k];
      [mget dN 2 k; Ok 0;        mget dN 0 k] ] i (j mod 3)).
(** Solid.h:106-114 *)
Definition solid_BL (n : nat) (F dN : mat R) : res (mat R) :=
  mbuild R_ops 6 (3 * n) (fun i j => let k := (j / 3)%nat in ent2
    [ [fd F dN 0 0 0 k;        fd F dN 1 0 0 k;        fd F dN 2 0 0 k];
      [fd F dN 0 1 1 k;        fd F dN 1 1 1 k;        fd F dN 2 1 1 k];
      [fd F dN 0 2 2 k;        fd F dN 1 2 2 k;        fd F dN 2 2 2 k];
      [fd2 F dN 0 1 0 0 0 1 k; fd2 F dN 1 1 0 1 0 1 k; fd2 F dN 2 1 0 2 0 1 k];
      [fd2 F dN 0 2 1 0 1 2 k; fd2 F dN 1 2 1 1 1 2 k; fd2 F dN 2 2 1 2 1 2 k];
      [fd2 F dN 0 0 2 0 2 0 k; fd2 F dN 1 0 2 1 2 0 k; fd2 F dN 2 0 2 2 2 0 k] ] i (j mod 3)).
(** Solid.h:122-133 *)
Definition solid_BNL (n : nat) (dN : mat R) : res (mat R) :=
  mbuild R_ops 9 (3 * n) (fun i j =>
    if (i mod 3 =? j mod 3)%nat then mget dN (i / 3) (j / 3) else Ok 0).
(** Solid.h:194-201 (order of the shear rows differs from [solid_B]) *)
Definition solid_B2 (n : nat) (dN : mat R) : res (mat R) :=
  mbuild R_ops 6 (3 * n) (fun i j => let k := (j / 3)%nat in ent2
    [ [mget dN 0 k; Ok 0;        Ok 0];
      [Ok 0;        mget dN 1 k; Ok 0];
      [Ok 0;        Ok 0;        mget dN 2 k];
      [mget dN 1 k; mget dN 0 k; Ok 0];
      [mget dN 2 k; Ok 0;        mget dN 0 k];
      [Ok 0;        mget dN 2 k; mget dN 1 k] ] i (j mod 3)).

(** ** Material matrices *)
(** PlaneStrain.h:37-41 *)
Definition D_strain (E V : R) : res (mat R) :=
  c <- Rdiv_res E ((1 - 2 * V) * (1 + V)) ;;
  Ok (mscal R_ops c (mkMat 3 3 [1 - V; V; 0;  V; 1 - V; 0;  0; 0; 1 / 2 * (1 - 2 * V)])).
(** PlaneStrain.h:80-84 *)
Definition D_vol (E V : R) : res (mat R) :=
  c <- Rdiv_res E (3 * (1 - 2 * V)) ;;
  Ok (mscal R_ops c (mkMat 3 3 [1; 1; 0;  1; 1; 0;  0; 0; 0])).
(** PlaneStrain.h:103-107 *)
Definition D_dev (E V : R) : res (mat R) :=
  c <- Rdiv_res E (6 * (1 + V)) ;;
  Ok (mscal R_ops c (mkMat 3 3 [4; -2; 0;  -2; 4; 0;  0; 0; 3])).
(** PlaneStress.h:37-41 *)
Definition D_stress (E V : R) : res (mat R) :=
  c <- Rdiv_res E ((1 - V) * (1 + V)) ;;
  Ok (mscal R_ops c (mkMat 3 3 [1; V; 0;  V; 1; 0;  0; 0; 1 / 2 * (1 - V)])).
(** Solid.h:35-42 *)
Definition C_solid (E V : R) : res (mat R) :=
  c <- Rdiv_res E ((1 + V) * (1 - 2 * V)) ;;
  let h := 1 / 2 * (1 - 2 * V) in
  Ok (mscal R_ops c (mkMat 6 6
    [1 - V; V; V; 0; 0; 0;
     V; 1 - V; V; 0; 0; 0;
     V; V; 1 - V; 0; 0; 0;
     0; 0; 0; h; 0; 0;
     0; 0; 0; 0; h; 0;
     0; 0; 0; 0; 0; h])).

(** ** General.h *)
(** General.h:24-28 and 49-53: rows stacked one by one; the node vectors must
    have exactly d components *)
Definition stack_nodes (d : nat) (elem : list nat) (xs : list (list R)) : res (mat R) :=
  foldM (fun X e => v <- rd xs e ;; vt <- vtrans R_ops v ;; mvstack R_ops X vt) elem (mnew R_ops 0 d).
(** General.h:20-41 *)
Definition Area (s : shape) (q : rule) (xs : list (list R)) (elem : list nat) : res R :=
  X <- stack_nodes 2 elem xs ;;
  gausss q (fun g => j <- jacobian s q g X ;; weighs 2 q g (fst (fst j))) 0.
(** General.h:45-66 *)
Definition Volume (s : shape) (q : rule) (xs : list (list R)) (elem : list nat) : res R :=
  X <- stack_nodes 3 elem xs ;;
  gausss q (fun g => j <- jacobian s q g X ;; weighs 3 q g (fst (fst j))) 0.
(** General.h:70-77 *)
Definition CenterOfGravity (xs : list (list R)) (elem : list nat) : res (list R) :=
  x0 <- rd xs 0 ;;
  c <- foldM (fun c i => v <- rd xs i ;; vadd R_ops c v) elem (vnew R_ops (length x0)) ;;
  vdiv R_ops c (INR (length elem)).
(** General.h:123-135 *)
Definition WeakSpring (elem dou : list nat) (alpha : R) : res (mat R * nte_t) :=
  let n := length dou in
  ne <- mapM (fun i => mapM (fun j => d <- rd dou j ;; Ok (d, (n * i)%nat)) (seq 0 n)) (seq 0 (length elem)) ;;
  id <- midentity R_ops (n * length elem) ;;
  Ok (mscal R_ops alpha id, ne).

(** ** Generic element loops *)
(** the plane routines with two dofs per node which add
    B.Transpose()*D*B*J*_t*w0*w1 (PlaneStrain.h:22-57); D is given *)
Definition plane_stiffness (s : shape) (q : rule) (elem dou : list nat) (xs : list (list R)) (D : mat R) (t : R)
  : res (mat R * nte_t) :=
  _ <- assert_ (length dou =? 2) ;;
  let n := length elem in
  ne <- nte_of 2 n dou ;;
  X <- node_mat 2 elem xs ;;
  K <- gauss q (fun g =>
         jd <- gradient s q g X ;; let '(J, dNdX) := jd in
         B <- plane_B n dNdX ;;
         k <- atdb B D B ;;
         weigh 2 q g (mscal R_ops t (mscal R_ops J k))) (mnew R_ops (2 * n) (2 * n)) ;;
  Ok (K, ne).

(** ** PlaneStrain.h *)
(** PlaneStrain.h:20-58 *)
Definition PlaneStrainStiffness s q elem dou xs (E V t : R) : res (mat R * nte_t) :=
  D <- D_strain E V ;; plane_stiffness s q elem dou xs D t.

(** one integration loop of the selective routines: adds
    B.Transpose()*D*B*J*_t*w0*w1 for the table [tab] *)
Definition plane_loop (s : shape) (q : rule) (n : nat) (X : mat R) (tab : nat -> mat R -> res (mat R)) (D : mat R) (t : R)
  (K : mat R) : res (mat R) :=
  gauss q (fun g =>
    jd <- gradient s q g X ;; let '(J, dNdX) := jd in
    B <- tab n dNdX ;;
    k <- atdb B D B ;;
    weigh 2 q g (mscal R_ops t (mscal R_ops J k))) K.

(** PlaneStrain.h:62-124 *)
Definition PlaneStrainStiffnessSRI s qv qd elem dou xs (E V t : R) : res (mat R * nte_t) :=
  _ <- assert_ (length dou =? 2) ;;
  let n := length elem in
  ne <- nte_of 2 n dou ;;
  X <- node_mat 2 elem xs ;;
  Dvol <- D_vol E V ;;
  K <- plane_loop s qv n X plane_B Dvol t (mnew R_ops (2 * n) (2 * n)) ;;
  Ddev <- D_dev E V ;;
  K <- plane_loop s qd n X plane_B Ddev t K ;;
  Ok (K, ne).

(** Homogenization.h:177-227 *)
Definition PlaneStiffnessBbar s qv qd elem dou xs (D : mat R) (t : R) : res (mat R * nte_t) :=
  _ <- assert_ (length dou =? 2) ;;
  let n := length elem in
  ne <- nte_of 2 n dou ;;
  X <- node_mat 2 elem xs ;;
  K <- plane_loop s qv n X plane_Bvol D t (mnew R_ops (2 * n) (2 * n)) ;;
  K <- plane_loop s qd n X plane_Bdev D t K ;;
  Ok (K, ne).
(** PlaneStrain.h:128-184: the same with D of plane strain *)
Definition PlaneStrainStiffnessBbar s qv qd elem dou xs (E V t : R) : res (mat R * nte_t) :=
  D <- D_strain E V ;; PlaneStiffnessBbar s qv qd elem dou xs D t.

(** PlaneStrain.h:223-231: the tables of the incompatible modes *)
Definition wt_dPdr (p : list R) : res (mat R) :=
  r0 <- vget p 0 ;; r1 <- vget p 1 ;; Ok (mkMat 2 2 [-2 * r0; 0; 0; -2 * r1]).
Definition wt_G (dP : mat R) : res (mat R) :=
  mbuild R_ops 3 4 (ent2
    [ [mget dP 0 0; Ok 0;        mget dP 0 1; Ok 0];
      [Ok 0;        mget dP 1 0; Ok 0;        mget dP 1 1];
      [mget dP 1 0; mget dP 0 0; mget dP 1 1; mget dP 0 1] ]).
(** Homogenization.h:231-280 *)
Definition PlaneStiffnessWilsonTaylor s q elem dou xs (D : mat R) (t : R) : res (mat R * nte_t) :=
  _ <- assert_ (length dou =? 2) ;;
  let n := length elem in
  ne <- nte_of 2 n dou ;;
  X <- node_mat 2 elem xs ;;
  st <- foldM (fun st g =>
      let '(K, Kaa, Kad) := st in
      j <- jacobian s q g X ;; let '(J, dXdr, dNdr) := j in
      inv <- minv R_ops dXdr ;;
      dNdX <- mmul R_ops inv dNdr ;;
      B <- plane_B n dNdX ;;
      p <- gpoint q g ;;
      dPdr <- wt_dPdr p ;;
      dPdX <- mmul R_ops inv dPdr ;;
      G <- wt_G dPdX ;;
      k <- atdb B D B ;; k <- weigh 2 q g (mscal R_ops t (mscal R_ops J k)) ;; K <- madd R_ops K k ;;
      ka <- atdb G D G ;; ka <- weigh 2 q g (mscal R_ops t (mscal R_ops J ka)) ;; Kaa <- madd R_ops Kaa ka ;;
      kd <- atdb G D B ;; kd <- weigh 2 q g (mscal R_ops t (mscal R_ops J kd)) ;; Kad <- madd R_ops Kad kd ;;
      Ok (K, Kaa, Kad)) (seq 0 (q_n q))
    (mnew R_ops (2 * n) (2 * n), mnew R_ops 4 4, mnew R_ops 4 (2 * n)) ;;
  let '(K, Kaa, Kad) := st in
  inva <- minv R_ops Kaa ;;
  c <- atdb Kad inva Kad ;;
  K <- msub R_ops K c ;;
  Ok (K, ne).
(** PlaneStrain.h:188-243: the same with D of plane strain *)
Definition PlaneStrainStiffnessWilsonTaylor s q elem dou xs (E V t : R) : res (mat R * nte_t) :=
  D <- D_strain E V ;; PlaneStiffnessWilsonTaylor s q elem dou xs D t.

(** (Z + Z.Transpose() + Z.Transpose()*Z)/2.0 (PlaneStrain.h:287, Solid.h:118) *)
Definition green_lagrange (Z : mat R) : res (mat R) :=
  Zt <- mtrans R_ops Z ;; ZtZ <- mmul R_ops Zt Z ;;
  A <- madd R_ops Z Zt ;; A <- madd R_ops A ZtZ ;; mdivs R_ops A 2.
(** {{S0*I, S1*I}, {S2*I, S3*I}} with d x d blocks (PlaneStrain.h:299-301) *)
Definition stack2 (d : nat) (a b c e : R) : res (mat R) :=
  id <- midentity R_ops d ;;
  r0 <- mhstack R_ops (mscal R_ops a id) (mscal R_ops b id) ;;
  r1 <- mhstack R_ops (mscal R_ops c id) (mscal R_ops e id) ;;
  mvstack R_ops r0 r1.

(** PlaneStrain.h:247-312; the argument _t is not used by the source *)
Definition PlaneStrainStiffnessTotalLagrange s q elem dou xs us (E V t : R) : res (mat R * list R * nte_t) :=
  _ <- assert_ (length dou =? 2) ;;
  let n := length elem in
  ne <- nte_of 2 n dou ;;
  X <- node_mat 2 elem xs ;;
  U <- node_mat 2 elem us ;;
  D <- D_strain E V ;;
  st <- foldM (fun st g =>
      let '(K, F0) := st in
      jd <- gradient s q g X ;; let '(J, dNdX) := jd in
      dU <- mmul R_ops dNdX U ;; Z <- mtrans R_ops dU ;;
      id <- midentity R_ops 2 ;; F <- madd R_ops id Z ;;
      BL <- plane_BL n F dNdX ;;
      k <- atdb BL D BL ;; k <- weigh 2 q g (mscal R_ops J k) ;; K <- madd R_ops K k ;;
      Em <- green_lagrange Z ;;
      e0 <- mget Em 0 0 ;; e1 <- mget Em 1 1 ;; e2 <- mget Em 0 1 ;; e3 <- mget Em 1 0 ;;
      Sv <- mmulv R_ops D [e0; e1; e2 + e3] ;;
      BNL <- plane_BNL n dNdX ;;
      s0 <- vget Sv 0 ;; s1 <- vget Sv 1 ;; s2 <- vget Sv 2 ;;
      S <- stack2 2 s0 s2 s2 s1 ;;
      k <- atdb BNL S BNL ;; k <- weigh 2 q g (mscal R_ops J k) ;; K <- madd R_ops K k ;;
      BLt <- mtrans R_ops BL ;; f <- mmulv R_ops BLt Sv ;; f <- weighv 2 q g (vscal R_ops J f) ;;
      F1 <- vsub R_ops F0 f ;;
      Ok (K, F1)) (seq 0 (q_n q))
    (mnew R_ops (2 * n) (2 * n), vnew R_ops (2 * n)) ;;
  let '(K, F) := st in
  Ok (K, F, ne).

(** log(x): NaN or -infinity for x <= 0 *)
Definition rlog (x : R) : res R := if Rlt_dec 0 x then Ok (ln x) else Fail DivByZero.

(** PlaneStrain.h:316-381; the argument _t is not used by the source *)
Definition PlaneStrainStiffnessUpdatedLagrange s q elem dou xs us (E V t : R) : res (mat R * list R * nte_t) :=
  _ <- assert_ (length dou =? 2) ;;
  let n := length elem in
  ne <- nte_of 2 n dou ;;
  X <- node_mat 2 elem xs ;;
  U <- node_mat 2 elem us ;;
  x <- madd R_ops X U ;;
  mu0 <- Rdiv_res (1 / 2 * E) (1 + V) ;;
  lambda0 <- Rdiv_res (2 * mu0 * V) (1 - 2 * V) ;;
  st <- foldM (fun st g =>
      let '(K, F0) := st in
      j <- jacobian s q g x ;; let '(J, dxdr, dNdr) := j in
      inv <- minv R_ops dxdr ;; dNdx <- mmul R_ops inv dNdr ;;
      dXdr <- mmul R_ops dNdr X ;; inv0 <- minv R_ops dXdr ;;
      G <- mmul R_ops inv0 dNdr ;; G <- mmul R_ops G x ;; F <- mtrans R_ops G ;;
      detF <- mdet R_ops F ;;
      l <- rlog detF ;;
      mu <- Rdiv_res (mu0 - lambda0 * l) detF ;;
      lambda <- Rdiv_res lambda0 detF ;;
      let C := mkMat 3 3 [lambda + 2 * mu; lambda; 0;  lambda; lambda + 2 * mu; 0;  0; 0; mu] in
      BL <- plane_B n dNdx ;;
      k <- atdb BL C BL ;; k <- weigh 2 q g (mscal R_ops J k) ;; K <- madd R_ops K k ;;
      Ft <- mtrans R_ops F ;; FFt <- mmul R_ops F Ft ;; id <- midentity R_ops 2 ;;
      A <- msub R_ops FFt id ;; c0 <- Rdiv_res mu0 detF ;; c1 <- Rdiv_res (lambda0 * l) detF ;;
      S <- madd R_ops (mscal R_ops c0 A) (mscal R_ops c1 id) ;;
      BNL <- plane_BNL n dNdx ;;
      s00 <- mget S 0 0 ;; s01 <- mget S 0 1 ;; s10 <- mget S 1 0 ;; s11 <- mget S 1 1 ;;
      Sm <- stack2 2 s00 s01 s10 s11 ;;
      k <- atdb BNL Sm BNL ;; k <- weigh 2 q g (mscal R_ops J k) ;; K <- madd R_ops K k ;;
      BLt <- mtrans R_ops BL ;; f <- mmulv R_ops BLt [s00; s11; s01] ;; f <- weighv 2 q g (vscal R_ops J f) ;;
      F1 <- vsub R_ops F0 f ;;
      Ok (K, F1)) (seq 0 (q_n q))
    (mnew R_ops (2 * n) (2 * n), vnew R_ops (2 * n)) ;;
  let '(K, F) := st in
  Ok (K, F, ne).

(** PlaneStrain.h:385-416 and PlaneStress.h:62-93 (the same text) *)
Definition PlaneMass s q elem dou xs (rho t : R) : res (mat R * nte_t) :=
  _ <- assert_ (length dou =? 2) ;;
  let n := length elem in
  ne <- nte_of 2 n dou ;;
  X <- node_mat 2 elem xs ;;
  M <- gauss q (fun g =>
         p <- gpoint q g ;;
         let N := sf_vec s p in
         j <- jacobian s q g X ;; let '(J, _, _) := j in
         B <- plane_N n N ;;
         m <- atb B B ;;
         weigh 2 q g (mscal R_ops t (mscal R_ops rho (mscal R_ops J m)))) (mnew R_ops (2 * n) (2 * n)) ;;
  Ok (M, ne).

(** X.Transpose()*N *)
Definition interpolate (X : mat R) (N : list R) : res (list R) := Xt <- mtrans R_ops X ;; mmulv R_ops Xt N.
(** sqrt((dXdr*dXdr.Transpose())(0, 0)) *)
Definition length_element (dXdr : mat R) : res R :=
  T <- mtrans R_ops dXdr ;; P <- mmul R_ops dXdr T ;; x <- mget P 0 0 ;; Ok (sqrt x).

(** PlaneStrain.h:420-452 and PlaneStress.h:97-129; _f is an arbitrary function
    of the position *)
Definition PlaneSurfaceForce s q elem dou xs (f : list R -> list R) (t : R) : res (list R * nte_t) :=
  _ <- assert_ (length dou =? 2) ;;
  let n := length elem in
  ne <- nte_of 2 n dou ;;
  X <- node_mat 2 elem xs ;;
  F <- gaussv q (fun g =>
         p <- gpoint q g ;;
         let N := sf_vec s p in
         let dNdr := sf_mat s p in
         x <- interpolate X N ;;
         dXdr <- mmul R_ops dNdr X ;;
         dl <- length_element dXdr ;;
         B <- plane_N n N ;;
         Bt <- mtrans R_ops B ;; v <- mmulv R_ops Bt (f x) ;;
         weighv 1 q g (vscal R_ops t (vscal R_ops dl v))) (vnew R_ops (2 * n)) ;;
  Ok (F, ne).

(** PlaneStrain.h:456-498 *)
Definition pressure_K (n : nat) (N : list R) (dNdr : mat R) : res (mat R) :=
  mbuild R_ops (2 * n) (2 * n) (fun a b =>
    let i := (a / 2)%nat in let j := (b / 2)%nat in
    di <- mget dNdr 0 i ;; Nj <- vget N j ;; Ni <- vget N i ;; dj <- mget dNdr 0 j ;;
    ent2 [ [Ok 0;                    Ok (di * Nj - Ni * dj)];
           [Ok (- di * Nj + Ni * dj); Ok 0] ] (a mod 2) (b mod 2)).
Definition pressure_F (n : nat) (N : list R) (dxdr : mat R) : res (list R) :=
  mapM (fun a => let i := (a / 2)%nat in
    Ni <- vget N i ;; d1 <- mget dxdr 0 1 ;; d0 <- mget dxdr 0 0 ;;
    ent2 [ [Ok (- Ni * d1); Ok (Ni * d0)] ] 0 (a mod 2)) (seq 0 (2 * n)).
Definition PlaneStrainSurfacePressureUpdatedLagrange s q elem dou xs us (P t : R) : res (mat R * list R * nte_t) :=
  _ <- assert_ (length dou =? 2) ;;
  let n := length elem in
  ne <- nte_of 2 n dou ;;
  X <- node_mat 2 elem xs ;;
  U <- node_mat 2 elem us ;;
  x <- madd R_ops X U ;;
  st <- foldM (fun st g =>
      let '(Ke, Fe) := st in
      p <- gpoint q g ;;
      let N := sf_vec s p in
      let dNdr := sf_mat s p in
      dxdr <- mmul R_ops dNdr x ;;
      K <- pressure_K n N dNdr ;;
      F <- pressure_F n N dxdr ;;
      k <- weigh 1 q g (mscal R_ops t (mscal R_ops (1 / 2 * P) K)) ;; Ke <- msub R_ops Ke k ;;
      f <- weighv 1 q g (vscal R_ops t (vscal R_ops P F)) ;; Fe <- vadd R_ops Fe f ;;
      Ok (Ke, Fe)) (seq 0 (q_n q))
    (mnew R_ops (2 * n) (2 * n), vnew R_ops (2 * n)) ;;
  let '(K, F) := st in
  Ok (K, F, ne).

(** PlaneStrain.h:502-534 and PlaneStress.h:133-165 *)
Definition PlaneBodyForce s q elem dou xs (f : list R -> list R) (t : R) : res (list R * nte_t) :=
  _ <- assert_ (length dou =? 2) ;;
  let n := length elem in
  ne <- nte_of 2 n dou ;;
  X <- node_mat 2 elem xs ;;
  F <- gaussv q (fun g =>
         p <- gpoint q g ;;
         let N := sf_vec s p in
         x <- interpolate X N ;;
         j <- jacobian s q g X ;; let '(J, _, _) := j in
         B <- plane_N n N ;;
         Bt <- mtrans R_ops B ;; v <- mmulv R_ops Bt (f x) ;;
         weighv 2 q g (vscal R_ops t (vscal R_ops J v))) (vnew R_ops (2 * n)) ;;
  Ok (F, ne).

(** ** PlaneStress.h:20-58 *)
Definition PlaneStressStiffness s q elem dou xs (E V t : R) : res (mat R * nte_t) :=
  D <- D_stress E V ;; plane_stiffness s q elem dou xs D t.

(** ** Homogenization.h *)
(** Homogenization.h:141-173 *)
Definition PlaneStiffness s q elem dou xs (D : mat R) (t : R) : res (mat R * nte_t) :=
  _ <- assert_ ((mrow D =? 3) && (mcol D =? 3)) ;; plane_stiffness s q elem dou xs D t.
(** Homogenization.h:20-57 *)
Definition HomogenizePlaneStrainBodyForce s q elem dou xs (E V t : R) : res (mat R * nte_t) :=
  _ <- assert_ (length dou =? 2) ;;
  let n := length elem in
  ne <- nte_of 2 n dou ;;
  X <- node_mat 2 elem xs ;;
  D <- D_strain E V ;;
  F <- gauss q (fun g =>
         jd <- gradient s q g X ;; let '(J, dNdX) := jd in
         B <- plane_B n dNdX ;;
         k <- atb B D ;;
         weigh 2 q g (mscal R_ops t (mscal R_ops J k))) (mnew R_ops (2 * n) 3) ;;
  Ok (F, ne).
(** Homogenization.h:69-73: column c holds the characteristic displacement c *)
Definition chi_mat (elem : list nat) (chi : list (list (list R))) : res (mat R) :=
  mbuild R_ops (2 * length elem) 3 (fun a c =>
    e <- rd elem (a / 2) ;; f <- rd chi c ;; v <- rd f e ;; vget v (a mod 2)).
(** Homogenization.h:61-101 *)
Definition HomogenizePlaneStrainConstitutive s q xs elem (chi0 chi1 chi2 : list (list R)) (E V t : R) : res (mat R) :=
  X <- node_mat 2 elem xs ;;
  CHI <- chi_mat elem [chi0; chi1; chi2] ;;
  D <- D_strain E V ;;
  I <- midentity R_ops 3 ;;
  gauss q (fun g =>
    jd <- gradient s q g X ;; let '(J, dNdX) := jd in
    B <- plane_B (length elem) dNdX ;;
    BC <- mmul R_ops B CHI ;; A <- msub R_ops I BC ;; k <- mmul R_ops D A ;;
    weigh 2 q g (mscal R_ops t (mscal R_ops J k))) (mnew R_ops 3 3).
(** Homogenization.h:105-137 *)
Definition HomogenizePlaneStrainCheck s q xs elem (chi0 chi1 chi2 : list (list R)) (t : R) : res (mat R) :=
  X <- node_mat 2 elem xs ;;
  CHI <- chi_mat elem [chi0; chi1; chi2] ;;
  gauss q (fun g =>
    jd <- gradient s q g X ;; let '(J, dNdX) := jd in
    B <- plane_B (length elem) dNdX ;;
    k <- mmul R_ops (mneg R_ops B) CHI ;;
    weigh 2 q g (mscal R_ops t (mscal R_ops J k))) (mnew R_ops 3 3).

(** ** Scalar problems *)
(** frame of the routines with one dof per node *)
Definition scalar_loop (elem dou : list nat) (xs : list (list R)) (q : rule)
  (body : nat -> mat R -> nat -> res (mat R)) : res (mat R * nte_t) :=
  _ <- assert_ (length dou =? 1) ;;
  let n := length elem in
  ne <- nte_of 1 n dou ;;
  X <- node_mat 2 elem xs ;;
  K <- gauss q (body n X) (mnew R_ops n n) ;;
  Ok (K, ne).
(** HeatTransfer.h:19-43 *)
Definition HeatTransfer s q elem dou xs (alpha t : R) : res (mat R * nte_t) :=
  scalar_loop elem dou xs q (fun n X g =>
    jd <- gradient s q g X ;; let '(J, B) := jd in
    k <- atb B B ;;
    weigh 2 q g (mscal R_ops t (mscal R_ops alpha (mscal R_ops J k)))).
(** N*N.Transpose() *)
Definition nnt (N M : list R) : res (mat R) := Mt <- vtrans R_ops M ;; vouter R_ops N Mt.
(** HeatTransfer.h:47-71 *)
Definition HeatCapacity s q elem dou xs (rho c t : R) : res (mat R * nte_t) :=
  scalar_loop elem dou xs q (fun n X g =>
    p <- gpoint q g ;;
    let N := sf_vec s p in
    j <- jacobian s q g X ;; let '(J, _, _) := j in
    k <- nnt N N ;;
    weigh 2 q g (mscal R_ops t (mscal R_ops c (mscal R_ops rho (mscal R_ops J k))))).
(** ReactionDiffusion.h:20-43 *)
Definition ReactionDiffusionConsistentMass s q elem dou xs : res (mat R * nte_t) :=
  scalar_loop elem dou xs q (fun n X g =>
    p <- gpoint q g ;;
    let N := sf_vec s p in
    jd <- gradient s q g X ;; let '(J, _) := jd in
    k <- nnt N N ;;
    weigh 2 q g (mscal R_ops J k)).
(** ReactionDiffusion.h:47-70 *)
Definition ReactionDiffusionLumpedMass s q elem dou xs : res (mat R * nte_t) :=
  _ <- assert_ (length dou =? 1) ;;
  let n := length elem in
  M <- midentity R_ops n ;;
  ne <- nte_of 1 n dou ;;
  X <- node_mat 2 elem xs ;;
  area <- gausss q (fun g => j <- jacobian s q g X ;; weighs 2 q g (fst (fst j))) 0 ;;
  c <- Rdiv_res area (INR n) ;;
  Ok (mscal R_ops c M, ne).
(** ReactionDiffusion.h:74-96 and Advection.h:135-158 (_D and _k): the factor
    multiplies dNdX.Transpose() first *)
Definition Diffusion s q elem dou xs (k : R) : res (mat R * nte_t) :=
  scalar_loop elem dou xs q (fun n X g =>
    jd <- gradient s q g X ;; let '(J, dNdX) := jd in
    T <- mtrans R_ops dNdX ;; m <- mmul R_ops (mscal R_ops k T) dNdX ;;
    weigh 2 q g (mscal R_ops J m)).
Definition ReactionDiffusionStiffness := Diffusion.
(** Advection.h:162-185 *)
Definition Mass s q elem dou xs : res (mat R * nte_t) :=
  scalar_loop elem dou xs q (fun n X g =>
    p <- gpoint q g ;;
    let N := sf_vec s p in
    j <- jacobian s q g X ;; let '(J, _, _) := j in
    k <- nnt N N ;;
    weigh 2 q g (mscal R_ops J k)).
(** Advection.h:19-45 *)
Definition Advection s q elem dou xs (cx cy : R) : res (mat R * nte_t) :=
  scalar_loop elem dou xs q (fun n X g =>
    p <- gpoint q g ;;
    let N := sf_vec s p in
    jd <- gradient s q g X ;; let '(J, dNdX) := jd in
    m <- nnt N [cx; cy] ;; m <- mmul R_ops m dNdX ;;
    weigh 2 q g (mscal R_ops J m)).
(** Advection.h:73-86 and 117-130: element length and stabilisation parameter;
    [num] is the first value of tau (0.5*he/|a| or 0.5*|a|*he) *)
Definition tau_of (dNdX : mat R) (a : list R) (k : R) (num : R -> R -> res R) : res R :=
  T <- mtrans R_ops dNdX ;; da <- mmulv R_ops T a ;;
  na <- vnorm a ;;
  sum <- foldM (fun s x => y <- Rdiv_res (Rabs x) na ;; Ok (s + y)) da 0 ;;
  he <- Rdiv_res 2 sum ;;
  alpha <- Rdiv_res (1 / 2 * na * he) k ;;
  tau <- num na he ;;
  Ok (if Rle_dec alpha 3 then tau * (alpha / 3) else tau * 1).
(** Advection.h:49-88 *)
Definition AdvectionSUPG s q elem dou xs (ax ay k : R) : res (mat R * nte_t) :=
  scalar_loop elem dou xs q (fun n X g =>
    jd <- gradient s q g X ;; let '(J, dNdX) := jd in
    tau <- tau_of dNdX [ax; ay] k (fun na he => Rdiv_res (1 / 2 * he) na) ;;
    T <- mtrans R_ops dNdX ;; v <- mmulv R_ops (mscal R_ops tau T) [ax; ay] ;;
    m <- nnt v [ax; ay] ;; m <- mmul R_ops m dNdX ;;
    weigh 2 q g (mscal R_ops J m)).
(** Advection.h:92-131 *)
Definition AdvectionShockCapturing s q elem dou xs (ax ay k : R) : res (mat R * nte_t) :=
  scalar_loop elem dou xs q (fun n X g =>
    jd <- gradient s q g X ;; let '(J, dNdX) := jd in
    tau <- tau_of dNdX [ax; ay] k (fun na he => Ok (1 / 2 * na * he)) ;;
    T <- mtrans R_ops dNdX ;; m <- mmul R_ops (mscal R_ops tau T) dNdX ;;
    weigh 2 q g (mscal R_ops J m)).
(** Advection.h:189-229 *)
Definition MassSUPG s q elem dou xs (ax ay k : R) : res (mat R * nte_t) :=
  scalar_loop elem dou xs q (fun n X g =>
    p <- gpoint q g ;;
    let N := sf_vec s p in
    jd <- gradient s q g X ;; let '(J, dNdX) := jd in
    tau <- tau_of dNdX [ax; ay] k (fun na he => Rdiv_res (1 / 2 * he) na) ;;
    T <- mtrans R_ops dNdX ;; v <- mmulv R_ops (mscal R_ops tau T) [ax; ay] ;;
    m <- nnt v N ;;
    weigh 2 q g (mscal R_ops J m)).
(** HeatTransfer.h:75-99: N is declared as Matrix (a column), _f returns a
    number *)
Definition HeatTransferSurfaceFlux s q elem dou xs (f : list R -> R) (t : R) : res (list R * nte_t) :=
  _ <- assert_ (length dou =? 1) ;;
  let n := length elem in
  ne <- nte_of 1 n dou ;;
  X <- node_mat 2 elem xs ;;
  F <- gaussv q (fun g =>
         p <- gpoint q g ;;
         let N := sf_vec s p in
         x <- interpolate X N ;;
         dXdr <- mmul R_ops (sf_mat s p) X ;;
         dl <- length_element dXdr ;;
         weighv 1 q g (vscal R_ops t (vscal R_ops dl (vscal R_ops (f x) N)))) (vnew R_ops n) ;;
  Ok (F, ne).
(** ReactionDiffusion.h:100-132 *)
Definition ReactionDiffusionReaction s q elem dou xs us (f : R -> list R -> R) : res (list R * nte_t) :=
  _ <- assert_ (length dou =? 1) ;;
  let n := length elem in
  ne <- nte_of 1 n dou ;;
  X <- node_mat 2 elem xs ;;
  U <- mapM (fun e => v <- rd us e ;; vget v 0) elem ;;
  F <- gaussv q (fun g =>
         p <- gpoint q g ;;
         let N := sf_vec s p in
         jd <- gradient s q g X ;; let '(J, dNdX) := jd in
         u <- vdot R_ops N U ;; dudX <- mmulv R_ops dNdX U ;;
         weighv 2 q g (vscal R_ops J (vscal R_ops (f u dudX) N))) (vnew R_ops n) ;;
  Ok (F, ne).

(** ** Solid.h:20-62 *)
Definition SolidLinearIsotropicElastic s q elem dou xs (E V : R) : res (mat R * nte_t) :=
  _ <- assert_ (length dou =? 3) ;;
  let n := length elem in
  ne <- nte_of 3 n dou ;;
  X <- node_mat 3 elem xs ;;
  C <- C_solid E V ;;
  K <- gauss q (fun g =>
         jd <- gradient s q g X ;; let '(J, dNdX) := jd in
         B <- solid_B n dNdX ;;
         k <- atdb B C B ;;
         weigh 3 q g (mscal R_ops J k)) (mnew R_ops (3 * n) (3 * n)) ;;
  Ok (K, ne).

(** nine d x d diagonal blocks (Solid.h:135-138) *)
Definition stack3 (a : nat -> nat -> R) : res (mat R) :=
  id <- midentity R_ops 3 ;;
  let blk i j := mscal R_ops (a i j) id in
  let row i := h <- mhstack R_ops (blk i 1%nat) (blk i 2%nat) ;; mhstack R_ops (blk i 0%nat) h in
  r1 <- row 1%nat ;; r2 <- row 2%nat ;; b <- mvstack R_ops r1 r2 ;;
  r0 <- row 0%nat ;; mvstack R_ops r0 b.

(** Solid.h:66-144 *)
Definition SolidTotalLagrange s q elem dou xs us (E V : R) : res (mat R * list R * nte_t) :=
  _ <- assert_ (length dou =? 3) ;;
  let n := length elem in
  ne <- nte_of 3 n dou ;;
  X <- node_mat 3 elem xs ;;
  U <- node_mat 3 elem us ;;
  C <- C_solid E V ;;
  st <- foldM (fun st g =>
      let '(K, F0) := st in
      jd <- gradient s q g X ;; let '(J, dNdX) := jd in
      dU <- mmul R_ops dNdX U ;; Z <- mtrans R_ops dU ;;
      id <- midentity R_ops 3 ;; F <- madd R_ops id Z ;;
      BL <- solid_BL n F dNdX ;;
      k <- atdb BL C BL ;; k <- weigh 3 q g (mscal R_ops J k) ;; K <- madd R_ops K k ;;
      Em <- green_lagrange Z ;;
      e00 <- mget Em 0 0 ;; e11 <- mget Em 1 1 ;; e22 <- mget Em 2 2 ;;
      e01 <- mget Em 0 1 ;; e10 <- mget Em 1 0 ;; e12 <- mget Em 1 2 ;; e21 <- mget Em 2 1 ;;
      e20 <- mget Em 2 0 ;; e02 <- mget Em 0 2 ;;
      Sv <- mmulv R_ops C [e00; e11; e22; e01 + e10; e12 + e21; e20 + e02] ;;
      BNL <- solid_BNL n dNdX ;;
      s0 <- vget Sv 0 ;; s1 <- vget Sv 1 ;; s2 <- vget Sv 2 ;;
      s3 <- vget Sv 3 ;; s4 <- vget Sv 4 ;; s5 <- vget Sv 5 ;;
      S <- stack3 (fun i j => nth j (nth i [[s0; s3; s5]; [s3; s1; s4]; [s5; s4; s2]] []) 0) ;;
      k <- atdb BNL S BNL ;; k <- weigh 3 q g (mscal R_ops J k) ;; K <- madd R_ops K k ;;
      BLt <- mtrans R_ops BL ;; f <- mmulv R_ops BLt Sv ;; f <- weighv 3 q g (vscal R_ops J f) ;;
      F1 <- vsub R_ops F0 f ;;
      Ok (K, F1)) (seq 0 (q_n q))
    (mnew R_ops (3 * n) (3 * n), vnew R_ops (3 * n)) ;;
  let '(K, F) := st in
  Ok (K, F, ne).

(** Solid.h:148-228 *)
Definition SolidUpdatedLagrange s q elem dou xs us (E V : R) : res (mat R * list R * nte_t) :=
  _ <- assert_ (length dou =? 3) ;;
  let n := length elem in
  ne <- nte_of 3 n dou ;;
  X <- node_mat 3 elem xs ;;
  U <- node_mat 3 elem us ;;
  x <- madd R_ops X U ;;
  mu0 <- Rdiv_res (1 / 2 * E) (1 + V) ;;
  lambda0 <- Rdiv_res (2 * mu0 * V) (1 - 2 * V) ;;
  st <- foldM (fun st g =>
      let '(K, F0) := st in
      j <- jacobian s q g x ;; let '(J, dxdr, dNdr) := j in
      inv <- minv R_ops dxdr ;; dNdx <- mmul R_ops inv dNdr ;;
      dXdr <- mmul R_ops dNdr X ;; inv0 <- minv R_ops dXdr ;;
      G <- mmul R_ops inv0 dNdr ;; G <- mmul R_ops G x ;; F <- mtrans R_ops G ;;
      detF <- mdet R_ops F ;;
      l <- rlog detF ;;
      mu <- Rdiv_res (mu0 - lambda0 * l) detF ;;
      lambda <- Rdiv_res lambda0 detF ;;
      let C := mkMat 6 6
        [lambda + 2 * mu; lambda; lambda; 0; 0; 0;
         lambda; lambda + 2 * mu; lambda; 0; 0; 0;
         lambda; lambda; lambda + 2 * mu; 0; 0; 0;
         0; 0; 0; mu; 0; 0;
         0; 0; 0; 0; mu; 0;
         0; 0; 0; 0; 0; mu] in
      BL <- solid_B2 n dNdx ;;
      k <- atdb BL C BL ;; k <- weigh 3 q g (mscal R_ops J k) ;; K <- madd R_ops K k ;;
      Ft <- mtrans R_ops F ;; FFt <- mmul R_ops F Ft ;; id <- midentity R_ops 3 ;;
      A <- msub R_ops FFt id ;; c0 <- Rdiv_res mu0 detF ;; c1 <- Rdiv_res (lambda0 * l) detF ;;
      S <- madd R_ops (mscal R_ops c0 A) (mscal R_ops c1 id) ;;
      BNL <- solid_BNL n dNdx ;;
      s00 <- mget S 0 0 ;; s01 <- mget S 0 1 ;; s02 <- mget S 0 2 ;;
      s10 <- mget S 1 0 ;; s11 <- mget S 1 1 ;; s12 <- mget S 1 2 ;;
      s20 <- mget S 2 0 ;; s21 <- mget S 2 1 ;; s22 <- mget S 2 2 ;;
      Sm <- stack3 (fun i j => nth j (nth i [[s00; s01; s02]; [s10; s11; s12]; [s20; s21; s22]] []) 0) ;;
      k <- atdb BNL Sm BNL ;; k <- weigh 3 q g (mscal R_ops J k) ;; K <- madd R_ops K k ;;
      BLt <- mtrans R_ops BL ;; f <- mmulv R_ops BLt [s00; s11; s22; s01; s02; s12] ;;
      f <- weighv 3 q g (vscal R_ops J f) ;;
      F1 <- vsub R_ops F0 f ;;
      Ok (K, F1)) (seq 0 (q_n q))
    (mnew R_ops (3 * n) (3 * n), vnew R_ops (3 * n)) ;;
  let '(K, F) := st in
  Ok (K, F, ne).

(** ** Truss.h:19-39 *)
Definition Truss2D (elem dou : list nat) (xs : list (list R)) (E A : R) : res (mat R * nte_t) :=
  _ <- assert_ ((length dou =? 2) && (length elem =? 2)) ;;
  ne <- nte_of 2 2 dou ;;
  e0 <- rd elem 0 ;; e1 <- rd elem 1 ;;
  x0 <- rd xs e0 ;; x1 <- rd xs e1 ;;
  dx <- vsub R_ops x1 x0 ;;
  l <- vnorm dx ;;
  d0 <- vget dx 0 ;; c <- Rdiv_res d0 l ;;
  d1 <- vget dx 1 ;; s <- Rdiv_res d1 l ;;
  k <- Rdiv_res (E * A) l ;;
  Ok (mkMat 4 4
    [  k * c * c;    k * c * s;  - k * c * c;  - k * c * s;
       k * c * s;    k * s * s;  - k * c * s;  - k * s * s;
     - k * c * c;  - k * c * s;    k * c * c;    k * c * s;
     - k * c * s;  - k * s * s;    k * c * s;    k * s * s], ne).
