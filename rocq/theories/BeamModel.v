(** Model of /repo/src/FEM/Equation/Beam.h and /repo/src/FEM/Equation/Shell.h: the
    stiffness matrices of the beam with a rectangular section and of the two
    shells, all degenerated from the solid.

    SF, IC0/IC01 and IC12/IC2 are arguments, the arithmetic goes through the
    operations of DenseModel and doubles are exact reals (so k = 1.2 is 6/5);
    inf and NaN are the fault [DivByZero].  Matrices which the source fills entry
    by entry (each entry exactly once) are built with [mbuild] from a table. *)
From Coq Require Import List Arith Lia Bool Reals.
From Verif Require Import Res SumR DenseModel DenseR ShapeModel QuadModel ElemModel FlowModel.
Import ListNotations.
Local Open Scope R_scope.

(** ** Shared steps *)
(** for(g < IC0::N) for(h < IC12::N) K += body(g, h) *)
Definition gauss2 (q0 q1 : rule) (body : nat -> nat -> res (mat R)) (K : mat R) : res (mat R) :=
  foldM (fun K g => gauss q1 (body g) K) (seq 0 (q_n q0)) K.
(** v.Vstack(w.Transpose()) *)
Definition add_row (v : mat R) (w : list R) : res (mat R) := wt <- vtrans R_ops w ;; mvstack R_ops v wt.
(** the rows of P: components of the strain in the directions p and r,
    p(0)*r(0), ..., and twice the mixed ones (Beam.h:80-82, Shell.h:90-94 and 175-179) *)
Definition normal_row (p : list R) : list (res R) :=
  let p := vget p in
  [p 0%nat *! p 0%nat; p 1%nat *! p 1%nat; p 2%nat *! p 2%nat; p 0%nat *! p 1%nat; p 0%nat *! p 2%nat; p 1%nat *! p 2%nat].
Definition shear_row (p r : list R) : list (res R) :=
  let p := vget p in let r := vget r in
  [Ok 2 *! p 0%nat *! r 0%nat; Ok 2 *! p 1%nat *! r 1%nat; Ok 2 *! p 2%nat *! r 2%nat;
   p 0%nat *! r 1%nat +! p 1%nat *! r 0%nat; p 0%nat *! r 2%nat +! p 2%nat *! r 0%nat; p 1%nat *! r 2%nat +! p 2%nat *! r 1%nat].

(** ** Beam.h:20-88 BeamLinearIsotropicElastic *)
(** lines 40-45: the unit directors of the nodes, one row per node *)
Definition beam_directors (vs : list (list R)) (elem : list nat) : res (mat R) :=
  foldM (fun v i => w <- rd vs i ;; u <- vnormal w ;; add_row v u) elem (mnew R_ops 0 3).
(** lines 47-51 *)
Definition beam_D0 (E V : R) : res (mat R) :=
  c <- Rdiv_res (1 / 2 * E) (1 + V) ;;
  c <- Rdiv_res c (6 / 5) ;;
  Ok (mkMat 3 3 [E; 0; 0;  0; c; 0;  0; 0; c]).
(** line 59 *)
Definition beam_J (a b : R) (X v1 v2 dNdr : mat R) (N : list R) (iz : list R) : res (mat R) :=
  ita <- vget iz 0 ;; zeta <- vget iz 1 ;;
  Y <- madd R_ops X (mscal R_ops (1 / 2 * a * ita) v1) ;;
  Y <- madd R_ops Y (mscal R_ops (1 / 2 * b * zeta) v2) ;;
  J0 <- mmul R_ops dNdr Y ;;
  Nt <- vtrans R_ops N ;;
  J1 <- mmul R_ops (mscal R_ops (1 / 2 * a) Nt) v1 ;;
  J2 <- mmul R_ops (mscal R_ops (1 / 2 * b) Nt) v2 ;;
  J12 <- mvstack R_ops J1 J2 ;;
  mvstack R_ops J0 J12.
(** lines 63-65 (column j of invJ): dNdx*xi + invJ.Block(0, j, 3, 1)*N.Transpose() *)
Definition director_gradient (dNdx invJ : mat R) (N : list R) (xi : R) (j : nat) : res (mat R) :=
  c <- mblock R_ops invJ 0 j 3 1 ;;
  Nt <- vtrans R_ops N ;;
  t <- mmul R_ops c Nt ;;
  madd R_ops (mscal R_ops xi dNdx) t.
(** lines 67-74 *)
Definition beam_B (n : nat) (a b : R) (dN dNy dNz v1 v2 : mat R) : res (mat R) :=
  mbuild R_ops 6 (6 * n) (fun r j => let i := (j / 6)%nat in
    let d k := mget dN k i in
    (* 0.5*_a*dNydx(k, i)*v1(i, c) + 0.5*_b*dNzdx(k, i)*v2(i, c) *)
    let p k c := Ok (1 / 2 * a) *! mget dNy k i *! mget v1 i c +! Ok (1 / 2 * b) *! mget dNz k i *! mget v2 i c in
    (* -0.5*_a*dNydx(k, i)*v1(i, c) - 0.5*_b*dNzdx(k, i)*v2(i, c) *)
    let m k c := Ok (- (1 / 2) * a) *! mget dNy k i *! mget v1 i c -! Ok (1 / 2 * b) *! mget dNz k i *! mget v2 i c in
    (* the longer sums of lines 71-73 *)
    let mp k c k' c' := m k c +! Ok (1 / 2 * a) *! mget dNy k' i *! mget v1 i c' +! Ok (1 / 2 * b) *! mget dNz k' i *! mget v2 i c' in
    ent2
    [ [d 0%nat; Ok 0;    Ok 0;    Ok 0;                            p 0%nat 2%nat;                   m 0%nat 1%nat];
      [Ok 0;    d 1%nat; Ok 0;    m 1%nat 2%nat;                   Ok 0;                            p 1%nat 0%nat];
      [Ok 0;    Ok 0;    d 2%nat; p 2%nat 1%nat;                   m 2%nat 0%nat;                   Ok 0];
      [d 1%nat; d 0%nat; Ok 0;    m 0%nat 2%nat;                   p 1%nat 2%nat;                   mp 1%nat 1%nat 0%nat 0%nat];
      [d 2%nat; Ok 0;    d 0%nat; p 0%nat 1%nat;                   mp 0%nat 0%nat 2%nat 2%nat;      m 2%nat 1%nat];
      [Ok 0;    d 2%nat; d 1%nat; mp 2%nat 2%nat 1%nat 1%nat;      m 1%nat 0%nat;                   p 2%nat 0%nat] ] r (j mod 6)).
(** lines 76-82 *)
Definition beam_P (v1 v2 : mat R) (N : list R) : res (mat R) :=
  v1t <- mtrans R_ops v1 ;; w1 <- mmulv R_ops v1t N ;; P1 <- vnormal w1 ;;
  v2t <- mtrans R_ops v2 ;; w2 <- mmulv R_ops v2t N ;; P2 <- vnormal w2 ;;
  w0 <- vprod R_ops P1 P2 ;; P0 <- vnormal w0 ;;
  mbuild R_ops 3 6 (fun i j => ent2 [normal_row P0; shear_row P0 P1; shear_row P0 P2] i j).
(** lines 53-86: the loop body *)
Definition beam_point (s : shape) (q0 q12 : rule) (n : nat) (a b : R) (X v1 v2 D0 : mat R) (g h : nat) : res (mat R) :=
  p <- gpoint q0 g ;;
  let N := sf_vec s p in
  let dNdr := sf_mat s p in
  iz <- gpoint q12 h ;;
  J <- beam_J a b X v1 v2 dNdr N iz ;;
  detJ <- mdet R_ops J ;;
  invJ <- minv R_ops J ;;
  c0 <- mblock R_ops invJ 0 0 3 1 ;;
  dN <- mmul R_ops c0 dNdr ;;
  ita <- vget iz 0 ;; dNy <- director_gradient dN invJ N ita 1 ;;
  zeta <- vget iz 1 ;; dNz <- director_gradient dN invJ N zeta 2 ;;
  B <- beam_B n a b dN dNy dNz v1 v2 ;;
  P <- beam_P v1 v2 N ;;
  D <- atdb P D0 P ;;
  k <- atdb B D B ;;
  k <- weigh 1 q0 g (mscal R_ops detJ k) ;;
  weigh 2 q12 h k.
Definition BeamLinearIsotropicElastic (s : shape) (q0 q12 : rule) (elem dou : list nat) (xs v1s v2s : list (list R)) (E V a b : R)
  : res (mat R * nte_t) :=
  _ <- assert_ (length dou =? 6) ;;
  let n := length elem in
  ne <- nte_of 6 n dou ;;
  X <- node_mat 3 elem xs ;;
  v1 <- beam_directors v1s elem ;;
  v2 <- beam_directors v2s elem ;;
  D0 <- beam_D0 E V ;;
  K <- gauss2 q0 q12 (beam_point s q0 q12 n a b X v1 v2 D0) (mnew R_ops (6 * n) (6 * n)) ;;
  Ok (K, ne).

(** ** Shell.h *)
(** lines 40-51 and 125-136: the state is (v1, v2, v3) *)
Definition shell_frame (s : shape) (X : mat R) (l : list R) (i : nat) : res (list R * list R * list R) :=
  p <- rd (sf_points s) i ;;
  T <- mmul R_ops (sf_mat s p) X ;;
  dXdr <- mtrans R_ops T ;;
  b0 <- mblock R_ops dXdr 0 0 3 1 ;; c0 <- vec_of_mat R_ops b0 ;;
  b1 <- mblock R_ops dXdr 0 1 3 1 ;; c1 <- vec_of_mat R_ops b1 ;;
  w3 <- vprod R_ops c0 c1 ;; v3 <- vnormal w3 ;;
  w1 <- vprod R_ops l v3 ;; v1 <- vnormal w1 ;;
  w2 <- vprod R_ops v3 v1 ;; v2 <- vnormal w2 ;;
  Ok (v1, v2, v3).
Definition shell_frames (s : shape) (X : mat R) (l : list R) (n : nat) : res (mat R * mat R * mat R) :=
  foldM (fun st i =>
    let '(v1, v2, v3) := st in
    f <- shell_frame s X l i ;; let '(v1i, v2i, v3i) := f in
    v3 <- add_row v3 v3i ;; v1 <- add_row v1 v1i ;; v2 <- add_row v2 v2i ;;
    Ok (v1, v2, v3)) (seq 0 n) (mnew R_ops 0 3, mnew R_ops 0 3, mnew R_ops 0 3).
(** lines 53-60 and 138-145 *)
Definition shell_D0 (E V : R) : res (mat R) :=
  h <- Rdiv_res (1 / 2 * (1 - V)) (6 / 5) ;;
  c <- Rdiv_res E (1 - V * V) ;;
  Ok (mscal R_ops c (mkMat 5 5 [1; V; 0; 0; 0;  V; 1; 0; 0; 0;  0; 0; 1 / 2 * (1 - V); 0; 0;  0; 0; 0; h; 0;  0; 0; 0; 0; h])).
(** lines 68 and 153 *)
Definition shell_J (t : R) (X v3 dNdr : mat R) (N : list R) (z : R) : res (mat R) :=
  Y <- madd R_ops X (mscal R_ops (1 / 2 * t * z) v3) ;;
  J0 <- mmul R_ops dNdr Y ;;
  Nt <- vtrans R_ops N ;;
  J1 <- mmul R_ops (mscal R_ops (1 / 2 * t) Nt) v3 ;;
  mvstack R_ops J0 J1.
(** lines 76-81; c is -0.5*_t or 0.5*_t and v the director v2 or v1 *)
Definition shell_col (c : R) (dNz v : mat R) (i r : nat) : res R :=
  let z k := mget dNz k i in let v k := mget v i k in
  nth r [ Ok c *! z 0%nat *! v 0%nat; Ok c *! z 1%nat *! v 1%nat; Ok c *! z 2%nat *! v 2%nat;
          Ok c *! (z 1%nat *! v 0%nat +! z 0%nat *! v 1%nat);
          Ok c *! (z 0%nat *! v 2%nat +! z 2%nat *! v 0%nat);
          Ok c *! (z 2%nat *! v 1%nat +! z 1%nat *! v 2%nat) ] (Fail OutOfBounds).
Definition shell_dof (dN : mat R) (i r c : nat) : res R :=
  let d k := mget dN k i in ent2
  [ [d 0%nat; Ok 0; Ok 0]; [Ok 0; d 1%nat; Ok 0]; [Ok 0; Ok 0; d 2%nat]; [d 1%nat; d 0%nat; Ok 0]; [d 2%nat; Ok 0; d 0%nat]; [Ok 0; d 2%nat; d 1%nat] ] r c.
Definition shell_B5 (n : nat) (t : R) (dN dNz v1 v2 : mat R) : res (mat R) :=
  mbuild R_ops 6 (5 * n) (fun r j => let i := (j / 5)%nat in
    match (j mod 5)%nat with
    | 3%nat => shell_col (- (1 / 2) * t) dNz v2 i r
    | 4%nat => shell_col (1 / 2 * t) dNz v1 i r
    | c => shell_dof dN i r c
    end).
(** lines 161-166: column 6*i + 3 + c is
    -0.5*_t*(...v2...)*v1(i, c) + 0.5*_t*(...v1...)*v2(i, c) *)
Definition shell_B6 (n : nat) (t : R) (dN dNz v1 v2 : mat R) : res (mat R) :=
  mbuild R_ops 6 (6 * n) (fun r j => let i := (j / 6)%nat in let c := (j mod 6)%nat in
    if (c <? 3)%nat then shell_dof dN i r c
    else shell_col (- (1 / 2) * t) dNz v2 i r *! mget v1 i (c - 3) +! shell_col (1 / 2 * t) dNz v1 i r *! mget v2 i (c - 3)).
(** lines 84-94 and 169-179 *)
Definition shell_P (J : mat R) (l : list R) : res (mat R) :=
  b0 <- mblock R_ops J 0 0 1 3 ;; t0 <- mtrans R_ops b0 ;; J0 <- vec_of_mat R_ops t0 ;;
  b1 <- mblock R_ops J 1 0 1 3 ;; t1 <- mtrans R_ops b1 ;; J1 <- vec_of_mat R_ops t1 ;;
  w2 <- vprod R_ops J0 J1 ;; P2 <- vnormal w2 ;;
  w0 <- vprod R_ops l P2 ;; P0 <- vnormal w0 ;;
  w1 <- vprod R_ops P2 P0 ;; P1 <- vnormal w1 ;;
  mbuild R_ops 5 6 (fun i j => ent2 [normal_row P0; normal_row P1; shear_row P0 P1; shear_row P0 P2; shear_row P1 P2] i j).
(** lines 62-98 and 147-183: the loop body; tab is shell_B5 or shell_B6 *)
Definition shell_point (tab : nat -> R -> mat R -> mat R -> mat R -> mat R -> res (mat R)) (s : shape) (q01 q2 : rule) (n : nat) (t : R)
  (X v1 v2 v3 D0 : mat R) (l : list R) (g h : nat) : res (mat R) :=
  p <- gpoint q01 g ;;
  let N := sf_vec s p in
  let dNdr := sf_mat s p in
  zv <- gpoint q2 h ;; z <- vget zv 0 ;;
  J <- shell_J t X v3 dNdr N z ;;
  detJ <- mdet R_ops J ;;
  invJ <- minv R_ops J ;;
  c0 <- mblock R_ops invJ 0 0 3 2 ;;
  dN <- mmul R_ops c0 dNdr ;;
  dNz <- director_gradient dN invJ N z 2 ;;
  B <- tab n t dN dNz v1 v2 ;;
  P <- shell_P J l ;;
  D <- atdb P D0 P ;;
  k <- atdb B D B ;;
  k <- weigh 2 q01 g (mscal R_ops detJ k) ;;
  weigh 1 q2 h k.
Definition shell_stiffness (m : nat) (tab : nat -> R -> mat R -> mat R -> mat R -> mat R -> res (mat R)) (s : shape) (q01 q2 : rule)
  (elem dou : list nat) (xs : list (list R)) (E V t : R) : res (mat R * nte_t) :=
  _ <- assert_ (length dou =? m) ;;
  let n := length elem in
  ne <- nte_of m n dou ;;
  X <- node_mat 3 elem xs ;;
  e1 <- rd elem 1 ;; e0 <- rd elem 0 ;; x1 <- rd xs e1 ;; x0 <- rd xs e0 ;;
  l <- vsub R_ops x1 x0 ;;
  f <- shell_frames s X l n ;; let '(v1, v2, v3) := f in
  D0 <- shell_D0 E V ;;
  K <- gauss2 q01 q2 (shell_point tab s q01 q2 n t X v1 v2 v3 D0 l) (mnew R_ops (m * n) (m * n)) ;;
  Ok (K, ne).
(** Shell.h:20-100 ShellLinearIsotropicElastic *)
Definition ShellLinearIsotropicElastic := shell_stiffness 5 shell_B5.
(** Shell.h:104-185 ShellLinearIsotropicElastic2 *)
Definition ShellLinearIsotropicElastic2 := shell_stiffness 6 shell_B6.
