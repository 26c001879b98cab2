(** Model of the dense classes
      /repo/src/LinearAlgebra/Models/Vector.h  (class Vector)
      /repo/src/LinearAlgebra/Models/Matrix.h  (class Matrix)

    The scalar type is arbitrary, its operations are collected in [ops].
    A Vector is its value array; a Matrix is (row, col, values) with row-major
    values.  Sizes are [nat] (the C++ [int]s of live objects are non-negative).
    Copy construction and assignment are value copies.  A loop that accumulates
    into a fresh storage cell is modelled by accumulating first and storing
    once, since no other access to that cell intervenes. *)
From Coq Require Import List Arith Lia Bool.
From Verif Require Import Res.
Import ListNotations.

Record ops (T : Type) := mkOps {
  o0 : T;                      (* T() *)
  o1 : T;                      (* 1.0 *)
  oadd : T -> T -> T;
  osub : T -> T -> T;
  omul : T -> T -> T;
  oopp : T -> T;
  odiv : T -> T -> res T       (* DivByZero when there is no quotient *)
}.
Arguments mkOps {T}. Arguments o0 {T}. Arguments o1 {T}. Arguments oadd {T}.
Arguments osub {T}. Arguments omul {T}. Arguments oopp {T}. Arguments odiv {T}.

(** Matrix.h:87-90 *)
Record mat (T : Type) := mkMat { mrow : nat; mcol : nat; mval : list T }.
Arguments mkMat {T}. Arguments mrow {T}. Arguments mcol {T}. Arguments mval {T}.

Section Dense.
Context {T : Type}.
Variable O : ops T.

(** ** Loops *)
(** for(k = 0; k < n; k++) acc += f(k) *)
Definition accum (n : nat) (f : nat -> res T) : res T :=
  foldM (fun acc k => x <- f k ;; Ok (oadd O acc x)) (seq 0 n) (o0 O).

(** for(i < r) for(j < c) values[pos i j] = f(i, j) *)
Definition fill (r c : nat) (pos : nat -> nat -> nat) (f : nat -> nat -> res T) (v : list T) : res (list T) :=
  foldM (fun v i => foldM (fun v j => x <- f i j ;; wr v (pos i j) x) (seq 0 c) v) (seq 0 r) v.

(** ** Vector *)
(** Vector.h:95-99 *)
Definition vnew (n : nat) : list T := repeat (o0 O) n.

(** Vector.h:149-153 operator() *)
Definition vget (v : list T) (i : nat) : res T :=
  _ <- assert_ (i <? length v) ;; rd v i.
Definition vset (v : list T) (i : nat) (x : T) : res (list T) :=
  _ <- assert_ (i <? length v) ;; wr v i x.

(** for(i < size) values[i] = g(values[i], other.values[i]) *)
Definition vzip (g : T -> T -> T) (a b : list T) : res (list T) :=
  _ <- assert_ (length a =? length b) ;;
  foldM (fun v i => x <- rd v i ;; y <- rd b i ;; wr v i (g x y)) (seq 0 (length a)) a.

(** Vector.h:173-190, 211-229 *)
Definition vadd := vzip (oadd O).
Definition vsub := vzip (osub O).

(** Vector.h:232-238 unary minus *)
Definition vneg (a : list T) : list T := map (fun x => omul O x (oopp O (o1 O))) a.

(** Vector.h:193-198, 267-273, 347-354 product with a scalar *)
Definition vscal (s : T) (a : list T) : list T := map (fun x => omul O x s) a.

(** Vector.h:201-208, 276-284 division by a scalar *)
Definition vdiv (a : list T) (s : T) : res (list T) := mapM (fun x => odiv O x s) a.

(** Vector.h:241-251 dot product *)
Definition vdot (a b : list T) : res T :=
  _ <- assert_ (length a =? length b) ;;
  accum (length a) (fun i => x <- rd a i ;; y <- rd b i ;; Ok (omul O x y)).

(** Vector.h:316-326 *)
Definition vvstack (a b : list T) : res (list T) :=
  v <- fill (length a) 1 (fun i _ => i) (fun i _ => rd a i) (vnew (length a + length b)) ;;
  fill (length b) 1 (fun i _ => i + length a) (fun i _ => rd b i) v.

(** Vector.h:329-337 *)
Definition vsegment (a : list T) (head tail : nat) : res (list T) :=
  _ <- assert_ ((tail <=? length a) && (head <? tail)) ;;
  fill (tail - head) 1 (fun i _ => i) (fun i _ => rd a (head + i)) (vnew (tail - head)).

(** Vector.h:357-366 *)
Definition vprod (a b : list T) : res (list T) :=
  _ <- assert_ ((length a =? 3) && (length b =? 3)) ;;
  a0 <- vget a 0 ;; a1 <- vget a 1 ;; a2 <- vget a 2 ;;
  b0 <- vget b 0 ;; b1 <- vget b 1 ;; b2 <- vget b 2 ;;
  v <- vset (vnew 3) 0 (osub O (omul O a1 b2) (omul O a2 b1)) ;;
  v <- vset v 1 (osub O (omul O a2 b0) (omul O a0 b2)) ;;
  vset v 2 (osub O (omul O a0 b1) (omul O a1 b0)).

(** ** Matrix *)
(** Matrix.h:105-110 *)
Definition mnew (r c : nat) : mat T := mkMat r c (repeat (o0 O) (r * c)).

(** Matrix.h:147-151 operator() *)
Definition mget (m : mat T) (i j : nat) : res T :=
  _ <- assert_ ((i <? mrow m) && (j <? mcol m)) ;; rd (mval m) (i * mcol m + j).
Definition mset (m : mat T) (i j : nat) (x : T) : res (mat T) :=
  _ <- assert_ ((i <? mrow m) && (j <? mcol m)) ;;
  v <- wr (mval m) (i * mcol m + j) x ;; Ok (mkMat (mrow m) (mcol m) v).

(** values[i*col+j] without the check *)
Definition mraw (m : mat T) (i j : nat) : res T := rd (mval m) (i * mcol m + j).

(** Matrix(r,c) followed by the loop  mat.values[i*mat.col+j] = f(i,j) *)
Definition mbuild (r c : nat) (f : nat -> nat -> res T) : res (mat T) :=
  v <- fill r c (fun i j => i * c + j) f (repeat (o0 O) (r * c)) ;;
  Ok (mkMat r c v).

(** Matrix.h:172-187, 208-227 entry-wise operators: one loop over row*col *)
Definition mzip (g : T -> T -> T) (a b : mat T) : res (mat T) :=
  _ <- assert_ ((mrow a =? mrow b) && (mcol a =? mcol b)) ;;
  v <- foldM (fun v k => x <- rd v k ;; y <- rd (mval b) k ;; wr v k (g x y))
         (seq 0 (mrow a * mcol a)) (mval a) ;;
  Ok (mkMat (mrow a) (mcol a) v).
Definition madd := mzip (oadd O).
Definition msub := mzip (osub O).

(** Matrix.h:190-205, 230-238, 271-288, 301-310 *)
Definition mneg (a : mat T) : mat T :=
  mkMat (mrow a) (mcol a) (map (fun x => omul O x (oopp O (o1 O))) (mval a)).
Definition mscal (s : T) (a : mat T) : mat T :=
  mkMat (mrow a) (mcol a) (map (fun x => omul O x s) (mval a)).
Definition mdivs (a : mat T) (s : T) : res (mat T) :=
  v <- mapM (fun x => odiv O x s) (mval a) ;; Ok (mkMat (mrow a) (mcol a) v).

(** Matrix.h:241-255 matrix product *)
Definition mmul (a b : mat T) : res (mat T) :=
  _ <- assert_ (mcol a =? mrow b) ;;
  mbuild (mrow a) (mcol b) (fun i j =>
    accum (mcol a) (fun k => x <- mraw a i k ;; y <- mraw b k j ;; Ok (omul O x y))).

(** Matrix.h:258-268 matrix times vector *)
Definition mmulv (a : mat T) (x : list T) : res (list T) :=
  _ <- assert_ (mcol a =? length x) ;;
  fill (mrow a) 1 (fun i _ => i)
    (fun i _ => accum (mcol a) (fun j => y <- mraw a i j ;; z <- rd x j ;; Ok (omul O y z)))
    (vnew (mrow a)).

(** Vector.h:254-264 outer product with a row vector *)
Definition vouter (a : list T) (b : mat T) : res (mat T) :=
  _ <- assert_ (mrow b =? 1) ;;
  mbuild (length a) (mcol b) (fun i j => x <- rd a i ;; y <- rd (mval b) j ;; Ok (omul O x y)).

(** Vector.h:306-313 *)
Definition vtrans (a : list T) : res (mat T) :=
  v <- fill (1 * length a) 1 (fun i _ => i) (fun i _ => rd a i) (repeat (o0 O) (1 * length a)) ;;
  Ok (mkMat 1 (length a) v).

(** Matrix.h:313-322 *)
Definition mtrans (a : mat T) : res (mat T) :=
  mbuild (mcol a) (mrow a) (fun i j => mraw a j i).

(** Matrix.h:363-385: the minor obtained by deleting row i0 and column j0 *)
Definition mminor (a : mat T) (i0 j0 : nat) : res (mat T) :=
  _ <- assert_ ((i0 <? mrow a) && (j0 <? mcol a)) ;;
  mbuild (mrow a - 1) (mcol a - 1) (fun i j =>
    if i <? i0 then
      if j <? j0 then mraw a i j else mraw a i (j + 1)
    else
      if j <? j0 then mraw a (i + 1) j else mraw a (i + 1) (j + 1)).

(** pow(-1.0, k) *)
Definition osign (k : nat) : T := if Nat.even k then o1 O else oopp O (o1 O).

(** Matrix.h:325-342; [fuel] bounds the recursion depth, [mdet] supplies enough *)
Fixpoint mdet_fuel (fuel : nat) (a : mat T) : res T :=
  _ <- assert_ ((mrow a =? mcol a) && negb (mrow a =? 0)) ;;
  if mrow a =? 1 then rd (mval a) 0
  else if mrow a =? 2 then
    v0 <- rd (mval a) 0 ;; v3 <- rd (mval a) 3 ;; v1 <- rd (mval a) 1 ;; v2 <- rd (mval a) 2 ;;
    Ok (osub O (omul O v0 v3) (omul O v1 v2))
  else if mrow a =? 3 then
    v0 <- rd (mval a) 0 ;; v1 <- rd (mval a) 1 ;; v2 <- rd (mval a) 2 ;;
    v3 <- rd (mval a) 3 ;; v4 <- rd (mval a) 4 ;; v5 <- rd (mval a) 5 ;;
    v6 <- rd (mval a) 6 ;; v7 <- rd (mval a) 7 ;; v8 <- rd (mval a) 8 ;;
    let p x y z := omul O (omul O x y) z in
    Ok (oadd O (oadd O (oadd O (osub O (osub O (omul O (omul O (oopp O v8) v1) v3)
          (p v7 v5 v0)) (p v2 v4 v6)) (p v6 v1 v5)) (p v7 v3 v2)) (p v0 v4 v8))
  else
    match fuel with
    | 0 => Fail OutOfFuel
    | S fuel' =>
        accum (mrow a) (fun i =>
          x <- mraw a i 0 ;;
          m <- mminor a i 0 ;;
          d <- mdet_fuel fuel' m ;;
          Ok (omul O (omul O (osign i) x) d))
    end.
Definition mdet (a : mat T) : res T := mdet_fuel (mrow a) a.

(** Matrix.h:345-360 *)
Definition minv (a : mat T) : res (mat T) :=
  _ <- assert_ (mrow a =? mcol a) ;;
  if mrow a =? 1 then
    x <- rd (mval a) 0 ;; y <- odiv O (o1 O) x ;; Ok (mkMat 1 1 [y])
  else
    m <- mbuild (mrow a) (mcol a) (fun i j =>
           c <- mminor a j i ;; d <- mdet c ;; Ok (omul O (osign (i + j)) d)) ;;
    d <- mdet a ;;
    mdivs m d.

(** Matrix.h:388-421 *)
Definition mvstack (a b : mat T) : res (mat T) :=
  _ <- assert_ (mcol a =? mcol b) ;;
  let c := mcol a in
  v <- fill (mrow a) c (fun i j => i * c + j) (fun i j => mraw a i j)
         (repeat (o0 O) ((mrow a + mrow b) * c)) ;;
  v <- fill (mrow b) (mcol b) (fun i j => (i + mrow a) * c + j) (fun i j => mraw b i j) v ;;
  Ok (mkMat (mrow a + mrow b) c v).
Definition mhstack (a b : mat T) : res (mat T) :=
  _ <- assert_ (mrow a =? mrow b) ;;
  let c := mcol a + mcol b in
  v <- fill (mrow a) (mcol a) (fun i j => i * c + j) (fun i j => mraw a i j)
         (repeat (o0 O) (mrow a * c)) ;;
  v <- fill (mrow b) (mcol b) (fun i j => i * c + (j + mcol a)) (fun i j => mraw b i j) v ;;
  Ok (mkMat (mrow a) c v).

(** Matrix.h:424-435 *)
Definition mblock (a : mat T) (r c h w : nat) : res (mat T) :=
  _ <- assert_ ((0 <? h) && (0 <? w) && (r + h <=? mrow a) && (c + w <=? mcol a)) ;;
  mbuild h w (fun i j => mraw a (r + i) (c + j)).

(** Matrix.h:438-455 *)
Definition midentity (n : nat) : res (mat T) :=
  v <- fill n 1 (fun i _ => i * n + i) (fun _ _ => Ok (o1 O)) (repeat (o0 O) (n * n)) ;;
  Ok (mkMat n n v).
Definition mdiagonal (x : list T) : res (mat T) :=
  let n := length x in
  v <- fill n 1 (fun i _ => i * n + i) (fun i _ => rd x i) (repeat (o0 O) (n * n)) ;;
  Ok (mkMat n n v).

(** Matrix.h:124-132 Matrix(Vector), Vector.h:132-140 Vector(Matrix) *)
Definition mat_of_vec (x : list T) : mat T := mkMat (length x) 1 x.
Definition vec_of_mat (a : mat T) : res (list T) :=
  _ <- assert_ (mcol a =? 1) ;;
  fill (mrow a) 1 (fun i _ => i) (fun i _ => rd (mval a) i) (vnew (mrow a)).

End Dense.
