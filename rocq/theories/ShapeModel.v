(** Model of src/FEM/Controller/ShapeFunction.h.
    Every expression is transcribed literally: x, y, z stand for _r(0), _r(1),
    _r(2), decimal literals are written as fractions and T() as 0.  A point of
    the parent domain is a function of the coordinate index; the code indexes
    a Vector that must have at least d entries.  N fills a Vector of size n,
    dNdr a d x n Matrix; both are lists here. *)
From Coq Require Import List Arith Reals.
Import ListNotations.
Local Open Scope R_scope.

Record shape := mkShape {
  sf_d : nat;                          (** static const int d *)
  sf_n : nat;                          (** static const int n *)
  sf_points : list (list R);           (** Points *)
  sf_N : (nat -> R) -> list R;         (** N *)
  sf_dN : (nat -> R) -> list (list R)  (** dNdr: the d rows *)
}.

(** ShapeFunction2Line: ShapeFunction.h:19-48 (Points 31, N 35-40, dNdr 44-48) *)
Definition pts_2Line : list (list R) :=
  [[-1];
   [1]].
Definition N_2Line (r : nat -> R) : list R :=
  let x := r 0%nat in
  [(1/2) * (1 - x);
   (1/2) * (1 + x)].
Definition dN_2Line (r : nat -> R) : list (list R) :=
  [[-(1/2);
    (1/2)]].
Definition sf_2Line : shape := mkShape 1 2 pts_2Line N_2Line dN_2Line.

(** ShapeFunction3Line: ShapeFunction.h:52-82 (Points 64, N 68-74, dNdr 78-82) *)
Definition pts_3Line : list (list R) :=
  [[-1];
   [1];
   [0]].
Definition N_3Line (r : nat -> R) : list R :=
  let x := r 0%nat in
  [-(1/2) * (1 - x) * x;
   (1/2) * x * (1 + x);
   (1 - x) * (1 + x)].
Definition dN_3Line (r : nat -> R) : list (list R) :=
  let x := r 0%nat in
  [[-(1/2) * (1 - 2 * x);
    (1/2) * (1 + 2 * x);
    -2 * x]].
Definition sf_3Line : shape := mkShape 1 3 pts_3Line N_3Line dN_3Line.

(** ShapeFunction3Triangle: ShapeFunction.h:86-117 (Points 98, N 102-108, dNdr 112-117) *)
Definition pts_3Triangle : list (list R) :=
  [[1; 0];
   [0; 1];
   [0; 0]].
Definition N_3Triangle (r : nat -> R) : list R :=
  let x := r 0%nat in
  let y := r 1%nat in
  [x;
   y;
   1 - x - y].
Definition dN_3Triangle (r : nat -> R) : list (list R) :=
  [[1;
    0;
    -1];
   [0;
    1;
    -1]].
Definition sf_3Triangle : shape := mkShape 2 3 pts_3Triangle N_3Triangle dN_3Triangle.

(** ShapeFunction6Triangle: ShapeFunction.h:121-155 (Points 133, N 137-146, dNdr 150-155) *)
Definition pts_6Triangle : list (list R) :=
  [[1; 0];
   [0; 1];
   [0; 0];
   [(1/2); (1/2)];
   [0; (1/2)];
   [(1/2); 0]].
Definition N_6Triangle (r : nat -> R) : list R :=
  let x := r 0%nat in
  let y := r 1%nat in
  [x * (2 * x - 1);
   y * (2 * y - 1);
   (1 - x - y) * (1 - 2 * x - 2 * y);
   4 * x * y;
   4 * y * (1 - x - y);
   4 * (1 - x - y) * x].
Definition dN_6Triangle (r : nat -> R) : list (list R) :=
  let x := r 0%nat in
  let y := r 1%nat in
  [[4 * x - 1;
    0;
    -3 + 4 * x + 4 * y;
    4 * y;
    -4 * y;
    4 * (1 - 2 * x - y)];
   [0;
    4 * y - 1;
    -3 + 4 * x + 4 * y;
    4 * x;
    4 * (1 - x - 2 * y);
    -4 * x]].
Definition sf_6Triangle : shape := mkShape 2 6 pts_6Triangle N_6Triangle dN_6Triangle.

(** ShapeFunction4Square: ShapeFunction.h:159-191 (Points 171, N 175-182, dNdr 186-191) *)
Definition pts_4Square : list (list R) :=
  [[-1; -1];
   [1; -1];
   [1; 1];
   [-1; 1]].
Definition N_4Square (r : nat -> R) : list R :=
  let x := r 0%nat in
  let y := r 1%nat in
  [(1/4) * (1 - x) * (1 - y);
   (1/4) * (1 + x) * (1 - y);
   (1/4) * (1 + x) * (1 + y);
   (1/4) * (1 - x) * (1 + y)].
Definition dN_4Square (r : nat -> R) : list (list R) :=
  let x := r 0%nat in
  let y := r 1%nat in
  [[-(1/4) * (1 - y);
    (1/4) * (1 - y);
    (1/4) * (1 + y);
    -(1/4) * (1 + y)];
   [-(1/4) * (1 - x);
    -(1/4) * (1 + x);
    (1/4) * (1 + x);
    (1/4) * (1 - x)]].
Definition sf_4Square : shape := mkShape 2 4 pts_4Square N_4Square dN_4Square.

(** ShapeFunction8Square: ShapeFunction.h:195-246 (Points 207, N 211-222, dNdr 226-246) *)
Definition pts_8Square : list (list R) :=
  [[-1; -1];
   [1; -1];
   [1; 1];
   [-1; 1];
   [0; -1];
   [1; 0];
   [0; 1];
   [-1; 0]].
Definition N_8Square (r : nat -> R) : list R :=
  let x := r 0%nat in
  let y := r 1%nat in
  [(1/4) * (1 - x) * (1 - y) * (-x - y - 1);
   (1/4) * (1 + x) * (1 - y) * (x - y - 1);
   (1/4) * (1 + x) * (1 + y) * (x + y - 1);
   (1/4) * (1 - x) * (1 + y) * (-x + y - 1);
   (1/2) * (1 - x) * (1 + x) * (1 - y);
   (1/2) * (1 + x) * (1 + y) * (1 - y);
   (1/2) * (1 + x) * (1 - x) * (1 + y);
   (1/2) * (1 - x) * (1 + y) * (1 - y)].
Definition dN_8Square (r : nat -> R) : list (list R) :=
  let x := r 0%nat in
  let y := r 1%nat in
  [[(1/4) * (-(1 - y) * (-x - y - 1) - (1 - x) * (1 - y));
    (1/4) * ((1 - y) * (x - y - 1) + (1 + x) * (1 - y));
    (1/4) * ((1 + y) * (x + y - 1) + (1 + x) * (1 + y));
    (1/4) * (-(1 + y) * (-x + y - 1) - (1 - x) * (1 + y));
    -x * (1 - y);
    (1/2) * (1 + y) * (1 - y);
    -x * (1 + y);
    -(1/2) * (1 + y) * (1 - y)];
   [(1/4) * (-(1 - x) * (-x - y - 1) - (1 - x) * (1 - y));
    (1/4) * (-(1 + x) * (x - y - 1) - (1 + x) * (1 - y));
    (1/4) * ((1 + x) * (x + y - 1) + (1 + x) * (1 + y));
    (1/4) * ((1 - x) * (-x + y - 1) + (1 - x) * (1 + y));
    -(1/2) * (1 + x) * (1 - x);
    -y * (1 + x);
    (1/2) * (1 + x) * (1 - x);
    -y * (1 - x)]].
Definition sf_8Square : shape := mkShape 2 8 pts_8Square N_8Square dN_8Square.

(** ShapeFunction4Tetrahedron: ShapeFunction.h:250-283 (Points 262, N 266-273, dNdr 277-283) *)
Definition pts_4Tetrahedron : list (list R) :=
  [[1; 0; 0];
   [0; 1; 0];
   [0; 0; 1];
   [0; 0; 0]].
Definition N_4Tetrahedron (r : nat -> R) : list R :=
  let x := r 0%nat in
  let y := r 1%nat in
  let z := r 2%nat in
  [x;
   y;
   z;
   1 - x - y - z].
Definition dN_4Tetrahedron (r : nat -> R) : list (list R) :=
  [[1;
    0;
    0;
    -1];
   [0;
    1;
    0;
    -1];
   [0;
    0;
    1;
    -1]].
Definition sf_4Tetrahedron : shape := mkShape 3 4 pts_4Tetrahedron N_4Tetrahedron dN_4Tetrahedron.

(** ShapeFunction8Cubic: ShapeFunction.h:287-329 (Points 299, N 303-314, dNdr 318-329) *)
Definition pts_8Cubic : list (list R) :=
  [[-1; -1; -1];
   [1; -1; -1];
   [1; 1; -1];
   [-1; 1; -1];
   [-1; -1; 1];
   [1; -1; 1];
   [1; 1; 1];
   [-1; 1; 1]].
Definition N_8Cubic (r : nat -> R) : list R :=
  let x := r 0%nat in
  let y := r 1%nat in
  let z := r 2%nat in
  [(1/8) * (1 - x) * (1 - y) * (1 - z);
   (1/8) * (1 + x) * (1 - y) * (1 - z);
   (1/8) * (1 + x) * (1 + y) * (1 - z);
   (1/8) * (1 - x) * (1 + y) * (1 - z);
   (1/8) * (1 - x) * (1 - y) * (1 + z);
   (1/8) * (1 + x) * (1 - y) * (1 + z);
   (1/8) * (1 + x) * (1 + y) * (1 + z);
   (1/8) * (1 - x) * (1 + y) * (1 + z)].
Definition dN_8Cubic (r : nat -> R) : list (list R) :=
  let x := r 0%nat in
  let y := r 1%nat in
  let z := r 2%nat in
  [[-(1/8) * (1 - y) * (1 - z);
    (1/8) * (1 - y) * (1 - z);
    (1/8) * (1 + y) * (1 - z);
    -(1/8) * (1 + y) * (1 - z);
    -(1/8) * (1 - y) * (1 + z);
    (1/8) * (1 - y) * (1 + z);
    (1/8) * (1 + y) * (1 + z);
    -(1/8) * (1 + y) * (1 + z)];
   [-(1/8) * (1 - z) * (1 - x);
    -(1/8) * (1 - z) * (1 + x);
    (1/8) * (1 - z) * (1 + x);
    (1/8) * (1 - z) * (1 - x);
    -(1/8) * (1 + z) * (1 - x);
    -(1/8) * (1 + z) * (1 + x);
    (1/8) * (1 + z) * (1 + x);
    (1/8) * (1 + z) * (1 - x)];
   [-(1/8) * (1 - x) * (1 - y);
    -(1/8) * (1 + x) * (1 - y);
    -(1/8) * (1 + x) * (1 + y);
    -(1/8) * (1 - x) * (1 + y);
    (1/8) * (1 - x) * (1 - y);
    (1/8) * (1 + x) * (1 - y);
    (1/8) * (1 + x) * (1 + y);
    (1/8) * (1 - x) * (1 + y)]].
Definition sf_8Cubic : shape := mkShape 3 8 pts_8Cubic N_8Cubic dN_8Cubic.

(** ShapeFunction20Cubic: ShapeFunction.h:333-461 (Points 345-365, N 369-392, dNdr 396-461) *)
Definition pts_20Cubic : list (list R) :=
  [[-1; -1; -1];
   [1; -1; -1];
   [1; 1; -1];
   [-1; 1; -1];
   [-1; -1; 1];
   [1; -1; 1];
   [1; 1; 1];
   [-1; 1; 1];
   [0; -1; -1];
   [1; 0; -1];
   [0; 1; -1];
   [-1; 0; -1];
   [-1; 1; 1];
   [0; -1; 1];
   [1; 0; 1];
   [0; 1; 1];
   [-1; 0; 1];
   [-1; -1; 0];
   [1; -1; 0];
   [1; 1; 0];
   [-1; 1; 0]].
Definition N_20Cubic (r : nat -> R) : list R :=
  let x := r 0%nat in
  let y := r 1%nat in
  let z := r 2%nat in
  [-(1/8) * (1 - x) * (1 - y) * (1 - z) * (2 + x + y + z);
   -(1/8) * (1 + x) * (1 - y) * (1 - z) * (2 - x + y + z);
   -(1/8) * (1 + x) * (1 + y) * (1 - z) * (2 - x - y + z);
   -(1/8) * (1 - x) * (1 + y) * (1 - z) * (2 + x - y + z);
   -(1/8) * (1 - x) * (1 - y) * (1 + z) * (2 + x + y - z);
   -(1/8) * (1 + x) * (1 - y) * (1 + z) * (2 - x + y - z);
   -(1/8) * (1 + x) * (1 + y) * (1 + z) * (2 - x - y - z);
   -(1/8) * (1 - x) * (1 + y) * (1 + z) * (2 + x - y - z);
   (1/4) * (1 + x) * (1 - x) * (1 - y) * (1 - z);
   (1/4) * (1 + x) * (1 + y) * (1 - y) * (1 - z);
   (1/4) * (1 + x) * (1 - x) * (1 + y) * (1 - z);
   (1/4) * (1 - x) * (1 + y) * (1 - y) * (1 - z);
   (1/4) * (1 + x) * (1 - x) * (1 - y) * (1 + z);
   (1/4) * (1 + x) * (1 + y) * (1 - y) * (1 + z);
   (1/4) * (1 + x) * (1 - x) * (1 + y) * (1 + z);
   (1/4) * (1 - x) * (1 + y) * (1 - y) * (1 + z);
   (1/4) * (1 - x) * (1 - y) * (1 + z) * (1 - z);
   (1/4) * (1 + x) * (1 - y) * (1 + z) * (1 - z);
   (1/4) * (1 + x) * (1 + y) * (1 + z) * (1 - z);
   (1/4) * (1 - x) * (1 + y) * (1 + z) * (1 - z)].
Definition dN_20Cubic (r : nat -> R) : list (list R) :=
  let x := r 0%nat in
  let y := r 1%nat in
  let z := r 2%nat in
  [[(1/8) * (1 - y) * (1 - z) * (1 + 2 * x + y + z);
    -(1/8) * (1 - y) * (1 - z) * (1 - 2 * x + y + z);
    -(1/8) * (1 + y) * (1 - z) * (1 - 2 * x - y + z);
    (1/8) * (1 + y) * (1 - z) * (1 + 2 * x - y + z);
    (1/8) * (1 - y) * (1 + z) * (1 + 2 * x + y - z);
    -(1/8) * (1 - y) * (1 + z) * (1 - 2 * x + y - z);
    -(1/8) * (1 + y) * (1 + z) * (1 - 2 * x - y - z);
    (1/8) * (1 + y) * (1 + z) * (1 + 2 * x - y - z);
    -(1/2) * x * (1 - y) * (1 - z);
    (1/4) * (1 - y * y) * (1 - z);
    -(1/2) * x * (1 + y) * (1 - z);
    -(1/4) * (1 - y * y) * (1 - z);
    -(1/2) * x * (1 - y) * (1 + z);
    (1/4) * (1 - y * y) * (1 + z);
    -(1/2) * x * (1 + y) * (1 + z);
    -(1/4) * (1 - y * y) * (1 + z);
    -(1/4) * (1 - y) * (1 - z * z);
    (1/4) * (1 - y) * (1 - z * z);
    (1/4) * (1 + y) * (1 - z * z);
    -(1/4) * (1 + y) * (1 - z * z)];
   [(1/8) * (1 - x) * (1 - z) * (1 + x + 2 * y + z);
    (1/8) * (1 + x) * (1 - z) * (1 - x + 2 * y + z);
    -(1/8) * (1 + x) * (1 - z) * (1 - x - 2 * y + z);
    -(1/8) * (1 - x) * (1 - z) * (1 + x - 2 * y + z);
    (1/8) * (1 - x) * (1 + z) * (1 + x + 2 * y - z);
    (1/8) * (1 + x) * (1 + z) * (1 - x + 2 * y - z);
    -(1/8) * (1 + x) * (1 + z) * (1 - x - 2 * y - z);
    -(1/8) * (1 - x) * (1 + z) * (1 + x - 2 * y - z);
    -(1/4) * (1 - x * x) * (1 - z);
    -(1/2) * (1 + x) * y * (1 - z);
    (1/4) * (1 - x * x) * (1 - z);
    -(1/2) * (1 - x) * y * (1 - z);
    -(1/4) * (1 - x * x) * (1 + z);
    -(1/2) * (1 + x) * y * (1 + z);
    (1/4) * (1 - x * x) * (1 + z);
    -(1/2) * (1 - x) * y * (1 + z);
    -(1/4) * (1 - x) * (1 - z * z);
    -(1/4) * (1 + x) * (1 - z * z);
    (1/4) * (1 + x) * (1 - z * z);
    (1/4) * (1 - x) * (1 - z * z)];
   [(1/8) * (1 - x) * (1 - y) * (1 + x + y + 2 * z);
    (1/8) * (1 + x) * (1 - y) * (1 - x + y + 2 * z);
    (1/8) * (1 + x) * (1 + y) * (1 - x - y + 2 * z);
    (1/8) * (1 - x) * (1 + y) * (1 + x - y + 2 * z);
    -(1/8) * (1 - x) * (1 - y) * (1 + x + y - 2 * z);
    -(1/8) * (1 + x) * (1 - y) * (1 - x + y - 2 * z);
    -(1/8) * (1 + x) * (1 + y) * (1 - x - y - 2 * z);
    -(1/8) * (1 - x) * (1 + y) * (1 + x - y - 2 * z);
    -(1/4) * (1 - x * x) * (1 - y);
    -(1/4) * (1 + x) * (1 - y * y);
    -(1/4) * (1 - x * x) * (1 + y);
    -(1/4) * (1 - x) * (1 - y * y);
    (1/4) * (1 - x * x) * (1 - y);
    (1/4) * (1 + x) * (1 - y * y);
    (1/4) * (1 - x * x) * (1 + y);
    (1/4) * (1 - x) * (1 - y * y);
    -(1/2) * (1 - x) * (1 - y) * z;
    -(1/2) * (1 + x) * (1 - y) * z;
    -(1/2) * (1 + x) * (1 + y) * z;
    -(1/2) * (1 - x) * (1 + y) * z]].
Definition sf_20Cubic : shape := mkShape 3 20 pts_20Cubic N_20Cubic dN_20Cubic.

Definition all_shapes : list shape :=
  [sf_2Line; sf_3Line; sf_3Triangle; sf_6Triangle; sf_4Square; sf_8Square; sf_4Tetrahedron; sf_8Cubic; sf_20Cubic].
