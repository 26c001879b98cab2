(** Model of the interpolation functions of /repo/src/FEM/Equation/General.h and
    of /repo/src/FEM/Equation/Numeric.h over exact reals.

    Indices into the node tables are natural numbers; a division by zero is the
    fault [DivByZero] (inf or NaN in the C++).  [int] counters are natural numbers. *)
From Coq Require Import List Arith Lia Bool Reals.
From Verif Require Import Res SumR DenseModel DenseR ShapeModel QuadModel ElemModel.
Import ListNotations.
Local Open Scope R_scope.

(** ** General.h:139-150 LagrangeInterpolation *)
(** lines 142-148: N[i] *= (_x - _xs[j])/(_xs[i] - _xs[j]) for j <> i *)
Definition LagrangeInterpolation (xs : list R) (x : R) : res (list R) :=
  foldM (fun N i =>
    foldM (fun N j =>
      if (i =? j)%nat then Ok N
      else xj <- rd xs j ;; xi <- rd xs i ;; f <- Rdiv_res (x - xj) (xi - xj) ;;
           n <- rd N i ;; wr N i (n * f)) (seq 0 (length xs)) N) (seq 0 (length xs)) (repeat 1 (length xs)).

(** ** General.h:154-173 LagrangeInterpolationDerivative *)
(** lines 160-168: the product p for the pair (i, j) *)
Definition lagrange_term (xs : list R) (x : R) (i j : nat) : res R :=
  foldM (fun p k =>
    if negb (k =? j)%nat && negb (k =? i)%nat then
      xk <- rd xs k ;; xi <- rd xs i ;; f <- Rdiv_res (x - xk) (xi - xk) ;; Ok (p * f)
    else if negb (k =? i)%nat then
      xi <- rd xs i ;; xk <- rd xs k ;; f <- Rdiv_res 1 (xi - xk) ;; Ok (p * f)
    else Ok p) (seq 0 (length xs)) 1.
Definition LagrangeInterpolationDerivative (xs : list R) (x : R) : res (list R) :=
  foldM (fun D i =>
    foldM (fun D j =>
      if (j =? i)%nat then Ok D
      else p <- lagrange_term xs x i j ;; d <- rd D i ;; wr D i (d + p)) (seq 0 (length xs)) D)
    (seq 0 (length xs)) (repeat 0 (length xs)).

(** ** General.h:176-209 InterpolateNodalFromElemental *)
(** lines 181-186 and 199-204: the state is (un, count); [add] is += of the value
    type, which is T in the first overload and a class U<T> (Vector) in the second *)
Definition scatter {V} (add : V -> V -> res V) (ue : list V) (elements : list (list nat)) (st : list V * list nat) : res (list V * list nat) :=
  foldM (fun st i =>
    e <- rd elements i ;;
    foldM (fun st n =>
      let '(un, count) := st in
      x <- rd un n ;; y <- rd ue i ;; z <- add x y ;; un <- wr un n z ;;
      c <- rd count n ;; count <- wr count n (S c) ;;
      Ok (un, count)) e st) (seq 0 (length elements)) st.
Definition nodal_from_elemental {V} (add : V -> V -> res V) (div : V -> R -> res V) (nodesize : nat) (un0 : V) (ue : list V)
  (elements : list (list nat)) : res (list V) :=
  '(un, count) <- scatter add ue elements (repeat un0 nodesize, repeat O nodesize) ;;
  foldM (fun un i => x <- rd un i ;; c <- rd count i ;; z <- div x (INR c) ;; wr un i z) (seq 0 nodesize) un.
(** lines 177-191 *)
Definition InterpolateNodalFromElemental := nodal_from_elemental (fun x y => Ok (x + y)) Rdiv_res.
(** lines 195-209, with the class Vector *)
Definition InterpolateNodalFromElementalV := nodal_from_elemental (vadd R_ops) (vdiv R_ops).

(** ** General.h:212-237 InterpolateElementalFromNodal *)
Definition elemental_from_nodal {V} (add : V -> V -> res V) (div : V -> R -> res V) (ue0 : V) (un : list V) (elements : list (list nat))
  : res (list V) :=
  foldM (fun ue i =>
    e <- rd elements i ;;
    ue <- foldM (fun ue n => x <- rd ue i ;; y <- rd un n ;; z <- add x y ;; wr ue i z) e ue ;;
    x <- rd ue i ;; z <- div x (INR (length e)) ;; wr ue i z) (seq 0 (length elements)) (repeat ue0 (length elements)).
(** lines 213-223 *)
Definition InterpolateElementalFromNodal := elemental_from_nodal (fun x y => Ok (x + y)) Rdiv_res.
(** lines 227-237, with the class Vector *)
Definition InterpolateElementalFromNodalV := elemental_from_nodal (vadd R_ops) (vdiv R_ops).

(** ** Numeric.h:19-43 NumericIntegrationOnLine *)
(** lines 23-26: X starts with 0 rows and 1 column, so [stack_nodes] of ElemModel with 1 *)
Definition NumericIntegrationOnLine (s : shape) (q : rule) (xs : list (list R)) (elem : list nat) (f : list R -> R) : res R :=
  X <- stack_nodes 1 elem xs ;;
  gausss q (fun g =>
    p <- gpoint q g ;;
    let N := sf_vec s p in
    let dNdr := sf_mat s p in
    x <- interpolate X N ;;
    dXdr <- mmul R_ops dNdr X ;;
    dl <- length_element dXdr ;;
    w <- gweight q g 0 ;;
    Ok (w * f x * dl)) 0.

(** Example: nodes 0 and 2, x = 1/2 *)
Example lagrange_ex : LagrangeInterpolation [0; 2] (1 / 2) = Ok [(1 / 2 - 2) / (0 - 2); (1 / 2 - 0) / (2 - 0)].
Proof.
  unfold LagrangeInterpolation, Rdiv_res. cbn.
  destruct (Req_EM_T (0 - 2) 0) as [C|_]; [exfalso; revert C; apply Rlt_not_eq; rewrite Rminus_0_l; apply Ropp_lt_gt_0_contravar; apply Rlt_0_2|].
  destruct (Req_EM_T (2 - 0) 0) as [C|_]; [exfalso; revert C; rewrite Rminus_0_r; apply Rgt_not_eq, Rlt_0_2|].
  cbn. now rewrite !Rmult_1_l.
Qed.
