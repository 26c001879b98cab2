(** The dense classes over the real numbers, with the members that need a
    square root.  Doubles are modelled by exact reals. *)
From Coq Require Import List Arith Lia Bool Reals Lra.
From Verif Require Import Res DenseModel.
Import ListNotations.
Local Open Scope R_scope.

Definition Rdiv_res (x y : R) : res R :=
  if Req_EM_T y 0 then Fail DivByZero else Ok (x / y).

Definition R_ops : ops R := mkOps 0 1 Rplus Rminus Rmult Ropp Rdiv_res.

(** Vector.h:296-303 Norm: sqrt of the accumulated pow(values[i], 2.0) *)
Definition vnorm (v : list R) : res R :=
  s <- accum R_ops (length v) (fun i => x <- rd v i ;; Ok (x * x)) ;; Ok (sqrt s).

(** Vector.h:340-344 Normal *)
Definition vnormal (v : list R) : res (list R) :=
  d <- vnorm v ;; vdiv R_ops v d.

Lemma Rdiv_res_ok x y : y <> 0 -> Rdiv_res x y = Ok (x / y).
Proof. intros H. unfold Rdiv_res. destruct (Req_EM_T y 0); congruence. Qed.
Lemma Rdiv_res_0 x : Rdiv_res x 0 = Fail DivByZero.
Proof. unfold Rdiv_res. destruct (Req_EM_T 0 0); congruence. Qed.
