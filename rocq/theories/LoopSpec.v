(** Notions used in the statements about the loop of the density samples. *)
From Coq Require Import List Arith Lia Bool Reals.
From Verif Require Import Res SumR ElemSpec FilterSpec OCModel TopModel TopSpec LoopModel.
Import ListNotations.
Local Open Scope R_scope.

(** Euclidean distance of two points *)
Definition dist (a b : list R) : R := sqrt (bigsum (length a) (fun k => (nth k a 0 - nth k b 0) ^ 2)).
(** sum of the weights of element i *)
Definition weight_sum (nbs : list (list nat)) (w : list (list R)) (i : nat) : R := total (links nbs w i) (fun _ => 1).
(** a neighbour relation with equal weights in both directions *)
Definition symmetric_links (nbs : list (list nat)) (w : list (list R)) : Prop :=
  forall i k v, In (k, v) (links nbs w i) -> In (i, v) (links nbs w k).
(** all entries in (0, 1] *)
Definition unit_design (n : nat) (s : list R) : Prop := length s = n /\ forall i, (i < n)%nat -> 0 < nth i s 0 <= 1.
(** the parameters of an optimiser for [n] variables *)
Definition oc_params (n : nat) (o : oc) : Prop :=
  oc_n o = n /\ 0 <= oc_lmin o < oc_lmax o /\ 0 < oc_leps o < (oc_lmax o - oc_lmin o) / (oc_lmax o + oc_lmin o) /\ 0 < oc_iota o /\ 0 <= oc_move o < 1.
(** the constants of a problem in the samples *)
Definition loop_consts (d : top) : Prop := tp_elements d <> [] /\ 0 <= tp_p d /\ 0 <= tp_scale0 d /\ 0 < tp_scale1 d /\ 0 < tp_limit d.
(** the largest step that the optimiser can make: up as far as the move limit
    allows where the objective decreases, down where it does not change *)
Definition largest_step (o : oc) (xk dfdx : list R) : list R :=
  map (fun i => if Rlt_dec (nth i dfdx 0) 0 then Rmin 1 ((1 + oc_move o) * nth i xk 0) else Rmax 0 ((1 - oc_move o) * nth i xk 0)) (seq 0 (oc_n o)).
(** weight of element k in the filter of element i *)
Definition link_weight (nbs : list (list nat)) (w : list (list R)) (i k : nat) : R := total (links nbs w i) (fun j => if (j =? k)%nat then 1 else 0).
(** the objective as a function of the design *)
Definition ds_objective (solve : SparseModel.csr R -> list R -> res (list R)) (d : top) (nbs : list (list nat)) (w : list (list R)) (beta : R) (s : list R) : R :=
  objective (rho <- FilterModel.heaviside_variables (length (tp_elements d)) nbs w beta s ;; top_analysis solve d rho).
