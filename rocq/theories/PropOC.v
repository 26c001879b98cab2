(** Properties C47, C69 and C70: the optimality criteria solver. *)
From Coq Require Import List Arith Lia Bool Reals Lra.
From Verif Require Import Res SumR DenseR LUModel OCModel OCMain.
Import ListNotations.
Local Open Scope R_scope.

(** C47: the new variables are in [0,1] and within the move limit; they respect the constructor's bounds only if these contain [0,1] *)
Theorem C47_box_partial : forall o fuel xk f dfdx dgdx g o' x, oc_update o fuel xk f dfdx dgdx g = Ok (o', x) ->
  (forall i, (i < oc_n o)%nat -> 0 <= nth i xk 0 <= 1) -> 0 <= oc_move o ->
  length x = oc_n o /\
  (forall i, (i < oc_n o)%nat -> 0 <= nth i x 0 <= 1 /\ Rabs (nth i x 0 - nth i xk 0) <= oc_move o * nth i xk 0) /\
  ((forall i, (i < oc_n o)%nat -> nth i (oc_xmin o) 0 <= 0 /\ 1 <= nth i (oc_xmax o) 0) ->
   forall i, (i < oc_n o)%nat -> nth i (oc_xmin o) 0 <= nth i x 0 <= nth i (oc_xmax o) 0).
Proof. exact C47_box_partial_pf. Qed.
Print Assumptions C47_box_partial.

(** C47 as stated is false: the lower bound 1/2 given at construction is ignored *)
Theorem C47_refuted : exists o fuel xk f dfdx dgdx g o' x, oc_n o = 1%nat /\ nth 0 (oc_xmin o) 0 <= nth 0 xk 0 <= nth 0 (oc_xmax o) 0 /\
  oc_update o fuel xk f dfdx dgdx g = Ok (o', x) /\ nth 0 x 0 < nth 0 (oc_xmin o) 0.
Proof. exact C47_refuted_pf. Qed.
Print Assumptions C47_refuted.

(** C69: the returned design belongs to one end of a bracket of relative width lambdaeps: the lower end violates the constraint, the upper end satisfies it *)
Theorem C69_bracket_partial : forall o fuel xk f dfdx dgdx g o' x, oc_update o fuel xk f dfdx dgdx g = Ok (o', x) ->
  exists l l0 l1, oc_candidate o xk dfdx dgdx l = Ok x /\ (l = l0 \/ l = l1) /\ (l1 - l0) / (l1 + l0) <= oc_leps o /\
    (0 < oc_lmin o <= oc_lmax o -> oc_lmin o <= l0 <= l1 /\ l1 <= oc_lmax o) /\
    (l0 = oc_lmin o \/ exists y, oc_candidate o xk dfdx dgdx l0 = Ok y /\ 0 < g y) /\
    (l1 = oc_lmax o \/ exists y, oc_candidate o xk dfdx dgdx l1 = Ok y /\ g y <= 0).
Proof. exact C69_bracket_partial_pf. Qed.
Print Assumptions C69_bracket_partial.

(** C69 as stated is false: the design returned violates the constraint although the bracket contains a feasible one *)
Theorem C69_refuted : exists o fuel xk f dfdx dgdx g o' x y, oc_update o fuel xk f dfdx dgdx g = Ok (o', x) /\ 0 < g x /\
  oc_candidate o xk dfdx dgdx (oc_lmax o) = Ok y /\ g y <= 0.
Proof. exact C69_refuted_pf. Qed.
Print Assumptions C69_refuted.

(** C69: with 0 < lambdamin < lambdamax, a tolerance below the initial width, decreasing objective and increasing constraint the update terminates for every constraint function *)
Theorem C69_terminates : forall o xk f dfdx dgdx g, 0 < oc_lmin o < oc_lmax o -> 0 < oc_leps o < (oc_lmax o - oc_lmin o) / (oc_lmax o + oc_lmin o) ->
  length xk = oc_n o -> length dfdx = oc_n o -> length dgdx = oc_n o ->
  (forall i, (i < oc_n o)%nat -> nth i dfdx 0 < 0 /\ 0 < nth i dgdx 0) ->
  exists o' x fuel0, forall fuel, (fuel0 <= fuel)%nat -> oc_update o fuel xk f dfdx dgdx g = Ok (o', x).
Proof. exact C69_terminates_pf. Qed.
Print Assumptions C69_terminates.

(** C69: a design satisfying the optimality condition df + lambda dg = 0 is a fixed point of the update with that multiplier *)
Theorem C69_optimal_fixed : forall o xk dfdx dgdx l, length xk = oc_n o -> length dfdx = oc_n o -> length dgdx = oc_n o -> 0 <= oc_move o ->
  (forall i, (i < oc_n o)%nat -> 0 <= nth i xk 0 <= 1 /\ nth i dgdx 0 * l <> 0 /\ nth i dfdx 0 + l * nth i dgdx 0 = 0) ->
  oc_candidate o xk dfdx dgdx l = Ok xk.
Proof. exact C69_optimal_fixed_pf. Qed.
Print Assumptions C69_optimal_fixed.

(** C70: for objective values with positive sum the convergence test compares the change with eps times the sum *)
Theorem C70_convergence_partial : forall a b eps, 0 < a + b -> (relative_change a b eps = true <-> Rabs (a - b) < eps * (a + b)).
Proof. exact C70_convergence_partial_pf. Qed.
Print Assumptions C70_convergence_partial.

(** C70: for objective values with negative sum the test always reports convergence *)
Theorem C70_negative : forall a b eps, a + b < 0 -> 0 < eps -> relative_change a b eps = true.
Proof. exact C70_negative_pf. Qed.
Print Assumptions C70_negative.

(** C70 as stated is false: objective values -1 and -2 count as converged *)
Theorem C70_refuted : exists o f0, 0 < oc_eps o /\ oc_is_convergence o f0 = true /\ 1000 * oc_eps o < Rabs (f0 - oc_prev o) / Rmax (Rabs f0) (Rabs (oc_prev o)).
Proof. exact C70_refuted_pf. Qed.
Print Assumptions C70_refuted.
