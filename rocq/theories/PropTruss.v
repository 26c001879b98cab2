(** Properties C113 and C114: the truss samples. *)
From Coq Require Import List Arith Lia Bool Reals Lra.
From Verif Require Import Res SumR DenseModel DenseR LUModel SparseModel SparseSpec KrylovSpec AssemblyModel AssemblySpec OCModel TopModel TopSpec LoopSpec TrussModel TrussSpec TrussMain.
Import ListNotations.
Local Open Scope R_scope.

(** C113, the system: for every truss and all positive areas the matrix that the
    samples assemble is symmetric, and it is positive definite if and only if
    the truss is no mechanism, that is no motion that respects the supports
    leaves all lengths unchanged. *)
Theorem C113_system : forall d A, truss_ok d -> areas_ok d A ->
  exists u t K F, tr_system d (rd A) = Ok (u, t, K, F) /\ square_csr (length F) K /\ symmetric (length F) (entry K) /\ (pos_def (length F) (entry K) <-> rigid_truss d).
Proof. exact C113_system_pf. Qed.
Print Assumptions C113_system.

(** two bars at a right angle; one bar alone swings *)
Definition swing : truss := mkTruss [[0; 0]; [-1; 0]] [[1; 0]]%nat [(1%nat, 0%nat, 0); (1%nat, 1%nat, 0)] [(0%nat, 0%nat, 3)] 1.
Example C113_system_ex : (exists u t K F, tr_system ell (rd [2; 2]) = Ok (u, t, K, F) /\ pos_def (length F) (entry K)) /\
  (exists u t K F, tr_system swing (rd [2]) = Ok (u, t, K, F) /\ symmetric (length F) (entry K) /\ ~ pos_def (length F) (entry K)).
Proof.
  split.
  - destruct (C113_system ell [2; 2] ell_ok) as (u & t & K & F & E & _ & _ & P); [split; [reflexivity|intros [|[|]] Hi; cbn in *; lra || lia]|]. exists u, t, K, F. split; [exact E|]. apply P, ell_rigid.
  - assert (S : span swing 0 0 = 1 /\ span swing 0 1 = 0) by (unfold span, bar_a, bar_b; cbn; split; lra). destruct S as [S0 S1].
    assert (L : bar_length swing 0 = 1) by (unfold bar_length; rewrite S0, S1; apply sqrt_is; lra).
    assert (OK : truss_ok swing).
    { split; cbn [swing tr_x tr_elements tr_ufixed tr_qfixed tr_E length].
      - intros [|[|k]] Hk; try reflexivity. lia.
      - intros el [<-|[]]; split; try reflexivity; intros k [<-|[<-|[]]]; lia.
      - intros i Hi. replace i with 0%nat by lia. rewrite L. lra.
      - intros i j v H. cbn in H. destruct H as [H|[H|[]]]; injection H as <- <- <-; repeat split; lia || lra.
      - intros i j v H. cbn in H. destruct H as [H|[]]; injection H as <- <- <-; lia.
      - lra. }
    destruct (C113_system swing [2] OK) as (u & t & K & F & E & _ & S & P); [split; [reflexivity|intros [|] Hi; cbn in *; lra || lia]|]. exists u, t, K, F. split; [exact E|]. split; [exact S|]. rewrite P. intros RG.
    assert (1 = 0); [|lra]. apply (RG (fun i j => if (i =? 0)%nat && (j =? 1)%nat then 1 else 0)) with (i := 0%nat) (j := 1%nat); [| |cbn; lia|lia].
    + intros i j w H. cbn in H. destruct H as [H|[H|[]]]; injection H as <- <- <-; reflexivity.
    + intros i Hi. cbn in Hi. replace i with 0%nat by lia. unfold elongation. rewrite S0, S1, L. cbn. field.
Qed.

(** C113, the analysis: for every sizing problem and every design with entries
    in [0, 1] the analysis succeeds.  The field is zero at the supports, the
    forces of the bars balance the loads at all other dofs, and no other field
    does that; the returned forces are the resistance of the bars, the objective
    is the scaled work of the loads and the sensitivity of bar i is
    - scale (A1 - A0) E elongation^2 / length. *)
Theorem C113_analysis : forall solve z s, spd_solver solve -> sizing_ok z -> let d := sz_d z in let A := design_areas z s in closed_design (length (tr_elements d)) s ->
  exists a, sz_analysis solve z s = Ok a /\ respects d (uval (an_u a)) /\
    (forall i j, free_dof d i j -> bars_resist d (bar_force d A (uval (an_u a))) i j = nodal_load (tr_qfixed d) i j) /\
    (forall v, respects d v -> (forall i j, free_dof d i j -> bars_resist d (bar_force d A v) i j = nodal_load (tr_qfixed d) i j) ->
       forall i j, (i < length (tr_x d))%nat -> (j < 2)%nat -> v i j = uval (an_u a) i j) /\
    (forall i j, (i < length (tr_x d))%nat -> (j < 2)%nat -> uval (an_r a) i j = bars_resist d (bar_force d A (uval (an_u a))) i j) /\
    an_f a = sz_scale0 z * sum_over (tr_qfixed d) (fun q => snd q * uval (an_u a) (fst (fst q)) (snd (fst q))) /\
    length (an_df a) = length (tr_elements d) /\
    (forall i, (i < length (tr_elements d))%nat -> nth i (an_df a) 0 = - sz_scale0 z * (sz_A1 z - sz_A0 z) * tr_E d * elongation d i (uval (an_u a)) ^ 2 / bar_length d i).
Proof. exact C113_analysis_pf. Qed.
Print Assumptions C113_analysis.

Example C113_analysis_ex solve : spd_solver solve -> exists a, sz_analysis solve ell_size [1 / 2; 1 / 2] = Ok a /\ uval (an_u a) 0 0 = 3 / 2 /\ uval (an_u a) 0 1 = -2 /\ an_f a = 25 / 2 /\ nth 0 (an_df a) 0 = - (9 / 2) /\ nth 1 (an_df a) 0 = -8.
Proof.
  intros HS. destruct (C113_analysis solve ell_size [1 / 2; 1 / 2] HS ell_sizing (closed2 (1 / 2) (1 / 2) ltac:(lra) ltac:(lra))) as (a & E & RS & EQ & _ & _ & VF & _ & VD). exists a. split; [exact E|].
  destruct (ell_balanced _ _ RS EQ) as (B0 & B1 & _). cbn [design_areas map nth ell_size sz_A0 sz_A1] in B0, B1. assert (U0 : uval (an_u a) 0 0 = 3 / 2) by lra. assert (U1 : uval (an_u a) 0 1 = -2) by lra.
  split; [exact U0|]. split; [exact U1|]. rewrite VF. unfold sum_over. cbn [ell_size sz_d sz_scale0 ell tr_qfixed map sumlist fold_right fst snd] in *. rewrite U0, U1. split; [lra|].
  destruct (ell_elong (uval (an_u a))) as [E0 E1]. rewrite (RS 1%nat 0%nat 0) in E0 by (cbn; tauto). rewrite (RS 2%nat 1%nat 0) in E1 by (cbn; tauto).
  split; rewrite VD by (cbn; lia); cbn [ell_size sz_d sz_scale0 sz_A0 sz_A1]; fold ell; rewrite ?E0, ?E1, ell_len by lia; rewrite ?U0, ?U1; cbn [ell tr_E]; field.
Qed.

(** C113, the sensitivities: along every differentiable path of designs with
    positive areas the objective is differentiable, and its derivative is the
    sum of the returned sensitivities times the derivatives of the design. *)
Theorem C113_sensitivity : forall solve z (s : R -> list R) (D : nat -> R) y r a, spd_solver solve -> sizing_ok z -> let n := length (tr_elements (sz_d z)) in
  0 < r -> (forall h, Rabs h < r -> areas_ok (sz_d z) (design_areas z (s (y + h)))) -> (forall j, (j < n)%nat -> derivable_pt_lim (fun q => nth j (s q) 0) y (D j)) ->
  sz_analysis solve z (s y) = Ok a -> derivable_pt_lim (fun q => objective (sz_analysis solve z (s q))) y (bigsum n (fun j => nth j (an_df a) 0 * D j)).
Proof. exact C113_sensitivity_pf. Qed.
Print Assumptions C113_sensitivity.

Example C113_sensitivity_ex solve : spd_solver solve -> derivable_pt_lim (fun y => objective (sz_analysis solve ell_size [y; 1 / 2])) (1 / 2) (- (9 / 2)).
Proof.
  intros HS. destruct (C113_analysis_ex solve HS) as (a & E & _ & _ & _ & D0 & D1).
  pose proof (C113_sensitivity solve ell_size (fun y => [y; 1 / 2]) (fun j => if (j =? 0)%nat then 1 else 0) (1 / 2) (1 / 2) a HS ell_sizing ltac:(lra)) as H. change (length (tr_elements (sz_d ell_size))) with 2%nat in H. cbn [bigsum Nat.eqb] in H. rewrite D0, D1 in H.
  replace (- (9 / 2)) with (0 + - (9 / 2) * 1 + -8 * 0) by lra. apply H; auto.
  - intros h Hh. split; [reflexivity|]. assert (X := Rle_abs (- h)). rewrite Rabs_Ropp in X. intros [|[|]] Hi; cbn in *; try lia; lra.
  - intros [|[|]] Hj; cbn; [apply derivable_pt_lim_id|apply derivable_pt_lim_const|lia].
Qed.

(** C113, convexity: the objective lies above each of its tangents, so the
    returned sensitivities bound the objective of every other design from below. *)
Theorem C113_convex : forall solve z s s' a a', spd_solver solve -> sizing_ok z -> let n := length (tr_elements (sz_d z)) in closed_design n s -> closed_design n s' ->
  sz_analysis solve z s = Ok a -> sz_analysis solve z s' = Ok a' ->
  an_f a + bigsum n (fun i => nth i (an_df a) 0 * (nth i s' 0 - nth i s 0)) <= an_f a'.
Proof. exact C113_convex_pf. Qed.
Print Assumptions C113_convex.

Example C113_convex_ex solve x y a : spd_solver solve -> 0 <= x <= 1 -> 0 <= y <= 1 -> sz_analysis solve ell_size [x; y] = Ok a -> 25 / 2 - 9 / 2 * (x - 1 / 2) - 8 * (y - 1 / 2) <= an_f a.
Proof.
  intros HS Hx Hy E. destruct (C113_analysis_ex solve HS) as (a0 & E0 & _ & _ & F & D0 & D1). pose proof (C113_convex solve ell_size [1 / 2; 1 / 2] [x; y] a0 a HS ell_sizing (closed2 (1 / 2) (1 / 2) ltac:(lra) ltac:(lra)) (closed2 _ _ Hx Hy) E0 E) as H.
  change (length (tr_elements (sz_d ell_size))) with 2%nat in H. cbn [bigsum nth] in H. rewrite F, D0, D1 in H. lra.
Qed.

(** C113, the weight: the lengths are those of the bars, the constraint is the
    weight relative to the allowed one minus 1, and its sensitivities are exact
    for steps of any size. *)
Theorem C113_weight : forall z s, sizing_ok z -> let d := sz_d z in let n := length (tr_elements d) in length s = n ->
  exists l lsum dg, sz_lengths z = Ok (l, lsum) /\ length l = n /\ (forall i, (i < n)%nat -> nth i l 0 = bar_length d i) /\ lsum = bigsum n (bar_length d) /\
    sz_weight z l lsum s = Ok (weight_share z s - 1, dg) /\ sz_constraint z l lsum s = Ok (weight_share z s - 1) /\ length dg = n /\ (forall i, (i < n)%nat -> 0 < nth i dg 0) /\
    forall s', length s' = n -> weight_share z s' - weight_share z s = bigsum n (fun i => nth i dg 0 * (nth i s' 0 - nth i s 0)).
Proof. exact C113_weight_pf. Qed.
Print Assumptions C113_weight.

Example C113_weight_ex : exists dg, sz_weight ell_size [1; 1] 2 [1 / 2; 3 / 4] = Ok (1 / 4, dg) /\ nth 0 dg 0 = 1 /\ nth 1 dg 0 = 1.
Proof.
  destruct (C113_weight ell_size [1 / 2; 3 / 4] ell_sizing eq_refl) as (l & lsum & dg & E & _ & _ & _ & EW & _ & _ & _ & X). rewrite ell_lengths in E. injection E as <- <-. rewrite ell_share in EW. exists dg. split; [rewrite EW; do 2 f_equal; cbn [nth]; lra|].
  pose proof (X [3 / 2; 3 / 4] eq_refl) as X0. pose proof (X [1 / 2; 7 / 4] eq_refl) as X1. rewrite !ell_share in X0, X1. change (length (tr_elements (sz_d ell_size))) with 2%nat in X0, X1. cbn [bigsum nth] in X0, X1. lra.
Qed.

(** C113, optimality: a design in [0, 1] with a multiplier that satisfies the
    conditions of Karush, Kuhn and Tucker, with the sensitivities that the code
    returns, is a global optimum: no admissible design with at most the allowed
    weight has a smaller objective. *)
Theorem C113_optimal : forall solve z l lsum s g dg a lam, spd_solver solve -> sizing_ok z -> let n := length (tr_elements (sz_d z)) in closed_design n s ->
  sz_lengths z = Ok (l, lsum) -> sz_weight z l lsum s = Ok (g, dg) -> sz_analysis solve z s = Ok a -> 0 <= lam -> lam * g = 0 ->
  (forall i, (i < n)%nat -> (nth i s 0 < 1 -> 0 <= nth i (an_df a) 0 + lam * nth i dg 0) /\ (0 < nth i s 0 -> nth i (an_df a) 0 + lam * nth i dg 0 <= 0)) ->
  forall s' a', closed_design n s' -> weight_share z s' <= 1 -> sz_analysis solve z s' = Ok a' -> an_f a <= an_f a'.
Proof. exact C113_optimal_pf. Qed.
Print Assumptions C113_optimal.

(** the best areas are in the ratio of the forces: 12/7 to 16/7 *)
Example ell_best solve : spd_solver solve -> exists a dg, sz_analysis solve ell_size [5 / 14; 9 / 14] = Ok a /\ sz_weight ell_size [1; 1] 2 [5 / 14; 9 / 14] = Ok (0, dg) /\ length (an_df a) = 2%nat /\ length dg = 2%nat /\
  nth 0 (an_df a) 0 = - (49 / 8) /\ nth 1 (an_df a) 0 = - (49 / 8) /\ nth 0 dg 0 = 1 /\ nth 1 dg 0 = 1 /\ an_f a = 49 / 4.
Proof.
  intros HS. destruct (C113_analysis solve ell_size [5 / 14; 9 / 14] HS ell_sizing (closed2 (5 / 14) (9 / 14) ltac:(lra) ltac:(lra))) as (a & E & RS & EQ & _ & _ & VF & LD & VD).
  destruct (C113_weight ell_size [5 / 14; 9 / 14] ell_sizing eq_refl) as (l & lsum & dg & EL & _ & _ & _ & EW & _ & LG & _ & X). rewrite ell_lengths in EL. injection EL as <- <-. rewrite ell_share in EW. exists a, dg.
  split; [exact E|]. split; [rewrite EW; do 2 f_equal; cbn [nth]; lra|]. split; [exact LD|]. split; [exact LG|].
  destruct (ell_balanced _ _ RS EQ) as (B0 & B1 & _). cbn [design_areas map nth ell_size sz_A0 sz_A1] in B0, B1. assert (U0 : uval (an_u a) 0 0 = 7 / 4) by lra. assert (U1 : uval (an_u a) 0 1 = - (7 / 4)) by lra.
  destruct (ell_elong (uval (an_u a))) as [E0 E1]. rewrite (RS 1%nat 0%nat 0) in E0 by (cbn; tauto). rewrite (RS 2%nat 1%nat 0) in E1 by (cbn; tauto).
  pose proof (X [1; 9 / 14] eq_refl) as X0. pose proof (X [5 / 14; 1] eq_refl) as X1. rewrite !ell_share in X0, X1. change (length (tr_elements (sz_d ell_size))) with 2%nat in X0, X1. cbn [bigsum nth] in X0, X1.
  split; [|split; [|split; [|split]]].
  - rewrite VD by (cbn; lia); cbn [ell_size sz_d sz_scale0 sz_A0 sz_A1]; fold ell; rewrite E0, ell_len by lia; rewrite U0; cbn [ell tr_E]; field.
  - rewrite VD by (cbn; lia); cbn [ell_size sz_d sz_scale0 sz_A0 sz_A1]; fold ell; rewrite E1, ell_len by lia; rewrite U1; cbn [ell tr_E]; field.
  - lra.
  - lra.
  - rewrite VF. unfold sum_over. cbn [ell_size sz_d sz_scale0 ell tr_qfixed map sumlist fold_right fst snd]. rewrite U0, U1. lra.
Qed.
Example C113_optimal_ex solve x y a : spd_solver solve -> 0 <= x <= 1 -> 0 <= y <= 1 -> x + y <= 1 -> sz_analysis solve ell_size [x; y] = Ok a -> 49 / 4 <= an_f a.
Proof.
  intros HS Hx Hy Hw E. destruct (ell_best solve HS) as (a0 & dg & E0 & EW & _ & _ & D0 & D1 & G0 & G1 & F). rewrite <- F.
  apply (C113_optimal solve ell_size [1; 1] 2 [5 / 14; 9 / 14] 0 dg a0 (49 / 8) HS ell_sizing (closed2 (5 / 14) (9 / 14) ltac:(lra) ltac:(lra)) ell_lengths EW E0) with (s' := [x; y]); auto; try lra.
  - intros i Hi. cbn in Hi. destruct i as [|[|]]; [rewrite D0, G0|rewrite D1, G1|lia]; split; intros; lra.
  - now apply closed2.
  - rewrite ell_share. exact Hw.
Qed.

(** C113, fixed points: if the candidate that the optimiser computes from a
    design in (0, 1] with exactly the allowed weight, for a positive multiplier,
    is the design itself, then the design is a global optimum. *)
Theorem C113_fixed_point : forall solve z l lsum o s dg a lam, spd_solver solve -> sizing_ok z -> let n := length (tr_elements (sz_d z)) in unit_design n s ->
  oc_n o = n -> 0 < oc_iota o -> 0 < oc_move o < 1 -> 0 < lam -> sz_lengths z = Ok (l, lsum) -> sz_weight z l lsum s = Ok (0, dg) -> sz_analysis solve z s = Ok a ->
  oc_candidate o s (an_df a) dg lam = Ok s -> forall s' a', closed_design n s' -> weight_share z s' <= 1 -> sz_analysis solve z s' = Ok a' -> an_f a <= an_f a'.
Proof. exact C113_fixed_point_pf. Qed.
Print Assumptions C113_fixed_point.

(** the optimum of the two bars is such a fixed point *)
Example C113_fixed_point_ex solve : spd_solver solve -> exists a dg, sz_analysis solve ell_size [5 / 14; 9 / 14] = Ok a /\ sz_weight ell_size [1; 1] 2 [5 / 14; 9 / 14] = Ok (0, dg) /\
  oc_candidate (oc_new 2 (5/10) 0 1000 (1/1000) (15/100) (repeat (1/100) 2) (repeat 1 2)) [5 / 14; 9 / 14] (an_df a) dg (49 / 8) = Ok [5 / 14; 9 / 14].
Proof.
  intros HS. destruct (ell_best solve HS) as (a & dg & E & EW & LD & LG & D0 & D1 & G0 & G1 & _). exists a, dg. split; [exact E|]. split; [exact EW|].
  set (o := oc_new 2 (5/10) 0 1000 (1/1000) (15/100) (repeat (1/100) 2) (repeat 1 2)).
  assert (SG : forall i, (i < oc_n o)%nat -> nth i (an_df a) 0 <= 0 /\ 0 < nth i dg 0) by (intros i Hi; cbn in Hi; destruct i as [|[|]]; [rewrite D0, G0|rewrite D1, G1|lia]; lra).
  rewrite (ell_cand o [5 / 14; 9 / 14] (an_df a) dg (49 / 8) eq_refl LD LG SG ltac:(lra) ltac:(cbn; lra)); [reflexivity|cbn; lra|]. intros i Hi. cbn in Hi.
  destruct i as [|[|]]; [rewrite D0, G0|rewrite D1, G1|lia]; cbn [nth]; split; [field|lra|field|lra].
Qed.

(** C113, the loop: for every solver, every sizing problem and every start in
    (0, 1] the optimisation fails in no way except by not ending a bisection;
    the designs stay in (0, 1] and each pass changes an entry by at most the
    move limit times the entry. *)
Theorem C113_run : forall solve z s0, spd_solver solve -> sizing_ok z -> let n := length (tr_elements (sz_d z)) in 0 < s0 <= 1 ->
  (forall fuel passes, (exists stop s o, sz_optimize solve z fuel passes s0 = Ok (stop, (s, o)) /\ unit_design n s) \/ sz_optimize solve z fuel passes s0 = Fail OutOfFuel) /\
  exists l lsum, sz_lengths z = Ok (l, lsum) /\ forall fuel s o, unit_design n s -> oc_params n o ->
    (exists stop s' o', sz_iteration solve z l lsum fuel (s, o) = Ok (stop, (s', o')) /\ unit_design n s' /\ oc_params n o' /\ (stop = true -> s' = s) /\
       (forall i, (i < n)%nat -> Rabs (nth i s' 0 - nth i s 0) <= oc_move o * nth i s 0)) \/
    sz_iteration solve z l lsum fuel (s, o) = Fail OutOfFuel.
Proof. exact C113_run_pf. Qed.
Print Assumptions C113_run.

Example C113_run_ex solve fuel passes : spd_solver solve -> (exists stop s o, sz_optimize solve ell_size fuel passes (1 / 2) = Ok (stop, (s, o)) /\ unit_design 2 s) \/ sz_optimize solve ell_size fuel passes (1 / 2) = Fail OutOfFuel.
Proof. intros HS. apply (C113_run solve ell_size (1 / 2) HS ell_sizing ltac:(lra)). Qed.

(** C113, the bisection: with the lower limit 0 of the sample the update ends if
    and only if the largest step that helps the objective weighs more than
    allowed; so a limit of 1 or more keeps the bisection running for ever. *)
Theorem C113_update_ends : forall solve z l lsum o s g dg a, spd_solver solve -> sizing_ok z -> let n := length (tr_elements (sz_d z)) in unit_design n s -> oc_params n o -> oc_lmin o = 0 ->
  sz_lengths z = Ok (l, lsum) -> sz_weight z l lsum s = Ok (g, dg) -> sz_analysis solve z s = Ok a ->
  ((exists fuel r, oc_update o fuel s (an_f a) (an_df a) dg (sz_gkp1 z l lsum) = Ok r) <-> 1 < weight_share z (largest_step o s (an_df a))) /\
  (1 <= sz_limit z -> ~ exists fuel r, oc_update o fuel s (an_f a) (an_df a) dg (sz_gkp1 z l lsum) = Ok r).
Proof. exact C113_update_ends_pf. Qed.
Print Assumptions C113_update_ends.

(** from equal areas with exactly the allowed weight the update ends *)
Example C113_update_ends_ex solve : spd_solver solve -> exists a dg fuel r, sz_analysis solve ell_size [1 / 2; 1 / 2] = Ok a /\
  oc_update (oc_new 2 (5/10) 0 1000 (1/1000) (15/100) (repeat (1/100) 2) (repeat 1 2)) fuel [1 / 2; 1 / 2] (an_f a) (an_df a) dg (sz_gkp1 ell_size [1; 1] 2) = Ok r.
Proof.
  intros HS. destruct (C113_analysis_ex solve HS) as (a & E & _ & _ & _ & D0 & D1). destruct (C113_weight ell_size [1 / 2; 1 / 2] ell_sizing eq_refl) as (l & lsum & dg & EL & _ & _ & _ & EW & _). rewrite ell_lengths in EL. injection EL as <- <-.
  set (o := oc_new 2 (5/10) 0 1000 (1/1000) (15/100) (repeat (1/100) 2) (repeat 1 2)).
  assert (U : unit_design 2 [1 / 2; 1 / 2]) by (split; [reflexivity|intros [|[|]] Hi; cbn; lra || lia]).
  destruct (proj2 (proj1 (C113_update_ends solve ell_size [1; 1] 2 o [1 / 2; 1 / 2] _ dg a HS ell_sizing U (params_sz 2) eq_refl ell_lengths EW E))) as (fuel & r & EU); [|exists a, dg, fuel, r; auto].
  rewrite ell_share. unfold largest_step. change (oc_n o) with 2%nat. cbn [seq map nth]. rewrite D0, D1. change (oc_move o) with (15 / 100). destruct (Rlt_dec (- (9 / 2)) 0); [|lra]. destruct (Rlt_dec (-8) 0); [|lra]. rewrite Rmin_right by lra. lra.
Qed.

(** C113, the sample: for every size and every number of cells the ground
    structure with bars at least up to the diagonal of a cell, supported at
    least at the two left corners, is a rigid truss. *)
Theorem C113_sample : forall lx ly nx ny lmax sup at_load load E, 0 < lx -> 0 < ly -> (0 < nx)%nat -> (0 < ny)%nat -> 0 < E ->
  (lx / INR nx) ^ 2 + (ly / INR ny) ^ 2 < lmax ^ 2 -> sup [0; 0] = true -> sup [0; ly] = true ->
  exists d, tr_problem lx ly nx ny lmax sup at_load load E = Ok d /\ truss_ok d /\ rigid_truss d /\ tr_elements d <> [] /\ tr_E d = E /\ length (tr_x d) = ((nx + 1) * (ny + 1))%nat /\
    (forall i j, (i <= nx)%nat -> (j <= ny)%nat -> nth ((ny + 1) * i + j) (tr_x d) [] = [lx * (INR i / INR nx); ly * (INR j / INR ny)]) /\
    (forall i j v, In (i, j, v) (tr_ufixed d) <-> (i < length (tr_x d))%nat /\ sup (nth i (tr_x d) []) = true /\ (j < 2)%nat /\ v = 0) /\
    (forall i j v, In (i, j, v) (tr_qfixed d) <-> (i < length (tr_x d))%nat /\ at_load (nth i (tr_x d) []) = true /\ j = 1%nat /\ v = load).
Proof. exact C113_sample_pf. Qed.
Print Assumptions C113_sample.

(** the numbers of the samples: the size optimisation never fails except by a
    bisection that does not end *)
Example C113_sample_ex solve fuel : spd_solver solve -> exists d, tr_problem 4000 2000 4 2 1500 (fun x => if Req_EM_T (nth 0 x 0) 0 then true else false) (fun x => if Req_EM_T (nth 0 x 0) 4000 then true else false) (-5000) 210000 = Ok d /\
  ((exists stop s o, sz_optimize solve (mkSizing d (1 / 100000) 150 (1 / 2) (1 / 1000)) fuel 50 (1 / 2) = Ok (stop, (s, o)) /\ unit_design (length (tr_elements d)) s) \/
   sz_optimize solve (mkSizing d (1 / 100000) 150 (1 / 2) (1 / 1000)) fuel 50 (1 / 2) = Fail OutOfFuel).
Proof.
  intros HS. destruct (C113_sample 4000 2000 4 2 1500 (fun x => if Req_EM_T (nth 0 x 0) 0 then true else false) (fun x => if Req_EM_T (nth 0 x 0) 4000 then true else false) (-5000) 210000) as (d & E & HT & RG & HE & _); try lra; try lia.
  { cbn [INR]. replace (4000 / (1 + 1 + 1 + 1)) with 1000 by field. replace (2000 / (1 + 1)) with 1000 by field. lra. }
  { cbn. destruct (Req_EM_T 0 0); congruence. } { cbn. destruct (Req_EM_T 0 0); congruence. }
  exists d. split; [exact E|]. apply (C113_run solve (mkSizing d (1 / 100000) 150 (1 / 2) (1 / 1000)) (1 / 2) HS); [|lra]. unfold sizing_ok. cbn [sz_d sz_A0 sz_A1 sz_limit sz_scale0]. split; [exact HT|]. split; [exact RG|]. split; [exact HE|]. lra.
Qed.

(** C114, the design: for every truss, all positive areas and all strengths the
    total stress design succeeds.  Its field balances the loads; each new area
    is the force of the bar over the strength, so the bars with the new areas
    carry the same forces, and balance the same loads, when they are stressed up
    to their strengths. *)
Theorem C114_design : forall solve d sigmat sigmac A, spd_solver solve -> truss_ok d -> rigid_truss d -> areas_ok d A -> 0 < sigmat -> 0 < sigmac ->
  exists u A', ts_design solve d sigmat sigmac A = Ok (u, A') /\ length A' = length A /\ respects d (uval u) /\
    (forall i j, free_dof d i j -> bars_resist d (bar_force d A (uval u)) i j = nodal_load (tr_qfixed d) i j) /\
    (forall i, (i < length A)%nat -> 0 <= nth i A' 0 /\ (nth i A' 0 = 0 <-> stress d i (uval u) = 0) /\
       (0 < stress d i (uval u) -> bar_force d A (uval u) i = sigmat * nth i A' 0) /\ (stress d i (uval u) <= 0 -> bar_force d A (uval u) i = - sigmac * nth i A' 0)) /\
    exists sigma : nat -> R, (forall i, sigma i = sigmat \/ sigma i = - sigmac) /\ forall i j, free_dof d i j -> bars_resist d (fun k => sigma k * nth k A' 0) i j = nodal_load (tr_qfixed d) i j.
Proof. exact C114_design_pf. Qed.
Print Assumptions C114_design.

Example C114_design_ex solve : spd_solver solve -> exists u A', ts_design solve ell 1 2 [1; 1] = Ok (u, A') /\ nth 0 A' 0 = 3 /\ nth 1 A' 0 = 2.
Proof.
  intros HS. destruct (C114_design solve ell 1 2 [1; 1] HS ell_ok ell_rigid) as (u & A' & E & _ & RS & EQ & V & _); try lra; [split; [reflexivity|intros [|[|]] Hi; cbn in *; lra || lia]|]. exists u, A'. split; [exact E|].
  destruct (ell_balanced _ _ RS EQ) as (B0 & B1 & S0 & S1). cbn [nth] in B0, B1. destruct (V 0%nat ltac:(cbn; lia)) as (_ & _ & V0 & _). destruct (V 1%nat ltac:(cbn; lia)) as (_ & _ & _ & V1). unfold bar_force in V0, V1. rewrite S0 in V0. rewrite S1 in V1. cbn [nth] in V0, V1.
  specialize (V0 ltac:(lra)). specialize (V1 ltac:(lra)). lra.
Qed.

(** C114, determinate trusses: if the truss is statically determinate and no bar
    is without force, one pass is enough: the analysis with the new areas
    stresses every bar exactly up to its strength, a second pass changes
    nothing, and no areas whose stresses stay within the strengths are smaller. *)
Theorem C114_determinate : forall solve d sigmat sigmac A u A', spd_solver solve -> truss_ok d -> rigid_truss d -> determinate d -> areas_ok d A -> 0 < sigmat -> 0 < sigmac ->
  ts_design solve d sigmat sigmac A = Ok (u, A') -> areas_ok d A' ->
  (exists u', ts_design solve d sigmat sigmac A' = Ok (u', A') /\ forall i, (i < length A)%nat -> (0 < stress d i (uval u) -> stress d i (uval u') = sigmat) /\ (stress d i (uval u) < 0 -> stress d i (uval u') = - sigmac)) /\
  forall B v, areas_ok d B -> respects d v -> (forall i j, free_dof d i j -> bars_resist d (bar_force d B v) i j = nodal_load (tr_qfixed d) i j) ->
    (forall i, (i < length B)%nat -> - sigmac <= stress d i v <= sigmat) -> forall i, (i < length B)%nat -> nth i A' 0 <= nth i B 0.
Proof. exact C114_determinate_pf. Qed.
Print Assumptions C114_determinate.

Example C114_determinate_ex solve : spd_solver solve -> exists u A' u', ts_design solve ell 1 2 [1; 1] = Ok (u, A') /\ ts_design solve ell 1 2 A' = Ok (u', A') /\ stress ell 0 (uval u') = 1 /\ stress ell 1 (uval u') = -2.
Proof.
  intros HS. destruct (C114_design_ex solve HS) as (u & A' & E & A0 & A1). assert (OK : areas_ok ell [1; 1]) by (split; [reflexivity|intros [|[|]] Hi; cbn in *; lra || lia]).
  destruct (C114_design solve ell 1 2 [1; 1] HS ell_ok ell_rigid OK) as (u0 & A0' & E0 & L & RS & EQ & _); try lra. rewrite E in E0. injection E0 as <- <-. destruct (ell_balanced _ _ RS EQ) as (B0 & B1 & S0 & S1). cbn [nth] in B0, B1.
  destruct (C114_determinate solve ell 1 2 [1; 1] u A' HS ell_ok ell_rigid ell_determinate OK ltac:(lra) ltac:(lra) E) as [(u' & E' & V) _].
  { split; [exact L|]. rewrite L. intros [|[|]] Hi; cbn in Hi; [rewrite A0|rewrite A1|lia]; lra. }
  exists u, A', u'. split; [exact E|]. split; [exact E'|]. split; [apply (V 0%nat ltac:(cbn; lia)); lra|]. destruct (V 1%nat ltac:(cbn; lia)) as [_ V1]. rewrite V1 by lra. lra.
Qed.

(** C114, other trusses: without determinacy one pass is not enough.  There is a
    rigid truss whose total stress design, for every solver, is overstressed by
    a fifth. *)
Theorem C114_overstress : exists d A, truss_ok d /\ rigid_truss d /\ areas_ok d A /\ forall solve, spd_solver solve ->
  exists u A' u' A'', ts_design solve d 1 1 A = Ok (u, A') /\ areas_ok d A' /\ ts_design solve d 1 1 A' = Ok (u', A'') /\ stress d 0 (uval u') = 6 / 5.
Proof. exact C114_overstress_pf. Qed.
Print Assumptions C114_overstress.

(** only the truss with the third bar is affected: the two bars alone are not *)
Example C114_overstress_ex solve : spd_solver solve -> exists u A' u', ts_design solve ell 1 1 [1; 1] = Ok (u, A') /\ ts_design solve ell 1 1 A' = Ok (u', A') /\ stress ell 0 (uval u') = 1.
Proof.
  intros HS. assert (OK : areas_ok ell [1; 1]) by (split; [reflexivity|intros [|[|]] Hi; cbn in *; lra || lia]).
  destruct (C114_design solve ell 1 1 [1; 1] HS ell_ok ell_rigid OK) as (u & A' & E & L & RS & EQ & W & _); try lra. destruct (ell_balanced _ _ RS EQ) as (B0 & B1 & S0 & S1). cbn [nth] in B0, B1.
  destruct (W 0%nat ltac:(cbn; lia)) as (_ & _ & W0 & _). destruct (W 1%nat ltac:(cbn; lia)) as (_ & _ & _ & W1). unfold bar_force in W0, W1. rewrite S0 in W0. rewrite S1 in W1. cbn [nth] in W0, W1. specialize (W0 ltac:(lra)). specialize (W1 ltac:(lra)).
  destruct (C114_determinate solve ell 1 1 [1; 1] u A' HS ell_ok ell_rigid ell_determinate OK ltac:(lra) ltac:(lra) E) as [(u' & E' & V) _].
  { split; [exact L|]. rewrite L. intros [|[|]] Hi; cbn in Hi; lra || lia. }
  exists u, A', u'. split; [exact E|]. split; [exact E'|]. apply (V 0%nat ltac:(cbn; lia)). lra.
Qed.
