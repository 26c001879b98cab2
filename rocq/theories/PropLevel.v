(** Property C115: the level set sample. *)
From Coq Require Import List Arith Lia Bool Reals Lra ZArith.
From Verif Require Import Res SumR DenseModel DenseR DenseSpec ShapeModel QuadModel ElemModel ElemSpec SparseModel SparseSpec AssemblyModel AssemblySpec KrylovSpec PatchSpec StableSpec GenModel GenSpec ThetaModel ThetaSpec MeshModel TopModel TopSpec LoopModel LevelModel LevelSpec TopMain LevelMain.
Import ListNotations.
Local Open Scope R_scope.

(** The constants of the topological derivative are those of a spherical hole, and the plane
    stress routine, called as in the sample, has the Lame constants A1 and A2. *)
Theorem C115_constants : forall l, 0 < lv_E0 l -> -1 < lv_nu l < 1 / 2 -> exists A1 A2 c, lv_constants l = Ok (A1, A2, c) /\
  A2 = 15 * (1 - lv_nu l) / (2 * (1 + lv_nu l) * (7 - 5 * lv_nu l)) * lv_E0 l /\
  A1 = - (1 - 14 * lv_nu l + 15 * (lv_nu l * lv_nu l)) / (5 * ((1 - 2 * lv_nu l) * (1 - 2 * lv_nu l))) * A2 /\
  0 < A2 /\ 0 < A1 + A2 /\ -1 < c < 1 /\
  let E := (A1 + 2 * A2) * (1 - c ^ 2) in 0 < E /\ E * c / (1 - c ^ 2) = A1 /\ E / (2 * (1 + c)) = A2 /\ E / (1 - c ^ 2) = A1 + 2 * A2.
Proof. exact C115_constants_pf. Qed.
Print Assumptions C115_constants.

(** the constants of the sample *)
Example C115_constants_ex : lv_constants (mkLevel [] [] [] [] [] sf_4Square Gauss4Square (1/2) (2/10000) 1 (1/10000) (3/10) 100 (1/10) (-2/100) 4) = Ok (19425 / 11440, 525 / 715, 19425 / 36225).
Proof.
  destruct (C115_constants (mkLevel [] [] [] [] [] sf_4Square Gauss4Square (1/2) (2/10000) 1 (1/10000) (3/10) 100 (1/10) (-2/100) 4)) as (A1 & A2 & c & E & V2 & V1 & P2 & P1 & Pc & _ & L1 & _ & L2); cbn [lv_E0 lv_nu] in *; try lra. rewrite E.
  assert (W2 : A2 = 525 / 715) by (rewrite V2; lra). assert (W1 : A1 = 19425 / 11440) by (rewrite V1, W2; lra). clear V1 V2.
  assert (N : 1 - c ^ 2 <> 0) by (replace (1 - c ^ 2) with ((1 - c) * (1 + c)) by ring; apply Rmult_integral_contrapositive_currified; lra).
  assert (X : (A1 + 2 * A2) * c = A1) by (transitivity ((A1 + 2 * A2) * (1 - c ^ 2) * c / (1 - c ^ 2)); [field; exact N|exact L1]).
  rewrite W1, W2 in *. do 2 f_equal. lra.
Qed.

(** The analysis of any structure: displacements in equilibrium, the objective is twice the
    strain energy and the work of the loads, the topological derivative of an element is its
    weight times the energy of the polarised material, nodes receive the means. *)
Theorem C115_analysis : forall solve l str, spd_solver solve -> level_ok l -> shares l str ->
  exists u obj td tdn es eT A1 A2 c, lv_analysis solve l str = Ok (mkLv u obj td tdn) /\ lv_constants l = Ok (A1, A2, c) /\
    stress_elems l (fun i => lv_Emin l + nth i str 0 * (lv_E0 l - lv_Emin l)) (lv_nu l) es /\
    stress_elems l (fun _ => (A1 + 2 * A2) * (1 - c ^ 2)) c eT /\
    (forall i j, ~ free_dof l i j -> uval u i j = 0) /\ (forall i j, free_dof l i j -> internal_force es u i j = nodal_load (lv_qfixed l) i j) /\
    obj = sum_over es (fun e => energy2 e u) /\ obj = load_work (lv_qfixed l) u /\ 0 <= obj /\ length td = length (lv_elements l) /\
    (forall i, (i < length (lv_elements l))%nat -> 0 <= uval td i 0 /\ nth i td [] = [(1 / 10000 + nth i str 0 * (1 - 1 / 10000)) * energy2 (nth i eT no_elem) u]) /\
    nodal_field l tdn /\
    forall k, (k < length (lv_x l))%nat -> 0 <= uval tdn k 0 /\ uval tdn k 0 = mean_with 0 (received 0 (map (fun v => nth 0 v 0) td) (lv_elements l) k).
Proof. exact C115_analysis_pf. Qed.
Print Assumptions C115_analysis.

(** the plate without its right element *)
Example C115_analysis_ex : exists l, lv_problem 2 1 2 1 at_left at_corner at_left (-1) (1/2) (2/10000) 1 (1/10000) (3/10) 100 (1/10) (-2/100) 4 = Ok l /\
  forall solve, spd_solver solve -> exists a, lv_analysis solve l [1; 0] = Ok a /\ 0 <= lr_obj a /\ lr_obj a = load_work (lv_qfixed l) (lr_u a) /\ 0 <= uval (lr_tdn a) 3 0.
Proof.
  destruct (plate 100 (1/2)) as (l & E & OK & LE & LX & _); try lra. exists l. split; [exact E|]. intros solve HS.
  destruct (C115_analysis solve l [1; 0] HS OK) as (u & obj & td & tdn & es & eT & A1 & A2 & c & EA & _ & _ & _ & _ & _ & _ & W & P & _ & _ & _ & T).
  { split; [now rewrite LE|]. rewrite LE. intros [|[|i]] Hi; cbn; lra || lia. }
  eexists. split; [exact EA|]. cbn [lr_obj lr_u lr_tdn]. split; [exact P|]. split; [exact W|]. apply T. rewrite LX. lia.
Qed.

(** The faults of a pass: the history is read before its beginning exactly if the volume is
    tested in one of the first five passes; otherwise the only fault is the division by the sum of
    the topological derivative, which happens exactly if no free dof is loaded. *)
Theorem C115_faults : forall solve l vi t tmax st, spd_solver solve -> level_ok l -> 0 <= vi -> level_state l tmax st -> (t < tmax)%nat ->
  let tests := lv_nvol l < INR t /\ Rabs (bigsum (length (lv_elements l)) (fun i => nth i (ls_str st) 0) / INR (length (lv_elements l)) - lv_Vmax l) < 5 / 1000 in
  (lv_pass solve l vi t st = Fail OutOfBounds <-> tests /\ (t < 5)%nat) /\
  (~ tests -> (lv_pass solve l vi t st = Fail DivByZero <-> forall i j, free_dof l i j -> nodal_load (lv_qfixed l) i j = 0)) /\
  (forall f, lv_pass solve l vi t st = Fail f -> f = OutOfBounds \/ f = DivByZero) /\
  ((tests -> (5 <= t)%nat) -> (exists i j, free_dof l i j /\ nodal_load (lv_qfixed l) i j <> 0) -> exists stop st', lv_pass solve l vi t st = Ok (stop, st') /\ level_state l tmax st').
Proof. exact C115_faults_pf. Qed.
Print Assumptions C115_faults.

(** the plate without loads; the plate with a reduction over half a pass and no reduction *)
Example C115_faults_ex : (exists l, level_ok l /\ forall solve, spd_solver solve -> lv_pass solve l 1 0 (mkLs (repeat 0 9) (repeat [1] (length (lv_x l))) (repeat 1 (length (lv_elements l)))) = Fail DivByZero) /\
  (exists l, level_ok l /\ forall solve, spd_solver solve -> lv_pass solve l 1 1 (mkLs (repeat 0 9) (repeat [1] (length (lv_x l))) (repeat 1 (length (lv_elements l)))) = Fail OutOfBounds).
Proof.
  split.
  - destruct (plate 100 (1/2)) as (l & _ & OK & LE & LX & NV & _); try lra. exists (with_loads l []). pose proof (plate_bare l OK) as OK'. split; [exact OK'|]. intros solve HS.
    apply (C115_faults solve (with_loads l []) 1 0 9 _ HS OK' Rle_0_1 (plate_start _ 9 OK') ltac:(lia)).
    + cbn [with_loads lv_nvol]. rewrite NV. cbn [INR]. intros [H _]. lra.
    + intros i j _. reflexivity.
  - destruct (plate (1/2) 1) as (l & _ & OK & LE & LX & NV & VM & _); try lra. exists l. split; [exact OK|]. intros solve HS.
    apply (C115_faults solve l 1 1 9 _ HS OK Rle_0_1 (plate_start _ 9 OK) ltac:(lia)). rewrite NV, VM, LE. cbn [INR bigsum ls_str repeat nth]. split; [|lia]. split; [lra|]. replace ((0 + 1 + 1) / (1 + 1) - 1) with 0 by field. rewrite Rabs_R0. lra.
Qed.

(** The loop stops in pass t exactly if the volume is reached after nvol passes and the last five
    changes of the objective are below one percent; then the structure is left as it is. *)
Theorem C115_stop : forall solve l vi t tmax st stop st', spd_solver solve -> level_ok l -> 0 <= vi -> level_state l tmax st -> (t < tmax)%nat ->
  lv_pass solve l vi t st = Ok (stop, st') ->
  (exists a, lv_analysis solve l (ls_str st) = Ok a /\ nth t (ls_obj st') 0 = nth t (ls_obj st) 0 + lr_obj a /\ forall i, i <> t -> nth i (ls_obj st') 0 = nth i (ls_obj st) 0) /\
  (stop = true -> ls_phi st' = ls_phi st /\ ls_str st' = ls_str st) /\
  (stop = true <-> lv_nvol l < INR t /\ Rabs (bigsum (length (lv_elements l)) (fun i => nth i (ls_str st) 0) / INR (length (lv_elements l)) - lv_Vmax l) < 5 / 1000 /\ (5 <= t)%nat /\
     forall k, (1 <= k <= 5)%nat -> Rabs (nth t (ls_obj st') 0 - nth (t - k) (ls_obj st') 0) < 1 / 100 * Rabs (nth t (ls_obj st') 0)).
Proof. exact C115_stop_pf. Qed.
Print Assumptions C115_stop.

(** the first pass does not stop *)
Example C115_stop_ex : exists l, level_ok l /\ forall solve stop st', spd_solver solve -> lv_pass solve l 1 0 (mkLs (repeat 0 9) (repeat [1] (length (lv_x l))) (repeat 1 (length (lv_elements l)))) = Ok (stop, st') -> stop = false.
Proof.
  destruct (plate 100 (1/2)) as (l & _ & OK & _); try lra. exists l. split; [exact OK|]. intros solve stop st' HS E.
  destruct (C115_stop solve l 1 0 9 _ stop st' HS OK Rle_0_1 (plate_start _ 9 OK) ltac:(lia) E) as (_ & _ & H). destruct stop; [|reflexivity]. destruct H as [H _]. destruct (H eq_refl) as (_ & _ & X & _). lia.
Qed.

(** A pass that goes on: the level set function makes one backward step of the reaction diffusion
    equation, whose result is the least point of the step energy among the functions that vanish at
    the fixed nodes, and is cut off at -1 and 1; an element is empty exactly if the mean of its nodes
    is negative. *)
Theorem C115_update : forall solve l vi t tmax st st', spd_solver solve -> level_ok l -> 0 <= vi -> level_state l tmax st -> (t < tmax)%nat ->
  lv_pass solve l vi t st = Ok (false, st') ->
  exists a ex C lambda phi0 psi esM esK, lv_analysis solve l (ls_str st) = Ok a /\ lv_target l vi t = Ok ex /\
    let sum := bigsum (length (lv_x l)) (fun k => uval (lr_tdn a) k 0) in
    let vol := bigsum (length (lv_elements l)) (fun i => nth i (ls_str st) 0) / INR (length (lv_elements l)) in
    0 < sum /\ C = INR (length (lv_elements l)) / sum /\ lambda = sum / INR (length (lv_x l)) * exp (lv_p l * ((vol - ex) / ex + lv_d l)) /\
    diffusion_elems l (lr_tdn a) C lambda esM esK /\ zero_edge l (ls_phi st) phi0 /\
    nodal_field l psi /\ (forall i, (i < length (lv_x l))%nat -> ~ free_node l i -> uval psi i 0 = 0) /\
    (forall i, free_node l i -> theta_balance esM esK (lv_dt l) 1 phi0 psi i 0) /\
    (forall psi', nodal_field l psi' -> (forall i, (i < length (lv_x l))%nat -> ~ free_node l i -> uval psi' i 0 = 0) ->
       step_energy esM esK (lv_dt l) phi0 psi <= step_energy esM esK (lv_dt l) phi0 psi' /\ ((forall i, free_node l i -> theta_balance esM esK (lv_dt l) 1 phi0 psi' i 0) -> psi' = psi)) /\
    (forall i, (i < length (lv_x l))%nat -> uval (ls_phi st') i 0 = if Rlt_dec 1 (uval psi i 0) then 1 else if Rlt_dec (uval psi i 0) (-1) then -1 else uval psi i 0) /\
    (forall i, (i < length (lv_elements l))%nat -> nth i (ls_str st') 0 = if Rlt_dec (mean_with 0 (map (fun k => uval (ls_phi st') k 0) (nth i (lv_elements l) []))) 0 then 0 else 1).
Proof. exact C115_update_pf. Qed.
Print Assumptions C115_update.

Example C115_update_ex : exists l, level_ok l /\ forall solve, spd_solver solve -> exists st', lv_pass solve l 1 0 (mkLs (repeat 0 9) (repeat [1] (length (lv_x l))) (repeat 1 (length (lv_elements l)))) = Ok (false, st') /\ -1 <= uval (ls_phi st') 3 0 <= 1.
Proof.
  destruct (plate 100 (1/2)) as (l & _ & OK & LE & LX & NV & _ & LD); try lra. exists l. split; [exact OK|]. intros solve HS.
  destruct (C115_faults solve l 1 0 9 _ HS OK Rle_0_1 (plate_start _ 9 OK) ltac:(lia)) as (_ & _ & _ & G). destruct G as (stop & st' & E & Z); [rewrite NV; cbn [INR]; intros [H _]; lra|exact LD|].
  destruct (C115_stop solve l 1 0 9 _ stop st' HS OK Rle_0_1 (plate_start _ 9 OK) ltac:(lia) E) as (_ & _ & H). destruct stop; [destruct H as [H _]; destruct (H eq_refl) as (_ & _ & X & _); lia|].
  exists st'. split; [exact E|]. destruct (C115_update solve l 1 0 9 _ st' HS OK Rle_0_1 (plate_start _ 9 OK) ltac:(lia) E) as (a & ex & C & lam & phi0 & psi & esM & esK & _ & _ & _ & _ & _ & _ & _ & _ & _ & _ & _ & V & _).
  rewrite (V 3%nat) by (rewrite LX; lia). destruct (Rlt_dec _ _); [lra|]. destruct (Rlt_dec _ _); lra.
Qed.

(** The volume asked for goes down from the first volume to Vmax and stays there from pass nvol - 1
    on; the multiplier is above the mean of the topological derivative exactly if the volume exceeds
    (1 - d) times the volume asked for. *)
Theorem C115_schedule : forall l vi t, level_ok l -> lv_Vmax l <= vi -> exists ex ex', lv_target l vi t = Ok ex /\ lv_target l vi (S t) = Ok ex' /\
  lv_Vmax l <= ex' /\ ex' <= ex /\ ex <= vi /\ (lv_nvol l <= INR t + 1 -> ex = lv_Vmax l) /\ (lv_Vmax l < vi -> INR t + 1 < lv_nvol l -> ex' < ex) /\
  forall tdn vol, nodal_field l tdn -> 0 < bigsum (length (lv_x l)) (fun k => uval tdn k 0) -> 0 < lv_p l -> exists lambda, lv_lambda l tdn vol ex = Ok lambda /\
    (bigsum (length (lv_x l)) (fun k => uval tdn k 0) / INR (length (lv_x l)) < lambda <-> (1 - lv_d l) * ex < vol).
Proof. exact C115_schedule_pf. Qed.
Print Assumptions C115_schedule.

(** the sample asks for three quarters in pass 49 and for one half from pass 99 on *)
Example C115_schedule_ex : exists l, level_ok l /\ lv_target l 1 49 = Ok (3 / 4) /\ lv_target l 1 150 = Ok (1 / 2).
Proof.
  destruct (plate 100 (1/2)) as (l & _ & OK & LE & LX & NV & VM & _); try lra. exists l. split; [exact OK|]. split.
  - unfold lv_target, Rdiv_res. rewrite NV, VM. destruct (Req_EM_T 100 0); [lra|]. cbn [bind]. rewrite Rmax_right; rewrite INR_IZR_INZ; cbn [Z.of_nat Pos.of_succ_nat Pos.succ]; [f_equal; field|lra].
  - destruct (C115_schedule l 1 150 OK ltac:(rewrite VM; lra)) as (ex & _ & E & _ & _ & _ & _ & H & _). rewrite E. f_equal. rewrite H, VM; [reflexivity|]. rewrite NV, INR_IZR_INZ. cbn [Z.of_nat Pos.of_succ_nat Pos.succ]. lra.
Qed.

(** The whole optimisation: with at least four passes of reduction and a loaded free dof it ends
    without a fault after any number of passes; elements between fixed nodes are never removed. *)
Theorem C115_run : forall solve l tmax, spd_solver solve -> level_ok l -> 4 <= lv_nvol l -> (exists i j, free_dof l i j /\ nodal_load (lv_qfixed l) i j <> 0) ->
  exists stop st, lv_optimize solve l tmax = Ok (stop, st) /\ level_state l tmax st /\
    forall i, (i < length (lv_elements l))%nat -> (forall k, In k (nth i (lv_elements l) []) -> ~ free_node l k) -> nth i (ls_str st) 0 = 1.
Proof. exact C115_run_pf. Qed.
Print Assumptions C115_run.

Example C115_run_ex : exists l, level_ok l /\ forall solve, spd_solver solve -> exists stop st, lv_optimize solve l 200 = Ok (stop, st) /\ length (ls_str st) = 2%nat.
Proof.
  destruct (plate 100 (1/2)) as (l & _ & OK & LE & LX & NV & _ & LD); try lra. exists l. split; [exact OK|]. intros solve HS. destruct (C115_run solve l 200 HS OK ltac:(rewrite NV; lra) LD) as (stop & st & E & Z & _). exists stop, st. split; [exact E|]. rewrite <- LE. apply (lz_str _ _ _ Z).
Qed.

(** Loads multiplied by a number give the same structures and level set functions in every pass, and
    the objectives multiplied by the square of the number. *)
Theorem C115_scale : forall solve l k tmax, spd_solver solve -> level_ok l -> k <> 0 ->
  lv_optimize solve (with_loads l (scale_loads k (lv_qfixed l))) tmax =
  ' (stop, st) <- lv_optimize solve l tmax ;; Ok (stop, mkLs (map (Rmult (k ^ 2)) (ls_obj st)) (ls_phi st) (ls_str st)).
Proof. exact C115_scale_pf. Qed.
Print Assumptions C115_scale.

(** loads pulled the other way and tripled *)
Example C115_scale_ex : exists l, level_ok l /\ forall solve stop st, spd_solver solve -> lv_optimize solve l 200 = Ok (stop, st) ->
  exists st', lv_optimize solve (with_loads l (scale_loads (-3) (lv_qfixed l))) 200 = Ok (stop, st') /\ ls_str st' = ls_str st /\ nth 7 (ls_obj st') 0 = 9 * nth 7 (ls_obj st) 0.
Proof.
  destruct (plate 100 (1/2)) as (l & _ & OK & _); try lra. exists l. split; [exact OK|]. intros solve stop st HS E. rewrite (C115_scale solve l (-3) 200 HS OK ltac:(lra)), E. cbn [bind]. eexists. split; [reflexivity|]. cbn [ls_str ls_obj]. split; [reflexivity|].
  pose proof (map_nth (Rmult ((-3) ^ 2)) (ls_obj st) 0 7%nat) as X. rewrite Rmult_0_r in X. rewrite X. ring.
Qed.

(** The problem of the sample on the rectangle of any size, and what follows for it. *)
Theorem C115_sample : forall lx ly nx ny sup at_load edge load Vmax tau E0 Emin nu nvol dt d p, 0 < lx -> 0 < ly -> (0 < nx)%nat -> (0 < ny)%nat -> (forall y, sup [0; y] = true) ->
  0 < Emin <= E0 -> -1 < nu < 1 / 2 -> 0 < tau -> 0 < dt -> 4 <= nvol -> 0 < Vmax -> load <> 0 ->
  (exists i j, (i <= nx)%nat /\ (j <= ny)%nat /\ let x := [lx * (INR i / INR nx); ly * (INR j / INR ny)] in at_load x = true /\ sup x = false) ->
  exists l, lv_problem lx ly nx ny sup at_load edge load Vmax tau E0 Emin nu nvol dt d p = Ok l /\ level_ok l /\ length (lv_elements l) = (nx * ny)%nat /\ length (lv_x l) = ((nx + 1) * (ny + 1))%nat /\
    (forall i, free_node l i <-> (i < length (lv_x l))%nat /\ edge (nth i (lv_x l) []) = false) /\
    (forall i j, free_dof l i j <-> (i < length (lv_x l))%nat /\ (j < 2)%nat /\ sup (nth i (lv_x l) []) = false) /\
    forall solve tmax, spd_solver solve -> exists stop st, lv_optimize solve l tmax = Ok (stop, st) /\ level_state l tmax st.
Proof. exact C115_sample_pf. Qed.
Print Assumptions C115_sample.

Example C115_sample_ex : exists l, lv_problem 60 40 60 40 (fun x => if Rlt_dec (Rabs (nth 0 x 0)) (1/100000) then true else false) (fun x => if Rlt_dec (Rabs (nth 0 x 0 - 60)) (1/100000) then if Rlt_dec (Rabs (nth 1 x 0 - 20)) (1 + 1/100000) then true else false else false)
    (fun x => if Rlt_dec (Rabs (nth 0 x 0)) (1/100000) then true else false) (-1) (1/2) (2/10000) 1 (1/10000) (3/10) 100 (1/10) (-2/100) 4 = Ok l /\ length (lv_elements l) = 2400%nat /\
  forall solve, spd_solver solve -> exists stop st, lv_optimize solve l 200 = Ok (stop, st).
Proof.
  destruct (C115_sample 60 40 60 40 (fun x => if Rlt_dec (Rabs (nth 0 x 0)) (1/100000) then true else false) (fun x => if Rlt_dec (Rabs (nth 0 x 0 - 60)) (1/100000) then if Rlt_dec (Rabs (nth 1 x 0 - 20)) (1 + 1/100000) then true else false else false)
    (fun x => if Rlt_dec (Rabs (nth 0 x 0)) (1/100000) then true else false) (-1) (1/2) (2/10000) 1 (1/10000) (3/10) 100 (1/10) (-2/100) 4) as (l & E & _ & LE & _ & _ & _ & H); try lra; try lia.
  - intros y. cbn [nth]. rewrite Rabs_R0. destruct (Rlt_dec _ _); auto; lra.
  - exists 60%nat, 20%nat. split; [lia|]. split; [lia|]. rewrite !INR_IZR_INZ. cbn [Z.of_nat Pos.of_succ_nat Pos.succ nth]. replace (60 * (60 / 60) - 60) with 0 by field. replace (40 * (20 / 40) - 20) with 0 by field. replace (60 * (60 / 60)) with 60 by field. rewrite Rabs_R0, Rabs_right by lra. destruct (Rlt_dec 0 (1/100000)); [|lra]. destruct (Rlt_dec 0 (1 + 1/100000)); [|lra]. destruct (Rlt_dec 60 (1/100000)); [lra|auto].
  - exists l. split; [exact E|]. split; [exact LE|]. intros solve HS. destruct (H solve 200%nat HS) as (stop & st & R1 & _). eauto.
Qed.
