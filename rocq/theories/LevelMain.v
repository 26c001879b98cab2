(** Property C115: the level set sample: the proofs. *)
From Coq Require Import List Arith Lia Bool Reals Lra ZArith.
From Verif Require Import Res SumR DenseModel DenseR DenseSpec ShapeModel QuadModel ElemModel ElemSpec SparseModel SparseSpec AssemblyModel AssemblySpec KrylovSpec PatchSpec StableSpec GenModel GenSpec ThetaModel ThetaSpec MeshModel TopModel TopSpec LoopModel LevelModel LevelSpec TopMain.
Import ListNotations.
Local Open Scope R_scope.
From Verif Require Import AssemblyProof ElemProof2 StableProof3 LoopProof5 ThetaProof3 ThetaProof5 TopProof TopProof4 TopProof5 LevelProof LevelProof2 LevelProof3 LevelProof4 LevelProof5 LevelProof6 LevelProof7.

Lemma made_all l (E : nat -> R) V : level_ok l -> (forall i, (i < nle l)%nat -> 0 < E i) -> -1 < V < 1 -> stress_elems l E V (map (fun i => lelem l (E i) V (lel l i)) (seq 0 (nle l))).
Proof.
  intros HL HE HV. unfold stress_elems. fold (nle l). assert (G : forall m s, (forall i, In i (seq s m) -> (i < nle l)%nat) ->
    Forall2 (fun i e => made_by (fun s q el => PlaneStressStiffness s q el [0%nat; 1%nat] (lv_x l) (E i) V 1) (mkPiece (lv_s l) (lv_q l) (nth i (lv_elements l) [])) e) (seq s m) (map (fun i => lelem l (E i) V (lel l i)) (seq s m))).
  { induction m as [|m IH]; intros s H; cbn [seq map]; [constructor|]. constructor; [|apply IH; intros i Hi; apply H; cbn [seq In]; auto].
    assert (Hs : (s < nle l)%nat) by (apply H; cbn [seq In]; auto). apply (le_made _ _ _ _ _ (lelem_is l (E s) V (lel l s) HL (lel_in l s Hs) (HE s Hs) HV)). }
  apply G. intros i Hi. apply in_seq in Hi. lia.
Qed.
Lemma energy2_is e u : energy2 e u = denergy e (uval u).
Proof. reflexivity. Qed.
Lemma clamp_cases x : clamped x = if Rlt_dec 1 x then 1 else if Rlt_dec x (-1) then -1 else x.
Proof. unfold clamped, Rmax, Rmin. destruct (Rlt_dec 1 x), (Rlt_dec x (-1)), (Rle_dec 1 x); try lra; repeat (destruct (Rle_dec _ _); try lra). Qed.
(** A plate of two elements, held at the left, loaded at the right lower corner *)
Definition at_left (x : list R) : bool := if Req_EM_T (nth 0 x 0) 0 then true else false.
Definition at_corner (x : list R) : bool := if Req_EM_T (nth 0 x 0) 2 then if Req_EM_T (nth 1 x 0) 0 then true else false else false.
Lemma plate nvol Vmax : 0 < nvol -> 0 < Vmax -> exists l, lv_problem 2 1 2 1 at_left at_corner at_left (-1) Vmax (2/10000) 1 (1/10000) (3/10) nvol (1/10) (-2/100) 4 = Ok l /\ level_ok l /\ length (lv_elements l) = 2%nat /\ length (lv_x l) = 6%nat /\ lv_nvol l = nvol /\ lv_Vmax l = Vmax /\
  exists i j, free_dof l i j /\ nodal_load (lv_qfixed l) i j <> 0.
Proof.
  intros Hn HV. destruct (lproblem_ok 2 1 2 1 at_left at_corner at_left (-1) Vmax (2/10000) 1 (1/10000) (3/10) nvol (1/10) (-2/100) 4) as (l & E & OK & LE & LX & NX & UF & QF & PF & NV); try lra; try lia.
  { intros y. unfold at_left. cbn [nth]. destruct (Req_EM_T 0 0); auto; lra. }
  exists l. split; [exact E|]. split; [exact OK|]. split; [exact LE|]. split; [exact LX|]. split; [exact NV|]. split; [unfold lv_problem in E; destruct (sq_nodes _ _ _ _); [|discriminate E]; cbn [bind] in E; destruct (sq_elements _ _); [|discriminate E]; cbn [bind] in E; do 3 (destruct (sq_fixed _ _ _ _ _ _); [|discriminate E]; cbn [bind] in E); injection E as <-; reflexivity|].
  pose proof (NX 2%nat 0%nat ltac:(lia) ltac:(lia)) as N4. change ((1 + 1) * 2 + 0)%nat with 4%nat in N4. cbn [INR] in N4. replace (2 * ((1 + 1) / (1 + 1))) with 2 in N4 by lra. replace (1 * (0 / 1)) with 0 in N4 by lra.
  exists 4%nat, 1%nat. split.
  - split; [rewrite LX; cbn; lia|]. split; [lia|]. intros v H. apply UF in H. destruct H as (_ & H & _). rewrite N4 in H. unfold at_left in H. cbn [nth] in H. destruct (Req_EM_T 2 0); [lra|discriminate H].
  - apply (loaded_node _ _ _ (-1)); [lra| |].
    + intros [[i j] v] H. apply QF in H. cbn [snd]. tauto.
    + apply QF. split; [rewrite LX; cbn; lia|]. split; [|auto]. rewrite N4. unfold at_corner. cbn [nth]. destruct (Req_EM_T 2 2); [|lra]. destruct (Req_EM_T 0 0); auto; lra.
Qed.
Lemma plate_start l tmax : level_ok l -> level_state l tmax (mkLs (repeat 0 tmax) (repeat [1] (length (lv_x l))) (repeat 1 (length (lv_elements l)))).
Proof. intros _. apply init_state. Qed.
Lemma plate_bare l : level_ok l -> level_ok (with_loads l []).
Proof. intros [A1 A2 A3 A4 A5 A6 A7 A8 A9 A10 A11 A12 A13 A14]. split; auto. intros i j v []. Qed.

Lemma C115_constants_pf : forall l, 0 < lv_E0 l -> -1 < lv_nu l < 1 / 2 -> exists A1 A2 c, lv_constants l = Ok (A1, A2, c) /\
  A2 = 15 * (1 - lv_nu l) / (2 * (1 + lv_nu l) * (7 - 5 * lv_nu l)) * lv_E0 l /\
  A1 = - (1 - 14 * lv_nu l + 15 * (lv_nu l * lv_nu l)) / (5 * ((1 - 2 * lv_nu l) * (1 - 2 * lv_nu l))) * A2 /\
  0 < A2 /\ 0 < A1 + A2 /\ -1 < c < 1 /\
  let E := (A1 + 2 * A2) * (1 - c ^ 2) in 0 < E /\ E * c / (1 - c ^ 2) = A1 /\ E / (2 * (1 + c)) = A2 /\ E / (1 - c ^ 2) = A1 + 2 * A2.
Proof.
  intros l HE Hn. destruct (constants_pos l HE Hn) as (E & P1 & P2 & P3 & P4 & P5). exists (cA1 l), (cA2 l), (cc l). split; [exact E|].
  assert (N1 : 1 + lv_nu l <> 0) by lra. assert (N2 : 7 - 5 * lv_nu l <> 0) by lra. assert (N3 : 1 - 2 * lv_nu l <> 0) by lra. assert (N4 : 1 - cc l ^ 2 <> 0) by (replace (1 - cc l ^ 2) with ((1 - cc l) * (1 + cc l)) by ring; apply Rmult_integral_contrapositive_currified; lra).
  split; [unfold cA2; field; auto|]. split; [unfold cA1, cA2; field; auto|]. split; [exact P2|]. split; [exact P3|]. split; [exact P4|]. cbv zeta. split; [exact P5|].
  assert (C1 : cc l * (cA1 l + 2 * cA2 l) = cA1 l) by (unfold cc; field; lra).
  split; [transitivity (cc l * (cA1 l + 2 * cA2 l)); [field; exact N4|exact C1]|]. split; [|field; exact N4].
  transitivity ((cA1 l + 2 * cA2 l) * (1 - cc l) / 2); [field; lra|]. replace ((cA1 l + 2 * cA2 l) * (1 - cc l)) with (cA1 l + 2 * cA2 l - cc l * (cA1 l + 2 * cA2 l)) by ring. rewrite C1. field.
Qed.

Lemma C115_analysis_pf : forall solve l str, spd_solver solve -> level_ok l -> shares l str ->
  exists u obj td tdn es eT A1 A2 c, lv_analysis solve l str = Ok (mkLv u obj td tdn) /\ lv_constants l = Ok (A1, A2, c) /\
    stress_elems l (fun i => lv_Emin l + nth i str 0 * (lv_E0 l - lv_Emin l)) (lv_nu l) es /\
    stress_elems l (fun _ => (A1 + 2 * A2) * (1 - c ^ 2)) c eT /\
    (forall i j, ~ free_dof l i j -> uval u i j = 0) /\ (forall i j, free_dof l i j -> internal_force es u i j = nodal_load (lv_qfixed l) i j) /\
    obj = sum_over es (fun e => energy2 e u) /\ obj = load_work (lv_qfixed l) u /\ 0 <= obj /\ length td = length (lv_elements l) /\
    (forall i, (i < length (lv_elements l))%nat -> 0 <= uval td i 0 /\ nth i td [] = [(1 / 10000 + nth i str 0 * (1 - 1 / 10000)) * energy2 (nth i eT no_elem) u]) /\
    nodal_field l tdn /\
    forall k, (k < length (lv_x l))%nat -> 0 <= uval tdn k 0 /\ uval tdn k 0 = mean_with 0 (received 0 (map (fun v => nth 0 v 0) td) (lv_elements l) k).
Proof.
  intros solve l str HS HL SH. destruct (have_tables l HL) as (u1 & t & n & TB). destruct (analysed_exists solve l HS HL u1 t n TB str SH) as (u & tdn & obj & HA).
  destruct (cpos l HL) as (EC & _ & _ & _ & Pc & PE). pose proof (lk_poisson l HL) as Hn.
  exists u, obj, (map (fun x => [x]) (tds l str (uval u))), tdn, (kels l str), (tels l), (cA1 l), (cA2 l), (cc l).
  assert (OB : obj = sum_over (kels l str) (fun e => energy2 e u)). { rewrite (an_obj _ _ _ _ _ _ _ HA). unfold kels. rewrite sum_map. symmetry. apply sum_seq. }
  destruct (tdn_facts l HL u1 t n TB str u tdn SH (an_fix _ _ _ _ _ _ _ HA) (an_eq _ _ _ _ _ _ _ HA) (an_mean _ _ _ _ _ _ _ HA)) as [PT _].
  split; [apply (an_run _ _ _ _ _ _ _ HA)|]. split; [exact EC|]. split; [apply (made_all l (smod l str) (lv_nu l) HL); [intros i Hi; now apply smod_pos|lra]|]. split; [apply (made_all l (fun _ => cE l) (cc l) HL); auto|].
  split; [intros i j Hf; apply (an_fix _ _ _ _ _ _ _ HA); now apply (zero_num l u1 t n TB)|]. split; [intros i j Hf; apply (an_eq _ _ _ _ _ _ _ HA); now apply (free_num l u1 t n TB)|].
  split; [exact OB|]. split.
  { rewrite OB. unfold load_work. rewrite <- (es_virtual (kels l str) (lv_qfixed l) t n u (uval u) (tb_num _ _ _ _ TB) (an_fix _ _ _ _ _ _ _ HA) (an_eq _ _ _ _ _ _ _ HA)). apply sum_ext. intros e _. now rewrite energy2_is, bil_energy. }
  split. { rewrite (an_obj _ _ _ _ _ _ _ HA). apply bigsum_nonneg. intros i Hi. apply lenergy; [auto|now apply lel_in|now apply smod_pos|lra]. }
  split; [unfold tds; now rewrite !map_length, seq_length|]. split.
  { intros i Hi. assert (EN : nth i (map (fun x => [x]) (tds l str (uval u))) [] = [tdv l str (uval u) i]). { unfold tds. rewrite map_map. now rewrite (LoopProof5.nth_map_seq_d (fun a => [tdv l str (uval u) a])). }
    split; [unfold uval at 1; rewrite EN; now apply td_nonneg|]. rewrite EN. unfold tdv, weight. rewrite energy2_is. unfold tels. now rewrite (LoopProof5.nth_map_seq_d (fun i => lelem l (cE l) (cc l) (lel l i))). }
  split; [apply (an_field _ _ _ _ _ _ _ HA)|]. intros k Hk. split; [now apply PT|]. rewrite map_map. cbn [nth]. rewrite map_id. now apply (an_mean _ _ _ _ _ _ _ HA).
Qed.

Lemma C115_faults_pf : forall solve l vi t tmax st, spd_solver solve -> level_ok l -> 0 <= vi -> level_state l tmax st -> (t < tmax)%nat ->
  let tests := lv_nvol l < INR t /\ Rabs (bigsum (length (lv_elements l)) (fun i => nth i (ls_str st) 0) / INR (length (lv_elements l)) - lv_Vmax l) < 5 / 1000 in
  (lv_pass solve l vi t st = Fail OutOfBounds <-> tests /\ (t < 5)%nat) /\
  (~ tests -> (lv_pass solve l vi t st = Fail DivByZero <-> forall i j, free_dof l i j -> nodal_load (lv_qfixed l) i j = 0)) /\
  (forall f, lv_pass solve l vi t st = Fail f -> f = OutOfBounds \/ f = DivByZero) /\
  ((tests -> (5 <= t)%nat) -> (exists i j, free_dof l i j /\ nodal_load (lv_qfixed l) i j <> 0) -> exists stop st', lv_pass solve l vi t st = Ok (stop, st') /\ level_state l tmax st').
Proof.
  intros solve l vi t tmax st HS HL Hv HZ Ht tests. destruct (have_tables l HL) as (u1 & tb & n & TB). destruct (analysed_exists solve l HS HL u1 tb n TB (ls_str st) (bits_shares _ _ _ HZ)) as (u & tdn & obj & HA).
  change tests with (testing l t (volume l (ls_str st))). clear tests. assert (LH : length (hist' st t obj) = tmax) by (rewrite hist_len; apply (lz_obj _ _ _ HZ)).
  destruct (pass_cases solve l HS HL u1 tb n TB vi t tmax st u tdn obj Hv HZ Ht HA) as [(T & H5 & E)|[(T & H5 & N5 & E)|[(T & U & E)|(T & U & phi & str & E & UP)]]]; rewrite E.
  - split; [tauto|]. split; [tauto|]. split; [intros f F; injection F as <-; auto|]. intros X. specialize (X T). lia.
  - split; [split; [discriminate|lia]|]. split; [tauto|]. split; [discriminate|]. intros _ _. exists true, (mkLs (hist' st t obj) (ls_phi st) (ls_str st)). split; [reflexivity|]. destruct HZ. split; auto.
  - split; [split; [discriminate|intros [X Y]; specialize (T X); lia]|]. split; [intros _; split; auto|]. split; [intros f F; injection F as <-; auto|]. intros _ (i & j & F & NZ). exfalso. exact (NZ (U i j F)).
  - split; [split; [discriminate|intros [X Y]; specialize (T X); lia]|]. split; [intros _; split; [discriminate|intros X; exfalso; exact (U X)]|]. split; [discriminate|]. intros _ _. exists false, (mkLs (hist' st t obj) phi str). split; [reflexivity|]. exact (updated_state solve l vi t tmax st _ phi str tdn LH UP).
Qed.

Lemma C115_stop_pf : forall solve l vi t tmax st stop st', spd_solver solve -> level_ok l -> 0 <= vi -> level_state l tmax st -> (t < tmax)%nat ->
  lv_pass solve l vi t st = Ok (stop, st') ->
  (exists a, lv_analysis solve l (ls_str st) = Ok a /\ nth t (ls_obj st') 0 = nth t (ls_obj st) 0 + lr_obj a /\ forall i, i <> t -> nth i (ls_obj st') 0 = nth i (ls_obj st) 0) /\
  (stop = true -> ls_phi st' = ls_phi st /\ ls_str st' = ls_str st) /\
  (stop = true <-> lv_nvol l < INR t /\ Rabs (bigsum (length (lv_elements l)) (fun i => nth i (ls_str st) 0) / INR (length (lv_elements l)) - lv_Vmax l) < 5 / 1000 /\ (5 <= t)%nat /\
     forall k, (1 <= k <= 5)%nat -> Rabs (nth t (ls_obj st') 0 - nth (t - k) (ls_obj st') 0) < 1 / 100 * Rabs (nth t (ls_obj st') 0)).
Proof.
  intros solve l vi t tmax st stop st' HS HL Hv HZ Ht HP. destruct (have_tables l HL) as (u1 & tb & n & TB). destruct (analysed_exists solve l HS HL u1 tb n TB (ls_str st) (bits_shares _ _ _ HZ)) as (u & tdn & obj & HA).
  assert (HH : exists a, lv_analysis solve l (ls_str st) = Ok a /\ nth t (hist' st t obj) 0 = nth t (ls_obj st) 0 + lr_obj a /\ forall i, i <> t -> nth i (hist' st t obj) 0 = nth i (ls_obj st) 0).
  { eexists. split; [apply (an_run _ _ _ _ _ _ _ HA)|]. cbn [lr_obj]. unfold hist'. split; [|intros i Hi]; rewrite nth_upd, ?Nat.eqb_refl; cbn [andb].
    - rewrite (lz_obj _ _ _ HZ). destruct (Nat.ltb_spec t tmax); [reflexivity|lia].
    - destruct (Nat.eqb_spec t i); [congruence|reflexivity]. }
  destruct (pass_cases solve l HS HL u1 tb n TB vi t tmax st u tdn obj Hv HZ Ht HA) as [(T & H5 & E)|[(T & H5 & N5 & E)|[(T & U & E)|(T & U & phi & str & E & UP)]]]; rewrite HP in E; try discriminate E; injection E as -> ->; cbn [ls_obj ls_phi ls_str]; (split; [exact HH|]).
  - split; [auto|]. split; [intros _|reflexivity]. destruct T as [T1 T2]. split; [exact T1|]. split; [exact T2|]. split; [exact H5|exact N5].
  - split; [discriminate|]. split; [discriminate|]. intros (X & Y & _ & Z). exfalso. destruct (T (conj X Y)) as [_ N5]. exact (N5 Z).
Qed.

Lemma C115_update_pf : forall solve l vi t tmax st st', spd_solver solve -> level_ok l -> 0 <= vi -> level_state l tmax st -> (t < tmax)%nat ->
  lv_pass solve l vi t st = Ok (false, st') ->
  exists a ex C lambda phi0 psi esM esK, lv_analysis solve l (ls_str st) = Ok a /\ lv_target l vi t = Ok ex /\
    let sum := bigsum (length (lv_x l)) (fun k => uval (lr_tdn a) k 0) in
    let vol := bigsum (length (lv_elements l)) (fun i => nth i (ls_str st) 0) / INR (length (lv_elements l)) in
    0 < sum /\ C = INR (length (lv_elements l)) / sum /\ lambda = sum / INR (length (lv_x l)) * exp (lv_p l * ((vol - ex) / ex + lv_d l)) /\
    diffusion_elems l (lr_tdn a) C lambda esM esK /\ zero_edge l (ls_phi st) phi0 /\
    nodal_field l psi /\ (forall i, (i < length (lv_x l))%nat -> ~ free_node l i -> uval psi i 0 = 0) /\
    (forall i, free_node l i -> theta_balance esM esK (lv_dt l) 1 phi0 psi i 0) /\
    (forall psi', nodal_field l psi' -> (forall i, (i < length (lv_x l))%nat -> ~ free_node l i -> uval psi' i 0 = 0) ->
       step_energy esM esK (lv_dt l) phi0 psi <= step_energy esM esK (lv_dt l) phi0 psi' /\ ((forall i, free_node l i -> theta_balance esM esK (lv_dt l) 1 phi0 psi' i 0) -> psi' = psi)) /\
    (forall i, (i < length (lv_x l))%nat -> uval (ls_phi st') i 0 = if Rlt_dec 1 (uval psi i 0) then 1 else if Rlt_dec (uval psi i 0) (-1) then -1 else uval psi i 0) /\
    (forall i, (i < length (lv_elements l))%nat -> nth i (ls_str st') 0 = if Rlt_dec (mean_with 0 (map (fun k => uval (ls_phi st') k 0) (nth i (lv_elements l) []))) 0 then 0 else 1).
Proof.
  intros solve l vi t tmax st st' HS HL Hv HZ Ht HP. destruct (have_tables l HL) as (u1 & tb & n & TB). pose proof (bits_shares _ _ _ HZ) as SH. destruct (analysed_exists solve l HS HL u1 tb n TB (ls_str st) SH) as (u & tdn & obj & HA).
  destruct (tdn_facts l HL u1 tb n TB (ls_str st) u tdn SH (an_fix _ _ _ _ _ _ _ HA) (an_eq _ _ _ _ _ _ _ HA) (an_mean _ _ _ _ _ _ _ HA)) as [PT ZT]. destruct (sums_abs l tdn PT) as [_ P0].
  destruct (pass_cases solve l HS HL u1 tb n TB vi t tmax st u tdn obj Hv HZ Ht HA) as [(T & H5 & E)|[(T & H5 & N5 & E)|[(T & U & E)|(T & U & phi & str & E & UP)]]]; rewrite HP in E; try discriminate E; injection E as ->.
  destruct (up_steps _ _ _ _ _ _ _ UP) as (phi0 & psi & esM & esK & _ & ZE & NF & DE & ZF & BA & UN & CV).
  eexists _, (target l vi t), (INR (nle l) / nodal_sum l tdn), (multiplier l tdn (volume l (ls_str st)) (target l vi t)), phi0, psi, esM, esK. split; [apply (an_run _ _ _ _ _ _ _ HA)|]. split; [now apply target_value|]. cbn [lr_tdn]. cbv zeta.
  split; [change (0 < nodal_sum l tdn); assert (nodal_sum l tdn <> 0) by tauto; lra|]. split; [reflexivity|]. split; [reflexivity|]. split; [exact DE|]. split; [exact ZE|]. split; [exact NF|]. split; [exact ZF|]. split; [exact BA|].
  split; [intros psi' N' Z'; destruct (UN psi' N' Z'); auto|]. split; [intros i Hi; rewrite (CV i Hi); apply clamp_cases|]. intros i Hi. apply (up_str _ _ _ _ _ _ _ UP i Hi).
Qed.

Lemma C115_schedule_pf : forall l vi t, level_ok l -> lv_Vmax l <= vi -> exists ex ex', lv_target l vi t = Ok ex /\ lv_target l vi (S t) = Ok ex' /\
  lv_Vmax l <= ex' /\ ex' <= ex /\ ex <= vi /\ (lv_nvol l <= INR t + 1 -> ex = lv_Vmax l) /\ (lv_Vmax l < vi -> INR t + 1 < lv_nvol l -> ex' < ex) /\
  forall tdn vol, nodal_field l tdn -> 0 < bigsum (length (lv_x l)) (fun k => uval tdn k 0) -> 0 < lv_p l -> exists lambda, lv_lambda l tdn vol ex = Ok lambda /\
    (bigsum (length (lv_x l)) (fun k => uval tdn k 0) / INR (length (lv_x l)) < lambda <-> (1 - lv_d l) * ex < vol).
Proof.
  intros l vi t HL HV. exists (target l vi t), (target l vi (S t)). split; [now apply target_value|]. split; [now apply target_value|].
  pose proof (lk_nvol l HL) as Hn. pose proof (lk_Vmax l HL) as Hm. pose proof (ramp l t HL) as [R0 R1]. pose proof (ramp l (S t) HL) as [R0' R1']. pose proof (pos_INR t) as Pt.
  assert (IV : 0 < / lv_nvol l) by now apply Rinv_0_lt_compat. assert (II : lv_nvol l * / lv_nvol l = 1) by (field; lra).
  assert (MO : (INR (S t) + 1) / lv_nvol l = (INR t + 1) / lv_nvol l + / lv_nvol l) by (rewrite S_INR; field; lra).
  assert (ME : Rmax 0 (1 - (INR (S t) + 1) / lv_nvol l) <= Rmax 0 (1 - (INR t + 1) / lv_nvol l)) by (rewrite MO; apply Rmax_lub; [apply Rmax_l|eapply Rle_trans; [|apply Rmax_r]; lra]).
  assert (PX : 0 < target l vi t) by (apply target_pos; auto; lra).
  split; [unfold target; nra|]. split; [unfold target; nra|]. split; [unfold target; nra|]. split.
  { intros H. unfold target. rewrite Rmax_left; [ring|]. assert (1 <= (INR t + 1) / lv_nvol l) by (unfold Rdiv; rewrite <- II; apply Rmult_le_compat_r; lra). lra. }
  split.
  { intros H1 H2. unfold target. assert (Q : (INR t + 1) / lv_nvol l < 1) by (unfold Rdiv; rewrite <- II; apply Rmult_lt_compat_r; lra). rewrite (Rmax_right 0 (1 - (INR t + 1) / lv_nvol l)) by lra.
    apply Rplus_lt_compat_l, Rmult_lt_compat_l; [lra|]. unfold Rmax. destruct (Rle_dec _ _); lra. }
  intros tdn vol NF PS Pp. exists (multiplier l tdn vol (target l vi t)). split; [apply lambda_value; auto; lra|]. unfold multiplier. change (bigsum (length (lv_x l)) (fun k => uval tdn k 0)) with (nodal_sum l tdn) in *. set (ex := target l vi t) in *. clearbody ex.
  pose proof (nodes_pos l HL) as PN. apply lt_0_INR in PN. set (m := nodal_sum l tdn / INR (length (lv_x l))). assert (Pm : 0 < m) by (unfold m, Rdiv; apply Rmult_lt_0_compat; [exact PS|now apply Rinv_0_lt_compat]). clearbody m.
  assert (Q : (vol - ex) / ex + lv_d l = (vol - (1 - lv_d l) * ex) / ex) by (field; lra). rewrite Q. assert (IX : 0 < / ex) by now apply Rinv_0_lt_compat. split.
  - intros H. destruct (Rlt_dec ((1 - lv_d l) * ex) vol) as [L|L]; [exact L|exfalso]. assert (B : exp (lv_p l * ((vol - (1 - lv_d l) * ex) / ex)) <= 1).
    { apply Rle_trans with (exp 0); [|rewrite exp_0; lra]. assert (Z : lv_p l * ((vol - (1 - lv_d l) * ex) / ex) <= 0). { unfold Rdiv. rewrite <- (Rmult_0_r (lv_p l)). apply Rmult_le_compat_l; [lra|]. rewrite <- (Rmult_0_l (/ ex)). apply Rmult_le_compat_r; lra. } destruct Z as [Z|Z]; [left; now apply exp_increasing|rewrite Z; lra]. }
    nra.
  - intros H. assert (B : 1 < exp (lv_p l * ((vol - (1 - lv_d l) * ex) / ex))). { apply Rle_lt_trans with (exp 0); [rewrite exp_0; lra|]. apply exp_increasing. apply Rmult_lt_0_compat; auto. apply Rmult_lt_0_compat; auto. lra. } nra.
Qed.

Lemma C115_run_pf : forall solve l tmax, spd_solver solve -> level_ok l -> 4 <= lv_nvol l -> (exists i j, free_dof l i j /\ nodal_load (lv_qfixed l) i j <> 0) ->
  exists stop st, lv_optimize solve l tmax = Ok (stop, st) /\ level_state l tmax st /\
    forall i, (i < length (lv_elements l))%nat -> (forall k, In k (nth i (lv_elements l) []) -> ~ free_node l k) -> nth i (ls_str st) 0 = 1.
Proof.
  intros solve l tmax HS HL H4 (i & j & F & NZ). unfold lv_optimize. rewrite (init_volume l HL). cbn [bind]. destruct (init_state l tmax) as [I1 I2].
  destruct (run_ok solve l HS HL 1 tmax Rle_0_1 (fun U => NZ (U i j F)) H4 tmax 0 _ eq_refl I1 I2) as (stop & st & E & Z & K). exists stop, st. split; [exact E|]. split; [exact Z|exact K].
Qed.

Lemma C115_scale_pf : forall solve l k tmax, spd_solver solve -> level_ok l -> k <> 0 ->
  lv_optimize solve (with_loads l (scale_loads k (lv_qfixed l))) tmax =
  ' (stop, st) <- lv_optimize solve l tmax ;; Ok (stop, mkLs (map (Rmult (k ^ 2)) (ls_obj st)) (ls_phi st) (ls_str st)).
Proof. intros solve l k tmax HS HL Hk. exact (optimize_scaled solve l k HS HL Hk tmax). Qed.

Lemma C115_sample_pf : forall lx ly nx ny sup at_load edge load Vmax tau E0 Emin nu nvol dt d p, 0 < lx -> 0 < ly -> (0 < nx)%nat -> (0 < ny)%nat -> (forall y, sup [0; y] = true) ->
  0 < Emin <= E0 -> -1 < nu < 1 / 2 -> 0 < tau -> 0 < dt -> 4 <= nvol -> 0 < Vmax -> load <> 0 ->
  (exists i j, (i <= nx)%nat /\ (j <= ny)%nat /\ let x := [lx * (INR i / INR nx); ly * (INR j / INR ny)] in at_load x = true /\ sup x = false) ->
  exists l, lv_problem lx ly nx ny sup at_load edge load Vmax tau E0 Emin nu nvol dt d p = Ok l /\ level_ok l /\ length (lv_elements l) = (nx * ny)%nat /\ length (lv_x l) = ((nx + 1) * (ny + 1))%nat /\
    (forall i, free_node l i <-> (i < length (lv_x l))%nat /\ edge (nth i (lv_x l) []) = false) /\
    (forall i j, free_dof l i j <-> (i < length (lv_x l))%nat /\ (j < 2)%nat /\ sup (nth i (lv_x l) []) = false) /\
    forall solve tmax, spd_solver solve -> exists stop st, lv_optimize solve l tmax = Ok (stop, st) /\ level_state l tmax st.
Proof.
  intros lx ly nx ny sup at_load edge load Vmax tau E0 Emin nu nvol dt d p Hx Hy Hnx Hny Hs HE Hnu Htau Hdt Hnv HV Hl (a & b & Ha & Hb & LD & NS).
  destruct (lproblem_ok lx ly nx ny sup at_load edge load Vmax tau E0 Emin nu nvol dt d p Hx Hy Hnx Hny Hs HE Hnu Htau Hdt ltac:(lra) HV) as (l & E & OK & LE & LX & NX & UF & QF & PF & NV). exists l. split; [exact E|]. split; [exact OK|]. split; [exact LE|]. split; [exact LX|].
  assert (FN : forall i, free_node l i <-> (i < length (lv_x l))%nat /\ edge (nth i (lv_x l) []) = false).
  { intros i. unfold free_node. split; intros [A B]; split; auto.
    - destruct (edge (nth i (lv_x l) [])) eqn:Q; auto. exfalso. apply (B 0). apply PF. auto.
    - intros v H. apply PF in H. destruct H as (_ & H & _). congruence. }
  assert (FD : forall i j, free_dof l i j <-> (i < length (lv_x l))%nat /\ (j < 2)%nat /\ sup (nth i (lv_x l) []) = false).
  { intros i j. unfold free_dof. split; intros (A & B & C); split; auto; split; auto.
    - destruct (sup (nth i (lv_x l) [])) eqn:Q; auto. exfalso. apply (C 0). apply UF. auto.
    - intros v H. apply UF in H. destruct H as (_ & H & _). congruence. }
  split; [exact FN|]. split; [exact FD|]. intros solve tmax HS. assert (K : (((ny + 1) * a + b) < length (lv_x l))%nat) by (rewrite LX; nia).
  destruct (C115_run_pf solve l tmax HS OK ltac:(rewrite NV; exact Hnv)) as (stop & st & R1 & R2 & _); [|exists stop, st; auto].
  exists ((ny + 1) * a + b)%nat, 1%nat. split; [apply FD; rewrite (NX a b Ha Hb); auto|]. apply (loaded_node _ _ _ load Hl).
  - intros [[i j] v] H. apply QF in H. cbn [snd]. tauto.
  - apply QF. rewrite (NX a b Ha Hb). auto.
Qed.
