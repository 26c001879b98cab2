(** Properties C109 and C110: the optimisation loop of the density samples: the proofs. *)
From Coq Require Import List Arith Lia Bool Reals Lra ZArith.
From Verif Require Import Res SumR DenseModel DenseR DenseSpec ShapeModel QuadModel ElemModel ElemSpec SparseModel FilterModel FilterSpec OCModel MeshModel TopModel TopSpec LoopModel LoopSpec FilterMain.
Import ListNotations.
Local Open Scope R_scope.
From Verif Require Import FilterMain OCMain TopMain LoopProof LoopProof2 LoopProof3 LoopProof4 LoopProof5 LoopProof6.

(** weights of links that occur once *)
Lemma total_in l k v : NoDup (map fst l) -> In (k, v) l -> total l (fun j => if (j =? k)%nat then 1 else 0) = v.
Proof.
  intros ND H. unfold total. induction l as [|[j x] l IH]; [destruct H|]. cbn [map fst] in ND. apply NoDup_cons_iff in ND. destruct ND as [NI ND]. cbn [map sumlist fold_right fst snd]. destruct H as [H|H].
  - injection H as -> ->. rewrite Nat.eqb_refl. replace (fold_right Rplus 0 (map (fun kv : nat * R => snd kv * (if (fst kv =? k)%nat then 1 else 0)) l)) with 0; [ring|]. symmetry. clear - NI. induction l as [|[j y] l IH]; [reflexivity|]. cbn [map fold_right fst snd] in *.
    rewrite IH by (intros Q; apply NI; now right). destruct (Nat.eqb_spec j k) as [->|]; [exfalso; apply NI; now left|ring].
  - destruct (Nat.eqb_spec j k) as [->|]; [exfalso; apply NI; apply in_map_iff; exists (k, v); auto|]. unfold sumlist in IH. rewrite IH by auto. ring.
Qed.
Lemma total_out l k : (forall v, ~ In (k, v) l) -> total l (fun j => if (j =? k)%nat then 1 else 0) = 0.
Proof.
  intros H. unfold total. induction l as [|[j x] l IH]; [reflexivity|]. cbn [map sumlist fold_right fst snd]. unfold sumlist in IH. rewrite IH by (intros v Q; apply (H v); now right).
  destruct (Nat.eqb_spec j k) as [->|]; [exfalso; apply (H x); now left|ring].
Qed.
Lemma in_dec_link (l : list (nat * R)) k : (exists v, In (k, v) l) \/ forall v, ~ In (k, v) l.
Proof.
  induction l as [|[j x] l IH]; [right; intros v []|]. destruct IH as [[v H]|H]; [left; exists v; now right|]. destruct (Nat.eq_dec j k) as [->|N]; [left; exists x; now left|].
  right. intros v [Q|Q]; [injection Q as -> _; auto|now apply (H v)].
Qed.
Lemma lw_sym nbs w : (forall i, NoDup (map fst (links nbs w i))) -> symmetric_links nbs w -> forall i k, link_weight nbs w i k = link_weight nbs w k i.
Proof.
  intros ND HS i k. unfold link_weight. destruct (in_dec_link (links nbs w i) k) as [[v H]|H].
  - rewrite (total_in _ k v) by auto. rewrite (total_in _ i v); auto.
  - rewrite (total_out _ k H). rewrite (total_out _ i); auto. intros v Q. apply (H v). now apply HS.
Qed.
Lemma params_new n : oc_params n (oc_new n (5/10) 0 10000 (1/1000) (15/100) (repeat (1/100) n) (repeat 1 n)).
Proof. unfold oc_params, oc_new. cbn. splits; try reflexivity; lra. Qed.
Lemma lt_one n o : oc_params n o -> oc_lmin o = 0 -> 0 < oc_leps o < 1.
Proof. intros (_ & [_ L] & [A B] & _) E. rewrite E in *. replace ((oc_lmax o - 0) / (oc_lmax o + 0)) with 1 in B by (field; lra). lra. Qed.

Lemma new_runs n iota lmin lmax leps move xmin xmax f : 0 <= f -> oc_is_convergence (oc_new n iota lmin lmax leps move xmin xmax) f = false.
Proof.
  intros H. unfold oc_is_convergence, relative_change, oc_new. cbn [oc_prev oc_eps]. destruct (Req_EM_T (f + 0) 0) as [|N]; [reflexivity|]. rewrite Rminus_0_r, Rplus_0_r in *. rewrite Rabs_right by lra. replace (f / f) with 1 by (field; lra).
  apply OCMain.Rltb_false. lra.
Qed.
(** three unit cells in a row, radius 3/2 *)
Definition row3_cg : list (list R) := [[1 / 2; 1 / 2]; [3 / 2; 1 / 2]; [5 / 2; 1 / 2]].
Definition row3_nbs : list (list nat) := [[0; 1]; [0; 1; 2]; [1; 2]]%nat.
Definition row3_w : list (list R) := [[1; 1 / 3]; [1 / 3; 1; 1 / 3]; [1 / 3; 1]].
Lemma row3_dist i j : (i < 3)%nat -> (j < 3)%nat -> dist (nth i row3_cg []) (nth j row3_cg []) = Rabs (INR i - INR j).
Proof.
  intros Hi Hj. unfold dist, row3_cg. rewrite <- sqrt_Rsqr_abs. f_equal. unfold Rsqr. destruct i as [|[|[|]]], j as [|[|[|]]]; try lia; cbn [nth length bigsum INR]; field.
Qed.
Lemma row3_near i j : (i < 3)%nat -> (j < 3)%nat -> near row3_cg (3 / 2) i j = (i <=? j + 1)%nat && (j <=? i + 1)%nat.
Proof.
  intros Hi Hj. unfold near, pt_of. rewrite row3_dist by auto. destruct (Rle_dec (Rabs (INR i - INR j)) (3 / 2)) as [H|H].
  - assert (H1 := Rle_abs (INR i - INR j)). assert (H2 := Rle_abs (- (INR i - INR j))). rewrite Rabs_Ropp in H2. destruct i as [|[|[|]]], j as [|[|[|]]]; try lia; try reflexivity; exfalso; set (z := Rabs _) in *; clearbody z; cbn [INR] in H1, H2; lra.
  - destruct i as [|[|[|]]], j as [|[|[|]]]; try lia; try reflexivity; exfalso; apply H; apply Rabs_le; cbn [INR]; lra.
Qed.
Lemma row3_dim c : In c row3_cg -> length c = 2%nat.
Proof. cbn. intros [<-|[<-|[<-|[]]]]; reflexivity. Qed.
Lemma row3_neighbors : ds_neighbors row3_cg (3 / 2) = Ok (row3_nbs, row3_w).
Proof.
  rewrite (neighbors_ok row3_cg (3 / 2) 2 row3_dim ltac:(lra)). unfold nb_lists, wt_lists.
  assert (E : forall i, (i < 3)%nat -> row row3_cg (3 / 2) i = nth i row3_nbs []).
  { intros i Hi. unfold row. change (seq 0 (length row3_cg)) with [0; 1; 2]%nat. cbn [filter]. rewrite !row3_near by lia. destruct i as [|[|[|]]]; try lia; reflexivity. }
  assert (W : forall i j, (i < 3)%nat -> (j < 3)%nat -> wt row3_cg (3 / 2) i j = 1 - Rabs (INR i - INR j) / (3 / 2)). { intros i j Hi Hj. unfold wt, pt_of. rewrite row3_dist by auto. field. }
  change (length row3_cg) with 3%nat. cbn [seq map]. rewrite !E by lia. cbn [nth row3_nbs map]. rewrite !W by lia. cbn [INR].
  assert (A : forall x y v, x - y = v -> 0 <= v -> Rabs (x - y) = v) by (intros x y v <- P; now apply Rabs_right, Rle_ge). assert (B : forall x y v, y - x = v -> 0 <= v -> Rabs (x - y) = v) by (intros x y v <- P; rewrite Rabs_minus_sym; now apply Rabs_right, Rle_ge).
  rewrite !(A 0 0 0), !(B 0 1 1), !(A 1 0 1), !(A 1 1 0), !(B 1 (1 + 1) 1), !(A (1 + 1) 1 1), !(A (1 + 1) (1 + 1) 0) by lra. replace (1 - 0 / (3 / 2)) with 1 by field. replace (1 - 1 / (3 / 2)) with (1 / 3) by field. reflexivity.
Qed.
Lemma row3_ok : filter_ok 3 row3_nbs row3_w /\ weights_nonneg row3_nbs row3_w /\ forall i k, link_weight row3_nbs row3_w i k = link_weight row3_nbs row3_w k i.
Proof.
  pose proof row3_neighbors as E. assert (ND : forall i, NoDup (map fst (links row3_nbs row3_w i))).
  { intros [|[|[|i]]]; cbn; repeat (constructor; [cbn; lia|]); try constructor. unfold links. destruct i; constructor. }
  rewrite (neighbors_ok row3_cg (3 / 2) 2 row3_dim ltac:(lra)) in E. assert (E1 : nb_lists row3_cg (3 / 2) = row3_nbs) by congruence. assert (E2 : wt_lists row3_cg (3 / 2) = row3_w) by congruence. rewrite <- E1, <- E2. rewrite <- E1, <- E2 in ND. split; [apply (links_filter row3_cg (3 / 2) ltac:(lra))|]. split; [apply (links_nonneg row3_cg (3 / 2) ltac:(lra))|].
  apply lw_sym; auto. apply (links_sym row3_cg (3 / 2) 2 row3_dim ltac:(lra)).
Qed.
(** the row as a problem *)
Lemma row3_problem limit : 0 < limit -> exists d, ds_problem 3 1 3 1 (fun x => if Req_EM_T (nth 0 x 0) 0 then true else false) (fun x => if Req_EM_T (nth 0 x 0) 3 then true else false) (-1) (1/1000) 1 3 1 1 limit = Ok d /\
  ds_centers d = Ok row3_cg /\ top_ok d /\ length (tp_elements d) = 3%nat /\ loop_consts d /\ tp_limit d = limit /\ tp_scale1 d = 1.
Proof.
  intros HL. destruct (problem_ok 3 1 3 1 (fun x => if Req_EM_T (nth 0 x 0) 0 then true else false) (fun x => if Req_EM_T (nth 0 x 0) 3 then true else false) (-1) (1/1000) 1 3 1 1 limit) as (d & E & T & LE & _ & _ & _ & Ep & E0 & E1 & El & cg & EC & LC & N & _); try lra; try lia.
  { intros y. cbn. destruct (Req_EM_T 0 0); congruence. }
  exists d. splits; auto.
  - rewrite EC. f_equal. destruct cg as [|c0 [|c1 [|c2 [|]]]]; try discriminate LC. pose proof (proj2 (N 0%nat 0%nat ltac:(lia) ltac:(lia))) as N0. pose proof (proj2 (N 1%nat 0%nat ltac:(lia) ltac:(lia))) as N1. pose proof (proj2 (N 2%nat 0%nat ltac:(lia) ltac:(lia))) as N2.
    cbn [nth Nat.mul Nat.add INR] in N0, N1, N2. subst. unfold row3_cg. repeat match goal with |- cons _ _ = cons _ _ => apply f_equal2 end; try reflexivity; field.
  - unfold loop_consts. rewrite Ep, E0, E1, El. splits; try lra. intros Q. rewrite Q in LE. discriminate.
Qed.
Lemma largest_unit n o s df : oc_params n o -> unit_design n s -> unit_design n (largest_step o s df) /\ forall i, (i < n)%nat -> (1 - oc_move o) * nth i s 0 <= nth i (largest_step o s df) 0.
Proof.
  intros (On & _ & _ & _ & Om) [L U]. unfold largest_step. rewrite On. assert (A : forall i, (i < n)%nat -> 0 < nth i (map (fun i => if Rlt_dec (nth i df 0) 0 then Rmin 1 ((1 + oc_move o) * nth i s 0) else Rmax 0 ((1 - oc_move o) * nth i s 0)) (seq 0 n)) 0 <= 1 /\ (1 - oc_move o) * nth i s 0 <= nth i (map (fun i => if Rlt_dec (nth i df 0) 0 then Rmin 1 ((1 + oc_move o) * nth i s 0) else Rmax 0 ((1 - oc_move o) * nth i s 0)) (seq 0 n)) 0).
  { intros i Hi. rewrite nth_map_seq' by auto. destruct (U i Hi) as [U1 U2]. assert (0 < (1 - oc_move o) * nth i s 0) by nra. assert ((1 - oc_move o) * nth i s 0 <= 1) by nra. assert ((1 - oc_move o) * nth i s 0 <= (1 + oc_move o) * nth i s 0) by nra.
    destruct (Rlt_dec (nth i df 0) 0).
    - pose proof (Rmin_l 1 ((1 + oc_move o) * nth i s 0)). split; [split; [apply Rmin_glb_lt; lra|auto]|apply Rmin_glb; lra].
    - pose proof (Rmax_r 0 ((1 - oc_move o) * nth i s 0)). split; [split; [lra|apply Rmax_lub; lra]|auto]. }
  split; [split; [now rewrite map_length, seq_length|intros; now apply A]|intros; now apply A].
Qed.

Lemma C109_problem_pf : forall lx ly nx ny sup at_load load E0 E1 p scale0 scale1 limit, 0 < lx -> 0 < ly -> (0 < nx)%nat -> (0 < ny)%nat -> (forall y, sup [0; y] = true) -> 0 < E0 <= E1 ->
  exists d cg, ds_problem lx ly nx ny sup at_load load E0 E1 p scale0 scale1 limit = Ok d /\ ds_centers d = Ok cg /\ top_ok d /\
    length (tp_elements d) = (nx * ny)%nat /\ length (tp_x d) = ((nx + 1) * (ny + 1))%nat /\ length cg = (nx * ny)%nat /\
    (forall i j v, In (i, j, v) (tp_ufixed d) <-> (i < length (tp_x d))%nat /\ sup (nth i (tp_x d) []) = true /\ (j < 2)%nat /\ v = 0) /\
    (forall i j v, In (i, j, v) (tp_qfixed d) <-> (i < length (tp_x d))%nat /\ at_load (nth i (tp_x d) []) = true /\ j = 1%nat /\ v = load) /\
    (forall i j, (i < nx)%nat -> (j < ny)%nat -> nth (ny * i + j) cg [] = [lx * ((INR i + 1 / 2) / INR nx); ly * ((INR j + 1 / 2) / INR ny)] /\
       nth (ny * i + j) (tp_elements d) [] = [(ny + 1) * i + j; (ny + 1) * (i + 1) + j; (ny + 1) * (i + 1) + (j + 1); (ny + 1) * i + (j + 1)]%nat) /\
    (0 <= p -> 0 <= scale0 -> 0 < scale1 -> 0 < limit -> loop_consts d) /\ tp_limit d = limit /\ forall c, In c cg -> length c = 2%nat.
Proof.
  intros lx ly nx ny sup at_load load E0 E1 p scale0 scale1 limit Hx Hy Hnx Hny Hs HE.
  destruct (problem_ok lx ly nx ny sup at_load load E0 E1 p scale0 scale1 limit Hx Hy Hnx Hny Hs HE) as (d & E & T & LE & LX & UF & QF & Ep & E0' & E1' & El & cg & EC & LC & N & L2).
  exists d, cg. splits; auto; try (now apply N).
  - intros i j Hi Hj. destruct (N i j Hi Hj) as [A B]. split; [exact B|exact A].
  - intros A B C D. unfold loop_consts. rewrite Ep, E0', E1', El. splits; auto. intros Q. rewrite Q in LE. cbn in LE. nia.
  - intros c Hc. apply (In_nth _ _ []) in Hc. destruct Hc as (i & Hi & <-). now apply L2.
Qed.

Lemma C109_neighbors_pf : forall cg rad dim, (forall c, In c cg -> length c = dim) -> 0 < rad ->
  exists nbs w, ds_neighbors cg rad = Ok (nbs, w) /\ filter_ok (length cg) nbs w /\ weights_nonneg nbs w /\
    (forall i j v, In (j, v) (links nbs w i) <->
       (i < length cg)%nat /\ (j < length cg)%nat /\ dist (nth i cg []) (nth j cg []) <= rad /\ v = 1 - dist (nth i cg []) (nth j cg []) / rad) /\
    (forall i, (i < length cg)%nat -> In (i, 1) (links nbs w i)) /\ (forall i, NoDup (map fst (links nbs w i))) /\
    (forall i k, link_weight nbs w i k = link_weight nbs w k i).
Proof.
  intros cg rad dim Hd Hr. eexists _, _. split; [apply (neighbors_ok cg rad dim Hd Hr)|].
  assert (ND : forall i, NoDup (map fst (links (nb_lists cg rad) (wt_lists cg rad) i))).
  { intros i. destruct (Nat.lt_ge_cases i (length cg)) as [Hi|Hi]; [now apply row_nodup|rewrite links_beyond by auto; constructor]. }
  split; [apply (links_filter cg rad Hr)|]. split; [apply (links_nonneg cg rad Hr)|]. split; [apply (links_iff cg rad Hr)|]. split; [apply (links_self cg rad Hr)|]. split; [exact ND|].
  apply lw_sym; auto. apply (links_sym cg rad dim Hd Hr).
Qed.

Lemma C109_pass_pf : forall solve d nbs w beta s, spd_solver solve -> top_ok d -> loop_consts d -> let n := length (tp_elements d) in
  filter_ok n nbs w -> weights_nonneg nbs w -> 0 < beta -> unit_design n s ->
  exists ps, ds_pass solve d nbs w beta s = Ok ps /\ heaviside_variables n nbs w beta s = Ok (ps_rho ps) /\ unit_design n (ps_rho ps) /\
    top_analysis solve d (ps_rho ps) = Ok (ps_an ps) /\ ds_constraint d nbs w beta s = Ok (ps_g ps) /\
    ps_g ps = tp_scale1 d * (bigsum n (fun i => nth i (ps_rho ps) 0) / INR n / tp_limit d - 1) /\
    0 <= an_f (ps_an ps) /\ length (ps_dfds ps) = n /\ length (ps_dgds ps) = n /\
    forall i, (i < n)%nat -> nth i (ps_dfds ps) 0 <= 0 /\ 0 < nth i (ps_dgds ps) 0.
Proof.
  intros solve d nbs w beta s HS HT HC n Hok Hw Hb HU. destruct (pass_ok solve d nbs w HS HT HC Hok Hw beta s Hb HU) as (ps & E & ER & EA & EW & EC & _ & PF & _). exists ps.
  destruct (pass_signs solve d nbs w HS HT HC Hok Hw beta s ps Hb HU E) as (L1 & L2 & SG). destruct HU as [L U].
  destruct (gkp1_val d nbs w HC Hok beta s Hb L) as [EC' V]. rewrite EC in EC'. injection EC' as EG. splits; auto.
  - rewrite ER. now apply (rho_run d nbs w Hok).
  - rewrite ER. apply (rho_unit d nbs w Hok Hw beta s Hb). split; auto.
  - rewrite EG, V, ER. reflexivity.
Qed.

Lemma C109_run_pf : forall solve d nbs w fuel, spd_solver solve -> top_ok d -> loop_consts d -> let n := length (tp_elements d) in
  filter_ok n nbs w -> weights_nonneg nbs w -> let good st := 0 < ds_beta st /\ unit_design n (ds_s st) /\ oc_params n (ds_oc st) in
  (forall k todo st, good st -> (exists stop st', ds_run solve d nbs w fuel k todo st = Ok (stop, st') /\ good st') \/ ds_run solve d nbs w fuel k todo st = Fail OutOfFuel) /\
  (forall k st stop st', good st -> ds_iteration solve d nbs w fuel k st = Ok (stop, st') ->
     (stop = true -> ds_s st' = ds_s st) /\ forall i, (i < n)%nat -> Rabs (nth i (ds_s st') 0 - nth i (ds_s st) 0) <= oc_move (ds_oc st) * nth i (ds_s st) 0).
Proof.
  intros solve d nbs w fuel HS HT HC n Hok Hw good. split.
  - intros k todo st H. apply (run_safe solve d nbs w HS HT HC Hok Hw fuel todo k st H).
  - intros k st stop st' H E. destruct (iteration_safe solve d nbs w HS HT HC Hok Hw fuel k st H) as [(stop' & st'' & E' & _ & A & B & _)|E']; rewrite E in E'; [|discriminate]. injection E' as <- <-. split; auto.
Qed.

Lemma C109_sample_pf : forall solve lx ly nx ny sup at_load load E0 E1 p scale0 scale1 limit rad s0, spd_solver solve -> 0 < lx -> 0 < ly -> (0 < nx)%nat -> (0 < ny)%nat ->
  (forall y, sup [0; y] = true) -> 0 < E0 <= E1 -> 0 <= p -> 0 <= scale0 -> 0 < scale1 -> 0 < limit -> 0 < rad -> 0 < s0 <= 1 ->
  exists d cg nbs w, ds_problem lx ly nx ny sup at_load load E0 E1 p scale0 scale1 limit = Ok d /\ ds_centers d = Ok cg /\ ds_neighbors cg rad = Ok (nbs, w) /\
    forall fuel passes, (exists stop st, ds_optimize solve d nbs w fuel passes s0 = Ok (stop, st) /\ unit_design (nx * ny) (ds_s st)) \/ ds_optimize solve d nbs w fuel passes s0 = Fail OutOfFuel.
Proof.
  intros solve lx ly nx ny sup at_load load E0 E1 p scale0 scale1 limit rad s0 HS Hx Hy Hnx Hny Hsup HE Hp H0 H1 HL Hr Hs0.
  destruct (C109_problem_pf lx ly nx ny sup at_load load E0 E1 p scale0 scale1 limit Hx Hy Hnx Hny Hsup HE) as (d & cg & E & EC & T & LE & _ & LC & _ & _ & _ & HC & _ & L2). specialize (HC Hp H0 H1 HL).
  destruct (C109_neighbors_pf cg rad 2 L2 Hr) as (nbs & w & EN & FO & WN & _). exists d, cg, nbs, w. splits; auto. intros fuel passes. rewrite LC, <- LE in FO.
  unfold ds_optimize. set (st0 := mkDs _ _ _). assert (G : 0 < ds_beta st0 /\ unit_design (length (tp_elements d)) (ds_s st0) /\ oc_params (length (tp_elements d)) (ds_oc st0)).
  { split; [cbn; lra|split; [|apply params_new]]. split; [apply repeat_length|]. intros i Hi. cbn [ds_s st0]. rewrite (nth_indep _ 0 s0) by (rewrite repeat_length; lia). now rewrite nth_repeat. }
  destruct (proj1 (C109_run_pf solve d nbs w fuel HS T HC FO WN) 0%nat passes st0 G) as [(stop & st & ER & _ & U & _)|ER]; [left|now right]. exists stop, st. rewrite LE in U. auto.
Qed.

Lemma C109_update_ends_pf : forall solve d nbs w beta s ps o, spd_solver solve -> top_ok d -> loop_consts d -> let n := length (tp_elements d) in
  filter_ok n nbs w -> weights_nonneg nbs w -> 0 < beta -> unit_design n s -> oc_params n o -> oc_lmin o = 0 -> ds_pass solve d nbs w beta s = Ok ps ->
  (exists fuel r, oc_update o fuel s (an_f (ps_an ps)) (ps_dfds ps) (ps_dgds ps) (ds_gkp1 d nbs w beta) = Ok r) <->
  exists g, ds_constraint d nbs w beta (largest_step o s (ps_dfds ps)) = Ok g /\ 0 < g.
Proof.
  intros solve d nbs w beta s ps o HS HT HC n Hok Hw Hb HU HO Hl E. destruct (pass_signs solve d nbs w HS HT HC Hok Hw beta s ps Hb HU E) as (L1 & L2 & SG). pose proof (lt_one n o HO Hl) as He. destruct HU as [L0 U]. destruct HO as (On & Ol & Oe & Oi & Om).
  assert (Ux : forall i, (i < oc_n o)%nat -> 0 <= nth i s 0 <= 1) by (rewrite On; intros i Hi; destruct (U i Hi); lra).
  assert (Sx : forall i, (i < oc_n o)%nat -> nth i (ps_dfds ps) 0 <= 0 /\ 0 < nth i (ps_dgds ps) 0) by (rewrite On; exact SG).
  assert (LS : length (largest_step o s (ps_dfds ps)) = n) by (unfold largest_step; rewrite map_length, seq_length; exact On).
  assert (MO : forall x y, length x = oc_n o -> length y = oc_n o -> (forall i, (i < oc_n o)%nat -> nth i x 0 <= nth i y 0) -> ds_gkp1 d nbs w beta x <= ds_gkp1 d nbs w beta y).
  { rewrite On. intros x y Lx Ly M. apply (gkp1_mono d nbs w HC Hok Hw); auto. }
  rewrite (update_iff o s (ps_dfds ps) (ps_dgds ps) (ds_gkp1 d nbs w beta) ltac:(now rewrite On) ltac:(now rewrite On) ltac:(now rewrite On) Ux Sx Oi Om MO He (an_f (ps_an ps)) Hl) by lra.
  rewrite (proj1 (gkp1_val d nbs w HC Hok beta _ Hb LS)). split; [eauto|]. intros (g & Eg & Hg). injection Eg as ->. exact Hg.
Qed.

Lemma C109_inactive_pf : forall solve d nbs w beta s ps o, spd_solver solve -> top_ok d -> loop_consts d -> let n := length (tp_elements d) in
  filter_ok n nbs w -> weights_nonneg nbs w -> 0 < beta -> unit_design n s -> oc_params n o -> oc_lmin o = 0 -> ds_pass solve d nbs w beta s = Ok ps -> 1 <= tp_limit d ->
  forall fuel, oc_update o fuel s (an_f (ps_an ps)) (ps_dfds ps) (ps_dgds ps) (ds_gkp1 d nbs w beta) = Fail OutOfFuel.
Proof.
  intros solve d nbs w beta s ps o HS HT HC n Hok Hw Hb HU HO Hl E HL fuel. destruct (pass_signs solve d nbs w HS HT HC Hok Hw beta s ps Hb HU E) as (L1 & L2 & SG).
  destruct (largest_unit n o s (ps_dfds ps) HO HU) as [LU _]. destruct (C109_pass_pf solve d nbs w beta _ HS HT HC Hok Hw Hb LU) as (ps' & _ & _ & RU & _ & EG & V & _). fold n in V, RU.
  assert (NO : ~ exists g, ds_constraint d nbs w beta (largest_step o s (ps_dfds ps)) = Ok g /\ 0 < g).
  { intros (g & Eg & Hg). rewrite EG in Eg. injection Eg as <-. rewrite V in Hg. destruct HC as (HE & _ & _ & H1 & H2). assert (N : 0 < INR n). { apply lt_0_INR. unfold n. destruct (tp_elements d); [congruence|cbn; lia]. }
    assert (S : bigsum n (fun i => nth i (ps_rho ps') 0) <= INR n). { rewrite <- (Rmult_1_r (INR n)), <- (bigsum_const n 1). apply bigsum_le. intros i Hi. apply RU. exact Hi. }
    assert (Q : bigsum n (fun i => nth i (ps_rho ps') 0) / INR n / tp_limit d <= 1).
    { apply (Rmult_le_reg_r (tp_limit d)); [lra|]. replace (bigsum n (fun i => nth i (ps_rho ps') 0) / INR n / tp_limit d * tp_limit d) with (bigsum n (fun i => nth i (ps_rho ps') 0) / INR n) by (field; lra).
      apply (Rmult_le_reg_r (INR n)); [lra|]. replace (bigsum n (fun i => nth i (ps_rho ps') 0) / INR n * INR n) with (bigsum n (fun i => nth i (ps_rho ps') 0)) by (field; lra). nra. }
    nra. }
  destruct HO as (On & Ol & Oe & Oi & Om). pose proof HU as [L0 U].
  assert (Ux : forall i, (i < oc_n o)%nat -> 0 <= nth i s 0 <= 1) by (rewrite On; intros i Hi; destruct (U i Hi); lra).
  assert (Sx : forall i, (i < oc_n o)%nat -> nth i (ps_dfds ps) 0 <= 0 /\ 0 < nth i (ps_dgds ps) 0) by (rewrite On; exact SG).
  destruct (update_safe o s (ps_dfds ps) (ps_dgds ps) (ds_gkp1 d nbs w beta) ltac:(now rewrite On) ltac:(now rewrite On) ltac:(now rewrite On) Sx Oi fuel (an_f (ps_an ps)) Ol (proj2 Oe)) as [(o' & l & _ & EU & _)|EU]; [|exact EU].
  exfalso. apply NO. apply (proj1 (C109_update_ends_pf solve d nbs w beta s ps o HS HT HC Hok Hw Hb HU (conj On (conj Ol (conj Oe (conj Oi Om)))) Hl E)). eauto.
Qed.

Lemma C110_gradient_pf : forall solve d nbs w beta s ps, spd_solver solve -> top_ok d -> loop_consts d -> let n := length (tp_elements d) in
  filter_ok n nbs w -> weights_nonneg nbs w -> (forall i k, (i < n)%nat -> (k < n)%nat -> link_weight nbs w i k = link_weight nbs w k i) -> 0 < beta -> unit_design n s -> ds_pass solve d nbs w beta s = Ok ps ->
  exists F K, gradient_at n (ds_objective solve d nbs w beta) s F /\ gradient_at n (ds_gkp1 d nbs w beta) s K /\
    (forall i, (i < n)%nat -> nth i F 0 <= 0 /\ 0 < nth i K 0) /\
    (forall i a b, (i < n)%nat -> (forall k, (k < n)%nat -> 0 < link_weight nbs w i k -> a <= weight_sum nbs w k <= b) ->
       b * nth i F 0 <= weight_sum nbs w i * nth i (ps_dfds ps) 0 <= a * nth i F 0 /\
       a * nth i K 0 <= weight_sum nbs w i * nth i (ps_dgds ps) 0 <= b * nth i K 0) /\
    (forall i, (i < n)%nat -> (forall k, (k < n)%nat -> 0 < link_weight nbs w i k -> weight_sum nbs w k = weight_sum nbs w i) ->
       nth i (ps_dfds ps) 0 = nth i F 0 /\ nth i (ps_dgds ps) 0 = nth i K 0).
Proof.
  intros solve d nbs w beta s ps HS HT HC n Hok Hw Hsym Hb HU E. destruct (pass_ok solve d nbs w HS HT HC Hok Hw beta s Hb HU) as (ps' & E' & ER & EA & EW & EC & SG & _ & LD & VF & VG). rewrite E in E'. injection E' as <-.
  pose proof HU as [L U]. set (q := tp_scale1 d / (tp_limit d * INR n)). fold n in VG, VF, LD. fold q in VG. assert (Hq : 0 < q) by (apply (const_pos d nbs w HC Hok)).
  assert (HF : forall k, (k < n)%nat -> hk nbs w beta s (an_df (ps_an ps)) k <= 0).
  { intros k Hk. unfold hk. pose proof (slope_pos beta (mean nbs w (at_ s) k) Hb). assert (at_ (an_df (ps_an ps)) k <= 0); [|nra]. apply SG. apply nth_In. lia. }
  assert (AQ : forall k, (k < n)%nat -> at_ (repeat q n) k = q). { intros k Hk. unfold at_. rewrite (nth_indep _ 0 q) by (rewrite repeat_length; lia). apply nth_repeat. }
  assert (HK : forall k, (k < n)%nat -> 0 < hk nbs w beta s (repeat q n) k). { intros k Hk. unfold hk. rewrite AQ by auto. apply Rmult_lt_0_compat; [auto|now apply slope_pos]. }
  exists (grad d nbs w beta s (an_df (ps_an ps))), (grad d nbs w beta s (repeat q n)).
  assert (RU : unit_design n (rho_of d nbs w beta s)) by (apply (rho_unit d nbs w Hok Hw beta s Hb HU)).
  assert (GF : gradient_at n (ds_objective solve d nbs w beta) s (grad d nbs w beta s (an_df (ps_an ps)))).
  { apply (gradient_ext d (fun v => objective (top_analysis solve d (rho_of d nbs w beta v)))).
    - intros v Lv. unfold ds_objective. rewrite (rho_run d nbs w Hok beta v Hb Lv). reflexivity.
    - apply (filter_gradient d nbs w Hok beta s (fun r => objective (top_analysis solve d r)) _ Hb L). apply (objective_gradient solve d HS HT); [apply (unit_ok d); exact RU|]. rewrite <- ER. exact EA. }
  assert (GK : gradient_at n (ds_gkp1 d nbs w beta) s (grad d nbs w beta s (repeat q n))).
  { apply (gradient_ext d (fun v => tp_scale1 d * (bigsum n (fun i => nth i (rho_of d nbs w beta v) 0) / INR n / tp_limit d - 1))).
    - intros v Lv. symmetry. apply (gkp1_val d nbs w HC Hok beta v Hb Lv).
    - apply (filter_gradient d nbs w Hok beta s (fun r => tp_scale1 d * (bigsum n (fun i => nth i r 0) / INR n / tp_limit d - 1)) _ Hb L). apply (weight_gradient d nbs w HC Hok). apply rho_len. }
  assert (RF : forall i, (i < n)%nat -> weight_sum nbs w i * nth i (ps_dfds ps) 0 = bigsum n (fun k => link_weight nbs w i k * hk nbs w beta s (an_df (ps_an ps)) k)).
  { intros i Hi. rewrite VF, nth_map_seq' by auto. apply (returned d nbs w Hok Hw beta s _ i Hi). }
  assert (RK : forall i, (i < n)%nat -> weight_sum nbs w i * nth i (ps_dgds ps) 0 = bigsum n (fun k => link_weight nbs w i k * hk nbs w beta s (repeat q n) k)).
  { intros i Hi. rewrite VG, nth_map_seq' by auto. rewrite <- (returned d nbs w Hok Hw beta s _ i Hi). f_equal. apply (mean_ext n nbs w Hok); auto. intros k Hk. unfold hk. now rewrite AQ by auto. }
  assert (BD : forall i a b, (i < n)%nat -> (forall k, (k < n)%nat -> 0 < link_weight nbs w i k -> a <= weight_sum nbs w k <= b) ->
       b * nth i (grad d nbs w beta s (an_df (ps_an ps))) 0 <= weight_sum nbs w i * nth i (ps_dfds ps) 0 <= a * nth i (grad d nbs w beta s (an_df (ps_an ps))) 0 /\
       a * nth i (grad d nbs w beta s (repeat q n)) 0 <= weight_sum nbs w i * nth i (ps_dgds ps) 0 <= b * nth i (grad d nbs w beta s (repeat q n)) 0).
  { intros i a b Hi HW. rewrite RF, RK by auto. unfold grad. fold n. rewrite !(nth_map_seq' (fun i => bigsum n (fun k => link_weight nbs w k i / weight_sum nbs w k * _ k))) by auto. split.
    - apply (bounds_nonpos d nbs w Hok Hw Hsym); auto.
    - apply (bounds_nonneg d nbs w Hok Hw Hsym); auto. intros k Hk. left. now apply HK. }
  assert (SGN : forall i, (i < n)%nat -> nth i (grad d nbs w beta s (an_df (ps_an ps))) 0 <= 0 /\ 0 < nth i (grad d nbs w beta s (repeat q n)) 0).
  { intros i Hi. destruct (pass_signs solve d nbs w HS HT HC Hok Hw beta s ps Hb HU E) as (_ & _ & PS). destruct (PS i Hi) as [P1 P2]. pose proof (wsum_pos n nbs w Hok Hw i Hi) as WP.
    destruct (pos_min n (fun k => weight_sum nbs w k) (fun k Hk => wsum_pos n nbs w Hok Hw k Hk)) as (lo & Hlo & Lo). set (hi := bigsum n (fun k => weight_sum nbs w k)).
    assert (Hi' : forall k, (k < n)%nat -> weight_sum nbs w k <= hi). { intros k Hk. unfold hi. rewrite <- (bigsum_delta n k (fun k => weight_sum nbs w k)) by auto. apply bigsum_le. intros j Hj. pose proof (wsum_pos n nbs w Hok Hw j Hj). destruct (Nat.eq_dec j k) as [->|N]; [rewrite delta_refl; lra|rewrite delta_ne by auto; lra]. }
    destruct (BD i lo hi Hi (fun k Hk _ => conj (Lo k Hk) (Hi' k Hk))) as [[B1 _] [_ B2]]. assert (0 < hi) by (specialize (Hi' i Hi); lra). split.
    - apply Rnot_lt_le. intros Q. assert (0 < hi * nth i (grad d nbs w beta s (an_df (ps_an ps))) 0) by now apply Rmult_lt_0_compat. assert (weight_sum nbs w i * nth i (ps_dfds ps) 0 <= 0) by nra. lra.
    - apply Rnot_le_lt. intros Q. assert (hi * nth i (grad d nbs w beta s (repeat q n)) 0 <= 0) by nra. assert (0 < weight_sum nbs w i * nth i (ps_dgds ps) 0) by now apply Rmult_lt_0_compat. lra. }
  splits; auto; try (now apply SGN); try (now apply BD).
  intros i Hi HW. destruct (BD i (weight_sum nbs w i) (weight_sum nbs w i) Hi) as [[B1 B2] [B3 B4]]; [intros k Hk P; rewrite (HW k Hk P); lra|]. pose proof (wsum_pos n nbs w Hok Hw i Hi) as WP.
  split; apply (Rmult_eq_reg_l (weight_sum nbs w i)); lra.
Qed.

Lemma C110_not_gradient_pf : forall solve d nbs w beta s ps i, spd_solver solve -> top_ok d -> loop_consts d -> let n := length (tp_elements d) in
  filter_ok n nbs w -> weights_nonneg nbs w -> (forall i k, (i < n)%nat -> (k < n)%nat -> link_weight nbs w i k = link_weight nbs w k i) -> 0 < beta -> unit_design n s -> ds_pass solve d nbs w beta s = Ok ps ->
  (i < n)%nat -> (forall k, (k < n)%nat -> 0 < link_weight nbs w i k -> weight_sum nbs w i <= weight_sum nbs w k) ->
  (exists k, (k < n)%nat /\ 0 < link_weight nbs w i k /\ weight_sum nbs w i < weight_sum nbs w k) ->
  (forall K, gradient_at n (ds_gkp1 d nbs w beta) s K -> nth i K 0 < nth i (ps_dgds ps) 0) /\ ~ gradient_at n (ds_gkp1 d nbs w beta) s (ps_dgds ps).
Proof.
  intros solve d nbs w beta s ps i HS HT HC n Hok Hw Hsym Hb HU E Hi HW HX.
  destruct (pass_ok solve d nbs w HS HT HC Hok Hw beta s Hb HU) as (ps' & E' & ER & EA & EW & EC & SG & _ & LD & VF & VG). rewrite E in E'. injection E' as <-.
  pose proof HU as [L U]. set (q := tp_scale1 d / (tp_limit d * INR n)). fold n in VG. fold q in VG. assert (Hq : 0 < q) by (apply (const_pos d nbs w HC Hok)).
  assert (AQ : forall k, (k < n)%nat -> at_ (repeat q n) k = q). { intros k Hk. unfold at_. rewrite (nth_indep _ 0 q) by (rewrite repeat_length; lia). apply nth_repeat. }
  assert (HK : forall k, (k < n)%nat -> 0 < hk nbs w beta s (repeat q n) k). { intros k Hk. unfold hk. rewrite AQ by auto. apply Rmult_lt_0_compat; [auto|now apply slope_pos]. }
  assert (GK : gradient_at n (ds_gkp1 d nbs w beta) s (grad d nbs w beta s (repeat q n))).
  { apply (gradient_ext d (fun v => tp_scale1 d * (bigsum n (fun i => nth i (rho_of d nbs w beta v) 0) / INR n / tp_limit d - 1))).
    - intros v Lv. symmetry. apply (gkp1_val d nbs w HC Hok beta v Hb Lv).
    - apply (filter_gradient d nbs w Hok beta s (fun r => tp_scale1 d * (bigsum n (fun i => nth i r 0) / INR n / tp_limit d - 1)) _ Hb L). apply (weight_gradient d nbs w HC Hok). apply rho_len. }
  assert (RK : weight_sum nbs w i * nth i (ps_dgds ps) 0 = bigsum n (fun k => link_weight nbs w i k * hk nbs w beta s (repeat q n) k)).
  { rewrite VG, nth_map_seq' by auto. rewrite <- (returned d nbs w Hok Hw beta s _ i Hi). f_equal. apply (mean_ext n nbs w Hok); auto. intros k Hk. unfold hk. now rewrite AQ by auto. }
  assert (WP := wsum_pos n nbs w Hok Hw i Hi). set (hi := bigsum n (fun k => weight_sum nbs w k)).
  assert (Hi' : forall k, (k < n)%nat -> weight_sum nbs w k <= hi). { intros k Hk. unfold hi. rewrite <- (bigsum_delta n k (fun k => weight_sum nbs w k)) by auto. apply bigsum_le. intros j Hj. pose proof (wsum_pos n nbs w Hok Hw j Hj). destruct (Nat.eq_dec j k) as [->|N]; [rewrite delta_refl; lra|rewrite delta_ne by auto; lra]. }
  pose proof (strict_nonneg d nbs w Hok Hw Hsym (hk nbs w beta s (repeat q n)) i (weight_sum nbs w i) hi Hi (fun k Hk P => conj (HW k Hk P) (Hi' k Hk)) HK HX) as ST. fold n in ST. rewrite <- RK in ST.
  assert (MAIN : forall K, gradient_at n (ds_gkp1 d nbs w beta) s K -> nth i K 0 < nth i (ps_dgds ps) 0).
  { intros K HKG. rewrite (gradient_unique n _ s K _ L HKG GK i Hi). apply (Rmult_lt_reg_l (weight_sum nbs w i)); [exact WP|]. unfold grad. fold n. rewrite nth_map_seq' by auto. exact ST. }
  split; [exact MAIN|]. intros Q. specialize (MAIN _ Q). lra.
Qed.
