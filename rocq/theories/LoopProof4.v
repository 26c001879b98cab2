(** The loop runs through. *)
From Coq Require Import List Arith Lia Bool Reals Lra.
From Verif Require Import Res SumR DenseR FilterModel FilterSpec OCModel TopModel TopSpec LoopModel LoopSpec.
From Verif Require Import FilterMain TopMain LoopProof2 LoopProof3.
Import ListNotations.
Local Open Scope R_scope.

Section P.
Variables (solve : SparseModel.csr R -> list R -> res (list R)) (d : top) (nbs : list (list nat)) (w : list (list R)).
Let n := length (tp_elements d).
Hypothesis HS : spd_solver solve.
Hypothesis HT : top_ok d.
Hypothesis HC : loop_consts d.
Hypothesis Hok : filter_ok n nbs w.
Hypothesis Hw : weights_nonneg nbs w.

Lemma gkp1_val beta s : 0 < beta -> length s = n -> ds_constraint d nbs w beta s = Ok (ds_gkp1 d nbs w beta s) /\
  ds_gkp1 d nbs w beta s = tp_scale1 d * (bigsum n (fun i => nth i (rho_of d nbs w beta s) 0) / INR n / tp_limit d - 1).
Proof.
  intros Hb L. destruct HC as (HE & _). pose proof (limit_ne d HC) as HL. assert (LR : length (rho_of d nbs w beta s) = n) by apply rho_len.
  destruct (C108_weight_pf d (rho_of d nbs w beta s) LR HE HL) as (g & dg & EW & V & _).
  pose proof (constraint_weight d nbs w beta s _ g dg HE HL (rho_run d nbs w Hok beta s Hb L) LR EW) as E. unfold ds_gkp1. rewrite E. rewrite LR in V. auto.
Qed.
Lemma rho_mono beta s t : 0 < beta -> (forall i, (i < n)%nat -> nth i s 0 <= nth i t 0) -> forall i, (i < n)%nat -> nth i (rho_of d nbs w beta s) 0 <= nth i (rho_of d nbs w beta t) 0.
Proof.
  intros Hb H i Hi. unfold rho_of. fold n. rewrite (nth_map_seq' (fun i => project beta (mean nbs w (at_ s) i))), (nth_map_seq' (fun i => project beta (mean nbs w (at_ t) i))) by auto.
  apply project_mono; auto. apply (mean_le n nbs w Hok); auto. intros k Hk. apply H. apply (nb_lt n nbs w Hok i k Hi Hk).
Qed.
Lemma gkp1_mono beta s t : 0 < beta -> length s = n -> length t = n -> (forall i, (i < n)%nat -> nth i s 0 <= nth i t 0) -> ds_gkp1 d nbs w beta s <= ds_gkp1 d nbs w beta t.
Proof.
  intros Hb Ls Lt H. rewrite (proj2 (gkp1_val beta s Hb Ls)), (proj2 (gkp1_val beta t Hb Lt)). destruct HC as (HE & _ & _ & H1 & HL).
  assert (N : 0 < INR n). { apply lt_0_INR. unfold n. destruct (tp_elements d); [congruence|cbn; lia]. }
  apply Rmult_le_compat_l; [lra|]. apply Rplus_le_compat_r. unfold Rdiv. apply Rmult_le_compat_r; [left; now apply Rinv_0_lt_compat|]. apply Rmult_le_compat_r; [left; now apply Rinv_0_lt_compat|].
  apply bigsum_le. intros i Hi. now apply rho_mono.
Qed.
(** what a pass keeps *)
Definition st_ok (st : dstate) : Prop := 0 < ds_beta st /\ unit_design n (ds_s st) /\ oc_params n (ds_oc st).
Lemma iteration_safe fuel k st : st_ok st ->
  (exists stop st', ds_iteration solve d nbs w fuel k st = Ok (stop, st') /\ st_ok st' /\ (stop = true -> ds_s st' = ds_s st) /\
     (forall i, (i < n)%nat -> Rabs (nth i (ds_s st') 0 - nth i (ds_s st) 0) <= oc_move (ds_oc st) * nth i (ds_s st) 0) /\
     oc_move (ds_oc st') = oc_move (ds_oc st)) \/
  ds_iteration solve d nbs w fuel k st = Fail OutOfFuel.
Proof.
  intros (Hb & HU & HO). unfold ds_iteration. set (beta := if (k mod 40 =? 0)%nat then ds_beta st * 2 else ds_beta st).
  assert (Hb' : 0 < beta) by (unfold beta; destruct (k mod 40 =? 0)%nat; lra).
  destruct (pass_ok solve d nbs w HS HT HC Hok Hw beta (ds_s st) Hb' HU) as (ps & E & _). rewrite E. cbn [bind].
  destruct (pass_signs solve d nbs w HS HT HC Hok Hw beta (ds_s st) ps Hb' HU E) as (L1 & L2 & SG). pose proof HU as [L0 U].
  destruct HO as (On & Ol & Oe & Oi & Om). destruct (oc_is_convergence (ds_oc st) (an_f (ps_an ps))) eqn:EC.
  - left. exists true, (mkDs beta (ds_s st) (ds_oc st)). split; [reflexivity|]. split; [split; [exact Hb'|split; [exact HU|split; [exact On|auto]]]|]. split; [auto|]. split; [|reflexivity]. intros i Hi. cbn [ds_s]. replace (nth i (ds_s st) 0 - nth i (ds_s st) 0) with 0 by ring. rewrite Rabs_R0. destruct (U i Hi). nra.
  - assert (Ux : forall i, (i < oc_n (ds_oc st))%nat -> 0 <= nth i (ds_s st) 0 <= 1) by (rewrite On; intros i Hi; destruct (U i Hi); lra).
    assert (Sx : forall i, (i < oc_n (ds_oc st))%nat -> nth i (ps_dfds ps) 0 <= 0 /\ 0 < nth i (ps_dgds ps) 0) by (rewrite On; exact SG).
    destruct (update_safe (ds_oc st) (ds_s st) (ps_dfds ps) (ps_dgds ps) (ds_gkp1 d nbs w beta) ltac:(now rewrite On) ltac:(now rewrite On) ltac:(now rewrite On) Sx Oi fuel (an_f (ps_an ps)) Ol (proj2 Oe)) as [(o' & l & Hl & EU & Eo)|EU]; [|right; now rewrite EU].
    left. rewrite EU. cbn [bind]. eexists _, _. split; [reflexivity|]. split; [split; [exact Hb'|split; [split|]]|split; [discriminate|split]]; cbn [ds_s ds_oc].
    + now rewrite map_length, seq_length.
    + intros i Hi. rewrite <- On in Hi. rewrite nth_map_seq' by auto. apply cval_unit; auto. apply U. now rewrite <- On.
    + rewrite Eo. unfold oc_params. cbn. auto.
    + intros i Hi. rewrite <- On in Hi. rewrite nth_map_seq' by auto. pose proof (cval_in (ds_oc st) (ds_s st) (ps_dfds ps) (ps_dgds ps) Ux Om l i Hi) as [A B]. unfold lo, hi in A, B.
      pose proof (Rmax_r 0 ((1 - oc_move (ds_oc st)) * nth i (ds_s st) 0)). pose proof (Rmin_r 1 ((1 + oc_move (ds_oc st)) * nth i (ds_s st) 0)). apply Rabs_le. lra.
    + rewrite Eo. reflexivity.
Qed.
Lemma run_safe fuel todo : forall k st, st_ok st -> (exists stop st', ds_run solve d nbs w fuel k todo st = Ok (stop, st') /\ st_ok st') \/ ds_run solve d nbs w fuel k todo st = Fail OutOfFuel.
Proof.
  induction todo as [|todo IH]; intros k st H; cbn [ds_run]; [left; eauto|].
  destruct (iteration_safe fuel k st H) as [(stop & st' & E & H' & _)|E]; rewrite E; cbn [bind]; [|now right]. destruct stop; [left; eauto|]. apply IH. exact H'.
Qed.
End P.
