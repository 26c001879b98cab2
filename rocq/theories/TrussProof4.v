(** Sensitivities, optimality and the loop of the size optimisation. *)
From Coq Require Import List Arith Lia Bool Reals Lra.
From Verif Require Import Res SumR DenseModel DenseR DenseSpec ElemModel ElemSpec LUModel SparseModel SparseSpec AssemblyModel AssemblySpec KrylovSpec OCModel TopModel TopSpec LoopModel LoopSpec TrussModel TrussSpec.
From Verif Require Import DenseProof SparseMain AssemblyProof FilterMain OCMain ThetaProof5 TopProof TopProof5 TopMain LoopProof LoopProof3 TrussProof TrussProof2 TrussProof3.
Import ListNotations.
Local Open Scope R_scope.

Section Z.
Variables (solve : csr R -> list R -> res (list R)) (z : sizing).
Let d := sz_d z.
Hypothesis HS : spd_solver solve.
Hypothesis HZ : sizing_ok z.
Let HT : truss_ok d := proj1 HZ.
Let RG : rigid_truss d := proj1 (proj2 HZ).
Let HE : tr_elements d <> [] := proj1 (proj2 (proj2 HZ)).
Let HA : 0 < sz_A0 z <= sz_A1 z := proj1 (proj2 (proj2 (proj2 HZ))).
Let HL : 0 < sz_limit z := proj1 (proj2 (proj2 (proj2 (proj2 HZ)))).
Let H0 : 0 <= sz_scale0 z := proj2 (proj2 (proj2 (proj2 (proj2 HZ)))).

Lemma sens_path (s : R -> list R) (D : nat -> R) y r a : 0 < r -> (forall h, Rabs h < r -> areas_ok d (design_areas z (s (y + h)))) ->
  (forall j, (j < nb d)%nat -> derivable_pt_lim (fun q => nth j (s q) 0) y (D j)) -> sz_analysis solve z (s y) = Ok a ->
  derivable_pt_lim (fun q => objective (sz_analysis solve z (s q))) y (bigsum (nb d) (fun j => nth j (an_df a) 0 * D j)).
Proof.
  intros Hr HD HJ E. destruct (ttables_exist d HT) as (u1 & t & n & TB). assert (HD0 : areas_ok d (design_areas z (s y))). { rewrite <- (Rplus_0_r y). apply HD. now rewrite Rabs_R0. }
  destruct (zanalysis_ok z HT solve HS RG (s y) u1 t n HD0 TB) as (a' & E' & SO & _ & _ & _ & _ & _ & VF & VD). rewrite E in E'. injection E' as <-.
  set (c := fun q => match sz_analysis solve z (s q) with Ok b => tlw d (uval (an_u b)) | Fail _ => 0 end).
  assert (W : derivable_pt_lim c y (- bigsum (nb d) (fun j => (sz_A1 z - sz_A0 z) * D j * kbar d j (uval (an_u a)) (uval (an_u a))))).
  { apply (work_derivative field comb (nb d) (kbar d) (tlw d) (vs t) (fun i p u q u' v _ => kbar_l d i p u q u' v) (fun i u v _ => kbar_s d i u v) (fun i u Hi => kbar_p d i u HT Hi) (fun p u q u' => vs_l t p u q u')
      (fun q i => if (i <? nb d)%nat then ar z (s q) i else 0) (fun j => (sz_A1 z - sz_A0 z) * D j) y (uval (an_u a)) c r Hr).
    - intros h j Hh Hj. destruct (Nat.ltb_spec j (nb d)); [|lia]. pose proof (area_pos z (s (y + h)) (HD h Hh) j Hj) as P. destruct (area_nth z (s (y + h)) j (design_len z _ (HD h Hh)) Hj) as [X _]. fold d in X. rewrite X in P. exact P.
    - intros j Hj. apply (lim_local (fun q => sz_A0 z + (sz_A1 z - sz_A0 z) * nth j (s q) 0) _ y _ r Hr).
      + intros h Hh. destruct (Nat.ltb_spec j (nb d)); [|lia]. unfold ar. ring.
      + rewrite <- (Rplus_0_l ((sz_A1 z - sz_A0 z) * D j)). apply (derivable_pt_lim_plus (fun _ => sz_A0 z) (fun q => (sz_A1 z - sz_A0 z) * nth j (s q) 0)); [apply derivable_pt_lim_const|]. apply derivable_pt_lim_scal. now apply HJ.
    - destruct SO as [V1 S1]. split; auto. intros w Hw. etransitivity; [|exact (S1 w Hw)]. apply bigsum_ext. intros i Hi. replace (i <? nb d)%nat with true by (symmetry; apply Nat.ltb_lt; exact Hi). destruct (area_nth z (s y) i (design_len z _ HD0) Hi) as [X _]. fold d in X. now rewrite X.
    - unfold c. now rewrite E.
    - intros h Hh. destruct (zanalysis_ok z HT solve HS RG (s (y + h)) u1 t n (HD h Hh) TB) as (b & Eb & [V1 S1] & _). exists (uval (an_u b)). split; [|unfold c; now rewrite Eb]. split; auto. intros w Hw. etransitivity; [|exact (S1 w Hw)]. apply bigsum_ext. intros i Hi. replace (i <? nb d)%nat with true by (symmetry; apply Nat.ltb_lt; exact Hi).
      destruct (area_nth z (s (y + h)) i (design_len z _ (HD h Hh)) Hi) as [X _]. fold d in X. now rewrite X. }
  apply (lim_local (fun q => sz_scale0 z * c q) _ y _ r Hr).
  - intros h Hh. destruct (zanalysis_ok z HT solve HS RG (s (y + h)) u1 t n (HD h Hh) TB) as (b & Eb & _ & _ & _ & _ & _ & _ & VB & _). unfold c, objective. now rewrite Eb, VB.
  - set (sm := bigsum (nb d) (fun j => (sz_A1 z - sz_A0 z) * D j * kbar d j (uval (an_u a)) (uval (an_u a)))) in *. replace (bigsum (nb d) (fun j => nth j (an_df a) 0 * D j)) with (sz_scale0 z * - sm).
    + apply derivable_pt_lim_scal. exact W.
    + replace (sz_scale0 z * - sm) with (- sz_scale0 z * sm) by ring. unfold sm. rewrite <- bigsum_scal. apply bigsum_ext. intros j Hj. rewrite VD, TopMain.nth_map_seq by auto. unfold dfz. fold d. ring.
Qed.

Let ls := map (bar_length d) (seq 0 (nb d)).
Let W := tot z.
(** designs that satisfy the optimality conditions *)
Lemma optimal s s' a a' lam : closed_design (nb d) s -> closed_design (nb d) s' -> sz_analysis solve z s = Ok a -> sz_analysis solve z s' = Ok a' -> 0 <= lam ->
  weight_share z s' <= 1 -> lam * (weight_share z s - 1) = 0 ->
  (forall i, (i < nb d)%nat -> (nth i s 0 < 1 -> 0 <= nth i (an_df a) 0 + lam * dgz z i) /\ (0 < nth i s 0 -> nth i (an_df a) 0 + lam * dgz z i <= 0)) ->
  an_f a <= an_f a'.
Proof.
  intros [L HC] [L' HC'] E E' Hl Hw Hc K.
  pose proof (objective_tangent z HT solve HS RG s s' a a' H0 (closed_ok z s HA (conj L HC)) (closed_ok z s' HA (conj L' HC')) E E') as T. fold d in T.
  assert (P : 0 <= bigsum (nb d) (fun i => (nth i (an_df a) 0 + lam * dgz z i) * (nth i s' 0 - nth i s 0))).
  { apply bigsum_nonneg. intros i Hi. destruct (K i Hi) as [K1 K2]. specialize (HC i Hi). specialize (HC' i Hi). destruct (Rle_lt_dec (nth i s 0) (nth i s' 0)).
    - destruct (Rlt_dec (nth i s 0) 1) as [M|M]; [specialize (K1 M); apply Rmult_le_pos; lra|]. replace (nth i s' 0 - nth i s 0) with 0 by lra. lra.
    - destruct (Rlt_dec 0 (nth i s 0)) as [M|M]; [specialize (K2 M)|lra]. replace ((nth i (an_df a) 0 + lam * dgz z i) * (nth i s' 0 - nth i s 0)) with (- (nth i (an_df a) 0 + lam * dgz z i) * (nth i s 0 - nth i s' 0)) by ring. apply Rmult_le_pos; lra. }
  rewrite (bigsum_ext (nb d) _ (fun i => nth i (an_df a) 0 * (nth i s' 0 - nth i s 0) + lam * (dgz z i * (nth i s' 0 - nth i s 0)))) in P by (intros; ring).
  rewrite bigsum_plus, bigsum_scal in P. pose proof (share_sum z s s') as SS. fold d in SS. rewrite <- SS in P. set (B := bigsum (nb d) _) in *. clearbody B. nra.
Qed.

Lemma unit_closed s : unit_design (nb d) s -> closed_design (nb d) s.
Proof. intros [L H]. split; auto. intros i Hi. specialize (H i Hi). lra. Qed.
Lemma pass_parts s : unit_design (nb d) s -> exists dg a, sz_weight z ls W s = Ok (weight_share z s - 1, dg) /\ sz_analysis solve z s = Ok a /\ length dg = nb d /\ length (an_df a) = nb d /\
  (forall i, (i < nb d)%nat -> nth i dg 0 = dgz z i /\ nth i (an_df a) 0 <= 0 /\ 0 < nth i dg 0).
Proof.
  intros HU. destruct (weight_ok z HT HE HL s (proj1 HU)) as (dg & E1 & L1 & V1). destruct (ttables_exist d HT) as (u1 & t & n & TB). pose proof (closed_ok z s HA (unit_closed s HU)) as HD.
  destruct (zanalysis_ok z HT solve HS RG s u1 t n HD TB) as (a & E & _ & _ & _ & _ & _ & _ & _ & VD). exists dg, a. splits; auto.
  - rewrite VD, map_length, seq_length. reflexivity.
  - intros i Hi. rewrite V1 by auto. split; auto. split; [|now apply dgz_pos]. apply (df_nonpos z HT solve HS RG a s i H0 (proj2 HA) HD E Hi).
Qed.
(** a design that the optimiser does not change *)
Lemma fixed_kkt o s a dg lam i : unit_design (nb d) s -> oc_n o = nb d -> 0 < oc_iota o -> 0 < oc_move o < 1 -> 0 < lam ->
  sz_weight z ls W s = Ok (weight_share z s - 1, dg) -> sz_analysis solve z s = Ok a -> oc_candidate o s (an_df a) dg lam = Ok s -> (i < nb d)%nat ->
  (nth i s 0 < 1 -> 0 <= nth i (an_df a) 0 + lam * dgz z i) /\ (0 < nth i s 0 -> nth i (an_df a) 0 + lam * dgz z i <= 0).
Proof.
  intros HU On Hi0 Hm Hl E1 E2 EC Hi. destruct (pass_parts s HU) as (dg' & a' & E1' & E2' & L1 & L2 & V). rewrite E1 in E1'. injection E1' as <-. rewrite E2 in E2'. injection E2' as <-. destruct HU as [Ls HU].
  assert (Sx : forall i, (i < oc_n o)%nat -> nth i (an_df a) 0 <= 0 /\ 0 < nth i dg 0) by (rewrite On; intros j Hj; apply V; auto).
  rewrite (cand_vals o s (an_df a) dg) in EC; auto; try (now rewrite On). injection EC as EC.
  assert (CV : cval o s (an_df a) dg lam i = nth i s 0). { rewrite <- EC at 2. rewrite On. now rewrite TopMain.nth_map_seq by auto. }
  destruct (V i Hi) as (Vg & Vf & Vp). rewrite <- Vg. specialize (HU i Hi). unfold cval, clip, lo, hi in CV. set (x := nth i s 0) in *. set (q := quo (an_df a) dg lam i) in *.
  rewrite Rmax_right in CV by (apply Rmult_le_pos; lra).
  assert (NL : Rltb (pw o q * x) ((1 - oc_move o) * x) = false). { destruct (Rltb (pw o q * x) ((1 - oc_move o) * x)) eqn:E; auto. exfalso. nra. }
  rewrite NL in CV.
  assert (Q : q * (nth i dg 0 * lam) = - nth i (an_df a) 0) by (unfold q, quo; field; split; lra).
  assert (HQ : 0 <= q) by (unfold q, quo; apply Rmult_le_pos; [lra|]; left; apply Rinv_0_lt_compat; now apply Rmult_lt_0_compat).
  assert (PW1 : pw o q < 1 -> q < 1).
  { intros P. destruct (Rlt_dec q 1); auto. exfalso. unfold pw in P. destruct (Rlt_dec 0 q); [|lra]. assert (1 <= Rpower q (oc_iota o)); [|lra]. rewrite <- (Rpower_O q) by auto. apply Rle_Rpower; lra. }
  assert (PW2 : 1 < pw o q -> 1 < q).
  { intros P. destruct (Rlt_dec 1 q); auto. exfalso. unfold pw in P. destruct (Rlt_dec 0 q) as [q0|q0]; [|lra]. assert (Rpower q (oc_iota o) <= 1); [|lra]. replace 1 with (Rpower 1 (oc_iota o)) by (unfold Rpower; rewrite ln_1, Rmult_0_r; apply exp_0). apply Rle_Rpower_l; lra. }
  assert (PW3 : pw o q = 1 -> q = 1).
  { intros P. unfold pw in P. destruct (Rlt_dec 0 q) as [q0|q0]; [|lra]. unfold Rpower in P. rewrite <- exp_0 in P. apply exp_inv in P. apply Rmult_integral in P. destruct P as [P|P]; [lra|]. rewrite <- ln_1 in P. apply ln_inv in P; lra. }
  destruct (Rltb (Rmin 1 ((1 + oc_move o) * x)) (pw o q * x)) eqn:E3.
  - apply Rltb_true in E3. rewrite CV in E3. assert (X1 : x = 1). { unfold Rmin in CV. destruct (Rle_dec 1 ((1 + oc_move o) * x)); [lra|]. exfalso. nra. }
    split; [intros; lra|]. intros _. assert (1 < q) by (apply PW2; rewrite X1 in E3; lra). assert (0 < nth i dg 0 * lam) by (now apply Rmult_lt_0_compat). nra.
  - assert (P1 : pw o q = 1) by nra. specialize (PW3 P1). rewrite PW3 in Q. split; intros _; lra.
Qed.

(** ** The loop *)
Definition zst_ok (st : list R * oc) : Prop := unit_design (nb d) (fst st) /\ oc_params (nb d) (snd st).
Lemma zstep_safe fuel st : zst_ok st ->
  (exists stop st', sz_iteration solve z ls W fuel st = Ok (stop, st') /\ zst_ok st' /\ (stop = true -> fst st' = fst st) /\
     (forall i, (i < nb d)%nat -> Rabs (nth i (fst st') 0 - nth i (fst st) 0) <= oc_move (snd st) * nth i (fst st) 0)) \/
  sz_iteration solve z ls W fuel st = Fail OutOfFuel.
Proof.
  destruct st as [s o]. intros [HU HO]. cbn [fst snd] in *. unfold sz_iteration. destruct (pass_parts s HU) as (dg & a & E1 & E2 & L1 & L2 & V). rewrite E1. cbn [bind]. rewrite E2. cbn [bind].
  pose proof HU as [L0 U]. destruct HO as (On & Ol & Oe & Oi & Om). destruct (oc_is_convergence o (an_f a)) eqn:EC.
  - left. exists true, (s, o). split; [reflexivity|]. split; [split; [exact HU|split; [exact On|auto]]|]. split; [auto|]. intros i Hi. cbn [fst]. replace (nth i s 0 - nth i s 0) with 0 by ring. rewrite Rabs_R0. destruct (U i Hi). nra.
  - assert (Ux : forall i, (i < oc_n o)%nat -> 0 <= nth i s 0 <= 1) by (rewrite On; intros i Hi; destruct (U i Hi); lra).
    assert (Sx : forall i, (i < oc_n o)%nat -> nth i (an_df a) 0 <= 0 /\ 0 < nth i dg 0) by (rewrite On; intros i Hi; apply V; auto).
    destruct (update_safe o s (an_df a) dg (sz_gkp1 z ls W) ltac:(now rewrite On) ltac:(now rewrite On) ltac:(now rewrite On) Sx Oi fuel (an_f a) Ol (proj2 Oe)) as [(o' & l & Hl & EU & Eo)|EU]; [|right; now rewrite EU].
    left. rewrite EU. cbn [bind]. eexists _, _. split; [reflexivity|]. split; [split; [split|]|split; [discriminate|]]; cbn [fst snd].
    + now rewrite map_length, seq_length.
    + intros i Hi. rewrite <- On in Hi. rewrite nth_map_seq' by auto. apply cval_unit; auto. apply U. now rewrite <- On.
    + rewrite Eo. unfold oc_params. cbn. auto.
    + intros i Hi. rewrite <- On in Hi. rewrite nth_map_seq' by auto. pose proof (cval_in o s (an_df a) dg Ux Om l i Hi) as [A B]. unfold lo, hi in A, B.
      pose proof (Rmax_r 0 ((1 - oc_move o) * nth i s 0)). pose proof (Rmin_r 1 ((1 + oc_move o) * nth i s 0)). apply Rabs_le. lra.
Qed.
Lemma zrun_safe fuel todo : forall st, zst_ok st -> (exists stop st', sz_run solve z ls W fuel todo st = Ok (stop, st') /\ zst_ok st') \/ sz_run solve z ls W fuel todo st = Fail OutOfFuel.
Proof.
  induction todo as [|todo IH]; intros st H; cbn [sz_run]; [left; eauto|].
  destruct (zstep_safe fuel st H) as [(stop & st' & E & H' & _)|E]; rewrite E; cbn [bind]; [|now right]. destruct stop; [left; eauto|]. apply IH. exact H'.
Qed.
Lemma zupdate_iff o s a dg : unit_design (nb d) s -> oc_params (nb d) o -> oc_lmin o = 0 -> sz_weight z ls W s = Ok (weight_share z s - 1, dg) -> sz_analysis solve z s = Ok a ->
  (exists fuel r, oc_update o fuel s (an_f a) (an_df a) dg (sz_gkp1 z ls W) = Ok r) <-> 1 < weight_share z (largest_step o s (an_df a)).
Proof.
  intros HU HO Hz E1 E2. destruct (pass_parts s HU) as (dg' & a' & E1' & E2' & L1 & L2 & V). rewrite E1 in E1'. injection E1' as <-. rewrite E2 in E2'. injection E2' as <-. destruct HU as [L0 U]. destruct HO as (On & Ol & Oe & Oi & Om).
  assert (Ux : forall i, (i < oc_n o)%nat -> 0 <= nth i s 0 <= 1) by (rewrite On; intros i Hi; destruct (U i Hi); lra).
  assert (Sx : forall i, (i < oc_n o)%nat -> nth i (an_df a) 0 <= 0 /\ 0 < nth i dg 0) by (rewrite On; intros i Hi; apply V; auto).
  rewrite (update_iff o s (an_df a) dg (sz_gkp1 z ls W)); auto; try (now rewrite On); try lra.
  - assert (LL : length (largest_step o s (an_df a)) = nb d) by (unfold largest_step; rewrite map_length, seq_length; exact On).
    pose proof (gk_val z HT HE HL _ LL) as G. fold d ls W in G. rewrite G. split; intros; lra.
  - rewrite On. intros x y Lx Ly H. pose proof (gk_val z HT HE HL x Lx) as G1. pose proof (gk_val z HT HE HL y Ly) as G2. fold d ls W in G1, G2. rewrite G1, G2. pose proof (share_mono z HT HE HL x y H). lra.
  - rewrite Hz in Oe. destruct Oe as [A B]. split; auto. replace ((oc_lmax o - 0) / (oc_lmax o + 0)) with 1 in B by (field; lra). exact B.
Qed.
End Z.
