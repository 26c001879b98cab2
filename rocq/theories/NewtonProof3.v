(** The loops of the load stepping sample. *)
From Coq Require Import List Arith Lia Bool Reals Lra.
From Verif Require Import Res SumR DenseModel DenseR DenseSpec ShapeModel QuadModel QuadSpec ElemModel ElemSpec ElemSpec2 SparseModel SparseSpec AssemblyModel AssemblySpec KrylovSpec NewtonModel NewtonSpec.
From Verif Require Import DenseProof DenseMain SparseMain AssemblyProof AssemblyProof2 AssemblyProof3 AssemblyMain KrylovProof PatchProof2 StableProof3 StableProof4 TopProof4 ElemMain2 NewtonProof NewtonProof2.
Import ListNotations.
Local Open Scope R_scope.

Definition scale (d : newton) (f : nat) : R := INR f / INR (nw_steps d).
Definition tested (d : newton) (s : R) (u : list (list R)) : R := free_squares d (fun i j => out d s u i j - held_share d u i j).
Lemma after_keeps d t n u x u' c : newton_ok d -> ntables d t n -> keeps d u -> length x = n -> after d t u x = Ok (u', c) -> keeps d u' /\ c = false.
Proof.
  intros HT TB (HU & HV) HX E. destruct (after_ok d t n u x TB HU HX) as (v & E' & HS & V). rewrite E in E'. injection E' as <- <-. split; auto. split; auto.
  intros i j w Hw. pose proof (last_value_in (nw_ufixed d) i j) as L. rewrite Hw in L. destruct (no_fixed d HT i j w L) as [Hi Hj]. rewrite V, (HV i j w Hw) by auto.
  replace (num t i j) with (@None nat); [ring|]. symmetry. apply (nt_none _ _ _ TB i j Hi Hj). unfold held. now rewrite Hw.
Qed.
Lemma pass_total solve d t n f u : total_solver solve -> newton_ok d -> ntables d t n -> keeps d u -> (0 < f)%nat -> (0 < nw_steps d)%nat -> 0 < load_norm d ->
  exists u' c, nw_pass solve d t n f u = Ok (u', c) /\ keeps d u' /\ (c = true -> u' = u /\ tested d (scale d f) u < nw_tol d * (scale d f * load_norm d)) /\
    (c = false -> ~ tested d (scale d f) u < nw_tol d * (scale d f * load_norm d)).
Proof.
  intros HS HT TB HK Hf Hs HL. destruct (pass_ok solve d t n f u HT TB (proj1 HK) Hf Hs) as (A & b & _ & Lb & _ & _ & _ & E). specialize (E HL). fold (scale d f) in E. fold (tested d (scale d f) u) in E.
  destruct (Rlt_dec _ _) as [H|H].
  - exists u, true. split; [exact E|]. split; [exact HK|]. split; [auto|discriminate].
  - destruct (HS A b) as (x & Ex & Lx). rewrite Ex in E. cbn [bind] in E. destruct (after_ok d t n u x TB (proj1 HK)) as (u' & Ea & _); [congruence|].
    rewrite Ea in E. exists u', false. split; [exact E|]. split; [|split; [discriminate|auto]]. apply (after_keeps d t n u x u' false HT TB HK); [congruence|exact Ea].
Qed.
Lemma iterate_total solve d t n f : total_solver solve -> newton_ok d -> ntables d t n -> (0 < f)%nat -> (0 < nw_steps d)%nat -> 0 < load_norm d -> forall k u, keeps d u ->
  exists u' c, nw_iterate solve d t n f k u = Ok (u', c) /\ keeps d u' /\ (c = true -> tested d (scale d f) u' < nw_tol d * (scale d f * load_norm d)).
Proof.
  intros HS HT TB Hf Hs HL. induction k as [|k IH]; intros u HK.
  - exists u, false. split; [reflexivity|]. split; [exact HK|discriminate].
  - cbn [nw_iterate]. destruct (pass_total solve d t n f u HS HT TB HK Hf Hs HL) as (u' & c & E & HK' & T1 & _). rewrite E. cbn [bind]. destruct c.
    + exists u', true. split; [reflexivity|]. split; [exact HK'|]. intros _. destruct (T1 eq_refl) as (-> & T). exact T.
    + now apply IH.
Qed.
Lemma from_total solve d t n : total_solver solve -> newton_ok d -> ntables d t n -> (0 < nw_steps d)%nat -> 0 < load_norm d -> forall m f u, (0 < f)%nat -> keeps d u ->
  exists rs, nw_from solve d t n f m u = Ok rs /\ length rs = m /\
    forall k u c, nth_error rs k = Some (u, c) -> keeps d u /\ (c = true -> tested d (scale d (f + k)) u < nw_tol d * (scale d (f + k) * load_norm d)).
Proof.
  intros HS HT TB Hs HL. induction m as [|m IH]; intros f u Hf HK.
  - exists []. split; [reflexivity|]. split; [reflexivity|]. intros [|k]; discriminate.
  - cbn [nw_from]. destruct (iterate_total solve d t n f HS HT TB Hf Hs HL (nw_passes d) u HK) as (u' & c & E & HK' & T). rewrite E. cbn [bind].
    destruct (IH (S f) u' ltac:(lia) HK') as (rs & E' & L & P). rewrite E'. cbn [bind]. eexists. split; [reflexivity|]. split; [cbn [length]; now rewrite L|].
    intros [|k] v c' H; cbn [nth_error] in H.
    + injection H as <- <-. rewrite Nat.add_0_r. auto.
    + replace (f + S k)%nat with (S f + k)%nat by lia. now apply P.
Qed.
Lemma run_total solve d : total_solver solve -> newton_ok d -> 0 < load_norm d ->
  exists rs, nw_run solve d = Ok rs /\ length rs = nw_steps d /\
    forall k u c, nth_error rs k = Some (u, c) -> keeps d u /\ (c = true -> tested d (scale d (S k)) u < nw_tol d * (scale d (S k) * load_norm d)).
Proof.
  intros HS HT HL. destruct (start_ok d HT) as (u & t & n & E & TB & HK & _). unfold nw_run. rewrite E. cbn [bind].
  destruct (nw_steps d) as [|m] eqn:Em; [exists []; split; [reflexivity|]; split; [reflexivity|]; intros [|k]; discriminate|]. rewrite <- Em.
  apply (from_total solve d t n HS HT TB ltac:(lia) HL (nw_steps d) 1 u ltac:(lia) HK).
Qed.
Lemma run_idle solve d : newton_ok d -> load_norm d = 0 -> (0 < nw_steps d)%nat -> (0 < nw_passes d)%nat -> nw_run solve d = Fail DivByZero.
Proof.
  intros HT HL Hs Hp. destruct (start_ok d HT) as (u & t & n & E & TB & HK & _). unfold nw_run. rewrite E. cbn [bind].
  destruct (pass_ok solve d t n 1 u HT TB (proj1 HK) ltac:(lia) Hs) as (A & b & _ & _ & _ & _ & E1 & _). destruct (nw_steps d) as [|m]; [lia|]. cbn [nw_from]. destruct (nw_passes d) as [|k]; [lia|]. cbn [nw_iterate]. rewrite (E1 HL). reflexivity.
Qed.

(** ** Homogeneous prescribed values *)
Lemma no_share d t n u i j : newton_ok d -> ntables d t n -> keeps d u -> zero_held d -> held_share d u i j = 0.
Proof.
  intros HT TB (HU & HV) HZ. unfold held_share. apply sum_zero. intros e He. apply sum_zero. intros a Ha. rewrite sum_zero; [destruct (at_dof i j a); reflexivity|].
  intros b Hb. unfold held. pose proof (last_value_in (nw_ufixed d) (dnode b) (ddof b)) as L. destruct (last_value (nw_ufixed d) (dnode b) (ddof b)) as [v|] eqn:E; [|reflexivity].
  unfold duval. rewrite (HV _ _ v E), (HZ _ _ v L). cbn [ind]. ring.
Qed.
Lemma squares_ext d g h : (forall i j, (i < length (nw_x d))%nat -> (j < 3)%nat -> held d i j = false -> g i j = h i j) -> free_squares d g = free_squares d h.
Proof. intros H. unfold free_squares. apply bigsum_ext. intros i Hi. apply bigsum_ext. intros j Hj. destruct (held d i j) eqn:E; auto. now rewrite (H i j Hi Hj E). Qed.
Lemma tested_zero d t n s u : newton_ok d -> ntables d t n -> keeps d u -> zero_held d -> tested d s u = free_squares d (out d s u).
Proof. intros HT TB HK HZ. apply squares_ext. intros i j _ _ _. rewrite (no_share d t n u i j) by auto. ring. Qed.
Lemma bigsum_term_le n k f : (k < n)%nat -> (forall i, (i < n)%nat -> 0 <= f i) -> f k <= bigsum n f.
Proof.
  induction n as [|n IH]; intros Hk H; [lia|]. cbn [bigsum]. destruct (Nat.eq_dec k n) as [->|Hne].
  - assert (0 <= bigsum n f) by (apply bigsum_nonneg; intros; apply H; lia). lra.
  - assert (f k <= bigsum n f) by (apply IH; [lia|intros; apply H; lia]). pose proof (H n ltac:(lia)). lra.
Qed.
Lemma square_bound d g i j c : (i < length (nw_x d))%nat -> (j < 3)%nat -> held d i j = false -> free_squares d g < c -> g i j * g i j < c.
Proof.
  intros Hi Hj Hh H. eapply Rle_lt_trans; [|exact H]. unfold free_squares.
  assert (P : forall i j, 0 <= (if held d i j then 0 else g i j * g i j)). { intros i' j'. destruct (held d i' j'); [lra|apply Rle_0_sqr]. }
  eapply Rle_trans; [|apply (bigsum_term_le (length (nw_x d)) i (fun i => bigsum 3 (fun j => if held d i j then 0 else g i j * g i j)))]; auto.
  - cbv beta. eapply Rle_trans; [|apply (bigsum_term_le 3 j (fun j => if held d i j then 0 else g i j * g i j))]; auto. rewrite Hh. lra.
  - intros k _. apply bigsum_nonneg. auto.
Qed.

(** ** The Newton equation *)
Lemma pass_step solve d t n f u u' : newton_ok d -> ntables d t n -> nshape d u -> (0 < f)%nat -> (0 < nw_steps d)%nat -> 0 < load_norm d ->
  (forall A b x, solve A b = Ok x -> length x = length b /\ csr_mulvec 0 Rplus Rmult A x = Ok b) -> nw_pass solve d t n f u = Ok (u', false) ->
  forall i j, (i < length (nw_x d))%nat -> (j < 3)%nat -> held d i j = false ->
    sum_over (nels d u) (fun e => sum_over (e_dofs e) (fun a => ind (at_dof i j a) (sum_over (e_dofs e) (fun b => e_k e (dloc a) (dloc b) * (duval u' b - duval u b))))) = out d (scale d f) u i j - held_share d u i j.
Proof.
  intros HT TB HU Hf Hs HL HX EP i j Hi Hj Hh. destruct (pass_ok solve d t n f u HT TB HU Hf Hs) as (A & b & SQ & Lb & ROW & EN & _ & E). specialize (E HL). rewrite EP in E.
  destruct (Rlt_dec _ _); [discriminate|]. destruct (solve A b) as [x|] eqn:Ex; [|discriminate]. cbn [bind] in E. destruct (HX A b x Ex) as (Lx & Mx). destruct (after_ok d t n u x TB HU) as (v & Ea & _ & V); [congruence|].
  rewrite Ea in E. injection E as ->. destruct (num t i j) as [k|] eqn:Ek; [|apply (nt_none _ _ _ TB i j Hi Hj) in Ek; congruence].
  fold (scale d f) in ROW. rewrite <- (ROW i j k Ek). assert (Hk : (k < n)%nat) by (destruct (nt_num _ _ _ TB) as (B2 & _); eauto).
  pose proof (proj1 (mulvec_rows n A x b SQ ltac:(congruence) Lb) Mx k Hk) as M. unfold ix in M. rewrite <- M. unfold matvec.
  rewrite (bigsum_ext n _ (fun c => sum_over (nels d u) (fun e => k_contrib t e k c * nth c x 0))).
  2:{ intros c Hc. rewrite EN by auto. rewrite Rmult_comm, <- sum_over_scal. apply sum_ext. intros; ring. }
  rewrite bigsum_over. apply sum_ext. intros e He. set (z := repeat (vnew R_ops 3) (length (nw_x d))).
  assert (OK : elem_ok n t z e).
  { destruct (nels_ok d u t n e HT TB HU He) as (O1 & O2 & O3). split; auto. split; auto. intros a Ha. destruct (O3 a Ha) as (P1 & P2 & P3). split; auto. split; auto. apply in_repeat3. now apply (nt_in _ _ _ TB). }
  pose proof (equilibrium_row n t z e (fun c => nth c x 0) k OK) as Q. replace (d_contrib t z e k) with 0 in Q.
  2:{ symmetry. unfold d_contrib. apply sum_zero. intros a _. apply sum_zero. intros c _. unfold duval, z. rewrite uval_zero3. rewrite Rmult_0_r. destruct (_ && _)%bool; reflexivity. }
  rewrite Rplus_0_r in Q. rewrite Q. apply sum_ext. intros a Ha. rewrite (at_number d t n i j k a TB Ek). f_equal. apply sum_ext. intros c Hc. f_equal.
  destruct OK as (_ & _ & OK). destruct (OK c Hc) as (O1 & _). apply (nt_in _ _ _ TB) in O1. destruct O1 as [C1 C2]. unfold duval. rewrite V by auto. unfold dnum. destruct (num t (dnode c) (ddof c)); [ring|]. unfold z. rewrite uval_zero3. ring.
Qed.
