(** SOR sweeps converge for symmetric positive definite matrices (Ostrowski-Reich). *)
From Coq Require Import List Arith Lia Bool Reals Lra Sorted.
From Verif Require Import Res SumR SparseModel SparseSpec SparseProof DenseModel DenseR LUModel LUProof KrylovModel KrylovSpec KrylovProof CGMath KrylovProof2 IluProof SorProof.
Import ListNotations.
Local Open Scope R_scope.

(** a list from a function *)
Definition tab (n : nat) (f : nat -> R) : list R := map f (seq 0 n).
Lemma tab_length n f : length (tab n f) = n.
Proof. unfold tab. now rewrite map_length, seq_length. Qed.
Lemma tab_ix n f i : (i < n)%nat -> ix (tab n f) i = f i.
Proof.
  intros Hi. unfold ix, tab. rewrite (nth_indep _ 0 (f 0%nat)) by now rewrite map_length, seq_length.
  rewrite map_nth, seq_nth; auto.
Qed.

(** a positive definite system has a solution *)
Lemma spd_solution n A : square_csr n A -> symmetric n (entry A) -> pos_def n (entry A) ->
  forall f : nat -> R, exists g, forall i, (i < n)%nat -> matvec n (entry A) g i = f i.
Proof.
  intros HA Hs Hp f.
  destruct (pcg_trace n A id_pre (fun u => u) (tab n f) HA (tab_length n f) Hs (fun k => Hp _) (id_computes n)
     (fun u v => eq_refl) (fun u H => dot_pos n u H)) as (m & tr & Hm & E0 & Es & Hn & Hz & Hr & Ho).
  exists (ix (pc_x (tr m))). intros i Hi. specialize (Hr m ltac:(lia) i Hi). rewrite Hz in Hr by auto.
  unfold residual in Hr. rewrite tab_ix in Hr by auto. lra.
Qed.

Definition tends0 (u : nat -> R) : Prop := forall eps, 0 < eps -> exists K, forall k, (K <= k)%nat -> Rabs (u k) < eps.

Lemma tends0_plus u v : tends0 u -> tends0 v -> tends0 (fun k => u k + v k).
Proof.
  intros Hu Hv eps He. destruct (Hu (eps / 2) ltac:(lra)) as [K1 H1]. destruct (Hv (eps / 2) ltac:(lra)) as [K2 H2].
  exists (Nat.max K1 K2). intros k Hk. specialize (H1 k ltac:(lia)). specialize (H2 k ltac:(lia)).
  pose proof (Rabs_triang (u k) (v k)). lra.
Qed.
Lemma tends0_scal c u : tends0 u -> tends0 (fun k => c * u k).
Proof.
  intros Hu eps He. destruct (Req_dec c 0) as [->|Hc].
  - exists 0%nat. intros. rewrite Rmult_0_l, Rabs_R0. auto.
  - assert (Hc' : 0 < Rabs c) by now apply Rabs_pos_lt.
    destruct (Hu (eps / Rabs c)) as [K H]; [now apply Rdiv_lt_0_compat|]. exists K. intros k Hk. specialize (H k Hk).
    rewrite Rabs_mult. apply (Rmult_lt_compat_l (Rabs c)) in H; auto.
    replace (Rabs c * (eps / Rabs c)) with eps in H by (field; lra). auto.
Qed.
Lemma tends0_ext u v : (forall k, u k = v k) -> tends0 u -> tends0 v.
Proof. intros E H eps He. destruct (H eps He) as [K HK]. exists K. intros k Hk. rewrite <- E. auto. Qed.
Lemma tends0_bigsum n (u : nat -> nat -> R) : (forall i, (i < n)%nat -> tends0 (fun k => u k i)) -> tends0 (fun k => bigsum n (u k)).
Proof.
  induction n as [|n IH]; intros H.
  - intros eps He. exists 0%nat. intros. cbn [bigsum]. now rewrite Rabs_R0.
  - cbn [bigsum]. apply tends0_plus; [apply IH; intros; apply H; lia|apply H; lia].
Qed.
Lemma tends0_le u v : (forall k, Rabs (u k) <= Rabs (v k)) -> tends0 v -> tends0 u.
Proof. intros E H eps He. destruct (H eps He) as [K HK]. exists K. intros k Hk. specialize (E k). specialize (HK k Hk). lra. Qed.
Lemma tends0_sqr u : tends0 (fun k => u k ^ 2) -> tends0 u.
Proof.
  intros H eps He. destruct (H (eps ^ 2) ltac:(nra)) as [K HK]. exists K. intros k Hk. specialize (HK k Hk).
  rewrite (Rabs_right (u k ^ 2)) in HK by (apply Rle_ge; nra).
  apply Rabs_def1; nra.
Qed.
Lemma tends0_shift u : tends0 (fun k => u (S k)) -> tends0 u.
Proof.
  intros H eps He. destruct (H eps He) as [K HK]. exists (S K). intros [|k] Hk; [lia|]. apply HK. lia.
Qed.
Lemma tends0_S u : tends0 u -> tends0 (fun k => u (S k)).
Proof. intros H eps He. destruct (H eps He) as [K HK]. exists K. intros k Hk. apply HK. lia. Qed.

(** a decreasing sequence bounded below has vanishing differences *)
Lemma decreasing_diff u c : (forall k, u (S k) <= u k) -> (forall k, c <= u k) -> tends0 (fun k => u k - u (S k)).
Proof.
  intros Hd Hc. assert (HD : Un_decreasing u) by (intros k; auto).
  assert (HL : has_lb u).
  { exists (- c). intros y [k ->]. unfold opp_seq. specialize (Hc k). lra. }
  destruct (decreasing_cv u HD HL) as [l Hl]. intros eps He. destruct (Hl (eps / 2) ltac:(lra)) as [K HK].
  exists K. intros k Hk. pose proof (HK k ltac:(lia)) as H1. pose proof (HK (S k) ltac:(lia)) as H2.
  unfold R_dist in H1, H2. apply Rabs_def2 in H1. apply Rabs_def2 in H2. apply Rabs_def1; lra.
Qed.

Section Conv.
Variables (n : nat) (A : csr R) (b : list R) (w : R).
Hypothesis HA : square_csr n A.
Hypothesis Hb : length b = n.
Hypothesis Hs : symmetric n (entry A).
Hypothesis Hp : pos_def n (entry A).
Hypothesis Hw : 0 < w < 2.
Variable xs : nat -> list R.
Hypothesis Hx0 : length (xs 0%nat) = n.
Hypothesis Hxs : forall k, exists er, sor_sweep A b w (xs k) = Ok (xs (S k), er).
Notation e := (entry A).

Lemma Hdiag i : (i < n)%nat -> e i i <> 0.
Proof. intros Hi. pose proof (pos_def_diag n _ i Hp Hi). lra. Qed.

Lemma xs_len k : length (xs k) = n.
Proof.
  induction k as [|k IH]; auto. destruct (Hxs k) as [er E].
  destruct (sweep_ok n A b w HA Hb (xs k) IH Hdiag) as (x' & er' & E' & L & _). congruence.
Qed.
Lemma xs_step k i : (i < n)%nat -> ix (xs (S k)) i = sor_update n e (ix b) w (mix i (ix (xs k)) (ix (xs (S k)))) i.
Proof.
  destruct (Hxs k) as [er E].
  destruct (sweep_ok n A b w HA Hb (xs k) (xs_len k) Hdiag) as (x' & er' & E' & L & H & _).
  assert (x' = xs (S k)) by congruence. subst x'. apply H.
Qed.

Lemma energy_lb : exists c, forall x, c <= energy2 n e (ix b) x.
Proof.
  destruct (spd_solution n A HA Hs Hp (ix b)) as [g Hg]. exists (energy2 n e (ix b) g). intros x.
  assert (H : 0 <= dot n (fun i => 1 * x i + (-1) * g i) (matvec n e (fun i => 1 * x i + (-1) * g i))).
  { destruct (nonzero_dec n (fun i => 1 * x i + (-1) * g i)) as [N|Z]; [now apply Rlt_le, Hp|].
    right. symmetry. unfold dot. apply bigsum_zero. intros i Hi. rewrite Z by auto. ring. }
  rewrite (dot_ext n _ (fun i => 1 * x i + (-1) * g i) _ (fun i => 1 * matvec n e x i + (-1) * matvec n e g i)) in H.
  2: auto. 2:{ intros. apply matvec_lin. }
  rewrite !dot_lin_l, !dot_lin_r in H. unfold energy2.
  rewrite (dot_ext n x x (matvec n e g) (ix b)) in H by auto.
  rewrite (matvec_sym n e g x) in H by auto.
  rewrite (dot_ext n (matvec n e g) (ix b) x x) in H by auto.
  rewrite (dot_ext n g g (matvec n e g) (ix b)) in * by auto.
  rewrite (dot_sym n x (ix b)) in H. rewrite (dot_sym n g (ix b)) in *. lra.
Qed.

Lemma increments_vanish i : (i < n)%nat -> tends0 (fun k => ix (xs (S k)) i - ix (xs k) i).
Proof.
  intros Hi. set (c := / w - / 2).
  assert (Hc : 0 < c) by (unfold c; pose proof (Rinv_lt_contravar w 2 ltac:(nra) ltac:(lra)); lra).
  assert (HE : forall k, energy2 n e (ix b) (ix (xs (S k))) =
     energy2 n e (ix b) (ix (xs k)) - c * bigsum n (fun i => e i i * (ix (xs (S k)) i - ix (xs k) i) ^ 2)).
  { intros k. apply energy_sweep; auto; try lra.
    - intros; now apply Hdiag.
    - intros; now apply xs_step. }
  assert (Hge : forall k, e i i * (ix (xs (S k)) i - ix (xs k) i) ^ 2 <= bigsum n (fun i => e i i * (ix (xs (S k)) i - ix (xs k) i) ^ 2)).
  { intros k. rewrite <- (bigsum_delta n i (fun j => e j j * (ix (xs (S k)) j - ix (xs k) j) ^ 2)) at 1 by auto.
    apply bigsum_le. intros j Hj. pose proof (pos_def_diag n _ j Hp Hj). pose proof (pow2_ge_0 (ix (xs (S k)) j - ix (xs k) j)).
    destruct (Nat.eq_dec j i) as [->|Hne].
    - rewrite delta_refl. lra.
    - rewrite delta_ne by auto. nra. }
  assert (Hpos : forall k, 0 <= e i i * (ix (xs (S k)) i - ix (xs k) i) ^ 2).
  { intros k. pose proof (pos_def_diag n _ i Hp Hi). pose proof (pow2_ge_0 (ix (xs (S k)) i - ix (xs k) i)). nra. }
  destruct energy_lb as [lb Hlb].
  assert (HD := decreasing_diff (fun k => energy2 n e (ix b) (ix (xs k))) lb
     ltac:(intros k; cbv beta; rewrite HE; specialize (Hge k); specialize (Hpos k); nra) ltac:(intros; apply Hlb)).
  apply tends0_sqr. apply (tends0_le _ (fun k => (/ (c * e i i)) * (energy2 n e (ix b) (ix (xs k)) - energy2 n e (ix b) (ix (xs (S k)))))).
  2: now apply tends0_scal.
  intros k. rewrite HE. specialize (Hge k). specialize (Hpos k).
  pose proof (pos_def_diag n _ i Hp Hi) as He.
  set (d2 := (ix (xs (S k)) i - ix (xs k) i) ^ 2) in *. set (sm := bigsum n _) in *.
  assert (0 <= d2) by (unfold d2; apply pow2_ge_0).
  replace (energy2 n e (ix b) (ix (xs k)) - (energy2 n e (ix b) (ix (xs k)) - c * sm)) with (c * sm) by ring.
  replace (/ (c * e i i) * (c * sm)) with (sm / e i i) by (field; split; lra).
  assert (d2 <= sm / e i i) by (apply Rmult_le_reg_r with (e i i); auto; replace (sm / e i i * e i i) with sm by (field; lra); lra).
  rewrite !Rabs_right by lra. auto.
Qed.

Lemma residual_vanishes i : (i < n)%nat -> tends0 (fun k => residual n A b (xs k) i).
Proof.
  intros Hi. apply tends0_shift.
  apply (tends0_ext (fun k => (e i i / w) * (ix (xs (S k)) i - ix (xs k) i) +
     (-1) * bigsum n (fun j => (if (j <? i)%nat then 0 else e i j) * (ix (xs (S k)) j - ix (xs k) j)))).
  - intros k. unfold residual.
    rewrite (residual_sweep n A b w Hb (ix (xs k)) (ix (xs (S k))) i);
      [| intros; now apply Hdiag | lra | intros; now apply xs_step | auto].
    rewrite (bigsum_ext n (fun j => (if (j <? i)%nat then 0 else e i j) * (ix (xs (S k)) j - ix (xs k) j))
               (fun j => if (j <? i)%nat then 0 else e i j * (ix (xs (S k)) j - ix (xs k) j))).
    + field. lra.
    + intros j Hj. destruct (j <? i)%nat; ring.
  - apply tends0_plus; [now apply tends0_scal, increments_vanish|]. apply tends0_scal.
    apply (tends0_bigsum n (fun k j => (if (j <? i)%nat then 0 else e i j) * (ix (xs (S k)) j - ix (xs k) j))).
    intros j Hj. now apply tends0_scal, increments_vanish.
Qed.

Lemma sor_limit : exists x, (forall i, (i < n)%nat -> matvec n e x i = ix b i) /\
  forall i, (i < n)%nat -> tends0 (fun k => ix (xs k) i - x i).
Proof.
  destruct (spd_solution n A HA Hs Hp (ix b)) as [g Hg]. exists g. split; auto. intros i Hi.
  destruct (spd_solution n A HA Hs Hp (fun j => delta j i)) as [h Hh].
  apply (tends0_ext (fun k => (-1) * bigsum n (fun j => h j * residual n A b (xs k) j))).
  - intros k.
    assert (E : ix (xs k) i - g i = dot n (matvec n e h) (fun j => 1 * ix (xs k) j + (-1) * g j)).
    { rewrite (dot_ext n (matvec n e h) (fun j => delta j i) _ (fun j => 1 * ix (xs k) j + (-1) * g j)) by auto.
      unfold dot. rewrite (bigsum_delta n i (fun j => 1 * ix (xs k) j + (-1) * g j)) by auto. ring. }
    rewrite E, <- matvec_sym by auto.
    rewrite (dot_ext n h h _ (fun j => (-1) * residual n A b (xs k) j)); auto.
    + unfold dot. rewrite <- bigsum_scal. apply bigsum_ext. intros; ring.
    + intros j Hj. rewrite matvec_lin, Hg by auto. unfold residual. ring.
  - apply tends0_scal. apply (tends0_bigsum n (fun k j => h j * residual n A b (xs k) j)).
    intros j Hj. apply tends0_scal. now apply residual_vanishes.
Qed.
End Conv.
