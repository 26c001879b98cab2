(** How the work of the loads changes with the stiffness of one element. *)
From Coq Require Import List Arith Lia Bool Reals Lra.
From Verif Require Import Res SumR.
Import ListNotations.
Local Open Scope R_scope.

Section Compliance.
Variable field : Type.
Variable comb : R -> field -> R -> field -> field.
Variable n : nat.
Variable k : nat -> field -> field -> R.
Variable L : field -> R.
Variable V : field -> Prop.
Hypothesis k_l : forall i p u q u' v, (i < n)%nat -> k i (comb p u q u') v = p * k i u v + q * k i u' v.
Hypothesis k_s : forall i u v, (i < n)%nat -> k i u v = k i v u.
Hypothesis k_p : forall i u, (i < n)%nat -> 0 <= k i u u.
Hypothesis L_l : forall p u q u', L (comb p u q u') = p * L u + q * L u'.
Hypothesis V_l : forall p u q u', V u -> V u' -> V (comb p u q u').

Definition aform (E : nat -> R) (u v : field) : R := bigsum n (fun i => E i * k i u v).
Definition sol (E : nat -> R) (u : field) : Prop := V u /\ forall w, V w -> aform E w u = L w.

Lemma k_r i p u q u' v : (i < n)%nat -> k i v (comb p u q u') = p * k i v u + q * k i v u'.
Proof. intros Hi. rewrite k_s by auto. rewrite k_l by auto. rewrite (k_s i u v), (k_s i u' v) by auto. reflexivity. Qed.
Lemma aform_sym E u v : aform E u v = aform E v u.
Proof. apply bigsum_ext. intros i Hi. now rewrite k_s by auto. Qed.
Lemma aform_l E p u q u' v : aform E (comb p u q u') v = p * aform E u v + q * aform E u' v.
Proof. unfold aform. rewrite <- !bigsum_scal, <- bigsum_plus. apply bigsum_ext. intros i Hi. rewrite k_l by auto. ring. Qed.
Lemma aform_r E p u q u' v : aform E v (comb p u q u') = p * aform E v u + q * aform E v u'.
Proof. rewrite aform_sym, aform_l, (aform_sym E u v), (aform_sym E u' v). reflexivity. Qed.
Lemma aform_nonneg E u : (forall i, (i < n)%nat -> 0 <= E i) -> 0 <= aform E u u.
Proof. intros H. apply bigsum_nonneg. intros i Hi. apply Rmult_le_pos; auto. Qed.

Lemma work_nonneg E u : (forall i, (i < n)%nat -> 0 <= E i) -> sol E u -> 0 <= L u.
Proof. intros H [Vu S]. rewrite <- (S u Vu). now apply aform_nonneg. Qed.
(** a stiffer body yields less *)
Lemma work_mono E E' u u' : (forall i, (i < n)%nat -> 0 <= E i <= E' i) -> sol E u -> sol E' u' -> L u' <= L u.
Proof.
  intros H [Vu S] [Vu' S'].
  pose proof (aform_nonneg E (comb 1 u (-1) u') (fun i Hi => proj1 (H i Hi))) as P. rewrite aform_l, !aform_r in P. rewrite (aform_sym E u u') in P.
  rewrite (S u Vu), (S u' Vu') in P. rewrite <- (S' u' Vu') in P |- * at 1.
  assert (aform E u' u' <= aform E' u' u').
  { apply bigsum_le. intros i Hi. apply Rmult_le_compat_r; [auto|apply H; auto]. }
  pose proof (S' u' Vu'). lra.
Qed.

(** the change of the work with the stiffness *)
Lemma work_change E E' u u' : (forall j, (j < n)%nat -> 0 < E' j) -> sol E u -> sol E' u' ->
  let first := bigsum n (fun j => (E' j - E j) * k j u u) in
  - first <= L u' - L u <= - first + bigsum n (fun j => (E' j - E j) * (E' j - E j) / E' j * k j u u).
Proof.
  intros HE [Vu S] [Vu' S'] first. set (d := fun j => E' j - E j).
  assert (D : forall v w, aform E' v w = aform E v w + bigsum n (fun j => d j * k j v w)).
  { intros v w. unfold aform. rewrite <- bigsum_plus. apply bigsum_ext. intros j Hj. unfold d. ring. }
  assert (C : L u' - L u = - bigsum n (fun j => d j * k j u' u)).
  { rewrite <- (S u' Vu'). rewrite <- (S' u Vu). rewrite D, (aform_sym E u u'). rewrite (bigsum_ext n (fun j => d j * k j u u') (fun j => d j * k j u' u)) by (intros j Hj; now rewrite k_s by auto). ring. }
  set (w := comb 1 u' (-1) u). assert (Vw : V w) by (apply V_l; auto).
  assert (W : aform E' w w = - bigsum n (fun j => d j * k j w u)).
  { unfold w at 2. rewrite aform_r, (S' w Vw), D, (S w Vw). ring. }
  assert (P : 0 <= aform E' w w) by (apply aform_nonneg; intros; left; auto).
  assert (KU : bigsum n (fun j => d j * k j u' u) = first + bigsum n (fun j => d j * k j w u)).
  { unfold first. rewrite <- bigsum_plus. apply bigsum_ext. intros j Hj. unfold w, d. rewrite k_l by auto. ring. }
  rewrite C, KU. split; [lra|].
  assert (Q : 0 <= bigsum n (fun j => E' j * k j w w + 2 * (d j * k j w u) + d j * d j / E' j * k j u u)).
  { apply bigsum_nonneg. intros j Hj. pose proof (k_p j (comb (E' j) w (d j) u) Hj) as Q. rewrite k_l, !k_r, (k_s j u w) in Q by auto.
    replace (E' j * k j w w + 2 * (d j * k j w u) + d j * d j / E' j * k j u u) with (/ E' j * (E' j * (E' j * k j w w + d j * k j w u) + d j * (E' j * k j w u + d j * k j u u))) by (field; specialize (HE j Hj); lra).
    apply Rmult_le_pos; auto. left. apply Rinv_0_lt_compat. auto. }
  rewrite !bigsum_plus, bigsum_scal in Q. fold (aform E' w w) in Q.
  change (bigsum n (fun j => (E' j - E j) * (E' j - E j) / E' j * k j u u)) with (bigsum n (fun j => d j * d j / E' j * k j u u)).
  set (SS := bigsum n (fun j => d j * d j / E' j * k j u u)) in *. set (TT := bigsum n (fun j => d j * k j w u)) in *. clearbody SS TT. lra.
Qed.

(** the derivative along a path of stiffnesses *)
Lemma squeeze (lo hi c : R -> R) x l r : 0 < r -> lo x = c x -> hi x = c x -> (forall h, Rabs h < r -> lo (x + h) <= c (x + h) <= hi (x + h)) ->
  derivable_pt_lim lo x l -> derivable_pt_lim hi x l -> derivable_pt_lim c x l.
Proof.
  intros Hr E1 E2 H D1 D2 eps He. destruct (D1 eps He) as [d1 H1]. destruct (D2 eps He) as [d2 H2].
  assert (Hd : 0 < Rmin r (Rmin d1 d2)) by (apply Rmin_glb_lt; auto; apply Rmin_glb_lt; apply cond_pos).
  exists (mkposreal _ Hd). intros h Hh Hlt. cbn [pos] in Hlt. pose proof (Rmin_l r (Rmin d1 d2)). pose proof (Rmin_r r (Rmin d1 d2)). pose proof (Rmin_l d1 d2). pose proof (Rmin_r d1 d2).
  specialize (H h ltac:(lra)). specialize (H1 h Hh ltac:(lra)). specialize (H2 h Hh ltac:(lra)). rewrite E1 in H1. rewrite E2 in H2.
  apply Rabs_def2 in H1. apply Rabs_def2 in H2. apply Rabs_def1.
  - destruct (Rdichotomy h 0 Hh) as [N|N].
    + assert ((c (x + h) - c x) / h <= (lo (x + h) - c x) / h); [|lra]. unfold Rdiv.
      rewrite (Rmult_comm _ (/ h)), (Rmult_comm (lo (x + h) - c x)). apply Rmult_le_compat_neg_l; [left; now apply Rinv_lt_0_compat|lra].
    + assert ((c (x + h) - c x) / h <= (hi (x + h) - c x) / h); [|lra]. apply Rmult_le_compat_r; [left; now apply Rinv_0_lt_compat|lra].
  - destruct (Rdichotomy h 0 Hh) as [N|N].
    + assert ((hi (x + h) - c x) / h <= (c (x + h) - c x) / h); [|lra]. unfold Rdiv.
      rewrite (Rmult_comm _ (/ h)), (Rmult_comm (c (x + h) - c x)). apply Rmult_le_compat_neg_l; [left; now apply Rinv_lt_0_compat|lra].
    + assert ((lo (x + h) - c x) / h <= (c (x + h) - c x) / h); [|lra]. apply Rmult_le_compat_r; [left; now apply Rinv_0_lt_compat|lra].
Qed.
Lemma derivable_bigsum m (f : nat -> R -> R) x l : (forall j, (j < m)%nat -> derivable_pt_lim (f j) x (l j)) -> derivable_pt_lim (fun z => bigsum m (fun j => f j z)) x (bigsum m l).
Proof.
  induction m as [|m IH]; intros H; cbn [bigsum]; [apply derivable_pt_lim_const|].
  apply (derivable_pt_lim_plus (fun z => bigsum m (fun j => f j z)) (f m)); [apply IH; intros; apply H; lia|apply H; lia].
Qed.
Lemma work_derivative (E : R -> nat -> R) (D : nat -> R) z u (c : R -> R) r : 0 < r -> (forall h j, Rabs h < r -> (j < n)%nat -> 0 < E (z + h) j) ->
  (forall j, (j < n)%nat -> derivable_pt_lim (fun y => E y j) z (D j)) -> sol (E z) u -> c z = L u ->
  (forall h, Rabs h < r -> exists u', sol (E (z + h)) u' /\ c (z + h) = L u') ->
  derivable_pt_lim c z (- bigsum n (fun j => D j * k j u u)).
Proof.
  intros Hr HE HD HS Hc H. assert (HE0 : forall j, (j < n)%nat -> 0 < E z j). { intros j Hj. rewrite <- (Rplus_0_r z). apply HE; auto. now rewrite Rabs_R0. }
  assert (DD : forall j, (j < n)%nat -> derivable_pt_lim (fun y => E y j - E z j) z (D j)).
  { intros j Hj. replace (D j) with (D j - 0) by ring. apply (derivable_pt_lim_minus (fun y => E y j) (fun _ => E z j)); [auto|apply derivable_pt_lim_const]. }
  set (lo := fun y => L u - bigsum n (fun j => (E y j - E z j) * k j u u)).
  set (hi := fun y => lo y + bigsum n (fun j => (E y j - E z j) * (E y j - E z j) / E y j * k j u u)).
  assert (Dlo : derivable_pt_lim lo z (- bigsum n (fun j => D j * k j u u))).
  { replace (- bigsum n (fun j => D j * k j u u)) with (0 - bigsum n (fun j => D j * k j u u)) by ring.
    apply (derivable_pt_lim_minus (fun _ => L u)); [apply derivable_pt_lim_const|]. apply (derivable_bigsum n (fun j y => (E y j - E z j) * k j u u)). intros j Hj.
    replace (D j * k j u u) with (D j * k j u u + (E z j - E z j) * 0) by ring. apply (derivable_pt_lim_mult (fun y => E y j - E z j) (fun _ => k j u u)); [auto|apply derivable_pt_lim_const]. }
  apply (squeeze lo hi c z _ r Hr).
  - unfold lo. rewrite bigsum_zero; [rewrite Hc; ring|]. intros j Hj. ring.
  - unfold hi, lo. rewrite !bigsum_zero; [rewrite Hc; ring| |]; intros j Hj; unfold Rdiv; ring.
  - intros h Hh. destruct (H h Hh) as (u' & S' & ->). pose proof (work_change (E z) (E (z + h)) u u' (fun j Hj => HE h j Hh Hj) HS S') as B. cbv zeta in B. unfold hi, lo. lra.
  - exact Dlo.
  - unfold hi. rewrite <- (Rplus_0_r (- bigsum n _)). apply (derivable_pt_lim_plus lo); [exact Dlo|].
    replace 0 with (bigsum n (fun j => 0)) by (apply bigsum_zero; auto). apply (derivable_bigsum n (fun j y => (E y j - E z j) * (E y j - E z j) / E y j * k j u u)). intros j Hj. specialize (HE0 j Hj).
    replace 0 with (((D j * (E z j - E z j) + (E z j - E z j) * D j) * E z j - D j * ((E z j - E z j) * (E z j - E z j))) / (E z j)² * k j u u + (E z j - E z j) * (E z j - E z j) / E z j * 0) by (unfold Rsqr; field; lra).
    apply (derivable_pt_lim_mult (fun y => (E y j - E z j) * (E y j - E z j) / E y j) (fun _ => k j u u)); [|apply derivable_pt_lim_const].
    apply (derivable_pt_lim_div (fun y => (E y j - E z j) * (E y j - E z j)) (fun y => E y j)); [|auto|lra].
    apply (derivable_pt_lim_mult (fun y => E y j - E z j) (fun y => E y j - E z j)); auto.
Qed.
End Compliance.
