(** The neo-Hookean energy, its first and second derivative, and the change
    between reference and current configuration. *)
From Coq Require Import List Arith Lia Bool Reals Lra.
From Verif Require Import Res SumR DenseModel DenseR DenseSpec DenseProof DenseMain ShapeModel ShapeMain QuadModel QuadSpec ElemModel ElemSpec ElemSpec2 ElemSpec3 ElemProof ElemProof2 ElemProof3 ElemProof4.
Import ListNotations.
Local Open Scope R_scope.

(** inverse deformation gradient *)
Definition finv (d : nat) (H : field) (m l : nat) : R := cof d (defgrad H) m l / detd d (defgrad H).
(** gradient with respect to the current coordinates *)
Definition push (d : nat) (H Y : field) (l c : nat) : R := bigsum d (fun m => finv d H m l * Y m c).

Definition neo_W (d : nat) (la mu : R) (H Y : field) : R :=
  mu * bigsum d (fun c => bigsum d (fun l => defgrad H c l * Y l c)) + (la * ln (detd d (defgrad H)) - mu) * trace d (push d H Y).
Definition neo_T (d : nat) (la mu : R) (H Y Z : field) : R :=
  mu * ddot d Y Z + la * trace d (push d H Y) * trace d (push d H Z)
  + (mu - la * ln (detd d (defgrad H))) * bigsum d (fun a => bigsum d (fun c => push d H Y a c * push d H Z c a)).

Section Push.
Variables (d : nat) (H : field).
Hypothesis Hd : (2 <= d <= 3)%nat.
Hypothesis HJ : detd d (defgrad H) <> 0.

(** Y = F^T push Y *)
Lemma push_pull Y m c : (m < d)%nat -> bigsum d (fun a => defgrad H a m * push d H Y a c) = Y m c.
Proof.
  intros Hm. unfold push.
  rewrite (bigsum_ext _ _ (fun a => bigsum d (fun k => finv d H k a * defgrad H a m * Y k c))).
  2:{ intros a _. rewrite <- bigsum_scal. apply bigsum_ext. intros. ring. }
  rewrite bigsum_swap.
  rewrite (bigsum_ext _ _ (fun k => (if (m =? k)%nat then 1 else 0) * Y k c)).
  - now rewrite (bigsum_ite d m (fun k => Y k c)).
  - intros k Hk. rewrite bigsum_scal_r. f_equal. unfold finv. rewrite cof_left by auto. now rewrite Nat.eqb_sym.
Qed.
End Push.

(** Cauchy stress times det F *)
Definition kirchhoff (d : nat) (la mu : R) (H : field) (a b : nat) : R :=
  mu * (bigsum d (fun k => defgrad H a k * defgrad H b k) - kron a b) + la * ln (detd d (defgrad H)) * kron a b.

Lemma neo_W_spatial d la mu H Y : (2 <= d <= 3)%nat -> detd d (defgrad H) <> 0 ->
  neo_W d la mu H Y = bigsum d (fun a => bigsum d (fun b => kirchhoff d la mu H a b * strain (push d H Y) a b)).
Proof.
  intros Hd HJ. unfold neo_W.
  assert (E : bigsum d (fun c => bigsum d (fun l => defgrad H c l * Y l c)) =
              bigsum d (fun c => bigsum d (fun l => defgrad H c l * bigsum d (fun a => defgrad H a l * push d H Y a c)))).
  { apply bigsum_ext; intros c _. apply bigsum_ext; intros l Hl. now rewrite push_pull. }
  rewrite E. unfold kirchhoff, trace, strain. set (L := ln _).
  generalize (defgrad H), (push d H Y). intros F h. destruct d as [|[|[|[|d]]]]; try lia; unfold kron; cbn [bigsum Nat.eqb]; field.
Qed.

Lemma neo_T_spatial d la mu H Y Z : (2 <= d <= 3)%nat -> detd d (defgrad H) <> 0 ->
  neo_T d la mu H Y Z = hooke d la (mu - la * ln (detd d (defgrad H))) (strain (push d H Y)) (strain (push d H Z))
   + bigsum d (fun a => bigsum d (fun b => kirchhoff d la mu H a b * bigsum d (fun c => push d H Y a c * push d H Z b c))).
Proof.
  intros Hd HJ. unfold neo_T.
  assert (E : ddot d Y Z = bigsum d (fun l => bigsum d (fun c => bigsum d (fun a => defgrad H a l * push d H Y a c) * bigsum d (fun a => defgrad H a l * push d H Z a c)))).
  { unfold ddot. apply bigsum_ext; intros c Hc. apply bigsum_ext; intros l Hl. now rewrite !push_pull. }
  rewrite E. unfold kirchhoff, hooke, trace, ddot, strain. set (L := ln _).
  generalize (defgrad H), (push d H Y), (push d H Z). intros F h k. destruct d as [|[|[|[|d]]]]; try lia; unfold kron; cbn [bigsum Nat.eqb]; field.
Qed.

(** extensionality *)
Lemma detd_ext d f g : (2 <= d <= 3)%nat -> (forall i j, (i < d)%nat -> (j < d)%nat -> f i j = g i j) -> detd d f = detd d g.
Proof. intros Hd E. destruct d as [|[|[|[|d]]]]; try lia; cbn [detd]; unfold det2, det3; rewrite !E by lia; reflexivity. Qed.
Lemma cof_ext d f g i j : (2 <= d <= 3)%nat -> (forall i j, (i < d)%nat -> (j < d)%nat -> f i j = g i j) -> (i < d)%nat -> (j < d)%nat -> cof d f i j = cof d g i j.
Proof.
  intros Hd E Hi Hj. unfold cof. f_equal.
  destruct d as [|[|[|[|d]]]]; try lia; cbn [Nat.sub detd]; unfold det2; rewrite !E by (unfold skip; nat_all); reflexivity.
Qed.

(** derivative of the determinant and of the inverse *)
Ltac minors := unfold cof, sgn, skip, det2, det3 in *; cbn -[Rdiv] in *; unfold det2, det3 in *; cbn [Nat.leb] in *.
Lemma det_line d F G : (2 <= d <= 3)%nat -> exists A B, forall e,
  detd d (fun i j => F i j + e * G i j) = detd d F + e * bigsum d (fun i => bigsum d (fun j => cof d F j i * G i j)) + e * e * (A + e * B).
Proof.
  intros Hd. destruct d as [|[|[|[|d]]]]; try lia.
  - exists (det2 G), 0. intros e. minors. ring.
  - exists (bigsum 3 (fun i => bigsum 3 (fun j => cof 3 G j i * F i j))), (det3 G). intros e. minors. ring.
Qed.
(** polarised minor *)
Definition cof1 (d : nat) (F G : field) (m l : nat) : R :=
  if (d =? 2)%nat then cof 2 G m l else cof 3 (fun i j => F i j + G i j) m l - cof 3 F m l - cof 3 G m l.
Lemma cof_line d F G : (2 <= d <= 3)%nat -> exists A, forall m l, (m < d)%nat -> (l < d)%nat ->
  (forall e, cof d (fun i j => F i j + e * G i j) m l = cof d F m l + e * cof1 d F G m l + e * e * (A m l + e * 0)) /\
  cof1 d F G m l * detd d F = cof d F m l * bigsum d (fun i => bigsum d (fun j => cof d F j i * G i j))
    - bigsum d (fun i => bigsum d (fun j => cof d F m i * G i j * cof d F j l)).
Proof.
  intros Hd. destruct d as [|[|[|[|d]]]]; try lia.
  - exists (fun _ _ => 0). refine (forall_lt2 _ _ _ _); each; (split; [intros e|]); unfold cof1; minors; ring.
  - exists (cof 3 G). refine (forall_lt2 _ _ _ _); each; (split; [intros e|]); unfold cof1; minors; ring.
Qed.

Lemma quot_deriv a0 a1 a2 a3 b0 b1 b2 b3 : b0 <> 0 ->
  derivable_pt_lim (fun e => (a0 + e * a1 + e * e * (a2 + e * a3)) / (b0 + e * b1 + e * e * (b2 + e * b3))) 0 ((a1 * b0 - a0 * b1) / (b0 * b0)).
Proof.
  intros Hb.
  pose proof (derivable_pt_lim_div (fun e => a0 + e * a1 + e * e * (a2 + e * a3)) (fun e => b0 + e * b1 + e * e * (b2 + e * b3)) 0 a1 b1
    (cubic_deriv _ _ _ _) (cubic_deriv _ _ _ _)) as D. cbv beta in D.
  assert (E : b0 + 0 * b1 + 0 * 0 * (b2 + 0 * b3) = b0) by ring. rewrite E in D. specialize (D Hb).
  replace ((a1 * b0 - a0 * b1) / (b0 * b0)) with ((a1 * b0 - b1 * (a0 + 0 * a1 + 0 * 0 * (a2 + 0 * a3))) / Rsqr b0); [exact D|].
  unfold Rsqr. field. exact Hb.
Qed.
Lemma bigsum_deriv n (f : nat -> R -> R) f' : (forall i, (i < n)%nat -> derivable_pt_lim (f i) 0 (f' i)) ->
  derivable_pt_lim (fun e => bigsum n (fun i => f i e)) 0 (bigsum n f').
Proof.
  intros H. induction n as [|n IH]; cbn [bigsum]; [apply derivable_pt_lim_const|].
  apply (derivable_pt_lim_plus (fun e => bigsum n (fun i => f i e)) (f n)); [apply IH; auto|]. apply H. lia.
Qed.
Lemma deriv_all_ext f g b : (forall e, f e = g e) -> derivable_pt_lim g 0 b -> derivable_pt_lim f 0 b.
Proof. intros E. apply deriv_ext with (eps := 1); [lra|auto]. Qed.
Lemma affine_deriv a b : derivable_pt_lim (fun e => a + e * b) 0 b.
Proof. apply deriv_all_ext with (g := fun e => a + e * b + e * e * (0 + e * 0)); [intros; ring|apply cubic_deriv]. Qed.

Section Line.
Variables (d : nat) (H Z : field).
Hypothesis Hd : (2 <= d <= 3)%nat.
Hypothesis HJ : 0 < detd d (defgrad H).
Notation He e := (fun l c => H l c + e * Z l c).

Lemma defgrad_line e c l : defgrad (He e) c l = defgrad H c l + e * Z l c.
Proof. unfold defgrad. ring. Qed.

Lemma det_poly : exists A B, forall e, detd d (defgrad (He e)) =
  detd d (defgrad H) + e * (detd d (defgrad H) * trace d (push d H Z)) + e * e * (A + e * B).
Proof.
  destruct (det_line d (defgrad H) (fun i j => Z j i) Hd) as (A & B & E). exists A, B. intros e.
  rewrite (detd_ext d _ (fun i j => defgrad H i j + e * Z j i) Hd) by (intros; apply defgrad_line). rewrite E. do 3 f_equal.
  unfold trace, push, finv. rewrite <- bigsum_scal. apply bigsum_ext; intros i _. rewrite <- bigsum_scal. apply bigsum_ext; intros j _. field. lra.
Qed.
Lemma det_deriv : derivable_pt_lim (fun e => detd d (defgrad (He e))) 0 (detd d (defgrad H) * trace d (push d H Z)).
Proof. destruct det_poly as (A & B & E). eapply deriv_all_ext; [exact E|]. apply cubic_deriv. Qed.
Lemma det_near : exists eps, 0 < eps /\ forall e, Rabs e < eps -> 0 < detd d (defgrad (He e)).
Proof.
  destruct det_poly as (A & B & E). set (D := detd d (defgrad H)) in *. set (C := D * trace d (push d H Z)) in *.
  set (M := Rabs C + Rabs A + Rabs B + 1). pose proof (Rabs_pos A). pose proof (Rabs_pos B). pose proof (Rabs_pos C).
  exists (Rmin 1 (D / M)). split. { apply Rmin_pos; [lra|]. apply Rdiv_lt_0_compat; unfold M; lra. }
  intros e He'. pose proof (Rmin_l 1 (D / M)). pose proof (Rmin_r 1 (D / M)). rewrite E.
  assert (HeM : Rabs e * M < D). { apply Rlt_le_trans with (D / M * M); [apply Rmult_lt_compat_r; unfold M in *; lra|right; field; unfold M; lra]. }
  pose proof (Rabs_pos e).
  assert (X : Rabs (e * C + e * e * (A + e * B)) <= Rabs e * M).
  { replace (e * C + e * e * (A + e * B)) with (e * (C + (e * A + e * e * B))) by ring. rewrite Rabs_mult. apply Rmult_le_compat_l; auto.
    eapply Rle_trans; [apply Rabs_triang|]. eapply Rle_trans; [apply Rplus_le_compat_l, Rabs_triang|].
    rewrite !Rabs_mult. unfold M. assert (Rabs e * Rabs A <= 1 * Rabs A) by (apply Rmult_le_compat_r; lra).
    assert (Rabs e * Rabs e <= 1 * 1) by (apply Rmult_le_compat; lra).
    assert (Rabs e * Rabs e * Rabs B <= 1 * Rabs B) by (apply Rmult_le_compat_r; lra). lra. }
  pose proof (Rle_abs (- (e * C + e * e * (A + e * B)))) as Y. rewrite Rabs_Ropp in Y. lra.
Qed.
Lemma lndet_deriv : derivable_pt_lim (fun e => ln (detd d (defgrad (He e)))) 0 (trace d (push d H Z)).
Proof.
  assert (E0 : detd d (defgrad (He 0)) = detd d (defgrad H)) by (apply detd_ext; auto; intros; unfold defgrad; ring).
  replace (trace d (push d H Z)) with (/ detd d (defgrad H) * (detd d (defgrad H) * trace d (push d H Z))) by (field; lra).
  apply (derivable_pt_lim_comp (fun e => detd d (defgrad (He e))) ln 0); [apply det_deriv|]. rewrite E0. now apply derivable_pt_lim_ln.
Qed.
Lemma finv_deriv m l : (m < d)%nat -> (l < d)%nat ->
  derivable_pt_lim (fun e => finv d (He e) m l) 0 (- bigsum d (fun i => bigsum d (fun j => finv d H m i * Z j i * finv d H j l))).
Proof.
  intros Hm Hl. destruct (det_line d (defgrad H) (fun i j => Z j i) Hd) as (A & B & E).
  destruct (cof_line d (defgrad H) (fun i j => Z j i) Hd) as (A' & E'). destruct (E' m l Hm Hl) as [E1 E2].
  eapply deriv_all_ext.
  { intros e. unfold finv. rewrite (detd_ext d _ (fun i j => defgrad H i j + e * Z j i) Hd) by (intros; apply defgrad_line). rewrite E.
    rewrite (cof_ext d _ (fun i j => defgrad H i j + e * Z j i) m l Hd) by (auto; intros; apply defgrad_line). rewrite E1. reflexivity. }
  eapply eq_rect; [apply quot_deriv; lra|]. cbv beta. rewrite E2. unfold finv. set (D := detd d _) in *.
  match goal with |- (?a - ?b - ?a) / _ = _ => replace (a - b - a) with (- b) by ring; set (P := b) end.
  assert (HP : P = D * D * bigsum d (fun i => bigsum d (fun j => cof d (defgrad H) m i / D * Z j i * (cof d (defgrad H) j l / D)))).
  { unfold P. rewrite <- bigsum_scal. apply bigsum_ext; intros i _. rewrite <- bigsum_scal. apply bigsum_ext; intros j _. field. lra. }
  rewrite HP. field. lra.
Qed.
Lemma trace_push_deriv Y : derivable_pt_lim (fun e => trace d (push d (He e) Y)) 0
  (- bigsum d (fun a => bigsum d (fun c => push d H Y a c * push d H Z c a))).
Proof.
  eapply eq_rect.
  { unfold trace, push. apply (bigsum_deriv d (fun l e => bigsum d (fun m => finv d (He e) m l * Y m l))). intros l Hl.
    apply (bigsum_deriv d (fun m e => finv d (He e) m l * Y m l)). intros m Hm.
    apply deriv_all_ext with (g := fun e => Y m l * finv d (He e) m l); [intros; ring|].
    apply (derivable_pt_lim_scal (fun e => finv d (He e) m l)). now apply finv_deriv. }
  unfold push. generalize (finv d H). intros f. clear HJ. destruct d as [|[|[|[|n]]]]; try lia; cbn [bigsum]; ring.
Qed.

Lemma neo_deriv la mu Y : derivable_pt_lim (fun e => neo_W d la mu (He e) Y) 0 (neo_T d la mu H Y Z).
Proof.
  assert (E0 : detd d (defgrad (He 0)) = detd d (defgrad H)) by (apply detd_ext; auto; intros; unfold defgrad; ring).
  unfold neo_W. eapply eq_rect.
  { apply derivable_pt_lim_plus with (f1 := fun e => mu * bigsum d (fun c => bigsum d (fun l => defgrad (He e) c l * Y l c)))
      (f2 := fun e => (la * ln (detd d (defgrad (He e))) - mu) * trace d (push d (He e) Y)).
    - apply (derivable_pt_lim_scal (fun e => bigsum d (fun c => bigsum d (fun l => defgrad (He e) c l * Y l c)))).
      apply (bigsum_deriv d (fun c e => bigsum d (fun l => defgrad (He e) c l * Y l c))). intros c Hc.
      apply (bigsum_deriv d (fun l e => defgrad (He e) c l * Y l c)). intros l Hl.
      eapply deriv_all_ext; [|apply (affine_deriv (defgrad H c l * Y l c) (Z l c * Y l c))]. intros e. cbv beta. rewrite defgrad_line. ring.
    - apply (derivable_pt_lim_mult (fun e => la * ln (detd d (defgrad (He e))) - mu) (fun e => trace d (push d (He e) Y))); [|apply trace_push_deriv].
      apply (derivable_pt_lim_minus (fun e => la * ln (detd d (defgrad (He e)))) (fun _ => mu)); [|apply derivable_pt_lim_const].
      apply (derivable_pt_lim_scal (fun e => ln (detd d (defgrad (He e))))). apply lndet_deriv. }
  cbv beta. rewrite E0. unfold neo_T.
  assert (EP : trace d (push d (He 0) Y) = trace d (push d H Y)).
  { unfold trace, push, finv. rewrite E0. apply bigsum_ext; intros l Hl. apply bigsum_ext; intros m Hm. f_equal. f_equal.
    apply cof_ext; auto. intros; unfold defgrad; ring. }
  rewrite EP.
  assert (ES : bigsum d (fun c => bigsum d (fun l => Z l c * Y l c)) = ddot d Y Z).
  { rewrite bigsum_swap. unfold ddot. apply bigsum_ext; intros; apply bigsum_ext; intros. ring. }
  rewrite ES. ring.
Qed.
Lemma neo_energy_deriv la mu : derivable_pt_lim (fun e => neo_energy d la mu (He e)) 0 (neo_W d la mu H Z).
Proof.
  assert (E0 : detd d (defgrad (He 0)) = detd d (defgrad H)) by (apply detd_ext; auto; intros; unfold defgrad; ring).
  unfold neo_energy. eapply eq_rect.
  { apply (derivable_pt_lim_plus (fun e => mu / 2 * (bigsum d (fun c => bigsum d (fun l => defgrad (He e) c l * defgrad (He e) c l)) - INR d) - mu * ln (detd d (defgrad (He e))))
      (fun e => la / 2 * (ln (detd d (defgrad (He e))) * ln (detd d (defgrad (He e)))))).
    - apply (derivable_pt_lim_minus (fun e => mu / 2 * (bigsum d (fun c => bigsum d (fun l => defgrad (He e) c l * defgrad (He e) c l)) - INR d)) (fun e => mu * ln (detd d (defgrad (He e))))).
      + apply (derivable_pt_lim_scal (fun e => bigsum d (fun c => bigsum d (fun l => defgrad (He e) c l * defgrad (He e) c l)) - INR d)).
        apply (derivable_pt_lim_minus (fun e => bigsum d (fun c => bigsum d (fun l => defgrad (He e) c l * defgrad (He e) c l))) (fun _ => INR d)); [|apply derivable_pt_lim_const].
        apply (bigsum_deriv d (fun c e => bigsum d (fun l => defgrad (He e) c l * defgrad (He e) c l))). intros c Hc.
        apply (bigsum_deriv d (fun l e => defgrad (He e) c l * defgrad (He e) c l)). intros l Hl.
        eapply deriv_all_ext; [|apply (cubic_deriv (defgrad H c l * defgrad H c l) (2 * (defgrad H c l * Z l c)) (Z l c * Z l c) 0)]. intros e. cbv beta. rewrite defgrad_line. ring.
      + apply (derivable_pt_lim_scal (fun e => ln (detd d (defgrad (He e))))). apply lndet_deriv.
    - apply (derivable_pt_lim_scal (fun e => ln (detd d (defgrad (He e))) * ln (detd d (defgrad (He e))))).
      apply (derivable_pt_lim_mult (fun e => ln (detd d (defgrad (He e)))) (fun e => ln (detd d (defgrad (He e))))); apply lndet_deriv. }
  cbv beta. rewrite E0. unfold neo_W.
  assert (ES : bigsum d (fun c => bigsum d (fun l => 2 * (defgrad H c l * Z l c))) = 2 * bigsum d (fun c => bigsum d (fun l => defgrad H c l * Z l c))).
  { rewrite <- bigsum_scal. apply bigsum_ext; intros. now rewrite bigsum_scal. }
  rewrite ES. field.
Qed.
End Line.

(** extensionality of the densities *)
Lemma push_ext d H H' Y Y' : (2 <= d <= 3)%nat -> (forall l c, (l < d)%nat -> (c < d)%nat -> H l c = H' l c) -> (forall l c, (l < d)%nat -> (c < d)%nat -> Y l c = Y' l c) ->
  forall l c, (l < d)%nat -> (c < d)%nat -> push d H Y l c = push d H' Y' l c.
Proof.
  intros Hd E1 E2 l c Hl Hc. assert (ED : forall i j, (i < d)%nat -> (j < d)%nat -> defgrad H i j = defgrad H' i j) by (intros; unfold defgrad; now rewrite E1).
  unfold push, finv. apply bigsum_ext; intros m Hm. rewrite E2 by auto. do 2 f_equal; [now apply cof_ext|]. now rewrite (detd_ext d _ _ Hd ED).
Qed.
Lemma neo_W_ext d la mu H H' Y Y' : (2 <= d <= 3)%nat -> (forall l c, (l < d)%nat -> (c < d)%nat -> H l c = H' l c) -> (forall l c, (l < d)%nat -> (c < d)%nat -> Y l c = Y' l c) ->
  neo_W d la mu H Y = neo_W d la mu H' Y'.
Proof.
  intros Hd E1 E2. assert (ED : forall i j, (i < d)%nat -> (j < d)%nat -> defgrad H i j = defgrad H' i j) by (intros; unfold defgrad; now rewrite E1).
  unfold neo_W. rewrite (detd_ext d _ _ Hd ED). f_equal.
  - f_equal. apply bigsum_ext; intros c Hc. apply bigsum_ext; intros l Hl. now rewrite ED, E2.
  - f_equal. unfold trace. apply bigsum_ext; intros. now apply push_ext.
Qed.
Lemma neo_T_ext d la mu H H' Y Y' Z Z' : (2 <= d <= 3)%nat -> (forall l c, (l < d)%nat -> (c < d)%nat -> H l c = H' l c) -> (forall l c, (l < d)%nat -> (c < d)%nat -> Y l c = Y' l c) ->
  (forall l c, (l < d)%nat -> (c < d)%nat -> Z l c = Z' l c) -> neo_T d la mu H Y Z = neo_T d la mu H' Y' Z'.
Proof.
  intros Hd E1 E2 E3. assert (ED : forall i j, (i < d)%nat -> (j < d)%nat -> defgrad H i j = defgrad H' i j) by (intros; unfold defgrad; now rewrite E1).
  unfold neo_T. rewrite (detd_ext d _ _ Hd ED).
  assert (A1 := push_ext d H H' Y Y' Hd E1 E2). assert (A2 := push_ext d H H' Z Z' Hd E1 E3). f_equal; [f_equal|].
  - f_equal. unfold ddot. apply bigsum_ext; intros c Hc. apply bigsum_ext; intros l Hl. now rewrite E2, E3.
  - f_equal; [f_equal|]; unfold trace; apply bigsum_ext; auto.
  - f_equal. apply bigsum_ext; intros c Hc. apply bigsum_ext; intros l Hl. now rewrite A1, A2.
Qed.
Lemma neo_energy_ext d la mu H H' : (2 <= d <= 3)%nat -> (forall l c, (l < d)%nat -> (c < d)%nat -> H l c = H' l c) -> neo_energy d la mu H = neo_energy d la mu H'.
Proof.
  intros Hd E1. assert (ED : forall i j, (i < d)%nat -> (j < d)%nat -> defgrad H i j = defgrad H' i j) by (intros; unfold defgrad; now rewrite E1).
  unfold neo_energy. rewrite (detd_ext d _ _ Hd ED). do 4 f_equal. apply bigsum_ext; intros; apply bigsum_ext; intros. now rewrite ED.
Qed.

(** the current configuration *)
Section Current.
Variables (s : shape) (x u : field) (r : nat -> R).
Hypothesis Hs : In s all_shapes.
Hypothesis Hd2 : (2 <= sf_d s)%nat.
Hypothesis HJ : jac s x r <> 0.
Let d := sf_d s.
Let xc : field := fun i c => x i c + u i c.
Let Hu := gradU s x r u.

Lemma d_range : (2 <= d <= 3)%nat.
Proof. pose proof (sf_d_range s Hs). unfold d. lia. Qed.
Lemma gradU_self l c : (l < d)%nat -> (c < d)%nat -> gradU s x r x l c = kron c l.
Proof.
  intros Hl Hc. symmetry. apply (field_gradient_unique s x r Hs Hd2 HJ d x (fun l c => kron c l)); auto.
  apply (affine_gradient s x r Hs d x (fun _ => 0)). intros i k Hi Hk. cbv beta. rewrite Rplus_0_l. unfold kron.
  rewrite (bigsum_ext _ _ (fun l => (if (k =? l)%nat then 1 else 0) * x i l)) by (intros; ring). now rewrite (bigsum_ite (sf_d s) k (x i)).
Qed.
Lemma gradU_plus y z l c : gradU s x r (fun i c => y i c + z i c) l c = gradU s x r y l c + gradU s x r z l c.
Proof. unfold gradU. rewrite <- bigsum_plus. apply bigsum_ext; intros. ring. Qed.
Lemma gradU_cur l c : (l < d)%nat -> (c < d)%nat -> gradU s x r xc l c = defgrad Hu c l.
Proof. intros Hl Hc. unfold xc. rewrite gradU_plus, gradU_self by auto. reflexivity. Qed.
Lemma tangent_cur k l : (k < d)%nat -> (l < d)%nat -> tangent s xc r k l = bigsum d (fun m => tangent s x r k m * defgrad Hu l m).
Proof.
  intros Hk Hl. rewrite (bigsum_ext d _ (fun m => tangent s x r k m * gradU s x r xc m l)) by (intros; now rewrite gradU_cur).
  symmetry. apply (gradU_field s x r Hs Hd2 HJ (sf_d s)); auto.
Qed.
Lemma jac_cur : jac s xc r = jac s x r * detd d (defgrad Hu).
Proof.
  unfold jac. fold d. rewrite (detd_ext d _ _ d_range tangent_cur). pose proof d_range as Hr. revert Hr. generalize (tangent s x r), (defgrad Hu). generalize d.
  intros e T F Hr. destruct e as [|[|[|[|e]]]]; try lia; cbn [detd]; unfold det2, det3; cbn [bigsum]; ring.
Qed.
Lemma gradU_push y l c : detd d (defgrad Hu) <> 0 -> (l < d)%nat -> (c < d)%nat -> gradU s xc r y l c = push d Hu (gradU s x r y) l c.
Proof.
  intros HF Hl Hc. assert (HJc : jac s xc r <> 0) by (rewrite jac_cur; now apply Rmult_integral_contrapositive_currified).
  symmetry. apply (field_gradient_unique s xc r Hs Hd2 HJc d); auto.
  intros k c' Hk Hc'. change (sf_d s) with d in Hk |- *.
  rewrite (bigsum_ext d _ (fun l => bigsum d (fun m => tangent s x r k m * (defgrad Hu l m * push d Hu (gradU s x r y) l c')))).
  2:{ intros l' Hl'. rewrite tangent_cur by auto. rewrite <- bigsum_scal_r. apply bigsum_ext; intros. ring. }
  rewrite bigsum_swap. rewrite (bigsum_ext d _ (fun m => tangent s x r k m * gradU s x r y m c')).
  - now apply (gradU_field s x r Hs Hd2 HJ d).
  - intros m Hm. rewrite bigsum_scal. now rewrite (push_pull d Hu d_range HF).
Qed.
End Current.
