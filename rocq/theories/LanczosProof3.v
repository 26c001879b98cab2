(** The Lanczos process. *)
From Coq Require Import List Arith Lia Bool Reals Lra.
From Verif Require Import Res SumR SparseModel SparseSpec DenseModel DenseR LUModel LUProof KrylovModel KrylovSpec KrylovProof CGMath LanczosSpec LanczosModel SturmMath SturmMath2 LanczosProof LanczosProof2.
Import ListNotations.
Local Open Scope R_scope.

Lemma foldM_range_inv {S} (f : S -> nat -> res S) (Inv : nat -> S -> Prop) : forall n lo s s', Inv lo s ->
  (forall k s s', (lo <= k < lo + n)%nat -> Inv k s -> f s k = Ok s' -> Inv (Datatypes.S k) s') ->
  foldM f (seq lo n) s = Ok s' -> Inv (lo + n)%nat s'.
Proof.
  induction n as [|n IH]; intros lo s s' H0 H E.
  - cbn in E. injection E as <-. now rewrite Nat.add_0_r.
  - cbn [seq foldM] in E. apply bind_Ok in E as (s1 & E1 & E). rewrite Nat.add_succ_r. apply (IH (Datatypes.S lo) s1 s'); auto.
    + apply (H lo s s1); auto; lia. + intros k t t' Hk. apply H. lia.
Qed.
Lemma Rdiv_res_inv x y z : Rdiv_res x y = Ok z -> y <> 0 /\ z = x / y.
Proof. unfold Rdiv_res. destruct (Req_EM_T y 0); [discriminate|]. intros [= <-]. auto. Qed.
Lemma xeyda_inv : forall x y c r, xeyda x y c = Ok r -> length r = length x /\ (length x <= length y)%nat /\ ((0 < length x)%nat -> c <> 0) /\ (forall i, (i < length x)%nat -> ix r i = ix y i / c).
Proof.
  induction x as [|u x IH]; intros y c r E; cbn [xeyda] in E.
  - injection E as <-. cbn. splits; auto; intros; lia.
  - destruct y as [|v y]; [discriminate|]. apply bind_Ok in E as (d & Ed & E). apply bind_Ok in E as (r' & Er & E). injection E as <-.
    apply Rdiv_res_inv in Ed as (N & ->). destruct (IH _ _ _ Er) as (I1 & I2 & I3 & I4). cbn [length]. splits; try lia; auto. intros [|i] Hi; [reflexivity|]. unfold ix in *. cbn [nth]. apply I4. lia.
Qed.
Lemma xexda_inv x c r : xexda x c = Ok r -> length r = length x /\ ((0 < length x)%nat -> c <> 0) /\ (forall i, (i < length x)%nat -> ix r i = ix x i / c).
Proof.
  unfold xexda. revert r. induction x as [|u x IH]; intros r E; cbn [mapM] in E.
  - injection E as <-. cbn. splits; auto; intros; lia.
  - apply bind_Ok in E as (d & Ed & E). apply bind_Ok in E as (r' & Er & E). injection E as <-.
    apply Rdiv_res_inv in Ed as (N & ->). destruct (IH _ Er) as (I1 & I3 & I4). cbn [length]. splits; try lia; auto. intros [|i] Hi; [reflexivity|]. unfold ix in *. cbn [nth]. apply I4. lia.
Qed.
Lemma inner_inv n x y r : length x = n -> length y = n -> inner x y = Ok r -> r = dot n (ix x) (ix y).
Proof. intros Hx Hy E. rewrite (inner_ok n x y Hx Hy) in E. congruence. Qed.

(** row j of q *)
Definition qr (q : list (list R)) (j i : nat) : R := ix (nth j q []) i.
Definition prev (b : nat -> R) (q : nat -> nat -> R) (j i : nat) : R := match j with O => 0 | S j => b j * q j i end.
(** the recurrence the loops compute; [P j] is the vector the operator gives for q j *)
Definition recurrence (n m k : nat) (P : nat -> nat -> R) (a b : nat -> R) (q : nat -> nat -> R) : Prop :=
  forall j, (j < k)%nat ->
    a j = dot n (q j) (fun i => P j i - prev b q j i) /\
    b j = norm2 n (fun i => P j i - prev b q j i - a j * q j i) /\
    ((S j < m)%nat -> b j <> 0 /\ forall i, (i < n)%nat -> q (S j) i = (P j i - prev b q j i - a j * q j i) / b j).

Section Process.
Variables (n m : nat).
Hypothesis Hn : (0 < n)%nat.
Variable op : list R -> res (list R).
Hypothesis Hop : forall v w, length v = n -> op v = Ok w -> length w = n.

Definition shape (s : list R * list R * list (list R)) : Prop :=
  let '(alpha, beta, q) := s in length alpha = m /\ length beta = m /\ length q = m /\ (forall j, (j < m)%nat -> length (nth j q []) = n).
Definition linv (k : nat) (s : list R * list R * list (list R)) : Prop :=
  let '(alpha, beta, q) := s in shape s /\ dot n (qr q 0) (qr q 0) = 1 /\
  exists P, (forall j, (j < k)%nat -> exists w, op (nth j q []) = Ok w /\ agree n (P j) (ix w)) /\ recurrence n m k P (ix alpha) (ix beta) (qr q).

Lemma start_inv A q : crows A = n -> start A m = Ok q -> (0 < m)%nat /\ length q = m /\ (forall j, (j < m)%nat -> length (nth j q []) = n) /\ dot n (qr q 0) (qr q 0) = 1 /\
  exists d, get_diagonal A = Ok d /\ norm2 n (ix d) <> 0 /\ forall i, (i < n)%nat -> qr q 0 i = ix d i / norm2 n (ix d).
Proof.
  intros Hr E. unfold start in E. apply bind_Ok in E as (d & Ed & E). apply bind_Ok in E as (q1 & E1 & E). apply bind_Ok in E as (dd & Edd & E). apply bind_Ok in E as (q0 & E0 & E).
  pose proof (get_diagonal_length _ _ Ed) as Ld. rewrite Hr in Ld. apply (inner_inv n) in Edd; auto. apply wr_inv in E1 as (L1 & ->). rewrite repeat_length in L1.
  apply wr_inv in E as (L2 & ->). rewrite upd_length, repeat_length in L2. apply xexda_inv in E0 as (X1 & X2 & X3). rewrite Ld in *. specialize (X2 Hn). subst dd.
  assert (V : forall i, (i < n)%nat -> qr (upd (upd (repeat (repeat 0 (crows A)) m) 0 d) 0 q0) 0 i = ix d i / norm2 n (ix d)).
  { intros i Hi. unfold qr. rewrite nth_upd, Nat.eqb_refl. rewrite upd_length, repeat_length. assert (Y : (0 <? m)%nat = true) by now apply Nat.ltb_lt. rewrite Y. now apply X3. }
  splits; auto.
  - rewrite !upd_length. apply repeat_length.
  - intros j Hj. rewrite !nth_upd, !upd_length, !repeat_length. destruct (0 =? j)%nat; [assert (Y : (0 <? m)%nat = true) by (now apply Nat.ltb_lt); rewrite Y; auto|].
    cbn [andb]. rewrite (nth_indep _ [] (repeat 0 (crows A))) by (rewrite repeat_length; auto). rewrite nth_repeat, repeat_length. auto.
  - fold (norm2 n (ix d)) in X2. rewrite (dot_ext n _ (fun i => / norm2 n (ix d) * ix d i + 0 * ix d i) _ (fun i => / norm2 n (ix d) * ix d i + 0 * ix d i)) by (intros i Hi; rewrite V by auto; unfold Rdiv; ring).
    rewrite dot_lin_l, dot_lin_r. assert (Q : norm2 n (ix d) * norm2 n (ix d) = dot n (ix d) (ix d)) by (unfold norm2; apply sqrt_sqrt, dot_nonneg). rewrite <- Q. field. auto.
  - exists d. splits; auto.
Qed.

Lemma step_inv k s s' : (k < m)%nat -> linv k s -> lanczos_step op false m s k = Ok s' -> linv (S k) s'.
Proof.
  intros Hk HI E. destruct s as [[alpha beta] q]. destruct HI as ((La & Lb & Lq & Lr) & U & P & HP & HR).
  unfold lanczos_step in E. apply bind_Ok in E as (qk & Eqk & E). rewrite (rd_nth q k []) in Eqk by lia. injection Eqk as <-.
  apply bind_Ok in E as (w & Ew & E). pose proof (Hop _ _ (Lr k Hk) Ew) as Lw. cbn [bind] in E.
  apply bind_Ok in E as (p & Ep & E).
  assert (HPp : length p = n /\ agree n (ix p) (fun i => ix w i - prev (ix beta) (qr q) k i)).
  { destruct k as [|k]; cbn [Nat.eqb] in Ep.
    - injection Ep as <-. split; auto. intros i Hi. cbn [prev]. ring.
    - replace (S k - 1)%nat with k in Ep by lia. rewrite rd_ix in Ep by lia. cbn [bind] in Ep. rewrite (rd_nth q k []) in Ep by lia. cbn [bind] in Ep.
      apply (walk2_inv n) in Ep as (Lp & Vp); auto; [|apply Lr; lia]. split; auto. intros i Hi. rewrite Vp by auto. cbn [prev]. unfold qr. ring. }
  destruct HPp as (Lp & Vp).
  apply bind_Ok in E as (ak & Eak & E). apply (inner_inv n) in Eak; auto.
  apply bind_Ok in E as (al & Eal & E). apply wr_inv in Eal as (_ & ->).
  apply bind_Ok in E as (p2 & Ep2 & E). apply (walk2_inv n) in Ep2 as (Lp2 & Vp2); auto.
  apply bind_Ok in E as (pp & Epp & E). apply (inner_inv n) in Epp; auto.
  apply bind_Ok in E as (be & Ebe & E). apply wr_inv in Ebe as (_ & ->).
  apply bind_Ok in E as (q' & Eq' & E). injection E as <-.
  set (w2 := fun i => ix w i - prev (ix beta) (qr q) k i - ak * qr q k i).
  assert (V2 : agree n (ix p2) w2). { intros i Hi. rewrite Vp2, Vp by auto. unfold w2, qr. ring. }
  assert (Eak2 : ak = dot n (qr q k) (fun i => ix w i - prev (ix beta) (qr q) k i)). { rewrite Eak. apply dot_ext; auto. }
  assert (Ebk : sqrt pp = norm2 n w2). { unfold norm2. rewrite Epp. f_equal. now apply dot_ext. }
  assert (HQ : length q' = m /\ (forall j, (j < m)%nat -> length (nth j q' []) = n) /\ (forall j, (j <= k)%nat -> nth j q' [] = nth j q []) /\
            ((S k < m)%nat -> sqrt pp <> 0 /\ forall i, (i < n)%nat -> qr q' (S k) i = w2 i / sqrt pp)).
  { destruct (Nat.eqb_spec k (m - 1)) as [Z|Z].
    - injection Eq' as <-. splits; auto. intros; lia.
    - rewrite Nat.add_1_r in Eq'. rewrite (rd_nth q (S k) []) in Eq' by lia. cbn [bind] in Eq'. apply bind_Ok in Eq' as (qn & Eqn & Eq'). apply wr_inv in Eq' as (_ & ->).
      apply xeyda_inv in Eqn as (X1 & X2 & X3 & X4). rewrite Lr in * by lia. splits.
      + now rewrite upd_length.
      + intros j Hj. rewrite nth_upd. destruct ((S k =? j)%nat && (S k <? length q)%nat)%bool; auto.
      + intros j Hj. rewrite nth_upd. destruct (Nat.eqb_spec (S k) j); [lia|]. reflexivity.
      + intros _. split; auto. intros i Hi. unfold qr. rewrite nth_upd, Nat.eqb_refl. assert (Y : (S k <? length q)%nat = true) by (apply Nat.ltb_lt; lia). rewrite Y. rewrite X4, V2 by auto. reflexivity. }
  destruct HQ as (Q1 & Q2 & Q3 & Q4).
  assert (Qr : forall j i, (j <= k)%nat -> qr q' j i = qr q j i) by (intros j i Hj; unfold qr; now rewrite Q3).
  unfold linv, shape. rewrite !upd_length. split; [splits; auto|]. split.
  { rewrite (dot_ext n _ (qr q 0) _ (qr q 0)); auto; intros i Hi; apply Qr; lia. }
  exists (fun j => if (j =? k)%nat then ix w else P j). split.
  - intros j Hj. destruct (Nat.eqb_spec j k) as [->|N].
    + exists w. split; auto. now rewrite Q3.
    + rewrite Q3 by lia. apply HP. lia.
  - assert (Pv : forall j i, (j <= k)%nat -> prev (ix (upd beta k (sqrt pp))) (qr q') j i = prev (ix beta) (qr q) j i).
    { intros [|j] i Hj; cbn [prev]; auto. rewrite ix_upd by lia. destruct (Nat.eqb_spec j k); [lia|]. rewrite Qr by lia. reflexivity. }
    intros j Hj. cbv beta. rewrite !ix_upd by lia. destruct (Nat.eqb_spec j k) as [->|N].
    + splits.
      * rewrite Eak2. apply dot_ext; intros i Hi; cbv beta; [now rewrite Qr|now rewrite Pv].
      * transitivity (norm2 n w2); [exact Ebk|]. unfold norm2. f_equal. apply dot_ext; intros i Hi; cbv beta; unfold w2; now rewrite Pv, Qr.
      * intros HS. destruct (Q4 HS) as (Q5 & Q6). split; auto. intros i Hi. rewrite Q6, Pv, Qr by auto. reflexivity.
    + destruct (HR j ltac:(lia)) as (R1 & R2 & R3). splits.
      * rewrite R1. apply dot_ext; intros i Hi; cbv beta; [rewrite Qr by lia; reflexivity|rewrite Pv by lia; reflexivity].
      * rewrite R2. unfold norm2. f_equal. apply dot_ext; intros i Hi; cbv beta; rewrite Pv, Qr by lia; reflexivity.
      * intros HS. destruct (R3 HS) as (R4 & R5). split; auto. intros i Hi. rewrite Pv, !Qr by lia. now apply R5.
Qed.
Lemma process_inv A s : crows A = n -> process op false A m = Ok s -> (0 < m)%nat /\ linv m s /\ exists d, get_diagonal A = Ok d /\ norm2 n (ix d) <> 0 /\ forall i, (i < n)%nat -> qr (snd s) 0 i = ix d i / norm2 n (ix d).
Proof.
  intros Hr E. unfold process in E. apply bind_Ok in E as (q & Eq & E). destruct (start_inv A q Hr Eq) as (S1 & S2 & S3 & S4 & S5). split; auto.
  apply (foldM_range_inv _ (fun k s => linv k s /\ forall i, qr (snd s) 0 i = qr q 0 i)) in E.
  - destruct E as (E1 & E2). split; auto. destruct S5 as (d & D1 & D2 & D3). exists d. splits; auto. intros i Hi. rewrite E2. auto.
  - split; auto. unfold linv, shape. rewrite !repeat_length. splits; auto. exists (fun _ _ => 0). split; [intros; lia|]. intros j Hj. lia.
  - intros k t t' Hk (HI & H0) Et. split; [apply (step_inv k t); auto; lia|]. intros i. rewrite <- H0. clear - Et.
    destruct t as [[al be] q1]. unfold lanczos_step in Et. repeat (apply bind_Ok in Et as (? & ? & Et)). injection Et as <-. cbn [snd].
    match goal with H : (if (k =? m - 1)%nat then _ else _) = Ok _ |- _ => destruct (k =? m - 1)%nat; [injection H as <-; reflexivity|]; repeat (apply bind_Ok in H as (? & ? & H)); apply wr_inv in H as (_ & ->) end.
    unfold qr. rewrite nth_upd. destruct (Nat.eqb_spec (k + 1) 0); [lia|]. reflexivity.
Qed.
End Process.
