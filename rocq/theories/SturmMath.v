(** The characteristic polynomials of a symmetric tridiagonal matrix: simple
    real roots, interlacing, and the number of sign changes (Sturm). *)
From Coq Require Import List Arith Lia Bool Reals Lra.
From Verif Require Import Res SumR SparseModel SparseSpec KrylovSpec LanczosSpec.
Local Open Scope R_scope.

(** ** polynomial functions *)
Definition pdeg (k : nat) (f : R -> R) : Prop := exists c : nat -> R, forall x, f x = bigsum k (fun i => c i * x ^ i).

Lemma pdeg_ext k f g : (forall x, f x = g x) -> pdeg k g -> pdeg k f.
Proof. intros H (c & Hc). exists c. intros x. now rewrite H. Qed.
Lemma pdeg_up k f : pdeg k f -> pdeg (S k) f.
Proof.
  intros (c & Hc). exists (fun i => if (i <? k)%nat then c i else 0). intros x. rewrite Hc. cbn [bigsum]. rewrite Nat.ltb_irrefl, Rmult_0_l, Rplus_0_r.
  apply bigsum_ext. intros i Hi. apply Nat.ltb_lt in Hi. now rewrite Hi.
Qed.
Lemma pdeg_plus k f g : pdeg k f -> pdeg k g -> pdeg k (fun x => f x + g x).
Proof.
  intros (c & Hc) (d & Hd). exists (fun i => c i + d i). intros x. rewrite Hc, Hd, <- bigsum_plus. apply bigsum_ext. intros; ring.
Qed.
Lemma pdeg_scal k u f : pdeg k f -> pdeg k (fun x => u * f x).
Proof. intros (c & Hc). exists (fun i => u * c i). intros x. rewrite Hc, <- bigsum_scal. apply bigsum_ext. intros; ring. Qed.
Lemma pdeg_x k f : pdeg k f -> pdeg (S k) (fun x => x * f x).
Proof.
  intros (c & Hc). exists (fun i => match i with O => 0 | S j => c j end). intros x. rewrite Hc, bigsum_S_l, Rmult_0_l, Rplus_0_l, <- bigsum_scal.
  apply bigsum_ext. intros i _. cbn [pow]. ring.
Qed.
Lemma pdeg_const k u : pdeg (S k) (fun _ => u).
Proof.
  exists (fun i => match i with O => u | S _ => 0 end). intros x. rewrite bigsum_S_l. rewrite (bigsum_zero k); [cbn [pow]; ring|]. intros; ring.
Qed.

(** a polynomial of degree < k with k distinct roots vanishes *)
Lemma pdeg_div k f t : pdeg (S k) f -> f t = 0 -> exists g, pdeg k g /\ forall x, f x = (x - t) * g x.
Proof.
  intros (c & Hc) Ht.
  assert (D : forall n, exists g, pdeg n g /\ forall x, bigsum (S n) (fun i => c i * x ^ i) - bigsum (S n) (fun i => c i * t ^ i) = (x - t) * g x).
  { induction n as [|n (g & Pg & Hg)].
    - exists (fun _ => 0). split; [exists (fun _ => 0); intros; reflexivity|]. intros x. cbn. ring.
    - assert (W : exists h, pdeg (S n) h /\ forall x, x ^ S n - t ^ S n = (x - t) * h x).
      { clear. induction n as [|n (h & Ph & Hh)].
        - exists (fun _ => 1). split; [apply pdeg_const|]. intros x. cbn. ring.
        - exists (fun x => x * h x + t ^ S n). split.
          + apply pdeg_plus; [now apply pdeg_x|apply pdeg_const].
          + intros x. replace (x ^ S (S n) - t ^ S (S n)) with (x * (x ^ S n - t ^ S n) + (x - t) * t ^ S n) by (cbn [pow]; ring). rewrite Hh. ring. }
      destruct W as (h & Ph & Hh). exists (fun x => g x + c (S n) * h x). split.
      + apply pdeg_plus; [now apply pdeg_up|now apply pdeg_scal].
      + intros x. change (bigsum (S (S n)) ?f1) with (bigsum (S n) f1 + f1 (S n)). cbv beta. rewrite Rmult_plus_distr_l, <- Hg.
        replace ((x - t) * (c (S n) * h x)) with (c (S n) * (x ^ S n - t ^ S n)) by (rewrite Hh; ring). ring. }
  destruct (D k) as (g & Pg & Hg). exists g. split; auto. intros x. rewrite <- Hg, <- !Hc, Ht. ring.
Qed.
Lemma pdeg_roots : forall k f (t : nat -> R), pdeg k f -> (forall i j, (i < j)%nat -> (j < k)%nat -> t i <> t j) -> (forall i, (i < k)%nat -> f (t i) = 0) -> forall x, f x = 0.
Proof.
  induction k as [|k IH]; intros f t P D Z x; [destruct P as (c & ->); reflexivity|].
  destruct (pdeg_div k f (t k) P (Z k ltac:(lia))) as (g & Pg & Hg). rewrite Hg. enough (E : g x = 0) by (rewrite E; ring). apply (IH g t Pg); [intros i j Hij Hj; apply D; lia|].
  intros i Hi. assert (E : (t i - t k) * g (t i) = 0) by (rewrite <- Hg; apply Z; lia). apply Rmult_integral in E as [E|E]; auto.
    exfalso. apply (D i k Hi ltac:(lia)). lra.
Qed.

(** products of linear factors *)
Fixpoint prodr (k : nat) (r : nat -> R) (x : R) : R := match k with O => 1 | S k => prodr k r x * (r k - x) end.
Lemma prodr_lead k r : pdeg k (fun x => prodr k r x - (-1) ^ k * x ^ k).
Proof.
  induction k as [|k IH]; [exists (fun _ => 0); intros; cbn; ring|].
  apply (pdeg_ext _ _ (fun x => (r k * (prodr k r x - (-1) ^ k * x ^ k) + (-1) * (x * (prodr k r x - (-1) ^ k * x ^ k))) + (r k * (-1) ^ k) * x ^ k)).
  - intros x. cbn [prodr pow]. ring.
  - apply pdeg_plus; [apply pdeg_plus|].
    + apply pdeg_up. now apply pdeg_scal. + apply pdeg_scal. now apply pdeg_x.
    + exists (fun i => if (i =? k)%nat then r k * (-1) ^ k else 0). intros x. cbn [bigsum]. rewrite Nat.eqb_refl. rewrite bigsum_zero; [ring|].
      intros i Hi. assert (E : (i =? k)%nat = false) by (apply Nat.eqb_neq; lia). rewrite E. ring.
Qed.
Lemma prodr_ext k r s x : (forall i, (i < k)%nat -> r i = s i) -> prodr k r x = prodr k s x.
Proof. intros H. induction k as [|k IH]; cbn [prodr]; auto. rewrite IH by (intros; apply H; lia). now rewrite H by lia. Qed.
Lemma prodr_zero k r x : prodr k r x = 0 <-> exists i, (i < k)%nat /\ x = r i.
Proof.
  induction k as [|k IH]; cbn [prodr].
  - split; [lra|]. intros (i & Hi & _). lia.
  - split.
    + intros H. apply Rmult_integral in H as [H|H]; [apply IH in H as (i & Hi & E); exists i; split; auto; lia|]. exists k. split; [lia|lra].
    + intros (i & Hi & ->). destruct (Nat.eq_dec i k) as [->|Hk]; [ring|]. rewrite (proj2 IH); [ring|]. exists i. split; auto; lia.
Qed.
(** the number of factors below x *)
Fixpoint below (k : nat) (r : nat -> R) (x : R) : nat := match k with O => O | S k => (below k r x + if Rlt_dec (r k) x then 1 else 0)%nat end.
Lemma prodr_sign k r x : (forall i, (i < k)%nat -> r i <> x) -> 0 < (-1) ^ below k r x * prodr k r x.
Proof.
  induction k as [|k IH]; intros H; [cbn; lra|]. cbn [below prodr]. specialize (IH (fun i Hi => H i (Nat.lt_lt_succ_r _ _ Hi))). pose proof (H k ltac:(lia)) as Hk.
  destruct (Rlt_dec (r k) x) as [L|L].
  - replace (below k r x + 1)%nat with (S (below k r x)) by lia. cbn [pow].
    replace (-1 * (-1) ^ below k r x * (prodr k r x * (r k - x))) with ((-1) ^ below k r x * prodr k r x * (x - r k)) by ring. apply Rmult_lt_0_compat; lra.
  - rewrite Nat.add_0_r. rewrite <- Rmult_assoc. apply Rmult_lt_0_compat; lra.
Qed.
Lemma below_eq k r x j : (j <= k)%nat -> (forall i, (i < j)%nat -> r i < x) -> (forall i, (j <= i)%nat -> (i < k)%nat -> x <= r i) -> below k r x = j.
Proof.
  revert j. induction k as [|k IH]; intros j Hj H1 H2; cbn [below]; [lia|]. destruct (Rlt_dec (r k) x) as [L|L].
  - assert (E : j = S k). { destruct (Nat.eq_dec j (S k)); auto. pose proof (H2 k ltac:(lia) ltac:(lia)). lra. } subst. rewrite (IH k); auto; [lia|intros; lia].
  - assert (E : (j <= k)%nat). { destruct (le_lt_dec j k); auto. pose proof (H1 k ltac:(lia)). lra. } rewrite (IH j); auto; lia.
Qed.
(** every increasing sequence splits at x *)
Lemma below_split k r x : (forall i j, (i < j)%nat -> (j < k)%nat -> r i < r j) ->
  (below k r x <= k)%nat /\ (forall i, (i < below k r x)%nat -> r i < x) /\ (forall i, (below k r x <= i)%nat -> (i < k)%nat -> x <= r i).
Proof.
  intros HI. assert (E : exists j, (j <= k)%nat /\ (forall i, (i < j)%nat -> r i < x) /\ (forall i, (j <= i)%nat -> (i < k)%nat -> x <= r i)).
  { induction k as [|k IH]; [exists 0%nat; repeat split; intros; lia|].
    destruct IH as (j & H1 & H2 & H3); [intros; apply HI; lia|]. destruct (Rlt_dec (r k) x) as [L|L].
    - exists (S k). repeat split; auto; [|intros; lia]. intros i Hi. destruct (Nat.eq_dec i k) as [->|Hk]; auto. apply (Rlt_trans _ (r k)); auto. apply HI; lia.
    - exists j. repeat split; auto. intros i Hi Hi'. destruct (Nat.eq_dec i k) as [->|Hk]; [lra|]. apply H3; lia. }
  destruct E as (j & H1 & H2 & H3). rewrite (below_eq k r x j); auto.
Qed.

Lemma pow_m1_sq k : (-1) ^ k * (-1) ^ k = 1.
Proof. rewrite <- Rpow_mult_distr. replace (-1 * -1) with 1 by ring. apply pow1. Qed.

Lemma finite_choice k (Phi : nat -> R -> Prop) : (forall i, (i < k)%nat -> exists z, Phi i z) -> exists t : nat -> R, forall i, (i < k)%nat -> Phi i (t i).
Proof.
  induction k as [|k IH]; intros H; [exists (fun _ => 0); intros; lia|]. destruct IH as (t & Ht); [intros; apply H; lia|]. destruct (H k ltac:(lia)) as (z & Hz).
  exists (fun i => if (i =? k)%nat then z else t i). intros i Hi. destruct (Nat.eq_dec i k) as [->|Hk]; [now rewrite Nat.eqb_refl|].
  assert (E : (i =? k)%nat = false) by now apply Nat.eqb_neq. rewrite E. apply Ht. lia.
Qed.

Lemma cont_ext (f g : R -> R) : (forall x, f x = g x) -> continuity f -> continuity g.
Proof. intros H C x e He. destruct (C x e He) as (d & D1 & D2). exists d. split; auto. intros y Hy. rewrite <- !H. now apply D2. Qed.

(** ** the characteristic polynomials *)
Section Sturm.
Variables a b : nat -> R.

Fixpoint chp2 (k : nat) (x : R) : R * R := match k with
  | O => (1, a 0%nat - x)
  | S k => let '(p, q) := chp2 k x in (q, (a (S k) - x) * q - b k ^ 2 * p) end.
(** det(T_k - x I) *)
Definition chp (k : nat) (x : R) : R := fst (chp2 k x).
Lemma chp_0 x : chp 0 x = 1. Proof. reflexivity. Qed.
Lemma chp_1 x : chp 1 x = a 0%nat - x. Proof. reflexivity. Qed.
Lemma chp_SS k x : chp (S (S k)) x = (a (S k) - x) * chp (S k) x - b k ^ 2 * chp k x.
Proof. unfold chp. cbn [chp2]. destruct (chp2 k x) as [p q]. reflexivity. Qed.
Lemma chp_cont k : continuity (chp k).
Proof.
  enough (G : continuity (chp k) /\ continuity (chp (S k))) by apply G. induction k as [|k (I1 & I2)].
  - split; [apply continuity_const; intros u v; reflexivity|]. intros x. apply (continuity_pt_minus (fun _ => a 0%nat) (fun x => x)); [apply continuity_pt_const; intros u v; reflexivity|apply derivable_continuous_pt, derivable_pt_id].
  - split; auto. apply (cont_ext (fun x => (a (S k) - x) * chp (S k) x - b k ^ 2 * chp k x)); [intros; now rewrite chp_SS|]. intros x.
    apply (continuity_pt_minus (fun x => (a (S k) - x) * chp (S k) x) (fun x => b k ^ 2 * chp k x)).
    + apply (continuity_pt_mult (fun x => a (S k) - x) (chp (S k))); auto. apply (continuity_pt_minus (fun _ => a (S k)) (fun x => x)); [apply continuity_pt_const; intros u v; reflexivity|apply derivable_continuous_pt, derivable_pt_id].
    + apply (continuity_pt_scal (chp k)); auto.
Qed.
Lemma chp_lead k : pdeg k (fun x => chp k x - (-1) ^ k * x ^ k).
Proof.
  enough (G : pdeg k (fun x => chp k x - (-1) ^ k * x ^ k) /\ pdeg (S k) (fun x => chp (S k) x - (-1) ^ (S k) * x ^ (S k))) by apply G.
  induction k as [|k (I1 & I2)].
  - split; [exists (fun _ => 0); intros; cbn; ring|]. apply (pdeg_ext _ _ (fun _ => a 0%nat)); [intros; rewrite chp_1; ring|apply pdeg_const].
  - split; auto. set (u := fun x => chp (S k) x - (-1) ^ S k * x ^ S k) in *. set (v := fun x => chp k x - (-1) ^ k * x ^ k) in *.
    apply (pdeg_ext _ _ (fun x => (a (S k) * u x + (-1) * (x * u x)) + (- (b k ^ 2)) * v x + ((a (S k) * (-1) ^ S k) * x ^ S k + (- (b k ^ 2) * (-1) ^ k) * x ^ k))).
    + intros x. unfold u, v. rewrite chp_SS. cbn [pow]. ring.
    + apply pdeg_plus; [apply pdeg_plus; [apply pdeg_plus|]|].
      * apply pdeg_up. now apply pdeg_scal. * apply pdeg_scal. now apply pdeg_x. * apply pdeg_up, pdeg_up. now apply pdeg_scal.
      * exists (fun i => if (i =? S k)%nat then a (S k) * (-1) ^ S k else if (i =? k)%nat then - (b k ^ 2) * (-1) ^ k else 0). intros x.
        cbn [bigsum]. rewrite !Nat.eqb_refl. assert (E : (k =? S k)%nat = false) by (apply Nat.eqb_neq; lia). rewrite E.
        rewrite bigsum_zero; [ring|]. intros i Hi. assert (E1 : (i =? S k)%nat = false) by (apply Nat.eqb_neq; lia). assert (E2 : (i =? k)%nat = false) by (apply Nat.eqb_neq; lia). rewrite E1, E2. ring.
Qed.
Lemma chp_factor k t : (forall i j, (i < j)%nat -> (j < k)%nat -> t i < t j) -> (forall i, (i < k)%nat -> chp k (t i) = 0) -> forall x, chp k x = prodr k t x.
Proof.
  intros D Z x. enough (E : chp k x + -1 * prodr k t x = 0) by lra.
  apply (pdeg_roots k (fun x => chp k x + -1 * prodr k t x) t).
  - apply (pdeg_ext _ _ (fun x => (chp k x - (-1) ^ k * x ^ k) + -1 * (prodr k t x - (-1) ^ k * x ^ k))); [intros; ring|].
    apply pdeg_plus; [apply chp_lead|]. apply pdeg_scal, prodr_lead.
  - intros i j Hij Hj E. specialize (D i j Hij Hj). lra.
  - intros i Hi. rewrite (Z i Hi). rewrite (proj2 (prodr_zero k t (t i))); [ring|]. eauto.
Qed.

(** outside the Gershgorin interval *)
Variables (m : nat) (B : R).
Hypothesis RB : row_bound m a b B.
Lemma rb_0 : (0 < m)%nat -> Rabs (a 0%nat) + Rabs (b 0%nat) <= B.
Proof. intros H. specialize (RB 0%nat H). cbn in RB. lra. Qed.
Lemma chp_left k x : (k < m)%nat -> x < - B -> 0 < chp k x /\ Rabs (b k) * chp k x < chp (S k) x.
Proof.
  intros Hk Hx. induction k as [|k IH].
  - rewrite chp_0, chp_1. pose proof (rb_0 ltac:(lia)). pose proof (Rle_abs (- a 0%nat)). rewrite Rabs_Ropp in *. lra.
  - destruct IH as (I1 & I2); [lia|]. pose proof (Rabs_pos (b k)) as Pk. assert (I3 : 0 < chp (S k) x) by nra. split; auto. rewrite chp_SS.
    pose proof (RB (S k) Hk) as G. cbn in G. pose proof (Rle_abs (- a (S k))). rewrite Rabs_Ropp in *.
    assert (Q : b k ^ 2 = Rabs (b k) * Rabs (b k)) by (rewrite <- Rabs_mult, Rabs_right; [ring|nra]). rewrite Q.
    assert (U : Rabs (b k) + Rabs (b (S k)) < a (S k) - x) by lra.
    apply (Rmult_lt_compat_r (chp (S k) x)) in U; auto. apply (Rmult_le_compat_l (Rabs (b k)) _ _ Pk) in I2 as I4 || assert (I4 : Rabs (b k) * (Rabs (b k) * chp k x) <= Rabs (b k) * chp (S k) x) by (apply Rmult_le_compat_l; lra). lra.
Qed.
Lemma chp_right k x : (k < m)%nat -> B < x -> 0 < (-1) ^ k * chp k x /\ Rabs (b k) * ((-1) ^ k * chp k x) < (-1) ^ S k * chp (S k) x.
Proof.
  intros Hk Hx. induction k as [|k IH].
  - rewrite chp_0, chp_1. pose proof (rb_0 ltac:(lia)). pose proof (Rle_abs (a 0%nat)). cbn [pow]. lra.
  - destruct IH as (I1 & I2); [lia|]. pose proof (Rabs_pos (b k)) as Pk. assert (I3 : 0 < (-1) ^ S k * chp (S k) x) by nra. split; auto. rewrite chp_SS.
    pose proof (RB (S k) Hk) as G. cbn in G. pose proof (Rle_abs (a (S k))).
    assert (Q : b k ^ 2 = Rabs (b k) * Rabs (b k)) by (rewrite <- Rabs_mult, Rabs_right; [ring|nra]). rewrite Q.
    assert (U : Rabs (b k) + Rabs (b (S k)) < x - a (S k)) by lra.
    apply (Rmult_lt_compat_r ((-1) ^ S k * chp (S k) x)) in U; auto.
    assert (I4 : Rabs (b k) * (Rabs (b k) * ((-1) ^ k * chp k x)) <= Rabs (b k) * ((-1) ^ S k * chp (S k) x)) by (apply Rmult_le_compat_l; lra).
    replace ((-1) ^ S (S k) * ((a (S k) - x) * chp (S k) x - Rabs (b k) * Rabs (b k) * chp k x)) with
      ((x - a (S k)) * ((-1) ^ S k * chp (S k) x) - Rabs (b k) * (Rabs (b k) * ((-1) ^ k * chp k x))) by (cbn [pow]; ring). lra.
Qed.

(** ** interlacing roots *)
Hypothesis NZ : forall k, (S k < m)%nat -> b k <> 0.
Definition roots (k : nat) (r s : nat -> R) : Prop :=
  (forall x, chp (S k) x = prodr (S k) r x) /\ (forall x, chp k x = prodr k s x) /\ (forall i, (i < k)%nat -> r i < s i < r (S i)) /\
  (forall i, (i <= k)%nat -> - B <= r i <= B).
Lemma roots_mono k r s : roots k r s -> (forall i j, (i < j)%nat -> (j < S k)%nat -> r i < r j) /\ (forall i j, (i < j)%nat -> (j < k)%nat -> s i < s j).
Proof.
  intros (_ & _ & H & _). split; intros i j Hij Hj; induction j as [|j IH]; try lia.
  - destruct (Nat.eq_dec i j) as [->|N]; [pose proof (H j ltac:(lia)); lra|]. specialize (IH ltac:(lia) ltac:(lia)). pose proof (H j ltac:(lia)). lra.
  - pose proof (H j ltac:(lia)). pose proof (H (S j) ltac:(lia)). destruct (Nat.eq_dec i j) as [->|N]; [lra|]. specialize (IH ltac:(lia) ltac:(lia)). lra.
Qed.
Lemma in_bounds k x : (k < m)%nat -> chp (S k) x = 0 -> - B <= x <= B.
Proof.
  intros Hk H. split; apply Rnot_lt_le; intros C.
  - destruct (chp_left k x Hk C) as (H1 & H2). pose proof (Rabs_pos (b k)). nra.
  - destruct (chp_right k x Hk C) as (H1 & H2). pose proof (Rabs_pos (b k)). rewrite H in H2. nra.
Qed.
Lemma neg_sign i u : 0 < (-1) ^ i * u -> forall v, 0 < (-1) ^ S i * v -> u * v < 0.
Proof.
  intros H1 v H2. pose proof (pow_m1_sq i) as Q. cbn [pow] in H2. assert (H : 0 < ((-1) ^ i * u) * (- ((-1) ^ i * v))) by (apply Rmult_lt_0_compat; lra).
  replace (((-1) ^ i * u) * (- ((-1) ^ i * v))) with (- (((-1) ^ i * (-1) ^ i) * (u * v))) in H by ring. rewrite Q in H. lra.
Qed.
Lemma between f (C : continuity f) x y : x < y -> f x * f y < 0 -> exists z, x < z < y /\ f z = 0.
Proof.
  intros H1 H2. destruct (IVT_cor f x y C ltac:(lra) ltac:(lra)) as (z & (Z1 & Z2) & Z3). exists z. split; auto.
  split; [destruct Z1 as [|E]; auto; subst; rewrite Z3 in H2; lra|destruct Z2 as [|E]; auto; subst; rewrite Z3 in H2; lra].
Qed.
Lemma roots_ex : forall k, (k < m)%nat -> exists r s, roots k r s.
Proof.
  induction k as [|k IH]; intros Hk.
  - exists (fun _ => a 0%nat), (fun _ => 0). unfold roots. split; [intros; cbn; ring|]. split; [reflexivity|]. split; [intros; lia|].
    intros i Hi. apply (in_bounds 0); auto. rewrite chp_1. ring.
  - destruct IH as (r & s & HR); [lia|]. pose proof (roots_mono k r s HR) as (Mr & Ms). destruct HR as (R1 & R2 & R3 & R4).
    (* the sign of the next polynomial at the roots *)
    assert (SG : forall i, (i <= k)%nat -> 0 < (-1) ^ S i * chp (S (S k)) (r i)).
    { intros i Hi. rewrite chp_SS. rewrite (R1 (r i)), (proj2 (prodr_zero (S k) r (r i))) by (exists i; split; auto; lia). rewrite (R2 (r i)).
      assert (N : forall j, (j < k)%nat -> s j <> r i).
      { intros j Hj E. pose proof (R3 j Hj). destruct (le_lt_dec i j) as [L|L].
        - destruct (Nat.eq_dec i j) as [->|]; [lra|]. pose proof (Mr i j ltac:(lia) ltac:(lia)). lra.
        - destruct (Nat.eq_dec i (S j)) as [->|]; [lra|]. pose proof (Mr (S j) i ltac:(lia) ltac:(lia)). lra. }
      pose proof (prodr_sign k s (r i) N) as G. rewrite (below_eq k s (r i) i) in G; auto.
      - replace ((-1) ^ S i * ((a (S k) - r i) * 0 - b k ^ 2 * prodr k s (r i))) with (b k ^ 2 * ((-1) ^ i * prodr k s (r i))) by (cbn [pow]; ring).
        apply Rmult_lt_0_compat; auto. pose proof (NZ k ltac:(lia)). nra.
      - intros j Hj. pose proof (R3 j ltac:(lia)). destruct (Nat.eq_dec i (S j)) as [->|]; [lra|]. pose proof (Mr (S j) i ltac:(lia) ltac:(lia)). lra.
      - intros j Hj Hj'. pose proof (R3 j ltac:(lia)). destruct (Nat.eq_dec i j) as [->|]; [lra|]. pose proof (Mr i j ltac:(lia) ltac:(lia)). lra. }
    (* one root in each gap *)
    assert (T : exists t : nat -> R, forall i, (i < S (S k))%nat -> chp (S (S k)) (t i) = 0 /\ (forall j, i = S j -> r j < t i) /\ ((i < S k)%nat -> t i < r i)).
    { apply (finite_choice (S (S k)) (fun i z => chp (S (S k)) z = 0 /\ (forall j, i = S j -> r j < z) /\ ((i < S k)%nat -> z < r i))).
      intros i Hi. destruct i as [|i].
      - pose proof (R4 0%nat ltac:(lia)) as Q. destruct (chp_left (S k) (- B - 1) ltac:(lia) ltac:(lra)) as (L1 & L2). pose proof (Rabs_pos (b (S k))).
        assert (L3 : 0 < chp (S (S k)) (- B - 1)) by nra. destruct (between _ (chp_cont (S (S k))) (- B - 1) (r 0%nat) ltac:(lra)) as (z & Z1 & Z2).
        { apply (neg_sign 0); [cbn [pow]; lra|]. apply SG. lia. }
        exists z. split; auto. split; [intros j Hj; lia|]. intros _. lra.
      - destruct (Nat.eq_dec (S i) (S k)) as [E|E].
        + injection E as ->. pose proof (R4 k ltac:(lia)) as Q. destruct (chp_right (S k) (B + 1) ltac:(lia) ltac:(lra)) as (L1 & L2). pose proof (Rabs_pos (b (S k))).
          assert (L3 : 0 < (-1) ^ S (S k) * chp (S (S k)) (B + 1)) by nra. destruct (between _ (chp_cont (S (S k))) (r k) (B + 1) ltac:(lra)) as (z & Z1 & Z2).
          { apply (neg_sign (S k)); auto. }
          exists z. split; auto. split; [intros j Hj; injection Hj as <-; lra|]. intros; lia.
        + destruct (between _ (chp_cont (S (S k))) (r i) (r (S i)) (Mr i (S i) ltac:(lia) ltac:(lia))) as (z & Z1 & Z2).
          { apply (neg_sign (S i)); apply SG; lia. }
          exists z. split; auto. split; [intros j Hj; injection Hj as <-; lra|]. intros; lra. }
    destruct T as (t & HT). exists t, r. unfold roots.
    assert (I : forall i, (i < S k)%nat -> t i < r i < t (S i)). { intros i Hi. destruct (HT i ltac:(lia)) as (_ & _ & H1). destruct (HT (S i) ltac:(lia)) as (_ & H2 & _). split; auto. }
    assert (Mt : forall i j, (i < j)%nat -> (j < S (S k))%nat -> t i < t j).
    { intros i j Hij Hj. induction j as [|j IHj]; [lia|]. pose proof (I j ltac:(lia)). destruct (Nat.eq_dec i j) as [->|]; [lra|]. specialize (IHj ltac:(lia) ltac:(lia)). lra. }
    split; [|split; [|split]]; auto.
    + apply (chp_factor (S (S k)) t Mt). intros i Hi. apply HT. auto.
    + intros i Hi. apply (in_bounds (S k)); auto. apply HT. lia.
Qed.

(** ** counting *)
(** the sign changes met by the code, and the sign it keeps *)
Fixpoint changes (k : nat) (x : R) : nat := match k with O => O | S k => (changes k x + if Rlt_dec ((-1) ^ changes k x * chp (S k) x) 0 then 1 else 0)%nat end.
Lemma below_step k r s x : roots k r s -> (below (S k) r x = below k s x \/ below (S k) r x = S (below k s x)) /\
  (forall j, (j < S k)%nat -> x = r j -> below (S k) r x = below k s x).
Proof.
  intros HR. pose proof (roots_mono k r s HR) as (Mr & Ms). destruct HR as (_ & _ & I & _).
  destruct (below_split k s x Ms) as (A1 & A2 & A3). set (j := below k s x) in *.
  assert (L1 : forall i, (i < j)%nat -> r i < x). { intros i Hi. pose proof (I i ltac:(lia)). pose proof (A2 i Hi). lra. }
  assert (L2 : forall i, (S j <= i)%nat -> (i < S k)%nat -> x <= r i). { intros i Hi Hi'. destruct i as [|i]; [lia|]. pose proof (I i ltac:(lia)). pose proof (A3 i ltac:(lia) ltac:(lia)). lra. }
  destruct (Rlt_dec (r j) x) as [L|L].
  - assert (E : below (S k) r x = S j). { apply below_eq; [lia| |exact L2]. intros i Hi. destruct (Nat.eq_dec i j) as [->|]; auto. apply L1. lia. }
    split; auto. intros i Hi ->. exfalso. destruct (lt_eq_lt_dec i j) as [[C|C]|C].
    + specialize (L1 i C). lra. + rewrite C in L. lra. + pose proof (Mr j i C Hi). destruct i as [|i]; [lia|]. pose proof (I i ltac:(lia)). pose proof (A3 i ltac:(lia) ltac:(lia)). lra.
  - assert (E : below (S k) r x = j). { apply below_eq; [lia|exact L1|]. intros i Hi Hi'. destruct (Nat.eq_dec i j) as [->|]; [lra|]. apply L2; lia. }
    split; auto.
Qed.
Lemma changes_below : forall k x, (k < m)%nat -> forall r s, roots k r s -> changes (S k) x = below (S k) r x.
Proof.
  assert (Z : forall x r s, roots 0 r s -> changes 0 x = below 0 s x) by reflexivity.
  assert (St : forall k x r s, (k < m)%nat -> roots k r s -> changes k x = below k s x -> changes (S k) x = below (S k) r x).
  { intros k x r s Hk HR E. pose proof (below_step k r s x HR) as (D & F). pose proof (roots_mono k r s HR) as (Mr & _). destruct HR as (R1 & _ & _ & _).
    cbn [changes]. rewrite E. destruct (Rlt_dec ((-1) ^ below k s x * chp (S k) x) 0) as [L|L].
    - rewrite Nat.add_1_r. destruct D as [D|D]; auto. exfalso. rewrite <- D in L. rewrite R1 in L.
      assert (N : forall i, (i < S k)%nat -> r i <> x). { intros i Hi C. rewrite (proj2 (prodr_zero (S k) r x)) in L; [lra|]. exists i. split; auto. }
      pose proof (prodr_sign (S k) r x N). lra.
    - rewrite Nat.add_0_r. destruct D as [D|D]; auto. exfalso. rewrite R1 in L.
      destruct (Req_dec (prodr (S k) r x) 0) as [C|C].
      + apply prodr_zero in C as (i & Hi & ->). specialize (F i Hi eq_refl). lia.
      + assert (N : forall i, (i < S k)%nat -> r i <> x). { intros i Hi C'. apply C. apply prodr_zero. exists i. auto. }
        pose proof (prodr_sign (S k) r x N) as G. rewrite D in G. cbn [pow] in G. lra. }
  induction k as [|k IH]; intros x Hk r s HR.
  - eapply St; eauto.
  - apply (St (S k) x r s Hk HR). destruct (roots_ex k ltac:(lia)) as (r' & s' & HR'). pose proof (roots_mono k r' s' HR') as (Mr' & _). rewrite (IH x ltac:(lia) r' s' HR').
    (* both are the roots of the same polynomial *)
    pose proof (roots_mono (S k) r s HR) as (_ & Ms). destruct HR as (_ & R2 & _ & _). destruct HR' as (R1' & _ & _ & _).
    assert (EQ : forall i, (i < S k)%nat -> r' i = s i).
    { assert (G : forall n u v, (forall i j, (i < j)%nat -> (j < n)%nat -> u i < u j) -> (forall i j, (i < j)%nat -> (j < n)%nat -> v i < v j) ->
        (forall i, (i < n)%nat -> exists j, (j < n)%nat /\ u i = v j) -> (forall i, (i < n)%nat -> exists j, (j < n)%nat /\ v i = u j) -> forall i, (i < n)%nat -> u i = v i).
      { clear. intros n u v Mu Mv H1 H2 i. induction i as [i IHi] using lt_wf_ind. intros Hi.
        assert (W : forall i j w, (forall i j, (i < j)%nat -> (j < n)%nat -> w i < w j) -> (i <= j)%nat -> (j < n)%nat -> w i <= w j).
        { intros i0 j0 w Hw L L'. destruct (Nat.eq_dec i0 j0) as [->|]; [lra|]. left. apply Hw; lia. }
        destruct (H1 i Hi) as (j & Hj & E). destruct (H2 i Hi) as (l & Hl & E').
        destruct (lt_dec j i) as [C|C]. { rewrite <- (IHi j C Hj) in E. pose proof (Mu j i C Hi). lra. }
        destruct (lt_dec l i) as [C'|C']. { rewrite (IHi l C' Hl) in E'. pose proof (Mv l i C' Hi). lra. }
        pose proof (W i j v Mv ltac:(lia) Hj). pose proof (W i l u Mu ltac:(lia) Hl). lra. }
      apply (G (S k) r' s Mr' Ms).
      - intros i Hi. apply (prodr_zero (S k) s (r' i)). rewrite <- R2, R1'. apply prodr_zero. eauto.
      - intros i Hi. apply (prodr_zero (S k) r' (s i)). rewrite <- R1', R2. apply prodr_zero. eauto. }
    clear - EQ. induction (S k) as [|n IHn]; auto. cbn [below]. rewrite IHn by (intros; apply EQ; lia). now rewrite (EQ n ltac:(lia)).
Qed.

(** ** eigenvectors *)
Lemma tri_row n v i : (i < n)%nat -> matvec n (tri a b) v i = (match i with O => 0 | S k => b k * v k end) + a i * v i + (if (S i <? n)%nat then b i * v (S i) else 0).
Proof.
  intros Hi. unfold matvec.
  assert (E : forall l, (l <= n)%nat -> bigsum l (fun j => tri a b i j * v j) =
     (match i with O => 0 | S k => if (k <? l)%nat then b k * v k else 0 end) + (if (i <? l)%nat then a i * v i else 0) + (if (S i <? l)%nat then b i * v (S i) else 0)).
  { induction l as [|l IHl]; intros Hl; [cbn; destruct i; ring|]. cbn [bigsum]. rewrite IHl by lia. unfold tri.
    destruct i as [|i].
    - destruct l as [|[|l]]; cbn [Nat.eqb Nat.ltb Nat.leb]; ring.
    - destruct (lt_eq_lt_dec l i) as [[C|C]|C].
      + assert (X1 : (S i =? l)%nat = false) by (apply Nat.eqb_neq; lia). assert (X2 : (l =? S (S i))%nat = false) by (apply Nat.eqb_neq; lia). assert (X3 : (S i =? S l)%nat = false) by (apply Nat.eqb_neq; lia).
        assert (Y1 : (i <? l)%nat = false) by (apply Nat.ltb_ge; lia). assert (Y2 : (S i <? l)%nat = false) by (apply Nat.ltb_ge; lia). assert (Y3 : (S (S i) <? l)%nat = false) by (apply Nat.ltb_ge; lia).
        assert (Y4 : (i <? S l)%nat = false) by (apply Nat.ltb_ge; lia). assert (Y5 : (S i <? S l)%nat = false) by (apply Nat.ltb_ge; lia). assert (Y6 : (S (S i) <? S l)%nat = false) by (apply Nat.ltb_ge; lia).
        rewrite X1, X2, X3, Y1, Y2, Y3, Y4, Y5, Y6. ring.
      + subst l. assert (X1 : (S i =? i)%nat = false) by (apply Nat.eqb_neq; lia). assert (X2 : (i =? S (S i))%nat = false) by (apply Nat.eqb_neq; lia).
        assert (Y1 : (i <? i)%nat = false) by (apply Nat.ltb_ge; lia). assert (Y2 : (S i <? i)%nat = false) by (apply Nat.ltb_ge; lia). assert (Y3 : (S (S i) <? i)%nat = false) by (apply Nat.ltb_ge; lia).
        assert (Y4 : (i <? S i)%nat = true) by (apply Nat.ltb_lt; lia). assert (Y5 : (S i <? S i)%nat = false) by (apply Nat.ltb_ge; lia). assert (Y6 : (S (S i) <? S i)%nat = false) by (apply Nat.ltb_ge; lia).
        rewrite X1, X2, Nat.eqb_refl, Y1, Y2, Y3, Y4, Y5, Y6. ring.
      + destruct (Nat.eq_dec l (S i)) as [->|N1]; [|destruct (Nat.eq_dec l (S (S i))) as [->|N2]].
        * assert (Y1 : (i <? S i)%nat = true) by (apply Nat.ltb_lt; lia). assert (Y3 : (S (S i) <? S i)%nat = false) by (apply Nat.ltb_ge; lia).
          assert (Y4 : (i <? S (S i))%nat = true) by (apply Nat.ltb_lt; lia). assert (Y5 : (S i <? S (S i))%nat = true) by (apply Nat.ltb_lt; lia).
          rewrite Nat.eqb_refl, Y1, Y3, Y4, Y5, !Nat.ltb_irrefl. ring.
        * assert (X1 : (S i =? S (S i))%nat = false) by (apply Nat.eqb_neq; lia).
          assert (Y1 : (i <? S (S i))%nat = true) by (apply Nat.ltb_lt; lia). assert (Y2 : (S i <? S (S i))%nat = true) by (apply Nat.ltb_lt; lia).
          assert (Y4 : (i <? S (S (S i)))%nat = true) by (apply Nat.ltb_lt; lia). assert (Y5 : (S i <? S (S (S i)))%nat = true) by (apply Nat.ltb_lt; lia). assert (Y6 : (S (S i) <? S (S (S i)))%nat = true) by (apply Nat.ltb_lt; lia).
          rewrite X1, Nat.eqb_refl, Nat.ltb_irrefl, Y1, Y2, Y4, Y5, Y6. ring.
        * assert (X1 : (S i =? l)%nat = false) by (apply Nat.eqb_neq; lia). assert (X2 : (l =? S (S i))%nat = false) by (apply Nat.eqb_neq; lia). assert (X3 : (S i =? S l)%nat = false) by (apply Nat.eqb_neq; lia).
          assert (Y1 : (i <? l)%nat = true) by (apply Nat.ltb_lt; lia). assert (Y2 : (S i <? l)%nat = true) by (apply Nat.ltb_lt; lia). assert (Y3 : (S (S i) <? l)%nat = true) by (apply Nat.ltb_lt; lia).
          assert (Y4 : (i <? S l)%nat = true) by (apply Nat.ltb_lt; lia). assert (Y5 : (S i <? S l)%nat = true) by (apply Nat.ltb_lt; lia). assert (Y6 : (S (S i) <? S l)%nat = true) by (apply Nat.ltb_lt; lia).
          rewrite X1, X2, X3, Y1, Y2, Y3, Y4, Y5, Y6. ring. }
  rewrite E by lia. assert (Y : (i <? n)%nat = true) by (apply Nat.ltb_lt; lia). rewrite Y. destruct i as [|i]; auto.
  assert (Y1 : (i <? n)%nat = true) by (apply Nat.ltb_lt; lia). now rewrite Y1.
Qed.
End Sturm.
