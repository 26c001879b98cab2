(** Property C33: quadrature rules: the proofs. *)
From Coq Require Import List Arith Lia Bool Reals Lra.
From Coquelicot Require Import Coquelicot.
From Verif Require Import Res SumR QuadModel QuadSpec.
Import ListNotations.
Local Open Scope R_scope.
(** integral of a polynomial over [-1,1] *)
Lemma is_RInt_mono c k a b : is_RInt (fun x => c * x ^ k) a b (c * ((b ^ S k - a ^ S k) / INR (S k))).
Proof.
  assert (Hn : INR (S k) <> 0) by (apply not_0_INR; lia).
  replace (c * ((b ^ S k - a ^ S k) / INR (S k))) with (minus (c * (b ^ S k / INR (S k))) (c * (a ^ S k / INR (S k)))).
  2:{ unfold minus, plus, opp; cbn -[INR pow]. field; auto. }
  apply (is_RInt_derive (fun x => c * (x ^ S k / INR (S k)))).
  - intros x0 _. auto_derive; auto. change (match k with O => 1 | S _ => INR k + 1 end) with (INR (S k)). field; auto.
  - intros x1 _. apply (ex_derive_continuous (fun x => c * x ^ k)). auto_derive; auto.
Qed.

Definition mom (k : nat) : R := (1 ^ S k - (-1) ^ S k) / INR (S k).

Lemma is_RInt_bigsum n (f : nat -> R -> R) (v : nat -> R) a b :
  (forall i, (i < n)%nat -> is_RInt (f i) a b (v i)) -> is_RInt (fun x => bigsum n (fun i => f i x)) a b (bigsum n v).
Proof.
  induction n as [|n IH]; intros H; cbn [bigsum].
  - assert (C : is_RInt (fun _ : R => 0) a b ((b - a) * 0)) by exact (is_RInt_const a b 0). rewrite Rmult_0_r in C. exact C.
  - apply (is_RInt_plus (fun x => bigsum n (fun i => f i x)) (f n)); [apply IH; intros; apply H; lia|apply H; lia].
Qed.

Lemma is_RInt_poly1 p c : is_RInt (poly1 p c) (-1) 1 (bigsum (S p) (fun i => c i * mom i)).
Proof. apply is_RInt_bigsum. intros. apply is_RInt_mono. Qed.

Lemma exact1 q p : (forall k, (k <= p)%nat -> quad 1 q (fun x => x 0%nat ^ k) = mom k) ->
  forall c, quad 1 q (fun x => poly1 p c (x 0%nat)) = bigsum (S p) (fun i => c i * mom i).
Proof.
  intros H c. unfold quad, poly1.
  rewrite (bigsum_ext _ _ (fun g => bigsum (S p) (fun i => c i * (wprod 1 (nth g (q_weights q) []) * nth 0 (nth g (q_points q) []) 0 ^ i)))).
  2:{ intros. rewrite <- bigsum_scal. apply bigsum_ext. intros. ring. }
  rewrite bigsum_swap. apply bigsum_ext. intros i Hi. rewrite bigsum_scal. f_equal. apply (H i). lia.
Qed.

Lemma forall_le_S (P : nat -> Prop) n : P (S n) -> (forall k, (k <= n)%nat -> P k) -> forall k, (k <= S n)%nat -> P k.
Proof. intros H1 H k Hk. destruct (Nat.eq_dec k (S n)) as [->|]; auto. apply H. lia. Qed.
Lemma forall_le_0 (P : nat -> Prop) : P 0%nat -> forall k, (k <= 0)%nat -> P k.
Proof. intros H k Hk. now replace k with 0%nat by lia. Qed.
Ltac eachle := repeat first [refine (forall_le_S _ _ _ _) | refine (forall_le_0 _ _)].

Lemma s3_sq : (1 / sqrt 3) ^ 2 = 1 / 3.
Proof. pose proof (sqrt_lt_R0 3 ltac:(lra)). pose proof (sqrt_def 3 ltac:(lra)). field_simplify; [|lra]. replace (sqrt 3 ^ 2) with 3 by (cbn; lra). lra. Qed.
Lemma s35_sq : sqrt (3 / 5) ^ 2 = 3 / 5.
Proof. pose proof (sqrt_def (3/5) ltac:(lra)). cbn. lra. Qed.

(** the one-dimensional sums behind the tensor rules *)
Definition g1 (f : R -> R) : R := 2 * f 0.
Definition g2 (f : R -> R) : R := f (- 1 / sqrt 3) + f (1 / sqrt 3).
Definition g3 (f : R -> R) : R := 5 / 9 * f (- sqrt (3 / 5)) + 8 / 9 * f 0 + 5 / 9 * f (sqrt (3 / 5)).

Ltac momv := unfold mom; cbn [INR pow]; lra.
Lemma g1_mom : forall k, (k <= 1)%nat -> g1 (fun x => x ^ k) = mom k.
Proof. eachle; unfold g1; momv. Qed.
Lemma g2_mom : forall k, (k <= 3)%nat -> g2 (fun x => x ^ k) = mom k.
Proof.
  pose proof s3_sq as H. unfold g2. replace (- 1 / sqrt 3) with (- (1 / sqrt 3)) by (unfold Rdiv; ring).
  set (s := 1 / sqrt 3) in *. clearbody s. cbn [pow] in H.
  eachle; unfold mom; cbn [INR pow]; try lra; rewrite ?Rmult_1_r in *; try (replace (- s * - s) with (s * s) by ring; lra); try (field_simplify; lra).
Qed.
Lemma g3_mom : forall k, (k <= 5)%nat -> g3 (fun x => x ^ k) = mom k.
Proof.
  pose proof s35_sq as H. unfold g3. set (s := sqrt (3 / 5)) in *. clearbody s.
  assert (H4 : s ^ 4 = 9 / 25) by (replace (s ^ 4) with (s ^ 2 * s ^ 2) by ring; rewrite H; field).
  eachle; unfold mom.
  1: replace ((- s) ^ 5) with (- s ^ 5) by ring. 3: replace ((- s) ^ 3) with (- s ^ 3) by ring.
  2: replace ((- s) ^ 4) with (s ^ 4) by ring; rewrite H4. 4: replace ((- s) ^ 2) with (s ^ 2) by ring; rewrite H.
  all: cbn [INR pow]; lra.
Qed.

(** linear functionals given by a finite sum commute with bigsum *)
Definition lin (G : (R -> R) -> R) : Prop :=
  (forall f g, (forall x, f x = g x) -> G f = G g) /\
  (forall n (c : nat -> R) (f : nat -> R -> R), G (fun x => bigsum n (fun i => c i * f i x)) = bigsum n (fun i => c i * G (f i))).
Lemma lin_g1 : lin g1.
Proof. split; unfold g1; [intros f g H; now rewrite H|]. intros. rewrite <- bigsum_scal. apply bigsum_ext. intros; ring. Qed.
Lemma lin_g2 : lin g2.
Proof. split; unfold g2; [intros f g H; now rewrite !H|]. intros. rewrite <- bigsum_plus. apply bigsum_ext. intros; ring. Qed.
Lemma lin_g3 : lin g3.
Proof. split; unfold g3; [intros f g H; now rewrite !H|]. intros. rewrite <- !bigsum_scal, <- !bigsum_plus. apply bigsum_ext. intros; ring. Qed.

Section tensor.
Variables (G : (R -> R) -> R) (p : nat).
Hypothesis HG : lin G.
Hypothesis HM : forall k, (k <= p)%nat -> G (fun x => x ^ k) = mom k.

Lemma G_poly c : is_RInt (poly1 p c) (-1) 1 (G (poly1 p c)).
Proof.
  unfold poly1 at 2. rewrite (proj2 HG (S p) c (fun i x => x ^ i)).
  rewrite (bigsum_ext _ _ (fun i => c i * mom i)) by (intros i Hi; rewrite HM by lia; auto). apply is_RInt_poly1.
Qed.
Lemma G_val c : G (poly1 p c) = bigsum (S p) (fun i => c i * mom i).
Proof. unfold poly1. rewrite (proj2 HG (S p) c (fun i x => x ^ i)). apply bigsum_ext. intros i Hi. now rewrite HM by lia. Qed.

Lemma poly2_x c y x : poly2 p c x y = poly1 p (fun i => bigsum (S p) (fun j => c i j * y ^ j)) x.
Proof. unfold poly2, poly1. rewrite bigsum_swap. apply bigsum_ext. intros i Hi. rewrite <- bigsum_scal_r. apply bigsum_ext. intros. ring. Qed.

Lemma inner2 c y : G (fun x => poly2 p c x y) = poly1 p (fun j => bigsum (S p) (fun i => c i j * mom i)) y.
Proof.
  rewrite (proj1 HG _ _ (fun x => poly2_x c y x)), G_val. unfold poly1.
  rewrite (bigsum_ext _ _ (fun i => bigsum (S p) (fun j => c i j * mom i * y ^ j))).
  2:{ intros. rewrite <- bigsum_scal_r. apply bigsum_ext. intros. ring. }
  rewrite bigsum_swap. apply bigsum_ext. intros. now rewrite bigsum_scal_r.
Qed.

Lemma RInt_inner2 c y : is_RInt (fun x => poly2 p c x y) (-1) 1 (G (fun x => poly2 p c x y)).
Proof.
  rewrite (proj1 HG _ _ (fun x => poly2_x c y x)).
  apply (is_RInt_ext (poly1 p (fun i => bigsum (S p) (fun j => c i j * y ^ j)))); [intros; symmetry; apply poly2_x|apply G_poly].
Qed.

Lemma tensor2 c : is_RInt (fun y => RInt (fun x => poly2 p c x y) (-1) 1) (-1) 1 (G (fun y => G (fun x => poly2 p c x y))).
Proof.
  rewrite (proj1 HG _ _ (fun y => inner2 c y)).
  apply (is_RInt_ext (poly1 p (fun j => bigsum (S p) (fun i => c i j * mom i)))).
  - intros y _. rewrite <- inner2. symmetry. apply is_RInt_unique, RInt_inner2.
  - apply G_poly.
Qed.

Lemma poly3_xy c z x y : poly3 p c x y z = poly2 p (fun i j => bigsum (S p) (fun k => c i j k * z ^ k)) x y.
Proof.
  unfold poly3, poly2. rewrite bigsum_swap. apply bigsum_ext. intros j Hj. rewrite bigsum_swap. apply bigsum_ext. intros i Hi.
  rewrite <- !bigsum_scal_r. apply bigsum_ext. intros. ring.
Qed.

Lemma val2 c : G (fun y => G (fun x => poly2 p c x y)) = bigsum (S p) (fun j => bigsum (S p) (fun i => c i j * mom i) * mom j).
Proof. rewrite (proj1 HG _ _ (fun y => inner2 c y)). apply G_val. Qed.

Lemma inner3 c z : G (fun y => G (fun x => poly3 p c x y z)) =
  poly1 p (fun k => bigsum (S p) (fun j => bigsum (S p) (fun i => c i j k * mom i) * mom j)) z.
Proof.
  rewrite (proj1 HG _ _ (fun y => proj1 HG _ _ (fun x => poly3_xy c z x y))), val2. unfold poly1.
  rewrite (bigsum_ext _ _ (fun j => bigsum (S p) (fun k => bigsum (S p) (fun i => c i j k * mom i) * mom j * z ^ k))).
  - rewrite bigsum_swap. apply bigsum_ext. intros. now rewrite bigsum_scal_r.
  - intros j Hj. rewrite (bigsum_ext (S p) (fun i => bigsum (S p) (fun k => c i j k * z ^ k) * mom i) (fun i => bigsum (S p) (fun k => c i j k * mom i * z ^ k))).
    2:{ intros. rewrite <- bigsum_scal_r. apply bigsum_ext. intros. ring. }
    rewrite bigsum_swap, <- bigsum_scal_r. apply bigsum_ext. intros k Hk. rewrite bigsum_scal_r. ring.
Qed.

Lemma RInt_inner3 c z :
  is_RInt (fun y => RInt (fun x => poly3 p c x y z) (-1) 1) (-1) 1 (G (fun y => G (fun x => poly3 p c x y z))).
Proof.
  rewrite (proj1 HG _ _ (fun y => proj1 HG _ _ (fun x => poly3_xy c z x y))).
  eapply is_RInt_ext; [|apply tensor2]. intros y _. cbn beta.
  apply RInt_ext. intros x _. symmetry. apply poly3_xy.
Qed.

Lemma tensor3 c : is_RInt (fun z => RInt (fun y => RInt (fun x => poly3 p c x y z) (-1) 1) (-1) 1) (-1) 1
  (G (fun z => G (fun y => G (fun x => poly3 p c x y z)))).
Proof.
  rewrite (proj1 HG _ _ (fun z => inner3 c z)).
  apply (is_RInt_ext (poly1 p (fun k => bigsum (S p) (fun j => bigsum (S p) (fun i => c i j k * mom i) * mom j)))).
  - intros z _. rewrite <- inner3. symmetry. apply is_RInt_unique, RInt_inner3.
  - apply G_poly.
Qed.
End tensor.

Lemma ftc (F f : R -> R) a b v : v = F b - F a -> (forall x, is_derive F x (f x)) -> (forall x, ex_derive f x) -> is_RInt f a b v.
Proof.
  intros -> H1 H2. apply (is_RInt_derive F f); intros x _; [apply H1|]. apply (ex_derive_continuous f), H2.
Qed.
Ltac byftc G := apply (ftc G); [field|intros; auto_derive; [auto|field]|intros; auto_derive; auto].

Ltac unq := unfold quad, Gauss1Line, Gauss2Line, Gauss1Triangle, Gauss3Triangle, Gauss1Square, Gauss4Square, Gauss9Square, Gauss1Tetrahedron, Gauss8Cubic, Gauss27Cubic, NewtonCotes1Line, NewtonCotes3Line, NewtonCotes5Line, NewtonCotes7Line; cbn [q_n q_points q_weights bigsum nth wprod].

Lemma q_sq1 f : quad 2 Gauss1Square (fun x => f (x 0%nat) (x 1%nat)) = g1 (fun y => g1 (fun x => f x y)).
Proof. unq. unfold g1. ring. Qed.
Lemma q_sq4 f : quad 2 Gauss4Square (fun x => f (x 0%nat) (x 1%nat)) = g2 (fun y => g2 (fun x => f x y)).
Proof. unq. unfold g2. ring. Qed.
Lemma q_sq9 f : quad 2 Gauss9Square (fun x => f (x 0%nat) (x 1%nat)) = g3 (fun y => g3 (fun x => f x y)).
Proof. unq. unfold g3. field. Qed.
Lemma q_cu8 f : quad 3 Gauss8Cubic (fun x => f (x 0%nat) (x 1%nat) (x 2%nat)) = g2 (fun z => g2 (fun y => g2 (fun x => f x y z))).
Proof. unq. unfold g2. ring. Qed.
Lemma q_cu27 f : quad 3 Gauss27Cubic (fun x => f (x 0%nat) (x 1%nat) (x 2%nat)) = g3 (fun z => g3 (fun y => g3 (fun x => f x y z))).
Proof. unq. unfold g3. field. Qed.

Lemma C33_line_pf : forall (q : rule) (p : nat) (c : nat -> R),
  In (q, p) [(Gauss1Line, 1); (Gauss2Line, 3); (NewtonCotes1Line, 1); (NewtonCotes3Line, 3); (NewtonCotes5Line, 5); (NewtonCotes7Line, 7)]%nat ->
  is_RInt (poly1 p c) (-1) 1 (quad 1 q (fun x => poly1 p c (x 0%nat))).
Proof.
  intros q p c H. rewrite exact1; [apply is_RInt_poly1|]. clear c.
  cbn [In] in H. repeat (destruct H as [H|H]; [injection H as <- <-|]); [..|destruct H].
  2:{ intros k Hk. rewrite <- g2_mom by auto. unq. unfold g2. ring. }
  all: eachle; unq; unfold mom; cbn [INR]; field.
Qed.

Lemma C33_square_pf : forall (q : rule) (p : nat) (c : nat -> nat -> R),
  In (q, p) [(Gauss1Square, 1); (Gauss4Square, 3); (Gauss9Square, 5)]%nat ->
  is_RInt (fun y => RInt (fun x => poly2 p c x y) (-1) 1) (-1) 1 (quad 2 q (fun x => poly2 p c (x 0%nat) (x 1%nat))).
Proof.
  intros q p c H. cbn [In] in H. repeat (destruct H as [H|H]; [injection H as <- <-|]); [..|destruct H].
  - rewrite q_sq1. apply tensor2; [apply lin_g1|apply g1_mom].
  - rewrite q_sq4. apply tensor2; [apply lin_g2|apply g2_mom].
  - rewrite q_sq9. apply tensor2; [apply lin_g3|apply g3_mom].
Qed.

Lemma C33_cube_pf : forall (q : rule) (p : nat) (c : nat -> nat -> nat -> R),
  In (q, p) [(Gauss8Cubic, 3); (Gauss27Cubic, 5)]%nat ->
  is_RInt (fun z => RInt (fun y => RInt (fun x => poly3 p c x y z) (-1) 1) (-1) 1) (-1) 1
    (quad 3 q (fun x => poly3 p c (x 0%nat) (x 1%nat) (x 2%nat))).
Proof.
  intros q p c H. cbn [In] in H. repeat (destruct H as [H|H]; [injection H as <- <-|]); [..|destruct H].
  - rewrite q_cu8. apply tensor3; [apply lin_g2|apply g2_mom].
  - rewrite q_cu27. apply tensor3; [apply lin_g3|apply g3_mom].
Qed.

Lemma C33_triangle_pf : forall a b c d e g : R,
  (let f := fun x y => a + b * x + c * y in
   is_RInt (fun x => RInt (fun y => f x y) 0 (1 - x)) 0 1 (quad 2 Gauss1Triangle (fun x => f (x 0%nat) (x 1%nat)))) /\
  (let f := fun x y => a + b * x + c * y + d * x * x + e * x * y + g * y * y in
   is_RInt (fun x => RInt (fun y => f x y) 0 (1 - x)) 0 1 (quad 2 Gauss3Triangle (fun x => f (x 0%nat) (x 1%nat)))).
Proof.
  intros a b c d e g.
  assert (G : forall a b c d e g, let f := fun x y => a + b * x + c * y + d * x * x + e * x * y + g * y * y in
    is_RInt (fun x => RInt (fun y => f x y) 0 (1 - x)) 0 1 (a / 2 + (b + c) / 6 + d / 12 + e / 24 + g / 12)).
  { clear. intros a b c d e g f. unfold f.
    apply (is_RInt_ext (fun x => (a + b * x + d * x * x) * (1 - x) + (c + e * x) * (1 - x) ^ 2 / 2 + g * (1 - x) ^ 3 / 3)).
    { intros x _. symmetry. apply is_RInt_unique.
      byftc (fun y => (a + b * x + d * x * x) * y + (c + e * x) * y ^ 2 / 2 + g * y ^ 3 / 3). }
    byftc (fun x => a * (x - x^2/2) + b * (x^2/2 - x^3/3) + d * (x^3/3 - x^4/4) + c/2 * (x - x^2 + x^3/3) + e/2 * (x^2/2 - 2/3*x^3 + x^4/4) + g/3 * (x - 3/2*x^2 + x^3 - x^4/4)). }
  split; intros f.
  - replace (quad 2 Gauss1Triangle (fun x => f (x 0%nat) (x 1%nat))) with (a / 2 + (b + c) / 6 + 0 / 12 + 0 / 24 + 0 / 12).
    + apply (is_RInt_ext (fun x => RInt (fun y => a + b * x + c * y + 0 * x * x + 0 * x * y + 0 * y * y) 0 (1 - x))); [|apply G].
      intros x _. apply RInt_ext. intros. unfold f. match goal with |- ?l = ?r => change (@eq R l r) end. ring.
    + unq. pose proof (sqrt_lt_R0 2 ltac:(lra)). pose proof (sqrt_def 2 ltac:(lra)) as H2.
      replace (1 * (1 / sqrt 2) * (1 / sqrt 2)) with (1 / (sqrt 2 * sqrt 2)) by (field; lra). rewrite H2. unfold f. field.
  - replace (quad 2 Gauss3Triangle (fun x => f (x 0%nat) (x 1%nat))) with (a / 2 + (b + c) / 6 + d / 12 + e / 24 + g / 12); [apply G|].
    unq. pose proof (sqrt_lt_R0 6 ltac:(lra)). pose proof (sqrt_def 6 ltac:(lra)) as H2.
    replace (1 * (1 / sqrt 6) * (1 / sqrt 6)) with (1 / (sqrt 6 * sqrt 6)) by (field; lra). rewrite H2. unfold f. field.
Qed.

Lemma C33_tetrahedron_pf : forall a b c d : R,
  let f := fun x y z => a + b * x + c * y + d * z in
  is_RInt (fun x => RInt (fun y => RInt (fun z => f x y z) 0 (1 - x - y)) 0 (1 - x)) 0 1
    (quad 3 Gauss1Tetrahedron (fun x => f (x 0%nat) (x 1%nat) (x 2%nat))).
Proof.
  intros a b c d f.
  replace (quad 3 Gauss1Tetrahedron (fun x => f (x 0%nat) (x 1%nat) (x 2%nat))) with (a / 6 + (b + c + d) / 24).
  2:{ unq. assert (H : cbrt 6 * cbrt 6 * cbrt 6 = 6).
      { unfold cbrt. rewrite <- !Rpower_plus. replace (1/3 + 1/3 + 1/3) with 1 by field. apply Rpower_1. lra. }
      assert (cbrt 6 <> 0) by (intros E; rewrite E in H; lra).
      replace (1 * (1 / cbrt 6) * (1 / cbrt 6) * (1 / cbrt 6)) with (1 / (cbrt 6 * cbrt 6 * cbrt 6)) by (field; auto). rewrite H. unfold f. field. }
  assert (Iz : forall x y, RInt (fun z => f x y z) 0 (1 - x - y) = (a + b * x + c * y) * (1 - x - y) + d * (1 - x - y) ^ 2 / 2).
  { intros x y. apply is_RInt_unique. unfold f. byftc (fun z => (a + b * x + c * y) * z + d * z ^ 2 / 2). }
  assert (Iy : forall x, RInt (fun y => RInt (fun z => f x y z) 0 (1 - x - y)) 0 (1 - x) =
    (a + b * x) * (1 - x) ^ 2 / 2 + c * (1 - x) ^ 3 / 6 + d * (1 - x) ^ 3 / 6).
  { intros x. apply is_RInt_unique.
    apply (is_RInt_ext (fun y => (a + b * x + c * y) * (1 - x - y) + d * (1 - x - y) ^ 2 / 2)); [intros; symmetry; apply Iz|].
    byftc (fun y => (a + b * x) * ((1 - x) * y - y ^ 2 / 2) + c * ((1 - x) * y ^ 2 / 2 - y ^ 3 / 3) + d / 2 * ((1 - x) ^ 2 * y - (1 - x) * y ^ 2 + y ^ 3 / 3)). }
  apply (is_RInt_ext (fun x => (a + b * x) * (1 - x) ^ 2 / 2 + c * (1 - x) ^ 3 / 6 + d * (1 - x) ^ 3 / 6)); [intros; symmetry; apply Iy|].
  byftc (fun x => a / 2 * (x - x ^ 2 + x ^ 3 / 3) + b / 2 * (x ^ 2 / 2 - 2 / 3 * x ^ 3 + x ^ 4 / 4) + (c + d) / 6 * (x - 3 / 2 * x ^ 2 + x ^ 3 - x ^ 4 / 4)).
Qed.
