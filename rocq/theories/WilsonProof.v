(** 4 x 4 inverse and the incompatible modes. *)
From Coq Require Import List Arith Lia Bool Reals Lra.
From Verif Require Import Res SumR DenseModel DenseR DenseSpec DenseProof DenseMain ShapeModel ShapeMain QuadModel QuadSpec
  ElemModel ElemSpec ElemProof ElemProof2 ElemProof3 WilsonSpec.
Import ListNotations.
Local Open Scope R_scope.

Lemma bind_ok {A B} (a : A) (f : A -> res B) : bind (Ok a) f = f a. Proof. reflexivity. Qed.

(** ** 4 x 4 *)
Definition det4 (f : nat -> nat -> R) : R :=
  bigsum 4 (fun i => sgn i * f i 0%nat * det3 (fun p q => f (skip i p) (skip 0 q))).
Lemma Rdet4 a f : is_mat a 4 4 f -> mdet R_ops a = Ok (det4 f).
Proof.
  intros H. destruct (is_mat_ent R_ops a 4 4 f H) as (W & E1 & E2 & E). unfold mdet. rewrite E1.
  assert (G : exists k, k = 3%nat) by eauto. destruct G as (k & Ek). change 4%nat with (S 3). rewrite <- Ek at 1. cbn [mdet_fuel]. rewrite E1, E2. cbn [Nat.eqb andb negb assert_ bind].
  rewrite (accum_ok R_ops _ _ (fun i => sgn i * f i 0%nat * det3 (fun p q => f (skip i p) (skip 0 q)))).
  - reflexivity.
  - intros i Hi. rewrite (mraw_ok R_ops) by (auto; lia). rewrite E by lia. cbn [bind].
    destruct (mminor_ok R_ops a i 0 W) as (c & Ec & Hc); try lia. rewrite Ec. cbn [bind]. rewrite E1, E2 in Hc. cbn [Nat.sub] in Hc.
    pose proof (Rdet3 _ _ Hc) as D. unfold mdet in D. destruct (is_mat_ent R_ops c 3 3 _ Hc) as (_ & C1 & _). rewrite C1, <- Ek in D. rewrite D. cbn [bind].
    f_equal. cbn [omul R_ops]. f_equal.
    assert (X : forall p q, (p < 3)%nat -> (q < 3)%nat -> ent R_ops a (skip i p) (skip 0 q) = f (skip i p) (skip 0 q)).
    { intros p q Hp Hq. apply E; unfold skip; nat_all. }
    unfold det3. rewrite !X by lia. reflexivity.
Qed.

Lemma Rminv4 a f : is_mat a 4 4 f -> det4 f <> 0 -> exists m, minv R_ops a = Ok m /\ is_mat m 4 4 (fun i j => cof 4 f i j / det4 f).
Proof.
  intros H Hdet. destruct (is_mat_ent R_ops a 4 4 f H) as (W & E1 & E2 & E).
  destruct (Rcof 4 a f ltac:(lia) H) as (m & Em & Hm).
  unfold minv. rewrite Em. rewrite E1, E2, Nat.eqb_refl. cbn [assert_ bind].
  nat_all. cbn [bind]. rewrite (Rdet4 a f H). cbn [bind]. now apply Rmdivs.
Qed.
Lemma Rminv4_singular a f : is_mat a 4 4 f -> det4 f = 0 -> minv R_ops a = Fail DivByZero.
Proof.
  intros H Hdet. destruct (is_mat_ent R_ops a 4 4 f H) as (W & E1 & E2 & E).
  destruct (Rcof 4 a f ltac:(lia) H) as (m & Em & Hm).
  unfold minv. rewrite Em. rewrite E1, E2, Nat.eqb_refl. cbn [assert_ bind].
  nat_all. cbn [bind]. rewrite (Rdet4 a f H). cbn [bind]. rewrite Hdet.
  unfold mdivs. destruct (is_mat_ent R_ops m 4 4 _ Hm) as (W' & E1' & E2' & _).
  unfold mat_wf in W'. rewrite E1', E2' in W'. destruct (mval m) as [|x l]; [cbn in W'; nia|].
  cbn [mapM odiv R_ops]. rewrite Rdiv_res_0. reflexivity.
Qed.

Ltac open4 := unfold cof, det4, sgn; cbn [bigsum Nat.sub detd Nat.add Nat.even]; unfold det3, det2, skip; cbn [Nat.ltb Nat.leb].
Lemma cof4_right f i j : (i < 4)%nat -> (j < 4)%nat -> bigsum 4 (fun k => f i k * cof 4 f k j) = if (i =? j)%nat then det4 f else 0.
Proof. revert i j. refine (forall_lt2 _ _ _ _); each; cbn [Nat.eqb]; open4; ring. Qed.
Lemma cof4_left f i j : (i < 4)%nat -> (j < 4)%nat -> bigsum 4 (fun k => cof 4 f i k * f k j) = if (i =? j)%nat then det4 f else 0.
Proof. revert i j. refine (forall_lt2 _ _ _ _); each; cbn [Nat.eqb]; open4; ring. Qed.

Definition qf (n : nat) (f : nat -> nat -> R) (v : nat -> R) : R := bigsum n (fun i => bigsum n (fun j => v i * f i j * v j)).
(** a definite form has a nonzero determinant *)
Lemma definite_det4 f : (forall v, qf 4 f v = 0 -> forall i, (i < 4)%nat -> v i = 0) -> det4 f <> 0.
Proof.
  intros H D4.
  pose (v4 := fun i => cof 4 f i 3). pose (v3 := fun i => if (i <? 3)%nat then cof 3 f i 2 else 0).
  pose (v2 := fun i => match i with O => - f 0%nat 1%nat | 1%nat => f 0%nat 0%nat | _ => 0 end).
  pose (v1 := fun i => match i with O => 1 | _ => 0 end).
  assert (D3 : det3 f = 0).
  { replace (det3 f) with (v4 3%nat). 2:{ unfold v4. open4. ring. }
    apply H; [|lia]. unfold qf. rewrite (bigsum_ext 4 _ (fun i => v4 i * (if (i =? 3)%nat then det4 f else 0))).
    - cbn [bigsum Nat.eqb]. rewrite D4. ring.
    - intros i Hi. rewrite <- (cof4_right f i 3) by lia. rewrite <- bigsum_scal. apply bigsum_ext; intros. unfold v4. ring. }
  assert (D2 : det2 f = 0).
  { replace (det2 f) with (v3 2%nat). 2:{ unfold v3. cbn [Nat.ltb Nat.leb]. open4. ring. }
    apply H; [|lia]. replace (qf 4 f v3) with (det2 f * det3 f); [rewrite D3; ring|].
    unfold qf, v3. cbn [bigsum Nat.ltb Nat.leb]. open4. ring. }
  assert (D1 : f 0%nat 0%nat = 0).
  { change (f 0%nat 0%nat) with (v2 1%nat). apply H; [|lia]. replace (qf 4 f v2) with (f 0%nat 0%nat * det2 f); [rewrite D2; ring|].
    unfold qf, v2, det2. cbn [bigsum]. ring. }
  assert (D0 : v1 0%nat = 0).
  { apply H; [|lia]. replace (qf 4 f v1) with (f 0%nat 0%nat); auto. unfold qf, v1. cbn [bigsum]. ring. }
  unfold v1 in D0. lra.
Qed.

(** ** rectangular pairings *)
Definition has_pair (n n' : nat) (K : mat R) (F : field -> field -> R) : Prop :=
  exists k, is_mat K (2 * n) (2 * n') k /\
    forall y z, bigsum (2 * n) (fun a => bigsum (2 * n') (fun b => dofv 2 y a * k a b * dofv 2 z b)) = F y z.
Lemma hp_eq n n' K F F' : (forall y z, F y z = F' y z) -> has_pair n n' K F -> has_pair n n' K F'.
Proof. intros H (k & Hk & E). exists k. split; auto. intros. now rewrite E. Qed.
Lemma hp_new n n' : has_pair n n' (mnew R_ops (2 * n) (2 * n')) (fun _ _ => 0).
Proof. exists (fun _ _ => 0). split; [apply Rmnew|]. intros. apply bigsum_zero; intros. apply bigsum_zero; intros. ring. Qed.
Lemma hp_scal n n' K F c : has_pair n n' K F -> has_pair n n' (mscal R_ops c K) (fun y z => F y z * c).
Proof.
  intros (k & Hk & E). exists (fun a b => k a b * c). split; [now apply Rmscal|]. intros. rewrite <- E, <- bigsum_scal_r.
  apply bigsum_ext; intros. rewrite <- bigsum_scal_r. apply bigsum_ext; intros. ring.
Qed.
Lemma hp_add n n' K F K' F' : has_pair n n' K F -> has_pair n n' K' F' ->
  exists K2, madd R_ops K K' = Ok K2 /\ has_pair n n' K2 (fun y z => F y z + F' y z).
Proof.
  intros (k & Hk & E) (k' & Hk' & E'). destruct (Rmadd _ _ _ _ _ _ Hk Hk') as (K2 & EK & HK). exists K2. split; auto.
  exists (fun a b => k a b + k' a b). split; auto. intros. rewrite <- E, <- E', <- bigsum_plus.
  apply bigsum_ext; intros. rewrite <- bigsum_plus. apply bigsum_ext; intros. ring.
Qed.
Lemma hp_weigh n n' q g K F : rule_ok 2 q -> (g < q_n q)%nat -> has_pair n n' K F ->
  exists K2, weigh 2 q g K = Ok K2 /\ has_pair n n' K2 (fun y z => F y z * wgt 2 q g).
Proof.
  intros Hq Hg (k & Hk & E). destruct (weigh_ok 2 2 q g K _ _ k (le_n 2) Hq Hg Hk) as (K2 & EK & HK).
  exists K2. split; auto. exists (fun a b => k a b * wgt 2 q g). split; auto. intros. rewrite <- E, <- bigsum_scal_r.
  apply bigsum_ext; intros. rewrite <- bigsum_scal_r. apply bigsum_ext; intros. ring.
Qed.
Lemma pair_atdb N M p1 p2 (A D B : nat -> nat -> R) (y z : nat -> R) :
  bigsum N (fun a => bigsum M (fun b => y a * bigsum p2 (fun j => bigsum p1 (fun i => A i a * D i j) * B j b) * z b)) =
  bigsum p1 (fun i => bigsum p2 (fun j => bigsum N (fun a => A i a * y a) * D i j * bigsum M (fun b => B j b * z b))).
Proof.
  transitivity (bigsum N (fun a => bigsum p1 (fun i => bigsum p2 (fun j => A i a * y a * D i j * bigsum M (fun b => B j b * z b))))).
  { apply bigsum_ext; intros a _. transitivity (bigsum M (fun b => bigsum p1 (fun i => bigsum p2 (fun j => A i a * y a * D i j * (B j b * z b))))).
    - apply bigsum_ext; intros b _. rewrite (bigsum_swap p1 p2), <- bigsum_scal, <- bigsum_scal_r. apply bigsum_ext; intros j _.
      rewrite <- bigsum_scal_r, <- bigsum_scal, <- bigsum_scal_r. apply bigsum_ext; intros i _. ring.
    - rewrite bigsum_swap. apply bigsum_ext; intros i _. rewrite bigsum_swap. apply bigsum_ext; intros j _. now rewrite <- bigsum_scal. }
  rewrite bigsum_swap. apply bigsum_ext; intros i _. rewrite bigsum_swap. apply bigsum_ext; intros j _.
  rewrite <- !bigsum_scal_r. apply bigsum_ext; intros; ring.
Qed.
Lemma hp_atdb n n' p1 p2 A D B Df V W : has_action 2 n p1 A V -> is_mat D p1 p2 Df -> has_action 2 n' p2 B W ->
  exists K, atdb A D B = Ok K /\
    has_pair n n' K (fun y z => bigsum p1 (fun i => bigsum p2 (fun j => V i y * Df i j * W j z))).
Proof.
  intros (a & Ha & Ea) HD (b & Hb & Eb). unfold atdb.
  destruct (Rmtrans _ _ _ _ Ha) as (At & E1 & H1). rewrite E1. cbn [bind].
  destruct (Rmmul _ _ _ _ _ _ _ H1 HD) as (M & E2 & H2). rewrite E2. cbn [bind].
  destruct (Rmmul _ _ _ _ _ _ _ H2 Hb) as (K & E3 & H3). rewrite E3. exists K. split; auto.
  eexists. split; [exact H3|]. intros y z. cbv beta.
  eapply eq_trans; [exact (pair_atdb (2 * n) (2 * n') p1 p2 a Df b (dofv 2 y) (dofv 2 z))|].
  apply bigsum_ext; intros i Hi. apply bigsum_ext; intros j Hj. now rewrite Ea, Eb.
Qed.
Lemma dofv_unitv b a : dofv 2 (unitv 2 b) a = if (a =? b)%nat then 1 else 0.
Proof. unfold dofv, unitv. now rewrite <- Nat.div_mod by lia. Qed.
Lemma hp_action n n' K F : has_pair n n' K F -> has_action 2 n' (2 * n) K (fun a z => F (unitv 2 a) z).
Proof.
  intros (k & Hk & E). exists k. split; auto. intros i z Hi. rewrite <- E.
  rewrite (bigsum_ext (2 * n) _ (fun a => (if (a =? i)%nat then 1 else 0) * bigsum (2 * n') (fun b => k a b * dofv 2 z b))).
  - rewrite (bigsum_ext (2 * n) _ (fun a => (if (i =? a)%nat then 1 else 0) * bigsum (2 * n') (fun b => k a b * dofv 2 z b))) by (intros; now rewrite Nat.eqb_sym).
    symmetry. now rewrite (bigsum_ite (2 * n) i (fun a => bigsum (2 * n') (fun b => k a b * dofv 2 z b))).
  - intros a Ha. rewrite <- bigsum_scal. apply bigsum_ext; intros b Hb. rewrite dofv_unitv. ring.
Qed.
Lemma hp_form n K F : has_pair n n K F <-> has_form 2 n K F.
Proof. split; intros (k & Hk & E); exists k; auto. Qed.
(** the pairing is linear in its first argument *)
Lemma hp_lin n n' K F : has_pair n n' K F -> forall y z, F y z = bigsum (2 * n) (fun a => dofv 2 y a * F (unitv 2 a) z).
Proof.
  intros H y z. destruct (hp_action _ _ _ _ H) as (b & Hb & Eb). destruct H as (k & Hk & E). rewrite <- E.
  apply bigsum_ext; intros a Ha. rewrite <- Eb by auto. rewrite <- bigsum_scal. apply bigsum_ext; intros c Hc.
  assert (X : k a c = b a c). { pose proof (Rget _ _ _ _ a c Hk Ha Hc) as A. rewrite (Rget _ _ _ _ a c Hb Ha Hc) in A. congruence. }
  rewrite X. ring.
Qed.

(** ** the modes *)
Lemma is_mat_wt p : (2 <= length p)%nat ->
  exists m, wt_dPdr p = Ok m /\ is_mat m 2 2 (fun k j => if (k =? j)%nat then -2 * nth k p 0 else 0).
Proof.
  intros Hp. unfold wt_dPdr. assert (V : is_vec p (length p) (fun i => nth i p 0)) by apply is_vec_of_list.
  rewrite !(Rvget p _ _ _ V) by lia. cbn [bind]. eexists. split; [reflexivity|].
  eapply is_mat_ext; [|apply is_mat_of_list; reflexivity]. refine (forall_lt2 _ _ _ _); each; reflexivity.
Qed.
Definition bubM (s : shape) (x : field) (r : nat -> R) (l m : nat) : R :=
  bigsum 2 (fun k => cof 2 (tangent s x r) l k / jac s x r * (if (k =? m)%nat then -2 * r k else 0)).
Definition bubG (s : shape) (x : field) (r : nat -> R) (a : field) : field := grd 2 (bubM s x r) a.
Lemma bubG_ok s x r a : sf_d s = 2%nat -> jac s x r <> 0 -> bubble_gradient s x r a (bubG s x r a).
Proof.
  intros Hd HJ. unfold jac in HJ. rewrite Hd in HJ. unfold bubble_gradient, bubG, grd, bubM, jac. rewrite Hd. cbn [detd] in *.
  refine (forall_lt2 _ _ _ _); each; cbn [bigsum Nat.eqb]; unfold cof, sgn, det2 in *; cbn [Nat.sub detd Nat.add Nat.even]; unfold skip; cbn [Nat.ltb Nat.leb]; field; auto.
Qed.
Lemma bubble_unique s x r a H H' : sf_d s = 2%nat -> jac s x r <> 0 -> bubble_gradient s x r a H -> bubble_gradient s x r a H' ->
  forall l c, (l < 2)%nat -> (c < 2)%nat -> H l c = H' l c.
Proof.
  intros Hd HJ H1 H2. unfold jac in HJ. rewrite Hd in HJ. cbn [detd] in HJ. unfold det2 in HJ.
  assert (G : forall c, (c < 2)%nat -> H 0%nat c = H' 0%nat c /\ H 1%nat c = H' 1%nat c).
  { intros c Hc. pose proof (H1 0%nat c ltac:(lia) Hc) as A0. pose proof (H1 1%nat c ltac:(lia) Hc) as A1.
    rewrite <- (H2 0%nat c ltac:(lia) Hc) in A0. rewrite <- (H2 1%nat c ltac:(lia) Hc) in A1. cbn [bigsum] in A0, A1.
    set (T := tangent s x r) in *. split; apply (Rmult_eq_reg_l (T 0%nat 0%nat * T 1%nat 1%nat - T 0%nat 1%nat * T 1%nat 0%nat)); auto.
    - transitivity (T 1%nat 1%nat * (0 + T 0%nat 0%nat * H 0%nat c + T 0%nat 1%nat * H 1%nat c) - T 0%nat 1%nat * (0 + T 1%nat 0%nat * H 0%nat c + T 1%nat 1%nat * H 1%nat c)); [ring|].
      rewrite A0, A1. ring.
    - transitivity (T 0%nat 0%nat * (0 + T 1%nat 0%nat * H 0%nat c + T 1%nat 1%nat * H 1%nat c) - T 1%nat 0%nat * (0 + T 0%nat 0%nat * H 0%nat c + T 0%nat 1%nat * H 1%nat c)); [ring|].
      rewrite A0, A1. ring. }
  intros l c Hl Hc. destruct (G c Hc). destruct l as [|[|l]]; auto; lia.
Qed.
Lemma wt_G_ok dP f : is_mat dP 2 2 f -> exists G, wt_G dP = Ok G /\ has_action 2 2 3 G (fun i z => voigt2 (grd 2 f z) i).
Proof.
  intros H. unfold wt_G. rewrite !(Rget dP 2 2 f) by (auto; lia).
  destruct (Rmbuild 3 4 (ent2 [ [Ok (f 0%nat 0%nat); Ok 0; Ok (f 0%nat 1%nat); Ok 0]; [Ok 0; Ok (f 1%nat 0%nat); Ok 0; Ok (f 1%nat 1%nat)];
      [Ok (f 1%nat 0%nat); Ok (f 0%nat 0%nat); Ok (f 1%nat 1%nat); Ok (f 0%nat 1%nat)] ])
    (fun i j => nth j (nth i [[f 0%nat 0%nat; 0; f 0%nat 1%nat; 0]; [0; f 1%nat 0%nat; 0; f 1%nat 1%nat]; [f 1%nat 0%nat; f 0%nat 0%nat; f 1%nat 1%nat; f 0%nat 1%nat]] []) 0)) as (G & EG & HG).
  - refine (forall_lt2 _ _ _ _); each; reflexivity.
  - exists G. split; auto. eexists. split; [exact HG|]. intros i z Hi. unfold dofv. destruct i as [|[|[|i]]]; try lia; cbn; unfold grd; cbn [bigsum]; ring.
Qed.

Section WT.
Variables (s : shape) (q : rule) (elem : list nat) (xs : list (list R)) (D : mat R) (Df : nat -> nat -> R) (t : R).
Let x := nodal elem xs.
Let n := length elem.
Hypothesis He : element_ok 2 s q elem xs.
Hypothesis HD : is_mat D 3 3 Df.
Definition Fk (y z : field) : R := quad 2 q (fun r => jac s x r * t * quad_form3 Df (voigt2 (gradU s x r y)) (voigt2 (gradU s x r z))).
Definition Fa (a b : field) : R := quad 2 q (fun r => jac s x r * t * quad_form3 Df (voigt2 (bubG s x r a)) (voigt2 (bubG s x r b))).
Definition Fd (a z : field) : R := quad 2 q (fun r => jac s x r * t * quad_form3 Df (voigt2 (bubG s x r a)) (voigt2 (gradU s x r z))).
Definition wt_body (X : mat R) (st : mat R * mat R * mat R) (g : nat) : res (mat R * mat R * mat R) :=
      let '(K, Kaa, Kad) := st in
      j <- jacobian s q g X ;; let '(J, dXdr, dNdr) := j in
      inv <- minv R_ops dXdr ;;
      dNdX <- mmul R_ops inv dNdr ;;
      B <- plane_B n dNdX ;;
      p <- gpoint q g ;;
      dPdr <- wt_dPdr p ;;
      dPdX <- mmul R_ops inv dPdr ;;
      G <- wt_G dPdX ;;
      k <- atdb B D B ;; k <- weigh 2 q g (mscal R_ops t (mscal R_ops J k)) ;; K <- madd R_ops K k ;;
      ka <- atdb G D G ;; ka <- weigh 2 q g (mscal R_ops t (mscal R_ops J ka)) ;; Kaa <- madd R_ops Kaa ka ;;
      kd <- atdb G D B ;; kd <- weigh 2 q g (mscal R_ops t (mscal R_ops J kd)) ;; Kad <- madd R_ops Kad kd ;;
      Ok (K, Kaa, Kad).

Lemma wt_contrib n1 n2 g A B V W : (g < q_n q)%nat -> has_action 2 n1 3 A V -> has_action 2 n2 3 B W ->
  forall M F, has_pair n1 n2 M F ->
  exists k k' M', atdb A D B = Ok k /\ weigh 2 q g (mscal R_ops t (mscal R_ops (jac s x (pt q g)) k)) = Ok k' /\ madd R_ops M k' = Ok M' /\
    has_pair n1 n2 M' (fun y z => F y z + wprod 2 (nth g (q_weights q) []) * (jac s x (pt q g) * t * quad_form3 Df (fun i => V i y) (fun i => W i z))).
Proof.
  intros Hg HA HB M F HM. destruct (hp_atdb _ _ _ _ _ _ _ _ _ _ HA HD HB) as (k & Ek & Hk).
  pose proof (hp_scal _ _ _ _ t (hp_scal _ _ _ _ (jac s x (pt q g)) Hk)) as H2.
  destruct (hp_weigh _ _ q g _ _ ltac:(apply He) Hg H2) as (k' & Ek' & Hk').
  destruct (hp_add _ _ _ _ _ _ HM Hk') as (M' & EM & HM'). exists k, k', M'. splits; auto.
  eapply hp_eq; [|exact HM']. intros y z. cbv beta. unfold quad_form3, wgt. ring.
Qed.
Lemma quad_form3_ext a a' b b' : (forall i, (i < 3)%nat -> a i = a' i) -> (forall i, (i < 3)%nat -> b i = b' i) -> quad_form3 Df a b = quad_form3 Df a' b'.
Proof. intros H1 H2. unfold quad_form3. apply bigsum_ext; intros. apply bigsum_ext; intros. now rewrite H1, H2. Qed.

Lemma wt_loop X : is_mat X n 2 x -> exists K Kaa Kad,
  foldM (wt_body X) (seq 0 (q_n q)) (mnew R_ops (2 * n) (2 * n), mnew R_ops 4 4, mnew R_ops 4 (2 * n)) = Ok (K, Kaa, Kad) /\
  has_pair n n K Fk /\ has_pair 2 2 Kaa Fa /\ has_pair 2 n Kad Fd.
Proof.
  intros HX. pose proof He as (Hs & Hd & HL & Hn & Hq & HJ).
  pose (part := fun (f : nat -> R) m => bigsum m (fun g => wprod 2 (nth g (q_weights q) []) * f g)).
  pose (U := fun g => gradU s x (pt q g)). pose (Bb := fun g => bubG s x (pt q g)). pose (J := fun g => jac s x (pt q g)).
  destruct (loop_inv (wt_body X) (fun m st => let '(K, Kaa, Kad) := st in
     has_pair n n K (fun y z => part (fun g => J g * t * quad_form3 Df (voigt2 (U g y)) (voigt2 (U g z))) m) /\
     has_pair 2 2 Kaa (fun y z => part (fun g => J g * t * quad_form3 Df (voigt2 (Bb g y)) (voigt2 (Bb g z))) m) /\
     has_pair 2 n Kad (fun y z => part (fun g => J g * t * quad_form3 Df (voigt2 (Bb g y)) (voigt2 (U g z))) m))
     (q_n q) (mnew R_ops (2 * n) (2 * n), mnew R_ops 4 4, mnew R_ops 4 (2 * n))) as (((K & Kaa) & Kad) & E & H1 & H2 & H3).
  - splits; [apply (hp_new n n)|apply (hp_new 2 2)|apply (hp_new 2 n)].
  - intros g ((K & Kaa) & Kad) Hg (H1 & H2 & H3). unfold wt_body.
    destruct (jacobian_ok 2 s q elem xs He g X Hg HX) as (T & ET & HT). fold x in ET, HT. rewrite ET. rewrite bind_ok.
    assert (HJ2 : detd 2 (tangent s x (pt q g)) <> 0). { specialize (HJ g Hg). unfold jac in HJ. now rewrite Hd in HJ. }
    destruct (Rminv 2 T _ ltac:(lia) HT HJ2) as (Ti & ETi & HTi). rewrite ETi, bind_ok.
    pose proof (sf_mat_ok s Hs (nth g (q_points q) [])) as HN. rewrite Hd in HN.
    destruct (Rmmul _ _ _ _ _ _ _ HTi HN) as (G & EG & HG). rewrite EG, bind_ok.
    rewrite <- HL in HG. destruct (plane_B_ok _ _ _ HG) as (B & EB & HB). fold n in EB, HB. rewrite EB, bind_ok.
    rewrite (gpoint_ok 2 q g Hq Hg), bind_ok.
    destruct (is_mat_wt (nth g (q_points q) [])) as (P & EP & HP). { destruct Hq as (_ & _ & Hq). now apply Hq. }
    rewrite EP, bind_ok. destruct (Rmmul _ _ _ _ _ _ _ HTi HP) as (PX & EPX & HPX). rewrite EPX, bind_ok.
    destruct (wt_G_ok _ _ HPX) as (GG & EGG & HGG). rewrite EGG, bind_ok.
    assert (VB : has_action 2 n 3 B (fun i z => voigt2 (U g z) i)).
    { eapply has_action_eq; [|exact HB]. intros i z Hi. apply voigt2_ext. intros l c Hl Hc. refine (eq_trans _ (grd_gradU s elem xs 2 q g z l c He)).
      unfold grd. fold n. apply bigsum_ext; intros k Hk. f_equal. unfold gradN, jac. now rewrite Hd. }
    assert (VG : has_action 2 2 3 GG (fun i z => voigt2 (Bb g z) i)).
    { eapply has_action_eq; [|exact HGG]. intros i z Hi. apply voigt2_ext. intros l c Hl Hc. unfold Bb, bubG, grd, bubM, jac. rewrite Hd. reflexivity. }
    destruct (wt_contrib n n g B B _ _ Hg VB VB K _ H1) as (k & k' & K' & E1 & E2 & E3 & H1').
    rewrite E1, bind_ok, E2, bind_ok, E3, bind_ok.
    destruct (wt_contrib 2 2 g GG GG _ _ Hg VG VG Kaa _ H2) as (ka & ka' & Kaa' & E4 & E5 & E6 & H2').
    rewrite E4, bind_ok, E5, bind_ok, E6, bind_ok.
    destruct (wt_contrib 2 n g GG B _ _ Hg VG VB Kad _ H3) as (kd & kd' & Kad' & E7 & E8 & E9 & H3').
    rewrite E7, bind_ok, E8, bind_ok, E9, bind_ok. eexists. split; [reflexivity|]. cbv beta iota. auto.
  - exists K, Kaa, Kad. auto.
Qed.
End WT.

(** ** condensation *)
Lemma has_pair_fun n n' K F : has_pair n n' K F -> exists k, is_mat K (2 * n) (2 * n') k /\
  (forall y z, bigsum (2 * n) (fun a => bigsum (2 * n') (fun b => dofv 2 y a * k a b * dofv 2 z b)) = F y z).
Proof. auto. Qed.

Section Condense.
Variables (s : shape) (q : rule) (elem dou : list nat) (xs : list (list R)) (D : mat R) (Df : nat -> nat -> R) (t : R).
Hypothesis He : element_ok 2 s q elem xs.
Hypothesis Hdou : length dou = 2%nat.
Hypothesis HD : is_mat D 3 3 Df.
Let n := length elem.
Notation fk := (Fk s q elem xs Df t).
Notation fa := (Fa s q elem xs Df t).
Notation fd := (Fd s q elem xs Df t).

Lemma wt_core : exists ka, (forall y z, bigsum 4 (fun a => bigsum 4 (fun b => dofv 2 y a * ka a b * dofv 2 z b)) = fa y z) /\
  (det4 ka = 0 -> PlaneStiffnessWilsonTaylor s q elem dou xs D t = Fail DivByZero) /\
  (det4 ka <> 0 -> exists K ne k al, PlaneStiffnessWilsonTaylor s q elem dou xs D t = Ok (K, ne) /\ numbered 2 n dou ne /\
     is_mat K (2 * n) (2 * n) k /\ (forall z b, fa b (al z) = - fd b z) /\ forall y z, form 2 n k y z = fk y z + fd (al z) y).
Proof.
  unfold PlaneStiffnessWilsonTaylor. rewrite (eqb2 _ _ Hdou). cbn [assert_ bind].
  destruct (nte_of_ok 2 n dou ltac:(lia)) as (ne & En & Hn). unfold n in *. rewrite En, bind_ok.
  destruct (node_mat_ok 2 elem xs ltac:(apply He)) as (X & EX & HX). rewrite EX, bind_ok.
  destruct (wt_loop s q elem xs D Df t He HD X HX) as (K & Kaa & Kad & E & HK & HA & HDd).
  unfold wt_body in E. rewrite E, bind_ok. clear E.
  pose proof HA as (ka & Hka & Eka). exists ka. splits; auto.
  - intros Hz. now rewrite (Rminv4_singular Kaa ka Hka Hz).
  - intros Hnz. destruct (Rminv4 Kaa ka Hka Hnz) as (iv & Eiv & Hiv). rewrite Eiv, bind_ok.
    pose proof (hp_action _ _ _ _ HDd) as HAd. change (2 * 2)%nat with 4%nat in HAd.
    destruct (hf_atdb _ _ _ _ _ _ _ _ _ _ HAd Hiv HAd) as (c & Ec & Hc). rewrite Ec, bind_ok.
    apply hp_form in HK. destruct (hf_sub _ _ _ _ _ _ HK Hc) as (K' & EK' & (k & Hk & Fkk)). rewrite EK', bind_ok.
    exists K', ne, k, (fun z i c => - bigsum 4 (fun b => cof 4 ka (2 * i + c) b / det4 ka * fd (unitv 2 b) z)).
    assert (DV : forall z a, dofv 2 (fun i c => - bigsum 4 (fun b => cof 4 ka (2 * i + c) b / det4 ka * fd (unitv 2 b) z)) a =
      - bigsum 4 (fun b => cof 4 ka a b / det4 ka * fd (unitv 2 b) z)) by (intros z a; unfold dofv; now rewrite <- Nat.div_mod by lia).
    splits; auto.
    + intros z b. rewrite <- Eka. change (2 * 2)%nat with 4%nat. rewrite (hp_lin _ _ _ _ HDd b z), <- bigsum_opp. change (2 * 2)%nat with 4%nat.
      apply bigsum_ext; intros a Ha.
      rewrite (bigsum_ext 4 _ (fun b0 => bigsum 4 (fun c0 => - dofv 2 b a * (ka a b0 * cof 4 ka b0 c0 / det4 ka) * fd (unitv 2 c0) z))).
      2:{ intros b0 _. rewrite DV, <- bigsum_opp, <- bigsum_scal. apply bigsum_ext; intros. field. auto. }
      rewrite bigsum_swap.
      rewrite (bigsum_ext 4 _ (fun c0 => (if (a =? c0)%nat then 1 else 0) * (- (dofv 2 b a * fd (unitv 2 c0) z)))).
      * now rewrite (bigsum_ite 4 a (fun c0 => - (dofv 2 b a * fd (unitv 2 c0) z))).
      * intros c0 Hc0. transitivity (bigsum 4 (fun b0 => ka a b0 * cof 4 ka b0 c0) * (/ det4 ka * - (dofv 2 b a * fd (unitv 2 c0) z))).
        { rewrite <- bigsum_scal_r. apply bigsum_ext; intros. field. auto. }
        rewrite cof4_right by auto. destruct (a =? c0)%nat; [field; auto|ring].
    + intros y z. rewrite Fkk. unfold Rminus. f_equal. rewrite (hp_lin _ _ _ _ HDd _ y). change (2 * 2)%nat with 4%nat.
      rewrite <- bigsum_opp. apply bigsum_ext; intros a Ha. rewrite DV, <- bigsum_opp, <- bigsum_opp, <- bigsum_scal_r.
      apply bigsum_ext; intros; ring.
Qed.
End Condense.
