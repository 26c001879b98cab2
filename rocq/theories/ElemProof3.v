(** Element routines: the bilinear forms computed by the plane, solid and scalar
    routines. *)
From Coq Require Import List Arith Lia Bool Reals Lra.
From Verif Require Import Res SumR DenseModel DenseR DenseSpec DenseProof DenseMain ShapeModel ShapeMain QuadModel QuadSpec ElemModel ElemSpec ElemProof ElemProof2.
Import ListNotations.
Local Open Scope R_scope.

Lemma eqb2 (dou : list nat) m : length dou = m -> (length dou =? m)%nat = true.
Proof. intros ->. apply Nat.eqb_refl. Qed.

Section Plane.
Variables (s : shape) (elem : list nat) (xs : list (list R)).
Let x := nodal elem xs.
Let n := length elem.

Lemma grd_gradU d q g z l c : element_ok d s q elem xs -> grd n (gradN s x (pt q g)) z l c = gradU s x (pt q g) z l c.
Proof. intros (_ & _ & HL & _). unfold grd, gradU, n. now rewrite HL. Qed.

(** one integration loop *)
Lemma plane_loop_form q tab X D Df p t K0 F0 (V : nat -> (nat -> nat -> R) -> R) :
  element_ok 2 s q elem xs -> is_mat X n 2 x -> is_mat D p p Df -> has_form 2 n K0 F0 ->
  (forall dN G, is_mat dN 2 n G -> exists B, tab n dN = Ok B /\ has_action 2 n p B (fun i z => V i (grd n G z))) ->
  (forall i H H', (forall l c, (l < 2)%nat -> (c < 2)%nat -> H l c = H' l c) -> V i H = V i H') ->
  exists K, plane_loop s q n X tab D t K0 = Ok K /\
    has_form 2 n K (fun y z => F0 y z + quad 2 q (fun r =>
      jac s x r * t * bigsum p (fun i => bigsum p (fun j => V i (gradU s x r y) * Df i j * V j (gradU s x r z))))).
Proof.
  intros He HX HD HK HT HV. unfold plane_loop.
  destruct (hf_gauss 2 n q (fun g =>
    jd <- gradient s q g X ;; let '(J, dNdX) := jd in
    B <- tab n dNdX ;; k <- atdb B D B ;; weigh 2 q g (mscal R_ops t (mscal R_ops J k))) K0 F0
    (fun g y z => bigsum p (fun i => bigsum p (fun j => V i (gradU s x (pt q g) y) * Df i j * V j (gradU s x (pt q g) z)))
        * jac s x (pt q g) * t * wgt 2 q g)) as (K & E & H); auto.
  - intros g Hg. destruct (gradient_ok 2 s q elem xs He g X ltac:(lia) Hg HX) as (G & EG & HG).
    rewrite EG. cbn [bind]. destruct (HT G _ HG) as (B & EB & HB). rewrite EB. cbn [bind].
    destruct (hf_atdb _ _ _ _ _ _ _ _ _ _ HB HD HB) as (k & Ek & Hk). rewrite Ek. cbn [bind].
    pose proof (hf_scal _ _ _ _ t (hf_scal _ _ _ _ (jac s x (pt q g)) Hk)) as H2.
    destruct (hf_weigh 2 2 _ _ q g _ _ (le_n 2) ltac:(apply He) Hg H2) as (k' & Ek' & Hk'). unfold x in *. rewrite Ek'. exists k'. split; auto.
    eapply has_form_eq; [|exact Hk']. intros y z. cbv beta. do 3 f_equal. apply bigsum_ext; intros i _. apply bigsum_ext; intros j _.
    rewrite (HV i (grd n _ y) (gradU s x (pt q g) y)), (HV j (grd n _ z) (gradU s x (pt q g) z)); auto; intros; now apply (grd_gradU 2 q).
  - exists K. split; auto. eapply has_form_eq; [|exact H]. intros y z. cbv beta. f_equal. unfold quad. apply bigsum_ext; intros g _.
    unfold wgt, pt. ring.
Qed.
End Plane.

Lemma voigt2_ext i H H' : (forall l c, (l < 2)%nat -> (c < 2)%nat -> H l c = H' l c) -> voigt2 H i = voigt2 H' i.
Proof. intros E. destruct i as [|[|i]]; cbn [voigt2]; rewrite !E by lia; reflexivity. Qed.

Definition quad_form3 (D : nat -> nat -> R) (a b : nat -> R) : R :=
  bigsum 3 (fun i => bigsum 3 (fun j => a i * D i j * b j)).

Lemma plane_stiffness_form s q elem dou xs D Df t :
  element_ok 2 s q elem xs -> length dou = 2%nat -> is_mat D 3 3 Df ->
  exists K ne, plane_stiffness s q elem dou xs D t = Ok (K, ne) /\ numbered 2 (length elem) dou ne /\
    has_form 2 (length elem) K (fun y z => quad 2 q (fun r => jac s (nodal elem xs) r * t *
      quad_form3 Df (voigt2 (gradU s (nodal elem xs) r y)) (voigt2 (gradU s (nodal elem xs) r z)))).
Proof.
  intros He Hdou HD. unfold plane_stiffness. rewrite (eqb2 _ _ Hdou). cbn [assert_ bind].
  destruct (nte_of_ok 2 (length elem) dou ltac:(lia)) as (ne & En & Hn). rewrite En. cbn [bind].
  destruct (node_mat_ok 2 elem xs ltac:(apply He)) as (X & EX & HX). rewrite EX. cbn [bind].
  destruct (plane_loop_form s elem xs q plane_B X D Df 3 t _ _ (fun i H => voigt2 H i) He HX HD (hf_new 2 (length elem))
    (fun dN G HG => plane_B_ok (length elem) dN G HG) voigt2_ext) as (K & EK & HK).
  unfold plane_loop in EK. rewrite EK. cbn [bind]. exists K, ne. splits; auto.
  eapply has_form_eq; [|exact HK]. intros y z. cbv beta. now rewrite Rplus_0_l.
Qed.

(** replacing the canonical gradient by any gradient *)
Lemma gradients_eq s q elem xs d m y H : element_ok d s q elem xs -> (2 <= d)%nat -> gradients s q (nodal elem xs) m y H ->
  forall g l c, (g < q_n q)%nat -> (l < d)%nat -> (c < m)%nat -> gradU s (nodal elem xs) (pt q g) y l c = H (pt q g) l c.
Proof.
  intros (Hs & Hd & _ & _ & _ & HJ) Hd2 HG g l c Hg Hl Hc. symmetry. subst d.
  apply (field_gradient_unique s (nodal elem xs) (pt q g) Hs Hd2 (HJ g Hg) m y); auto.
Qed.
Lemma gradients_gradU s q elem xs d m y : element_ok d s q elem xs -> (2 <= d)%nat ->
  gradients s q (nodal elem xs) m y (fun r => gradU s (nodal elem xs) r y).
Proof. intros (Hs & Hd & _ & _ & _ & HJ) Hd2 g Hg. subst d. apply gradU_field; auto. Qed.

Lemma quad_ext d q f f' : (forall g, (g < q_n q)%nat -> f (pt q g) = f' (pt q g)) -> quad d q f = quad d q f'.
Proof. intros H. unfold quad. apply bigsum_ext. intros g Hg. f_equal. exact (H g Hg). Qed.
Lemma quad_scal d q f c : quad d q (fun r => f r * c) = quad d q f * c.
Proof. unfold quad. rewrite <- bigsum_scal_r. apply bigsum_ext; intros; ring. Qed.
Lemma quad_plus d q f f' : quad d q (fun r => f r + f' r) = quad d q f + quad d q f'.
Proof. unfold quad. rewrite <- bigsum_plus. apply bigsum_ext; intros; ring. Qed.

(** spherical and deviatoric components used by B-bar *)
Definition bvol (H : nat -> nat -> R) (i : nat) : R := match i with 2%nat => 0 | _ => (H 0%nat 0%nat + H 1%nat 1%nat) * (1 / 2) end.
Definition bdev (H : nat -> nat -> R) (i : nat) : R := match i with 2%nat => H 1%nat 0%nat + H 0%nat 1%nat
     | O => (H 0%nat 0%nat - H 1%nat 1%nat) * (1 / 2) | _ => (H 1%nat 1%nat - H 0%nat 0%nat) * (1 / 2) end.

(** ** Hooke's law in Voigt components *)
Lemma nz_div a b : b <> 0 -> a / b = a * / b. Proof. reflexivity. Qed.

Lemma D_strain_ok E V : (1 - 2 * V) * (1 + V) <> 0 -> exists D Df, D_strain E V = Ok D /\ is_mat D 3 3 Df /\
  forall H H', quad_form3 Df (voigt2 H) (voigt2 H') = hooke 2 (lame_lambda E V) (lame_mu E V) (strain H) (strain H') /\
    quad_form3 Df (bvol H) (bvol H') + quad_form3 Df (bdev H) (bdev H') = quad_form3 Df (voigt2 H) (voigt2 H').
Proof.
  intros Hz. assert (1 - 2 * V <> 0) by (intros A; apply Hz; rewrite A; ring). assert (1 + V <> 0) by (intros A; apply Hz; rewrite A; ring).
  unfold D_strain. rewrite Rdiv_res_ok by auto. cbn [bind]. do 2 eexists. splits; [reflexivity| |].
  - apply Rmscal, is_mat_of_list. reflexivity.
  - intros H1 H2. split.
    + unfold quad_form3, hooke, trace, ddot, strain, lame_lambda, lame_mu. cbn [bigsum voigt2 nth Nat.mul Nat.add]. field. splits; auto.
    + unfold quad_form3. cbn [bigsum voigt2 bvol bdev nth Nat.mul Nat.add]. field. splits; auto.
Qed.
Lemma D_stress_ok E V : (1 - V) * (1 + V) <> 0 -> exists D Df, D_stress E V = Ok D /\ is_mat D 3 3 Df /\
  forall H H', quad_form3 Df (voigt2 H) (voigt2 H') = hooke 2 (E * V / ((1 - V) * (1 + V))) (lame_mu E V) (strain H) (strain H').
Proof.
  intros Hz. assert (1 - V <> 0) by (intros A; apply Hz; rewrite A; ring). assert (1 + V <> 0) by (intros A; apply Hz; rewrite A; ring).
  unfold D_stress. rewrite Rdiv_res_ok by auto. cbn [bind]. do 2 eexists. splits; [reflexivity| |].
  - apply Rmscal, is_mat_of_list. reflexivity.
  - intros H1 H2. unfold quad_form3, hooke, trace, ddot, strain, lame_lambda, lame_mu. cbn [bigsum voigt2 nth Nat.mul Nat.add]. field. splits; auto.
Qed.
Lemma D_vol_ok E V : 1 - 2 * V <> 0 -> exists D Df, D_vol E V = Ok D /\ is_mat D 3 3 Df /\
  forall H H', quad_form3 Df (voigt2 H) (voigt2 H') = E / (3 * (1 - 2 * V)) * trace 2 (strain H) * trace 2 (strain H').
Proof.
  intros Hz. assert (3 * (1 - 2 * V) <> 0) by lra.
  unfold D_vol. rewrite Rdiv_res_ok by auto. cbn [bind]. do 2 eexists. splits; [reflexivity| |].
  - apply Rmscal, is_mat_of_list. reflexivity.
  - intros H1 H2. unfold quad_form3, hooke, trace, ddot, strain, lame_lambda, lame_mu. cbn [bigsum voigt2 nth Nat.mul Nat.add]. field. auto.
Qed.
Lemma D_dev_ok E V : 1 + V <> 0 -> exists D Df, D_dev E V = Ok D /\ is_mat D 3 3 Df /\
  forall H H', quad_form3 Df (voigt2 H) (voigt2 H') =
    2 * lame_mu E V * (ddot 2 (strain H) (strain H') - trace 2 (strain H) * trace 2 (strain H') / 3).
Proof.
  intros Hz. assert (6 * (1 + V) <> 0) by lra.
  unfold D_dev. rewrite Rdiv_res_ok by auto. cbn [bind]. do 2 eexists. splits; [reflexivity| |].
  - apply Rmscal, is_mat_of_list. reflexivity.
  - intros H1 H2. unfold quad_form3, hooke, trace, ddot, strain, lame_lambda, lame_mu. cbn [bigsum voigt2 nth Nat.mul Nat.add]. field. auto.
Qed.

Lemma hooke_ext d l m e e' f f' : (forall i j, (i < d)%nat -> (j < d)%nat -> e i j = e' i j) ->
  (forall i j, (i < d)%nat -> (j < d)%nat -> f i j = f' i j) -> hooke d l m e f = hooke d l m e' f'.
Proof.
  intros He Hf. unfold hooke, trace, ddot. f_equal.
  - f_equal; [f_equal|]; apply bigsum_ext; auto.
  - f_equal. apply bigsum_ext; intros. apply bigsum_ext; intros. now rewrite He, Hf.
Qed.

(** SRI and B-bar *)
Lemma SRI_form s qv qd elem dou xs E V t :
  element_ok 2 s qv elem xs -> element_ok 2 s qd elem xs -> length dou = 2%nat -> 1 - 2 * V <> 0 -> 1 + V <> 0 ->
  exists K ne, PlaneStrainStiffnessSRI s qv qd elem dou xs E V t = Ok (K, ne) /\ numbered 2 (length elem) dou ne /\
    has_form 2 (length elem) K (fun y z =>
      quad 2 qv (fun r => jac s (nodal elem xs) r * t *
        (E / (3 * (1 - 2 * V)) * trace 2 (strain (gradU s (nodal elem xs) r y)) * trace 2 (strain (gradU s (nodal elem xs) r z)))) +
      quad 2 qd (fun r => jac s (nodal elem xs) r * t *
        (2 * lame_mu E V * (ddot 2 (strain (gradU s (nodal elem xs) r y)) (strain (gradU s (nodal elem xs) r z))
          - trace 2 (strain (gradU s (nodal elem xs) r y)) * trace 2 (strain (gradU s (nodal elem xs) r z)) / 3)))).
Proof.
  intros Hv Hd Hdou H1 H2. unfold PlaneStrainStiffnessSRI. rewrite (eqb2 _ _ Hdou). cbn [assert_ bind].
  destruct (nte_of_ok 2 (length elem) dou ltac:(lia)) as (ne & En & Hn). rewrite En. cbn [bind].
  destruct (node_mat_ok 2 elem xs ltac:(apply Hv)) as (X & EX & HX). rewrite EX. cbn [bind].
  destruct (D_vol_ok E V H1) as (Dv & Dvf & EDv & HDv & Fv). rewrite EDv. cbn [bind].
  destruct (plane_loop_form s elem xs qv plane_B X Dv Dvf 3 t _ _ (fun i H => voigt2 H i) Hv HX HDv (hf_new 2 (length elem))
    (fun dN G HG => plane_B_ok (length elem) dN G HG) voigt2_ext) as (K & EK & HK). rewrite EK. cbn [bind].
  destruct (D_dev_ok E V H2) as (Dd & Ddf & EDd & HDd & Fd). rewrite EDd. cbn [bind].
  destruct (plane_loop_form s elem xs qd plane_B X Dd Ddf 3 t _ _ (fun i H => voigt2 H i) Hd HX HDd HK
    (fun dN G HG => plane_B_ok (length elem) dN G HG) voigt2_ext) as (K2 & EK2 & HK2). rewrite EK2. cbn [bind].
  exists K2, ne. splits; auto. eapply has_form_eq; [|exact HK2]. intros y z. cbv beta. rewrite Rplus_0_l. f_equal.
  - apply quad_ext. intros g _. f_equal. apply Fv.
  - apply quad_ext. intros g _. f_equal. apply Fd.
Qed.

Lemma bvol_ext i H H' : (forall l c, (l < 2)%nat -> (c < 2)%nat -> H l c = H' l c) -> bvol H i = bvol H' i.
Proof. intros E. destruct i as [|[|[|i]]]; cbn [bvol]; rewrite ?E by lia; reflexivity. Qed.
Lemma bdev_ext i H H' : (forall l c, (l < 2)%nat -> (c < 2)%nat -> H l c = H' l c) -> bdev H i = bdev H' i.
Proof. intros E. destruct i as [|[|[|i]]]; cbn [bdev]; rewrite ?E by lia; reflexivity. Qed.

Lemma Bbar_form s qv qd elem dou xs D Df t :
  element_ok 2 s qv elem xs -> element_ok 2 s qd elem xs -> length dou = 2%nat -> is_mat D 3 3 Df ->
  exists K ne, PlaneStiffnessBbar s qv qd elem dou xs D t = Ok (K, ne) /\ numbered 2 (length elem) dou ne /\
    has_form 2 (length elem) K (fun y z =>
      quad 2 qv (fun r => jac s (nodal elem xs) r * t *
        quad_form3 Df (bvol (gradU s (nodal elem xs) r y)) (bvol (gradU s (nodal elem xs) r z))) +
      quad 2 qd (fun r => jac s (nodal elem xs) r * t *
        quad_form3 Df (bdev (gradU s (nodal elem xs) r y)) (bdev (gradU s (nodal elem xs) r z)))).
Proof.
  intros Hv Hd Hdou HD. unfold PlaneStiffnessBbar. rewrite (eqb2 _ _ Hdou). cbn [assert_ bind].
  destruct (nte_of_ok 2 (length elem) dou ltac:(lia)) as (ne & En & Hn). rewrite En. cbn [bind].
  destruct (node_mat_ok 2 elem xs ltac:(apply Hv)) as (X & EX & HX). rewrite EX. cbn [bind].
  destruct (plane_loop_form s elem xs qv plane_Bvol X D Df 3 t _ _ (fun i H => bvol H i) Hv HX HD (hf_new 2 (length elem))
    (fun dN G HG => plane_Bvol_ok (length elem) dN G HG) bvol_ext) as (K & EK & HK). rewrite EK. cbn [bind].
  destruct (plane_loop_form s elem xs qd plane_Bdev X D Df 3 t _ _ (fun i H => bdev H i) Hd HX HD HK
    (fun dN G HG => plane_Bdev_ok (length elem) dN G HG) bdev_ext) as (K2 & EK2 & HK2). rewrite EK2. cbn [bind].
  exists K2, ne. splits; auto. eapply has_form_eq; [|exact HK2]. intros y z. cbv beta. now rewrite Rplus_0_l.
Qed.

(** ** Solid *)
Lemma voigt3_ext i H H' : (forall l c, (l < 3)%nat -> (c < 3)%nat -> H l c = H' l c) -> voigt3 H i = voigt3 H' i.
Proof. intros E. destruct i as [|[|[|[|[|i]]]]]; cbn [voigt3]; rewrite !E by lia; reflexivity. Qed.
Definition quad_form6 (D : nat -> nat -> R) (a b : nat -> R) : R :=
  bigsum 6 (fun i => bigsum 6 (fun j => a i * D i j * b j)).
Lemma C_solid_ok E V : (1 + V) * (1 - 2 * V) <> 0 -> exists D Df, C_solid E V = Ok D /\ is_mat D 6 6 Df /\
  forall H H', quad_form6 Df (voigt3 H) (voigt3 H') = hooke 3 (lame_lambda E V) (lame_mu E V) (strain H) (strain H').
Proof.
  intros Hz. assert (1 - 2 * V <> 0) by (intros A; apply Hz; rewrite A; ring). assert (1 + V <> 0) by (intros A; apply Hz; rewrite A; ring).
  unfold C_solid. rewrite Rdiv_res_ok by auto. cbn [bind]. do 2 eexists. splits; [reflexivity| |].
  - apply Rmscal, is_mat_of_list. reflexivity.
  - intros H1 H2. unfold quad_form6, hooke, trace, ddot, strain, lame_lambda, lame_mu. cbn [bigsum voigt3 nth Nat.mul Nat.add]. field. splits; auto.
Qed.
Lemma solid_form s q elem dou xs E V : element_ok 3 s q elem xs -> length dou = 3%nat -> (1 + V) * (1 - 2 * V) <> 0 ->
  exists K ne, SolidLinearIsotropicElastic s q elem dou xs E V = Ok (K, ne) /\ numbered 3 (length elem) dou ne /\
    has_form 3 (length elem) K (fun y z => quad 3 q (fun r => jac s (nodal elem xs) r *
      hooke 3 (lame_lambda E V) (lame_mu E V) (strain (gradU s (nodal elem xs) r y)) (strain (gradU s (nodal elem xs) r z)))).
Proof.
  intros He Hdou HE. unfold SolidLinearIsotropicElastic. rewrite (eqb2 _ _ Hdou). cbn [assert_ bind].
  destruct (nte_of_ok 3 (length elem) dou ltac:(lia)) as (ne & En & Hn). rewrite En. cbn [bind].
  destruct (node_mat_ok 3 elem xs ltac:(apply He)) as (X & EX & HX). rewrite EX. cbn [bind].
  destruct (C_solid_ok E V HE) as (C & Cf & EC & HC & FC). rewrite EC. cbn [bind].
  set (x := nodal elem xs).
  destruct (hf_gauss0 3 (length elem) q (fun g =>
         jd <- gradient s q g X ;; let '(J, dNdX) := jd in
         B <- solid_B (length elem) dNdX ;;
         k <- atdb B C B ;;
         weigh 3 q g (mscal R_ops J k))
    (fun g y z => quad_form6 Cf (voigt3 (gradU s x (pt q g) y)) (voigt3 (gradU s x (pt q g) z))
        * jac s x (pt q g) * wgt 3 q g)) as (K & E' & H).
  - intros g Hg. destruct (gradient_ok 3 s q elem xs He g X ltac:(lia) Hg HX) as (G & EG & HG).
    rewrite EG. cbn [bind]. destruct (solid_B_ok _ _ _ HG) as (B & EB & HB). rewrite EB. cbn [bind].
    destruct (hf_atdb _ _ _ _ _ _ _ _ _ _ HB HC HB) as (k & Ek & Hk). rewrite Ek. cbn [bind].
    pose proof (hf_scal _ _ _ _ (jac s x (pt q g)) Hk) as H2.
    destruct (hf_weigh 3 3 _ _ q g _ _ (le_n 3) ltac:(apply He) Hg H2) as (k' & Ek' & Hk'). unfold x in *. rewrite Ek'. exists k'. split; auto.
    eapply has_form_eq; [|exact Hk']. intros y z. cbv beta. do 2 f_equal. apply bigsum_ext; intros i _. apply bigsum_ext; intros j _.
    rewrite (voigt3_ext i (grd _ _ y) (gradU s (nodal elem xs) (pt q g) y)), (voigt3_ext j (grd _ _ z) (gradU s (nodal elem xs) (pt q g) z)); auto; intros; now apply (grd_gradU s elem xs 3 q).
  - match type of E' with ?l = _ => match goal with |- context [gauss ?a ?b ?c] => change (gauss a b c) with l end end. rewrite E'. cbn [bind]. exists K, ne. splits; auto. eapply has_form_eq; [|exact H]. intros y z. cbv beta. unfold quad. apply bigsum_ext; intros g _.
    rewrite FC. unfold wgt, pt. ring.
Qed.

(** ** Mass *)
Lemma plane_mass_form s q elem dou xs rho t : element_ok 2 s q elem xs -> length dou = 2%nat ->
  exists K ne, PlaneMass s q elem dou xs rho t = Ok (K, ne) /\ numbered 2 (length elem) dou ne /\
    has_form 2 (length elem) K (fun y z => quad 2 q (fun r => jac s (nodal elem xs) r * rho * t *
      bigsum 2 (fun c => field_value s r y c * field_value s r z c))).
Proof.
  intros He Hdou. unfold PlaneMass. rewrite (eqb2 _ _ Hdou). cbn [assert_ bind].
  destruct (nte_of_ok 2 (length elem) dou ltac:(lia)) as (ne & En & Hn). rewrite En. cbn [bind].
  destruct (node_mat_ok 2 elem xs ltac:(apply He)) as (X & EX & HX). rewrite EX. cbn [bind].
  set (x := nodal elem xs).
  destruct (hf_gauss0 2 (length elem) q (fun g =>
         p <- gpoint q g ;;
         let N := sf_vec s p in
         j <- jacobian s q g X ;; let '(J, _, _) := j in
         B <- plane_N (length elem) N ;;
         m <- atb B B ;;
         weigh 2 q g (mscal R_ops t (mscal R_ops rho (mscal R_ops J m))))
    (fun g y z => bigsum 2 (fun c => field_value s (pt q g) y c * field_value s (pt q g) z c) * jac s x (pt q g) * rho * t * wgt 2 q g)) as (K & E' & H).
  - intros g Hg. rewrite (gpoint_ok 2 q g ltac:(apply He) Hg). cbn [bind]. cbv zeta.
    destruct (jacobian_ok 2 s q elem xs He g X Hg HX) as (T & ET & _). rewrite ET. cbn [bind].
    assert (HN : is_vec (sf_vec s (nth g (q_points q) [])) (length elem) (shp s (pt q g))).
    { replace (length elem) with (sf_n s) by (symmetry; apply He). apply sf_vec_ok, He. }
    destruct (plane_N_ok _ _ _ HN) as (B & EB & HB). rewrite EB. cbn [bind].
    destruct (hf_atb _ _ _ _ _ _ _ HB HB) as (k & Ek & Hk). rewrite Ek. cbn [bind].
    pose proof (hf_scal _ _ _ _ t (hf_scal _ _ _ _ rho (hf_scal _ _ _ _ (jac s x (pt q g)) Hk))) as H2.
    destruct (hf_weigh 2 2 _ _ q g _ _ (le_n 2) ltac:(apply He) Hg H2) as (k' & Ek' & Hk'). unfold x in *. rewrite Ek'. exists k'. split; auto.
    eapply has_form_eq; [|exact Hk']. intros y z. cbv beta. unfold field_value. replace (sf_n s) with (length elem) by apply He. reflexivity.
  - match type of E' with ?l = _ => match goal with |- context [gauss ?a ?b ?c] => change (gauss a b c) with l end end. rewrite E'. cbn [bind]. exists K, ne. splits; auto. eapply has_form_eq; [|exact H]. intros y z. cbv beta. unfold quad. apply bigsum_ext; intros g _.
    unfold wgt. fold (pt q g). ring.
Qed.

(** ** Scalar problems *)
Lemma ha_grad n G Gf : is_mat G 2 n Gf -> has_action 1 n 2 G (fun l z => grd n Gf z l 0%nat).
Proof.
  intros H. exists Gf. rewrite Nat.mul_1_l. split; auto. intros i z _. unfold grd. apply bigsum_ext; intros k _.
  unfold dofv. now rewrite Nat.div_1_r, Nat.mod_1_r.
Qed.
Lemma hl_vec n v f : is_vec v n f -> has_lin 1 n v (fun y => bigsum n (fun i => f i * y i 0%nat)).
Proof.
  intros H. exists f. rewrite Nat.mul_1_l. split; auto. intros z. apply bigsum_ext; intros k _.
  unfold dofv. now rewrite Nat.div_1_r, Nat.mod_1_r.
Qed.
Lemma Rvtrans v n f : is_vec v n f -> exists m, vtrans R_ops v = Ok m /\ is_mat m 1 n (fun _ j => f j).
Proof.
  intros (L & H & _). unfold vtrans. subst n. rewrite Nat.mul_1_l.
  destruct (fill_vec R_ops (length v) (fun i => rd v i) f (repeat (o0 R_ops) (length v))) as (v' & E & H').
  - apply repeat_length.
  - intros i Hi. specialize (H i Hi). unfold vget in H. destruct (Nat.ltb_spec i (length v)); [|lia]. exact H.
  - rewrite E. cbn [bind]. eexists. split; [reflexivity|].
    destruct (is_vec_nth v' _ _ 0 H') as [L' N']. apply (is_mat_intro R_ops); auto.
    + unfold mat_wf. cbn. rewrite L'. lia.
    + intros i j Hi Hj. unfold ent. cbn. replace i with O by lia. cbn. now apply N'.
Qed.
Lemma Rnnt v w n p f g : is_vec v n f -> is_vec w p g -> exists m, nnt v w = Ok m /\ is_mat m n p (fun i j => f i * g j).
Proof.
  intros Hv Hw. unfold nnt. destruct (Rvtrans w p g Hw) as (wt & E & Ht). rewrite E. cbn [bind].
  unfold vouter. destruct (is_mat_ent R_ops _ _ _ _ Ht) as (W & R1 & C1 & En). rewrite R1, C1. cbn [Nat.eqb assert_ bind].
  destruct (is_vec_nth v n f 0 Hv) as [Lv Nv]. rewrite Lv.
  apply Rmbuild. intros i j Hi Hj. rewrite rd_nth with (d := 0) by lia. cbn [bind].
  rewrite (mval_nth wt (fun _ j => g j) 1 p) by (auto; lia). cbn [bind omul R_ops]. rewrite Nv by auto. now rewrite Nat.mod_small.
Qed.
Lemma hf_nnt n v w V W : has_lin 1 n v V -> has_lin 1 n w W -> exists K, nnt v w = Ok K /\ has_form 1 n K (fun y z => V y * W z).
Proof.
  intros (f & Hf & Ef) (h & Hh & Eh). destruct (Rnnt _ _ _ _ _ _ Hf Hh) as (K & E & HK). exists K. split; auto.
  eexists. split; [exact HK|]. intros y z. rewrite <- Ef, <- Eh. unfold form.
  rewrite bigsum_mult. apply bigsum_ext; intros a _. apply bigsum_ext; intros b _. unfold dofv. ring.
Qed.

(** frame of the scalar routines *)
Lemma scalar_form s q elem dou xs body F : element_ok 2 s q elem xs -> length dou = 1%nat ->
  (forall X g, is_mat X (length elem) 2 (nodal elem xs) -> (g < q_n q)%nat ->
     exists k, body (length elem) X g = Ok k /\ has_form 1 (length elem) k (F g)) ->
  exists K ne, scalar_loop elem dou xs q body = Ok (K, ne) /\ numbered 1 (length elem) dou ne /\
    has_form 1 (length elem) K (fun y z => bigsum (q_n q) (fun g => F g y z)).
Proof.
  intros He Hdou Hb. unfold scalar_loop. rewrite (eqb2 _ _ Hdou). cbn [assert_ bind].
  destruct (nte_of_ok 1 (length elem) dou ltac:(lia)) as (ne & En & Hn). rewrite En. cbn [bind].
  destruct (node_mat_ok 2 elem xs ltac:(apply He)) as (X & EX & HX). rewrite EX. cbn [bind].
  destruct (hf_gauss0 1 (length elem) q (body (length elem) X) F) as (K & E & H).
  - intros g Hg. now apply Hb.
  - rewrite Nat.mul_1_l in E. rewrite E. cbn [bind]. exists K, ne. splits; auto.
Qed.

Section Scalar.
Variables (s : shape) (q : rule) (elem dou : list nat) (xs : list (list R)).
Hypothesis He : element_ok 2 s q elem xs.
Hypothesis Hdou : length dou = 1%nat.
Let x := nodal elem xs.
Let n := length elem.
Notation G r y := (gradU s x r y).
Notation val r y := (field_value s r y 0%nat).

Lemma vec_N g : has_lin 1 n (sf_vec s (nth g (q_points q) [])) (fun y => val (pt q g) y).
Proof.
  assert (HN : is_vec (sf_vec s (nth g (q_points q) [])) n (shp s (pt q g))).
  { unfold n. replace (length elem) with (sf_n s) by (symmetry; apply He). apply sf_vec_ok, He. }
  eapply has_lin_eq; [|apply (hl_vec _ _ _ HN)]. intros y. unfold field_value, n. now replace (length elem) with (sf_n s) by (symmetry; apply He).
Qed.

Ltac wgt_ring := unfold quad; apply bigsum_ext; intros g _; unfold wgt; fold (pt q g); ring.

Lemma heat_form alpha t : exists K ne, HeatTransfer s q elem dou xs alpha t = Ok (K, ne) /\ numbered 1 n dou ne /\
  has_form 1 n K (fun y z => quad 2 q (fun r => jac s x r * alpha * t * bigsum 2 (fun l => G r y l 0%nat * G r z l 0%nat))).
Proof.
  unfold HeatTransfer.
  destruct (scalar_form s q elem dou xs (fun n X g =>
    jd <- gradient s q g X ;; let '(J, B) := jd in
    k <- atb B B ;;
    weigh 2 q g (mscal R_ops t (mscal R_ops alpha (mscal R_ops J k))))
   (fun g y z => bigsum 2 (fun l => G (pt q g) y l 0%nat * G (pt q g) z l 0%nat) * jac s x (pt q g) * alpha * t * wgt 2 q g) He Hdou) as (K & ne & E & Hn & H).
  - intros X g HX Hg. destruct (gradient_ok 2 s q elem xs He g X ltac:(lia) Hg HX) as (Gm & EG & HG). rewrite EG. cbn [bind].
    destruct (hf_atb _ _ _ _ _ _ _ (ha_grad _ _ _ HG) (ha_grad _ _ _ HG)) as (k & Ek & Hk). rewrite Ek. cbn [bind].
    pose proof (hf_scal _ _ _ _ t (hf_scal _ _ _ _ alpha (hf_scal _ _ _ _ (jac s x (pt q g)) Hk))) as H2.
    destruct (hf_weigh 2 2 _ _ q g _ _ (le_n 2) ltac:(apply He) Hg H2) as (k' & Ek' & Hk'). unfold x in *. rewrite Ek'. exists k'. split; auto.
    eapply has_form_eq; [|exact Hk']. intros y z. cbv beta. do 4 f_equal. apply bigsum_ext; intros l _.
    now rewrite !(grd_gradU s elem xs 2 q) by auto.
  - exists K, ne. splits; auto. eapply has_form_eq; [|exact H]. intros y z. cbv beta. wgt_ring.
Qed.

Lemma diffusion_form kap : exists K ne, Diffusion s q elem dou xs kap = Ok (K, ne) /\ numbered 1 n dou ne /\
  has_form 1 n K (fun y z => quad 2 q (fun r => jac s x r * kap * bigsum 2 (fun l => G r y l 0%nat * G r z l 0%nat))).
Proof.
  unfold Diffusion.
  destruct (scalar_form s q elem dou xs (fun n X g =>
    jd <- gradient s q g X ;; let '(J, dNdX) := jd in
    T <- mtrans R_ops dNdX ;; m <- mmul R_ops (mscal R_ops kap T) dNdX ;;
    weigh 2 q g (mscal R_ops J m))
   (fun g y z => bigsum 2 (fun l => G (pt q g) y l 0%nat * G (pt q g) z l 0%nat) * kap * jac s x (pt q g) * wgt 2 q g) He Hdou) as (K & ne & E & Hn & H).
  - intros X g HX Hg. destruct (gradient_ok 2 s q elem xs He g X ltac:(lia) Hg HX) as (Gm & EG & HG). rewrite EG. cbn [bind].
    destruct (Rmtrans _ _ _ _ HG) as (T & ET & HT). rewrite ET. cbn [bind].
    destruct (Rmmul _ _ _ _ _ _ _ (Rmscal kap _ _ _ _ HT) HG) as (k & Ek & Hk). rewrite Ek. cbn [bind].
    assert (HF : has_form 1 n k (fun y z => bigsum 2 (fun l => G (pt q g) y l 0%nat * G (pt q g) z l 0%nat) * kap)).
    { destruct (hf_atb _ _ _ _ _ _ _ (ha_grad _ _ _ HG) (ha_grad _ _ _ HG)) as (k0 & Ek0 & (k0f & Hk0 & F0)).
      unfold atb in Ek0. rewrite ET in Ek0. cbn [bind] in Ek0.
      destruct (Rmmul _ _ _ _ _ _ _ HT HG) as (k1 & Ek1 & Hk1). assert (k1 = k0) by congruence. subst k1.
      exists (fun a b => k0f a b * kap). rewrite Nat.mul_1_l in *. split.
      - eapply is_mat_ext; [|exact Hk]. intros i j Hi Hj. cbv beta.
        assert (E0 : bigsum 2 (fun k => gradN s (nodal elem xs) (pt q g) k i * gradN s (nodal elem xs) (pt q g) k j) = k0f i j).
        { pose proof (Rget _ _ _ _ i j Hk1 Hi Hj) as A1. pose proof (Rget _ _ _ _ i j Hk0 Hi Hj) as A2. congruence. }
        rewrite <- E0, <- bigsum_scal_r. apply bigsum_ext; intros; ring.
      - intros y z. rewrite form_scal, F0. f_equal. apply bigsum_ext; intros l _. now rewrite !(grd_gradU s elem xs 2 q) by auto. }
    pose proof (hf_scal _ _ _ _ (jac s x (pt q g)) HF) as H2.
    destruct (hf_weigh 2 2 _ _ q g _ _ (le_n 2) ltac:(apply He) Hg H2) as (k' & Ek' & Hk'). unfold x in *. rewrite Ek'. exists k'. split; auto.
  - exists K, ne. splits; auto. eapply has_form_eq; [|exact H]. intros y z. cbv beta. wgt_ring.
Qed.

Lemma capacity_form rho c t : exists K ne, HeatCapacity s q elem dou xs rho c t = Ok (K, ne) /\ numbered 1 n dou ne /\
  has_form 1 n K (fun y z => quad 2 q (fun r => jac s x r * rho * c * t * (val r y * val r z))).
Proof.
  unfold HeatCapacity.
  destruct (scalar_form s q elem dou xs (fun n X g =>
    p <- gpoint q g ;;
    let N := sf_vec s p in
    j <- jacobian s q g X ;; let '(J, _, _) := j in
    k <- nnt N N ;;
    weigh 2 q g (mscal R_ops t (mscal R_ops c (mscal R_ops rho (mscal R_ops J k)))))
   (fun g y z => val (pt q g) y * val (pt q g) z * jac s x (pt q g) * rho * c * t * wgt 2 q g) He Hdou) as (K & ne & E & Hn & H).
  - intros X g HX Hg. rewrite (gpoint_ok 2 q g ltac:(apply He) Hg). cbn [bind]. cbv zeta.
    destruct (jacobian_ok 2 s q elem xs He g X Hg HX) as (T & ET & _). rewrite ET. cbn [bind].
    destruct (hf_nnt _ _ _ _ _ (vec_N g) (vec_N g)) as (k & Ek & Hk). rewrite Ek. cbn [bind].
    pose proof (hf_scal _ _ _ _ t (hf_scal _ _ _ _ c (hf_scal _ _ _ _ rho (hf_scal _ _ _ _ (jac s x (pt q g)) Hk)))) as H2.
    destruct (hf_weigh 2 2 _ _ q g _ _ (le_n 2) ltac:(apply He) Hg H2) as (k' & Ek' & Hk'). unfold x in *. rewrite Ek'. exists k'. split; auto.
  - exists K, ne. splits; auto. eapply has_form_eq; [|exact H]. intros y z. cbv beta. wgt_ring.
Qed.
Lemma mass_form : exists K ne, Mass s q elem dou xs = Ok (K, ne) /\ numbered 1 n dou ne /\
  has_form 1 n K (fun y z => quad 2 q (fun r => jac s x r * (val r y * val r z))).
Proof.
  unfold Mass.
  destruct (scalar_form s q elem dou xs (fun n X g =>
    p <- gpoint q g ;;
    let N := sf_vec s p in
    j <- jacobian s q g X ;; let '(J, _, _) := j in
    k <- nnt N N ;;
    weigh 2 q g (mscal R_ops J k))
   (fun g y z => val (pt q g) y * val (pt q g) z * jac s x (pt q g) * wgt 2 q g) He Hdou) as (K & ne & E & Hn & H).
  - intros X g HX Hg. rewrite (gpoint_ok 2 q g ltac:(apply He) Hg). cbn [bind]. cbv zeta.
    destruct (jacobian_ok 2 s q elem xs He g X Hg HX) as (T & ET & _). rewrite ET. cbn [bind].
    destruct (hf_nnt _ _ _ _ _ (vec_N g) (vec_N g)) as (k & Ek & Hk). rewrite Ek. cbn [bind].
    pose proof (hf_scal _ _ _ _ (jac s x (pt q g)) Hk) as H2.
    destruct (hf_weigh 2 2 _ _ q g _ _ (le_n 2) ltac:(apply He) Hg H2) as (k' & Ek' & Hk'). unfold x in *. rewrite Ek'. exists k'. split; auto.
  - exists K, ne. splits; auto. eapply has_form_eq; [|exact H]. intros y z. cbv beta. wgt_ring.
Qed.
Lemma rd_mass_form : exists K ne, ReactionDiffusionConsistentMass s q elem dou xs = Ok (K, ne) /\ numbered 1 n dou ne /\
  has_form 1 n K (fun y z => quad 2 q (fun r => jac s x r * (val r y * val r z))).
Proof.
  unfold ReactionDiffusionConsistentMass.
  destruct (scalar_form s q elem dou xs (fun n X g =>
    p <- gpoint q g ;;
    let N := sf_vec s p in
    jd <- gradient s q g X ;; let '(J, _) := jd in
    k <- nnt N N ;;
    weigh 2 q g (mscal R_ops J k))
   (fun g y z => val (pt q g) y * val (pt q g) z * jac s x (pt q g) * wgt 2 q g) He Hdou) as (K & ne & E & Hn & H).
  - intros X g HX Hg. rewrite (gpoint_ok 2 q g ltac:(apply He) Hg). cbn [bind]. cbv zeta.
    destruct (gradient_ok 2 s q elem xs He g X ltac:(lia) Hg HX) as (Gm & EG & HG). rewrite EG. cbn [bind].
    destruct (hf_nnt _ _ _ _ _ (vec_N g) (vec_N g)) as (k & Ek & Hk). rewrite Ek. cbn [bind].
    pose proof (hf_scal _ _ _ _ (jac s x (pt q g)) Hk) as H2.
    destruct (hf_weigh 2 2 _ _ q g _ _ (le_n 2) ltac:(apply He) Hg H2) as (k' & Ek' & Hk'). unfold x in *. rewrite Ek'. exists k'. split; auto.
  - exists K, ne. splits; auto. eapply has_form_eq; [|exact H]. intros y z. cbv beta. wgt_ring.
Qed.

(** N * c^T * dNdX *)
Lemma advection_form cx cy : exists K ne, Advection s q elem dou xs cx cy = Ok (K, ne) /\ numbered 1 n dou ne /\
  has_form 1 n K (fun y z => quad 2 q (fun r => jac s x r * (val r y * (cx * G r z 0%nat 0%nat + cy * G r z 1%nat 0%nat)))).
Proof.
  unfold Advection.
  destruct (scalar_form s q elem dou xs (fun n X g =>
    p <- gpoint q g ;;
    let N := sf_vec s p in
    jd <- gradient s q g X ;; let '(J, dNdX) := jd in
    m <- nnt N [cx; cy] ;; m <- mmul R_ops m dNdX ;;
    weigh 2 q g (mscal R_ops J m))
   (fun g y z => val (pt q g) y * (cx * G (pt q g) z 0%nat 0%nat + cy * G (pt q g) z 1%nat 0%nat) * jac s x (pt q g) * wgt 2 q g) He Hdou) as (K & ne & E & Hn & H).
  - intros X g HX Hg. rewrite (gpoint_ok 2 q g ltac:(apply He) Hg). cbn [bind]. cbv zeta.
    destruct (gradient_ok 2 s q elem xs He g X ltac:(lia) Hg HX) as (Gm & EG & HG). rewrite EG. cbn [bind].
    destruct (vec_N g) as (Nf & HN & EN). unfold n in HN, EN. rewrite Nat.mul_1_l in HN.
    destruct (Rnnt _ _ _ _ _ _ HN (is_vec_of_list [cx; cy])) as (m & Em & Hm). rewrite Em. cbn [bind].
    destruct (Rmmul _ _ _ _ _ _ _ Hm HG) as (k & Ek & Hk). rewrite Ek. cbn [bind].
    assert (HF : has_form 1 n k (fun y z => val (pt q g) y * (cx * G (pt q g) z 0%nat 0%nat + cy * G (pt q g) z 1%nat 0%nat))).
    { eexists. rewrite Nat.mul_1_l. split; [exact Hk|]. intros y z. rewrite <- EN. unfold form.
      assert (EG' : forall l, G (pt q g) z l 0%nat = bigsum (1 * n) (fun b => gradN s x (pt q g) l b * dofv 1 z b)).
      { intros l. unfold x. rewrite <- (grd_gradU s elem xs 2 q) by auto. unfold grd. fold n. rewrite Nat.mul_1_l.
        apply bigsum_ext; intros b _. unfold dofv. now rewrite Nat.div_1_r, Nat.mod_1_r. }
      rewrite !EG', <- !bigsum_scal, <- bigsum_plus, bigsum_mult. unfold n.
      apply bigsum_ext; intros a _. apply bigsum_ext; intros b _. unfold x, dofv. cbn [bigsum length nth]. ring. }
    pose proof (hf_scal _ _ _ _ (jac s x (pt q g)) HF) as H2.
    destruct (hf_weigh 2 2 _ _ q g _ _ (le_n 2) ltac:(apply He) Hg H2) as (k' & Ek' & Hk'). unfold x in *. rewrite Ek'. exists k'. split; auto.
  - exists K, ne. splits; auto. eapply has_form_eq; [|exact H]. intros y z. cbv beta. wgt_ring.
Qed.

Lemma area_loop X : is_mat X n 2 x ->
  gausss q (fun g => j <- jacobian s q g X ;; weighs 2 q g (fst (fst j))) 0 = Ok (quad 2 q (jac s x)).
Proof.
  intros HX. rewrite (gausss_ok0 q _ (fun g => jac s x (pt q g) * wgt 2 q g)).
  - f_equal. wgt_ring.
  - intros g Hg. destruct (jacobian_ok 2 s q elem xs He g X Hg HX) as (T & ET & _). rewrite ET. cbn [bind fst].
    apply (weighs_ok 2 2); auto. apply He.
Qed.
Lemma lumped_form : exists K ne, ReactionDiffusionLumpedMass s q elem dou xs = Ok (K, ne) /\ numbered 1 n dou ne /\
  is_mat K n n (fun i j => if (i =? j)%nat then quad 2 q (jac s x) / INR n else 0).
Proof.
  unfold ReactionDiffusionLumpedMass. rewrite (eqb2 _ _ Hdou). cbn [assert_ bind].
  destruct (Rmid n) as (M & EM & HM). unfold n in *. rewrite EM. cbn [bind].
  destruct (nte_of_ok 1 (length elem) dou ltac:(lia)) as (ne & En & Hn). rewrite En. cbn [bind].
  destruct (node_mat_ok 2 elem xs ltac:(apply He)) as (X & EX & HX). rewrite EX. cbn [bind].
  rewrite (area_loop X HX). cbn [bind]. rewrite Rdiv_res_ok.
  - cbn [bind]. do 2 eexists. splits; [reflexivity|auto|]. eapply is_mat_ext; [|apply Rmscal; exact HM].
    intros i j _ _. cbv beta. destruct (i =? j)%nat; ring.
  - apply not_0_INR. destruct He as (Hs & _ & -> & _). pose proof (sf_n_pos s Hs). lia.
Qed.
End Scalar.
