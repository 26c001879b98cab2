(** Homogenization routines. *)
From Coq Require Import List Arith Lia Bool Reals Lra.
From Verif Require Import Res SumR DenseModel DenseR DenseSpec DenseProof DenseMain ShapeModel ShapeMain QuadModel QuadSpec
  ElemModel ElemSpec ElemProof ElemProof2 ElemProof3 HomSpec.
Import ListNotations.
Local Open Scope R_scope.

Lemma voigt_unit c i : (c < 3)%nat -> (i < 3)%nat -> voigt2 (unit_strain c) i = if (i =? c)%nat then 1 else 0.
Proof. intros Hc Hi. destruct c as [|[|[|c]]]; try lia; destruct i as [|[|[|i]]]; try lia; cbn; lra. Qed.
Lemma strain_unit c l k : strain (unit_strain c) l k = unit_strain c l k.
Proof.
  unfold strain, unit_strain. destruct c as [|[|c]].
  - destruct (Nat.eqb_spec l 0), (Nat.eqb_spec k 0); cbn; lra.
  - destruct (Nat.eqb_spec l 1), (Nat.eqb_spec k 1); cbn; lra.
  - destruct (Nat.eqb_spec l k), (Nat.eqb_spec k l); subst; try lra; congruence.
Qed.
Lemma quad3_unit Df v c : (c < 3)%nat -> quad_form3 Df (voigt2 (unit_strain c)) v = bigsum 3 (fun j => Df c j * v j).
Proof.
  intros Hc. unfold quad_form3. rewrite (bigsum_single 3 c).
  - rewrite voigt_unit, Nat.eqb_refl by auto. apply bigsum_ext; intros; ring.
  - auto.
  - intros i Hi Hne. apply bigsum_zero; intros; rewrite voigt_unit by auto. destruct (Nat.eqb_spec i c); [congruence|ring].
Qed.
Lemma quad3_unit_r Df v c : (c < 3)%nat -> quad_form3 Df v (voigt2 (unit_strain c)) = bigsum 3 (fun i => v i * Df i c).
Proof.
  intros Hc. unfold quad_form3. apply bigsum_ext; intros i Hi. rewrite (bigsum_single 3 c).
  - rewrite voigt_unit, Nat.eqb_refl by auto. ring.
  - auto.
  - intros j Hj Hne. rewrite voigt_unit by auto. destruct (Nat.eqb_spec j c); [congruence|ring].
Qed.

Section Hom.
Variables (s : shape) (q : rule) (elem : list nat) (xs : list (list R)).
Hypothesis He : element_ok 2 s q elem xs.
Let x := nodal elem xs.
Let n := length elem.
Let G r y := gradU s x r y.

(** B at a Gauss point *)
Lemma B_ok X g : (g < q_n q)%nat -> is_mat X n 2 x -> exists Gm B b, gradient s q g X = Ok (jac s x (pt q g), Gm) /\ plane_B n Gm = Ok B /\
  is_mat B 3 (2 * n) b /\ forall i z, (i < 3)%nat -> bigsum (2 * n) (fun a => b i a * dofv 2 z a) = voigt2 (G (pt q g) z) i.
Proof.
  intros Hg HX. destruct (gradient_ok 2 s q elem xs He g X ltac:(lia) Hg HX) as (Gm & EG & HG).
  destruct (plane_B_ok n Gm _ HG) as (B & EB & b & Hb & Eb). exists Gm, B, b. splits; auto.
  intros i z Hi. rewrite Eb by auto. apply voigt2_ext. intros. apply (grd_gradU s elem xs 2 q); auto.
Qed.

Lemma hom_body_form dou D Df E V t : length dou = 2%nat -> D_strain E V = Ok D -> is_mat D 3 3 Df ->
  exists F ne f, HomogenizePlaneStrainBodyForce s q elem dou xs E V t = Ok (F, ne) /\ numbered 2 n dou ne /\ is_mat F (2 * n) 3 f /\
    forall c y, (c < 3)%nat -> bigsum (2 * n) (fun a => f a c * dofv 2 y a) =
      quad 2 q (fun p => jac s x p * t * quad_form3 Df (voigt2 (G p y)) (voigt2 (unit_strain c))).
Proof.
  intros Hdou ED HD. unfold HomogenizePlaneStrainBodyForce. rewrite (eqb2 _ _ Hdou). cbn [assert_ bind]. fold n.
  destruct (nte_of_ok 2 n dou ltac:(lia)) as (ne & En & Hn). rewrite En. cbn [bind].
  destruct (node_mat_ok 2 elem xs ltac:(apply He)) as (X & EX & HX). rewrite EX. cbn [bind]. rewrite ED. cbn [bind].
  match goal with |- context [gauss q ?b _] => set (body := b) end.
  assert (HB : exists fb : nat -> nat -> nat -> R, forall g, (g < q_n q)%nat -> exists k, body g = Ok k /\ is_mat k (2 * n) 3 (fb g) /\
    forall c y, (c < 3)%nat -> bigsum (2 * n) (fun a => fb g a c * dofv 2 y a) =
      bigsum 3 (fun i => voigt2 (G (pt q g) y) i * Df i c) * jac s x (pt q g) * t * wgt 2 q g).
  { assert (HB : forall g, exists fb, (g < q_n q)%nat -> exists k, body g = Ok k /\ is_mat k (2 * n) 3 fb /\
    forall c y, (c < 3)%nat -> bigsum (2 * n) (fun a => fb a c * dofv 2 y a) =
      bigsum 3 (fun i => voigt2 (G (pt q g) y) i * Df i c) * jac s x (pt q g) * t * wgt 2 q g).
    - intros g. destruct (lt_dec g (q_n q)) as [Hg|Hg]; [|exists (fun _ _ => 0); tauto].
      destruct (B_ok X g Hg HX) as (Gm & B & b & EG & EB & Hb & Eb).
      destruct (Rmtrans _ _ _ _ Hb) as (Bt & E1 & H1). destruct (Rmmul _ _ _ _ _ _ _ H1 HD) as (k & E2 & H2).
      destruct (weigh_ok 2 2 q g _ _ _ _ (le_n 2) ltac:(apply He) Hg (Rmscal t _ _ _ _ (Rmscal (jac s x (pt q g)) _ _ _ _ H2))) as (k2 & E3 & H3).
      eexists. intros _. exists k2. splits.
      + unfold body. rewrite EG. cbn [bind]. rewrite EB. cbn [bind]. unfold atb. rewrite E1. cbn [bind]. rewrite E2. cbn [bind]. exact E3.
      + exact H3.
      + intros c y Hc. cbv beta.
        rewrite (bigsum_ext _ _ (fun a => bigsum 3 (fun i => b i a * dofv 2 y a * Df i c) * (jac s x (pt q g) * t * wgt 2 q g))).
        * rewrite bigsum_scal_r, bigsum_swap. rewrite !Rmult_assoc. f_equal. apply bigsum_ext; intros i Hi. now rewrite bigsum_scal_r, Eb.
        * intros a _. rewrite (bigsum_ext 3 (fun i => b i a * dofv 2 y a * Df i c) (fun i => b i a * Df i c * dofv 2 y a)) by (intros; ring).
          rewrite bigsum_scal_r. ring.
    - clear -HB. revert HB. generalize (q_n q). intros N HB.
      assert (C : forall N, exists fb : nat -> nat -> nat -> R, forall g, (g < N)%nat -> (g < q_n q)%nat -> True) by (intros; now exists (fun _ _ _ => 0)). clear C.
      assert (C : forall M, (M <= N)%nat -> exists fb : nat -> nat -> nat -> R, forall g, (g < M)%nat -> exists k, body g = Ok k /\ is_mat k (2 * n) 3 (fb g) /\
        forall c y, (c < 3)%nat -> bigsum (2 * n) (fun a => fb g a c * dofv 2 y a) =
          bigsum 3 (fun i => voigt2 (G (pt q g) y) i * Df i c) * jac s x (pt q g) * t * wgt 2 q g).
      { induction M as [|M IH]; [exists (fun _ _ _ => 0); intros; lia|]. intros HM. destruct (IH ltac:(lia)) as (fb & Hfb).
        destruct (HB M) as (f0 & Hf0). exists (fun g => if (g =? M)%nat then f0 else fb g). intros g Hg.
        destruct (Nat.eqb_spec g M) as [->|]; [apply Hf0; lia|apply Hfb; lia]. }
      exact (C N (le_n N)). }
  destruct HB as (fb & HB).
  destruct (gauss_ok0 q body (2 * n) 3 fb) as (F & EF & HF). { intros g Hg. destruct (HB g Hg) as (k & A & B & _). eauto. }
  rewrite EF. cbn [bind]. exists F, ne. eexists. splits; [reflexivity|auto|exact HF|].
  intros c y Hc. cbv beta. rewrite (bigsum_ext _ _ (fun a => bigsum (q_n q) (fun g => fb g a c * dofv 2 y a))) by (intros; now rewrite bigsum_scal_r).
  rewrite bigsum_swap. unfold quad. apply bigsum_ext; intros g Hg. destruct (HB g Hg) as (_ & _ & _ & A). rewrite A by auto.
  rewrite quad3_unit_r by auto. change (fun k => nth k (nth g (q_points q) []) 0) with (pt q g). unfold wgt. ring.
Qed.

Section Chi.
Variables chi0 chi1 chi2 : list (list R).
Hypothesis H0 : nodes_ok 2 elem chi0.
Hypothesis H1 : nodes_ok 2 elem chi1.
Hypothesis H2 : nodes_ok 2 elem chi2.
Let chi := chi_of elem chi0 chi1 chi2.
Lemma chi_ok : exists C, chi_mat elem [chi0; chi1; chi2] = Ok C /\ is_mat C (2 * n) 3 (fun a c => dofv 2 (chi c) a).
Proof.
  unfold chi_mat. fold n. apply Rmbuild. intros a c Ha Hc.
  assert (Hd : (a / 2 < n)%nat) by (apply divlt; lia).
  unfold n in Hd. rewrite (rd_nth elem _ O Hd). cbn [bind].
  assert (Hin : In (nth (a / 2) elem O) elem) by now apply nth_In.
  assert (A : forall ch, nodes_ok 2 elem ch -> (v <- rd ch (nth (a / 2) elem O) ;; vget v (a mod 2)) = Ok (dofv 2 (nodal elem ch) a)).
  { intros ch Hch. destruct (Hch _ Hin) as (B1 & B2). rewrite (rd_nth ch _ [] B1). cbn [bind].
    pose proof (lt2 a). rewrite (Rvget _ _ _ _ (is_vec_of_list _)) by lia. reflexivity. }
  destruct c as [|[|[|c]]]; try lia; cbn [rd nth_error bind]; now apply A.
Qed.

Lemma BC_ok X g C : (g < q_n q)%nat -> is_mat X n 2 x -> is_mat C (2 * n) 3 (fun a c => dofv 2 (chi c) a) ->
  exists Gm B, gradient s q g X = Ok (jac s x (pt q g), Gm) /\ plane_B n Gm = Ok B /\
  (exists BC, mmul R_ops B C = Ok BC /\ is_mat BC 3 3 (fun i c => voigt2 (G (pt q g) (chi c)) i)) /\
  (exists BC, mmul R_ops (mneg R_ops B) C = Ok BC /\ is_mat BC 3 3 (fun i c => - voigt2 (G (pt q g) (chi c)) i)).
Proof.
  intros Hg HX HC. destruct (B_ok X g Hg HX) as (Gm & B & b & EG & EB & Hb & Eb). exists Gm, B. splits; auto.
  - destruct (Rmmul _ _ _ _ _ _ _ Hb HC) as (BC & E & H). exists BC. split; auto. eapply is_mat_ext; [|exact H]. intros i c Hi Hc. cbv beta. now apply Eb.
  - destruct (Rmmul _ _ _ _ _ _ _ (Rmneg _ _ _ _ Hb) HC) as (BC & E & H). exists BC. split; auto. eapply is_mat_ext; [|exact H]. intros i c Hi Hc. cbv beta.
    rewrite <- Eb by auto. rewrite <- bigsum_opp. apply bigsum_ext; intros; ring.
Qed.

Lemma hom_constitutive_form D Df E V t : D_strain E V = Ok D -> is_mat D 3 3 Df ->
  exists C, HomogenizePlaneStrainConstitutive s q xs elem chi0 chi1 chi2 E V t = Ok C /\
    is_mat C 3 3 (fun r c => quad 2 q (fun p => jac s x p * t *
      quad_form3 Df (voigt2 (unit_strain r)) (fun i => voigt2 (unit_strain c) i - voigt2 (G p (chi c)) i))).
Proof.
  intros ED HD. unfold HomogenizePlaneStrainConstitutive.
  destruct (node_mat_ok 2 elem xs ltac:(apply He)) as (X & EX & HX). rewrite EX. cbn [bind].
  destruct chi_ok as (CH & ECH & HCH). rewrite ECH. cbn [bind]. rewrite ED. cbn [bind].
  destruct (Rmid 3) as (I3 & EI & HI). rewrite EI. cbn [bind]. fold n.
  match goal with |- context [gauss q ?b _] => set (body := b) end.
  destruct (gauss_ok0 q body 3 3 (fun g r c => wprod 2 (nth g (q_weights q) []) * (jac s x (pt q g) * t *
      quad_form3 Df (voigt2 (unit_strain r)) (fun i => voigt2 (unit_strain c) i - voigt2 (G (pt q g) (chi c)) i)))) as (K & EK & HK).
  - intros g Hg. destruct (BC_ok X g CH Hg HX HCH) as (Gm & B & EG & EB & (BC & EBC & HBC) & _).
    unfold body. rewrite EG. cbn [bind]. rewrite EB. cbn [bind]. rewrite EBC. cbn [bind].
    destruct (Rmsub _ _ _ _ _ _ HI HBC) as (A & EA & HA). rewrite EA. cbn [bind].
    destruct (Rmmul _ _ _ _ _ _ _ HD HA) as (k & Ek & Hk). rewrite Ek. cbn [bind].
    destruct (weigh_ok 2 2 q g _ _ _ _ (le_n 2) ltac:(apply He) Hg (Rmscal t _ _ _ _ (Rmscal (jac s x (pt q g)) _ _ _ _ Hk))) as (k2 & E3 & H3).
    exists k2. split; auto. eapply is_mat_ext; [|exact H3]. intros r c Hr Hc. cbv beta.
    rewrite quad3_unit by auto.
    rewrite (bigsum_ext 3 _ (fun j => Df r j * (voigt2 (unit_strain c) j - voigt2 (G (pt q g) (chi c)) j))).
    + unfold wgt. ring.
    + intros j Hj. now rewrite voigt_unit.
  - exists K. split; auto.
Qed.
Lemma hom_check_form t :
  exists C, HomogenizePlaneStrainCheck s q xs elem chi0 chi1 chi2 t = Ok C /\
    is_mat C 3 3 (fun r c => quad 2 q (fun p => jac s x p * t * - voigt2 (G p (chi c)) r)).
Proof.
  unfold HomogenizePlaneStrainCheck.
  destruct (node_mat_ok 2 elem xs ltac:(apply He)) as (X & EX & HX). rewrite EX. cbn [bind].
  destruct chi_ok as (CH & ECH & HCH). rewrite ECH. cbn [bind]. fold n.
  match goal with |- context [gauss q ?b _] => set (body := b) end.
  destruct (gauss_ok0 q body 3 3 (fun g r c => wprod 2 (nth g (q_weights q) []) * (jac s x (pt q g) * t * - voigt2 (G (pt q g) (chi c)) r))) as (K & EK & HK).
  - intros g Hg. destruct (BC_ok X g CH Hg HX HCH) as (Gm & B & EG & EB & _ & (BC & EBC & HBC)).
    unfold body. rewrite EG. cbn [bind]. rewrite EB. cbn [bind]. rewrite EBC. cbn [bind].
    destruct (weigh_ok 2 2 q g _ _ _ _ (le_n 2) ltac:(apply He) Hg (Rmscal t _ _ _ _ (Rmscal (jac s x (pt q g)) _ _ _ _ HBC))) as (k2 & E3 & H3).
    exists k2. split; auto. eapply is_mat_ext; [|exact H3]. intros r c Hr Hc. cbv beta. unfold wgt. ring.
  - exists K. split; auto.
Qed.
End Chi.
End Hom.
