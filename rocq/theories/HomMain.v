(** Property C84: homogenization of a unit cell: the proofs. *)
From Coq Require Import List Arith Lia Bool Reals Lra.
From Verif Require Import Res SumR DenseModel DenseR DenseSpec ShapeModel QuadModel QuadSpec ElemModel ElemSpec HomSpec PropElem.
Import ListNotations.
Local Open Scope R_scope.
From Verif Require Import DenseProof DenseMain ShapeMain ElemProof ElemProof2 ElemProof3 ElemProof4 ElemMain HomProof KrylovProof.

Lemma voigt2_minus A B i : voigt2 A i - voigt2 B i = voigt2 (fun l k => A l k - B l k) i.
Proof. destruct i as [|[|i]]; cbn [voigt2]; ring. Qed.
Lemma strain_minus A B l k : strain (fun l k => A l k - B l k) l k = strain A l k - strain B l k.
Proof. unfold strain. field. Qed.
Lemma quad3_minus Df u A B : quad_form3 Df u (fun i => voigt2 A i - voigt2 B i) = quad_form3 Df u (voigt2 (fun l k => A l k - B l k)).
Proof. unfold quad_form3. apply bigsum_ext; intros i _. apply bigsum_ext; intros j _. now rewrite voigt2_minus. Qed.
Lemma hooke_minus_r d l m f e e' : hooke d l m f (fun i j => e i j - e' i j) = hooke d l m f e - hooke d l m f e'.
Proof.
  rewrite (hooke_ext d l m f f _ (fun i j => e i j + (-1) * e' i j)) by (intros; ring). rewrite hooke_lin_r. ring.
Qed.
Lemma hooke_minus_l d l m f e e' : hooke d l m (fun i j => e i j - e' i j) f = hooke d l m e f - hooke d l m e' f.
Proof. rewrite hooke_sym_, hooke_minus_r, !(hooke_sym_ d l m f). reflexivity. Qed.

Lemma homogeneous_grad s q elem xs c z g : element_ok 2 s q elem xs -> homogeneous (length elem) (nodal elem xs) c z -> (g < q_n q)%nat ->
  forall l k, (l < 2)%nat -> (k < 2)%nat -> strain (gradU s (nodal elem xs) (pt q g) z) l k = unit_strain c l k.
Proof.
  intros He (a & A & HA & HS) Hg l k Hl Hk. rewrite <- HS by auto. pose proof He as (Hs & Hd & Hlen & _).
  assert (GA : gradients s q (nodal elem xs) 2 z (fun _ => A)).
  { intros g' Hg'. apply (affine_gradient s (nodal elem xs) (pt q g') Hs 2 z a A). rewrite Hd. intros. apply HA; auto. now rewrite Hlen. }
  apply (strain_ext 2); auto. intros i j Hi Hj. now apply (gradients_eq s q elem xs 2 2 z (fun _ => A) He (le_n 2) GA g).
Qed.
Lemma is_mat_fun (M : mat R) r c f g : is_mat M r c f -> is_mat M r c g -> forall i j, (i < r)%nat -> (j < c)%nat -> f i j = g i j.
Proof. intros H H' i j Hi Hj. pose proof (Rget _ _ _ _ i j H Hi Hj) as A. rewrite (Rget _ _ _ _ i j H' Hi Hj) in A. congruence. Qed.
Lemma lame_pos E V : 0 <= E -> -1 < V < 1 / 2 -> 0 <= lame_mu E V /\ 0 <= lame_lambda E V + lame_mu E V.
Proof.
  intros HE HV. split.
  - unfold lame_mu. apply Rmult_le_pos; auto. apply Rlt_le, Rinv_0_lt_compat. lra.
  - replace (lame_lambda E V + lame_mu E V) with (E * / (2 * (1 + V) * (1 - 2 * V))) by (unfold lame_lambda, lame_mu; field; lra).
    apply Rmult_le_pos; auto. apply Rlt_le, Rinv_0_lt_compat. nra.
Qed.
Lemma numbered_eq m n dou a b : numbered m n dou a -> numbered m n dou b -> a = b.
Proof.
  intros [La Ha] [Lb Hb]. apply (nth_ext _ _ [] []); [congruence|]. intros i Hi. rewrite La in Hi.
  destruct (Ha i Hi) as [A1 A2]. destruct (Hb i Hi) as [B1 B2]. apply (nth_ext _ _ (O, O) (O, O)); [congruence|].
  intros j Hj. rewrite A1 in Hj. now rewrite A2, B2.
Qed.
Lemma quad_minus d q f f' : quad d q (fun p => f p - f' p) = quad d q f - quad d q f'.
Proof.
  replace (quad d q f - quad d q f') with (quad d q f + quad d q f' * (-1)) by ring. rewrite <- quad_scal, <- quad_plus.
  apply quad_ext. intros; ring.
Qed.
Lemma strain_stiffness_form s q elem dou xs D Df E V t : element_ok 2 s q elem xs -> length dou = 2%nat -> D_strain E V = Ok D -> is_mat D 3 3 Df ->
  exists K ne, PlaneStrainStiffness s q elem dou xs E V t = Ok (K, ne) /\ numbered 2 (length elem) dou ne /\
    has_form 2 (length elem) K (fun y z => quad 2 q (fun r => jac s (nodal elem xs) r * t *
      quad_form3 Df (voigt2 (gradU s (nodal elem xs) r y)) (voigt2 (gradU s (nodal elem xs) r z)))).
Proof. intros. unfold PlaneStrainStiffness. rewrite H1. cbn [bind]. now apply plane_stiffness_form. Qed.

Lemma C84_body_force_pf : forall s q elem dou xs E V t, element_ok 2 s q elem xs -> length dou = 2%nat -> (1 - 2 * V) * (1 + V) <> 0 ->
  exists F ne f, HomogenizePlaneStrainBodyForce s q elem dou xs E V t = Ok (F, ne) /\
    is_mat F (2 * length elem) 3 f /\ numbered 2 (length elem) dou ne /\
    (forall c y Hy, (c < 3)%nat -> gradients s q (nodal elem xs) 2 y Hy ->
       bigsum (2 * length elem) (fun a => f a c * y (a / 2)%nat (a mod 2)%nat) =
       quad 2 q (fun p => jac s (nodal elem xs) p * (t * hooke 2 (lame_lambda E V) (lame_mu E V) (unit_strain c) (strain (Hy p))))) /\
    (forall K ne' k c z, PlaneStrainStiffness s q elem dou xs E V t = Ok (K, ne') -> is_mat K (2 * length elem) (2 * length elem) k ->
       (c < 3)%nat -> homogeneous (length elem) (nodal elem xs) c z ->
       ne' = ne /\ forall a, (a < 2 * length elem)%nat -> f a c = apply_field 2 (length elem) k z a).
Proof.
  intros s q elem dou xs E V t He Hdou HV. destruct (D_strain_ok E V HV) as (D & Df & ED & HD & FD).
  destruct (hom_body_form s q elem xs He dou D Df E V t Hdou ED HD) as (F & ne & f & EF & Hn & Hf & HW).
  destruct (strain_stiffness_form s q elem dou xs D Df E V t He Hdou ED HD) as (K0 & ne0 & EK & Hn0 & k0 & Hk0 & HK).
  exists F, ne, f. splits; auto.
  - intros c y Hy Hc Gy. refine (eq_trans (HW c y Hc) _). apply quad_ext. intros g Hg. rewrite (proj1 (FD _ _)), Rmult_assoc, hooke_sym_. do 2 f_equal.
    apply hooke_ext; intros i j Hi Hj; [apply strain_unit|]. apply (strain_ext 2); auto. intros l k Hl Hk. now apply (gradients_eq s q elem xs 2 2).
  - intros K ne' k c z EK' Hk Hc Hz. rewrite EK in EK'. injection EK' as <- <-. split.
    + exact (numbered_eq _ _ _ _ _ Hn0 Hn).
    + intros a0 Ha.
      assert (A : bigsum (2 * length elem) (fun a => f a c * dofv 2 (unitv 2 a0) a) = form 2 (length elem) k0 (unitv 2 a0) z).
      { rewrite HW, HK by auto. apply quad_ext. intros g Hg. rewrite !(proj1 (FD _ _)). f_equal. apply hooke_ext; auto.
        intros i j Hi Hj. rewrite strain_unit. symmetry. now apply (homogeneous_grad s q elem). }
      rewrite form_unit in A by auto. rewrite (bigsum_ext _ _ (fun b => (if (a0 =? b)%nat then 1 else 0) * f b c)) in A.
      { rewrite (bigsum_ite (2 * length elem) a0 (fun b => f b c)) in A by auto. rewrite A. unfold apply_field. apply bigsum_ext; intros b Hb. f_equal.
        exact (is_mat_fun _ _ _ _ _ Hk0 Hk a0 b Ha Hb). }
      intros b Hb. unfold dofv, unitv. rewrite <- Nat.div_mod by lia. rewrite (Nat.eqb_sym b a0). ring.
Qed.

Lemma C84_constitutive_pf : forall s q elem xs E V t chi0 chi1 chi2, element_ok 2 s q elem xs ->
  nodes_ok 2 elem chi0 -> nodes_ok 2 elem chi1 -> nodes_ok 2 elem chi2 -> (1 - 2 * V) * (1 + V) <> 0 ->
  exists C ch, HomogenizePlaneStrainConstitutive s q xs elem chi0 chi1 chi2 E V t = Ok C /\ is_mat C 3 3 ch /\
    forall r c H, (r < 3)%nat -> (c < 3)%nat -> gradients s q (nodal elem xs) 2 (chi_of elem chi0 chi1 chi2 c) H ->
      ch r c = quad 2 q (fun p => jac s (nodal elem xs) p * (t * hooke 2 (lame_lambda E V) (lame_mu E V)
        (unit_strain r) (fun l k => unit_strain c l k - strain (H p) l k))).
Proof.
  intros s q elem xs E V t chi0 chi1 chi2 He H0 H1 H2 HV. destruct (D_strain_ok E V HV) as (D & Df & ED & HD & FD).
  destruct (hom_constitutive_form s q elem xs He chi0 chi1 chi2 H0 H1 H2 D Df E V t ED HD) as (C & EC & HC).
  do 2 eexists. splits; [exact EC|exact HC|]. intros r c H Hr Hc HG. cbv beta. apply quad_ext. intros g Hg.
  rewrite quad3_minus, (proj1 (FD _ _)), Rmult_assoc. do 2 f_equal. apply hooke_ext; intros i j Hi Hj; [apply strain_unit|].
  rewrite strain_minus, strain_unit. f_equal. apply (strain_ext 2); auto. intros l k Hl Hk. now apply (gradients_eq s q elem xs 2 2 _ H He (le_n 2) HG).
Qed.

Lemma C84_check_pf : forall s q elem xs t chi0 chi1 chi2, element_ok 2 s q elem xs ->
  nodes_ok 2 elem chi0 -> nodes_ok 2 elem chi1 -> nodes_ok 2 elem chi2 ->
  exists C ch, HomogenizePlaneStrainCheck s q xs elem chi0 chi1 chi2 t = Ok C /\ is_mat C 3 3 ch /\
    forall r c H, (r < 3)%nat -> (c < 3)%nat -> gradients s q (nodal elem xs) 2 (chi_of elem chi0 chi1 chi2 c) H ->
      ch r c = - quad 2 q (fun p => jac s (nodal elem xs) p * (t * eng (H p) r)).
Proof.
  intros s q elem xs t chi0 chi1 chi2 He H0 H1 H2.
  destruct (hom_check_form s q elem xs He chi0 chi1 chi2 H0 H1 H2 t) as (C & EC & HC).
  do 2 eexists. splits; [exact EC|exact HC|]. intros r c H Hr Hc HG. cbv beta.
  replace (- quad 2 q (fun p => jac s (nodal elem xs) p * (t * eng (H p) r))) with (quad 2 q (fun p => jac s (nodal elem xs) p * (t * eng (H p) r)) * (-1)) by ring.
  rewrite <- quad_scal. apply quad_ext. intros g Hg. rewrite eng_voigt.
  replace (voigt2 (H (pt q g)) r) with (voigt2 (gradU s (nodal elem xs) (pt q g) (chi_of elem chi0 chi1 chi2 c)) r); [ring|].
  apply voigt2_ext. intros l k Hl Hk. now apply (gradients_eq s q elem xs 2 2 _ H He (le_n 2) HG).
Qed.

Lemma C84_uniform_pf : forall s q elem xs E V t chi0 chi1 chi2, element_ok 2 s q elem xs ->
  nodes_ok 2 elem chi0 -> nodes_ok 2 elem chi1 -> nodes_ok 2 elem chi2 -> (1 - 2 * V) * (1 + V) <> 0 ->
  exists C ch B bh, HomogenizePlaneStrainConstitutive s q xs elem chi0 chi1 chi2 E V t = Ok C /\ is_mat C 3 3 ch /\
    HomogenizePlaneStrainCheck s q xs elem chi0 chi1 chi2 t = Ok B /\ is_mat B 3 3 bh /\
    forall r c, (r < 3)%nat -> (c < 3)%nat ->
      (rigid_motion 2 (length elem) (nodal elem xs) (chi_of elem chi0 chi1 chi2 c) ->
         ch r c = t * quad 2 q (fun p => jac s (nodal elem xs) p) * hooke 2 (lame_lambda E V) (lame_mu E V) (unit_strain r) (unit_strain c) /\ bh r c = 0) /\
      (homogeneous (length elem) (nodal elem xs) c (chi_of elem chi0 chi1 chi2 c) ->
         ch r c = 0 /\ bh r c = if (r =? c)%nat then - (t * quad 2 q (fun p => jac s (nodal elem xs) p)) else 0).
Proof.
  intros s q elem xs E V t chi0 chi1 chi2 He H0 H1 H2 HV.
  destruct (C84_constitutive_pf s q elem xs E V t chi0 chi1 chi2 He H0 H1 H2 HV) as (C & ch & EC & HC & FC).
  destruct (C84_check_pf s q elem xs t chi0 chi1 chi2 He H0 H1 H2) as (B & bh & EB & HB & FB).
  exists C, ch, B, bh. splits; auto. intros r c Hr Hc. pose proof He as (Hs & Hd & Hlen & _). set (z := chi_of elem chi0 chi1 chi2 c).
  assert (AG : forall a A, (forall i k, (i < length elem)%nat -> (k < 2)%nat -> z i k = a k + bigsum 2 (fun l => nodal elem xs i l * A l k)) -> gradients s q (nodal elem xs) 2 z (fun _ => A)).
  { intros a A HA g Hg. apply (affine_gradient s (nodal elem xs) (pt q g) Hs 2 z a A). rewrite Hd. intros. apply HA; auto. now rewrite Hlen. }
  split.
  - intros (a & W & HW & HA). pose proof (AG a W HA) as G. rewrite (FC r c _ Hr Hc G), (FB r c _ Hr Hc G).
    assert (HS : forall l k, strain W l k = 0) by (intros l k; unfold strain; rewrite (HW l k); field). split.
    + match goal with |- _ = t * ?Q * ?h => replace (t * Q * h) with (Q * (t * h)) by ring end. rewrite <- quad_scal. apply quad_ext. intros g Hg. rewrite (hooke_ext 2 _ _ (unit_strain r) (unit_strain r) _ (unit_strain c)); auto.
      intros i j _ _. rewrite HS. ring.
    + rewrite (quad_ext 2 q _ (fun p => jac s (nodal elem xs) p * 0)); [rewrite quad_scal; ring|]. intros g _. unfold eng. destruct r as [|[|r]]; rewrite HS; ring.
  - intros (a & A & HA & HS). pose proof (AG a A HA) as G. rewrite (FC r c _ Hr Hc G), (FB r c _ Hr Hc G). split.
    + rewrite (quad_ext 2 q _ (fun p => jac s (nodal elem xs) p * 0)); [rewrite quad_scal; ring|]. intros g _.
      rewrite (hooke_ext 2 _ _ (unit_strain r) (unit_strain r) _ (fun _ _ => 0)); auto.
      * unfold hooke, trace, ddot. cbn [bigsum]. ring.
      * intros i j Hi Hj. rewrite HS by auto. ring.
    + rewrite (quad_ext 2 q _ (fun p => jac s (nodal elem xs) p * (t * if (r =? c)%nat then 1 else 0))).
      * rewrite (quad_scal 2 q (fun p => jac s (nodal elem xs) p)). destruct (r =? c)%nat; ring.
      * intros g _. do 2 f_equal. rewrite <- (voigt_unit c r) by auto. unfold eng. destruct r as [|[|[|r]]]; try lia; rewrite HS by lia; cbn [voigt2]; auto.
        destruct c as [|[|c]]; cbn; lra.
Qed.

Lemma C84_energy_pf : forall s q elem dou xs E V t chi0 chi1 chi2, element_ok 2 s q elem xs -> length dou = 2%nat ->
  nodes_ok 2 elem chi0 -> nodes_ok 2 elem chi1 -> nodes_ok 2 elem chi2 -> (1 - 2 * V) * (1 + V) <> 0 ->
  forall C ch F ne f K ne' k,
    HomogenizePlaneStrainConstitutive s q xs elem chi0 chi1 chi2 E V t = Ok C -> is_mat C 3 3 ch ->
    HomogenizePlaneStrainBodyForce s q elem dou xs E V t = Ok (F, ne) -> is_mat F (2 * length elem) 3 f ->
    PlaneStrainStiffness s q elem dou xs E V t = Ok (K, ne') -> is_mat K (2 * length elem) (2 * length elem) k ->
    forall r c Hr Hc, (r < 3)%nat -> (c < 3)%nat ->
      gradients s q (nodal elem xs) 2 (chi_of elem chi0 chi1 chi2 r) Hr -> gradients s q (nodal elem xs) 2 (chi_of elem chi0 chi1 chi2 c) Hc ->
      ch r c = quad 2 q (fun p => jac s (nodal elem xs) p * (t * hooke 2 (lame_lambda E V) (lame_mu E V)
          (fun l j => unit_strain r l j - strain (Hr p) l j) (fun l j => unit_strain c l j - strain (Hc p) l j)))
        + residual_work (length elem) f k (chi_of elem chi0 chi1 chi2) r c.
Proof.
  intros s q elem dou xs E V t chi0 chi1 chi2 He Hdou H0 H1 H2 HV C ch F ne f K ne' k EC HC EF HF EK HK r c Hr Hc Lr Lc Gr Gc.
  destruct (C84_constitutive_pf s q elem xs E V t chi0 chi1 chi2 He H0 H1 H2 HV) as (C' & ch' & EC' & HC' & FC).
  rewrite EC in EC'. injection EC' as <-. rewrite (is_mat_fun _ _ _ _ _ HC HC' r c Lr Lc), (FC r c Hc Lr Lc Gc).
  destruct (C84_body_force_pf s q elem dou xs E V t He Hdou HV) as (F' & n1 & f' & EF' & HF' & _ & FF & _).
  rewrite EF in EF'. injection EF' as <- <-.
  destruct (proj1 (C59_plane s q elem dou xs E V t He Hdou) HV) as (K' & n2 & k' & EK' & HK' & _ & FK).
  rewrite EK in EK'. injection EK' as <- <-.
  set (chi := chi_of elem chi0 chi1 chi2) in *. set (x := nodal elem xs) in *.
  assert (A : residual_work (length elem) f k chi r c =
    quad 2 q (fun p => jac s x p * (t * hooke 2 (lame_lambda E V) (lame_mu E V) (unit_strain c) (strain (Hr p)))) -
    quad 2 q (fun p => jac s x p * (t * hooke 2 (lame_lambda E V) (lame_mu E V) (strain (Hr p)) (strain (Hc p))))).
  { rewrite <- (FF c (chi r) Hr Lc Gr), <- (FK (chi r) (chi c) Hr Hc Gr Gc), form_apply. unfold residual_work.
    rewrite (bigsum_ext _ _ (fun a => f' a c * chi r (a / 2)%nat (a mod 2)%nat + (-1) * (chi r (a / 2)%nat (a mod 2)%nat * apply_field 2 (length elem) k' (chi c) a))).
    - rewrite bigsum_plus, bigsum_scal. ring.
    - intros a Ha. rewrite (is_mat_fun _ _ _ _ _ HF HF' a c Ha Lc).
      replace (apply_field 2 (length elem) k (chi c) a) with (apply_field 2 (length elem) k' (chi c) a); [ring|].
      unfold apply_field. apply bigsum_ext; intros b Hb. f_equal. symmetry. exact (is_mat_fun _ _ _ _ _ HK HK' a b Ha Hb). }
  rewrite A, <- quad_minus, <- quad_plus. apply quad_ext. intros g Hg. rewrite !hooke_minus_r, !hooke_minus_l.
  rewrite (hooke_sym_ 2 _ _ (unit_strain c) (strain (Hr (pt q g)))). ring.
Qed.

Lemma C84_effective_pf : forall (m : nat) (el : nat -> cell_element) dou xs chi0 chi1 chi2 (C F K : nat -> mat R) (ch f k : nat -> nat -> nat -> R) ne ne',
  (forall e, (e < m)%nat -> let ce := el e in
     element_ok 2 (ce_s ce) (ce_q ce) (ce_elem ce) xs /\ positive_rule 2 (ce_s ce) (ce_q ce) (nodal (ce_elem ce) xs) /\
     nodes_ok 2 (ce_elem ce) chi0 /\ nodes_ok 2 (ce_elem ce) chi1 /\ nodes_ok 2 (ce_elem ce) chi2 /\
     0 <= ce_E ce /\ -1 < ce_V ce < 1 / 2 /\ 0 <= ce_t ce /\
     HomogenizePlaneStrainConstitutive (ce_s ce) (ce_q ce) xs (ce_elem ce) chi0 chi1 chi2 (ce_E ce) (ce_V ce) (ce_t ce) = Ok (C e) /\ is_mat (C e) 3 3 (ch e) /\
     HomogenizePlaneStrainBodyForce (ce_s ce) (ce_q ce) (ce_elem ce) dou xs (ce_E ce) (ce_V ce) (ce_t ce) = Ok (F e, ne e) /\ is_mat (F e) (2 * length (ce_elem ce)) 3 (f e) /\
     PlaneStrainStiffness (ce_s ce) (ce_q ce) (ce_elem ce) dou xs (ce_E ce) (ce_V ce) (ce_t ce) = Ok (K e, ne' e) /\
     is_mat (K e) (2 * length (ce_elem ce)) (2 * length (ce_elem ce)) (k e)) ->
  length dou = 2%nat ->
  (forall r c, (r < 3)%nat -> (c < 3)%nat ->
     bigsum m (fun e => residual_work (length (ce_elem (el e))) (f e) (k e) (chi_of (ce_elem (el e)) chi0 chi1 chi2) r c) = 0) ->
  (forall r c, (r < 3)%nat -> (c < 3)%nat -> bigsum m (fun e => ch e r c) = bigsum m (fun e => ch e c r)) /\
  (forall v : nat -> R, 0 <= bigsum 3 (fun r => bigsum 3 (fun c => v r * bigsum m (fun e => ch e r c) * v c))).
Proof.
  intros m el dou xs chi0 chi1 chi2 C F K ch f k ne ne' Hel Hdou Hres.
  set (chi e := chi_of (ce_elem (el e)) chi0 chi1 chi2).
  set (G e p c := gradU (ce_s (el e)) (nodal (ce_elem (el e)) xs) p (chi e c)).
  set (En e r c := quad 2 (ce_q (el e)) (fun p => jac (ce_s (el e)) (nodal (ce_elem (el e)) xs) p * (ce_t (el e) * hooke 2 (lame_lambda (ce_E (el e)) (ce_V (el e))) (lame_mu (ce_E (el e)) (ce_V (el e)))
          (fun l j => unit_strain r l j - strain (G e p r) l j) (fun l j => unit_strain c l j - strain (G e p c) l j)))).
  assert (HE : forall e r c, (e < m)%nat -> (r < 3)%nat -> (c < 3)%nat -> ch e r c = En e r c + residual_work (length (ce_elem (el e))) (f e) (k e) (chi e) r c).
  { intros e r c He Lr Lc. destruct (Hel e He) as (A1 & A2 & A3 & A4 & A5 & A6 & A7 & A8 & A9 & A10 & A11 & A12 & A13 & A14).
    assert (HV : (1 - 2 * ce_V (el e)) * (1 + ce_V (el e)) <> 0) by (apply Rmult_integral_contrapositive_currified; lra).
    apply (C84_energy_pf _ _ _ dou xs _ _ _ chi0 chi1 chi2 A1 Hdou A3 A4 A5 HV _ _ _ _ _ _ _ _ A9 A10 A11 A12 A13 A14 r c (fun p => G e p r) (fun p => G e p c) Lr Lc).
    - now apply (gradients_gradU _ _ _ _ 2).
    - now apply (gradients_gradU _ _ _ _ 2). }
  assert (HS : forall r c, (r < 3)%nat -> (c < 3)%nat -> bigsum m (fun e => ch e r c) = bigsum m (fun e => En e r c)).
  { intros r c Lr Lc. rewrite (bigsum_ext _ _ (fun e => En e r c + residual_work (length (ce_elem (el e))) (f e) (k e) (chi e) r c)) by (intros; now apply HE).
    rewrite bigsum_plus. pose proof (Hres r c Lr Lc) as A. unfold chi. rewrite A. ring. }
  split.
  - intros r c Lr Lc. rewrite !HS by auto. apply bigsum_ext; intros e He. unfold En. apply quad_ext. intros g Hg. now rewrite hooke_sym_.
  - intros v. rewrite (bigsum_ext 3 _ (fun r => bigsum 3 (fun c => bigsum m (fun e => v r * En e r c * v c)))).
    2:{ intros r Lr. apply bigsum_ext; intros c Lc. rewrite HS by auto. rewrite <- bigsum_scal, <- bigsum_scal_r. reflexivity. }
    rewrite (bigsum_ext 3 _ (fun r => bigsum m (fun e => bigsum 3 (fun c => v r * En e r c * v c)))) by (intros; apply bigsum_swap).
    rewrite bigsum_swap. apply bigsum_nonneg. intros e He. destruct (Hel e He) as (A1 & A2 & A3 & A4 & A5 & A6 & A7 & A8 & _).
    set (T p l j := bigsum 3 (fun r => v r * (unit_strain r l j - strain (G e p r) l j))).
    replace (bigsum 3 _) with (quad 2 (ce_q (el e)) (fun p => jac (ce_s (el e)) (nodal (ce_elem (el e)) xs) p * (ce_t (el e) * hooke 2 (lame_lambda (ce_E (el e)) (ce_V (el e))) (lame_mu (ce_E (el e)) (ce_V (el e))) (T p) (T p)))).
    + unfold quad. apply bigsum_nonneg. intros g Hg. destruct (A2 g Hg) as [B1 B2].
      destruct (lame_pos (ce_E (el e)) (ce_V (el e)) A6 A7) as [P1 P2].
      apply Rmult_le_pos; [lra|]. apply Rmult_le_pos; [unfold pt in B1; lra|]. apply Rmult_le_pos; auto. now apply hooke2_nonneg.
    + set (h g r c := wprod 2 (nth g (q_weights (ce_q (el e))) []) * (jac (ce_s (el e)) (nodal (ce_elem (el e)) xs) (pt (ce_q (el e)) g) * (ce_t (el e) * hooke 2 (lame_lambda (ce_E (el e)) (ce_V (el e))) (lame_mu (ce_E (el e)) (ce_V (el e)))
          (fun l j => unit_strain r l j - strain (G e (pt (ce_q (el e)) g) r) l j) (fun l j => unit_strain c l j - strain (G e (pt (ce_q (el e)) g) c) l j)))).
      transitivity (bigsum (q_n (ce_q (el e))) (fun g => bigsum 3 (fun r => bigsum 3 (fun c => v r * h g r c * v c)))).
      * unfold quad. apply bigsum_ext; intros g Hg. change (fun k => nth k (nth g (q_points (ce_q (el e))) []) 0) with (pt (ce_q (el e)) g).
        unfold h, T, hooke, trace, ddot. cbn [bigsum]. ring.
      * rewrite (bigsum_swap (q_n (ce_q (el e))) 3). apply bigsum_ext; intros r _. rewrite (bigsum_swap (q_n (ce_q (el e))) 3). apply bigsum_ext; intros c _.
        unfold En. rewrite bigsum_scal_r. f_equal. rewrite bigsum_scal. reflexivity.
Qed.
