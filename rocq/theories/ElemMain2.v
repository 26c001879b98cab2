(** Property C39: finite-deformation elements: the proofs. *)
From Coq Require Import List Arith Lia Bool Reals Lra.
From Verif Require Import Res SumR DenseModel DenseR DenseSpec ShapeModel QuadModel QuadSpec ElemModel ElemSpec ElemSpec2 PropElem.
Import ListNotations.
Local Open Scope R_scope.
From Verif Require Import DenseProof DenseMain ShapeMain ElemProof ElemProof2 ElemProof3 ElemProof4 ElemMain PropElem.

Lemma green_bext d H H' : (forall l c, (l < d)%nat -> (c < d)%nat -> H l c = H' l c) ->
  forall a b, (a < d)%nat -> (b < d)%nat -> green d H a b = green d H' a b.
Proof. intros E a b Ha Hb. unfold green, defgrad. do 2 f_equal. apply bigsum_ext. intros c Hc. now rewrite !E. Qed.
Lemma dgreen_bext d H H' Y Y' : (forall l c, (l < d)%nat -> (c < d)%nat -> H l c = H' l c) -> (forall l c, (l < d)%nat -> (c < d)%nat -> Y l c = Y' l c) ->
  forall a b, (a < d)%nat -> (b < d)%nat -> dgreen d H Y a b = dgreen d H' Y' a b.
Proof. intros E1 E2. unfold dgreen. apply strain_ext. intros a b Ha Hb. apply bigsum_ext. intros c Hc. unfold defgrad. now rewrite E1, E2. Qed.
Lemma ddgreen_bext d H H' Y Y' : (forall l c, (l < d)%nat -> (c < d)%nat -> H l c = H' l c) -> (forall l c, (l < d)%nat -> (c < d)%nat -> Y l c = Y' l c) ->
  forall a b, (a < d)%nat -> (b < d)%nat -> ddgreen d H Y a b = ddgreen d H' Y' a b.
Proof. intros E1 E2. unfold ddgreen. apply strain_ext. intros a b Ha Hb. apply bigsum_ext. intros c Hc. now rewrite E1, E2. Qed.
Definition gext (d : nat) (H H' : field) := forall l c, (l < d)%nat -> (c < d)%nat -> H l c = H' l c.
Lemma svk_work_ext d l m H H' Y Y' : gext d H H' -> gext d Y Y' -> svk_work d l m H Y = svk_work d l m H' Y'.
Proof. intros. apply hooke_ext; [now apply green_bext|now apply dgreen_bext]. Qed.
Lemma svk_tangent_ext d l m H H' Y Y' Z Z' : gext d H H' -> gext d Y Y' -> gext d Z Z' -> svk_tangent d l m H Y Z = svk_tangent d l m H' Y' Z'.
Proof. intros. unfold svk_tangent. f_equal; apply hooke_ext; try now apply dgreen_bext. now apply green_bext. now apply ddgreen_bext. Qed.

(** generic passage from the quadrature forms to the two specifications *)
Section Generic.
Variables (d : nat) (s : shape) (q : rule) (elem dou : list nat) (xs : list (list R)).
Variables (T : field -> field -> field -> R) (W : field -> field -> R).
Hypothesis He : element_ok d s q elem xs.
Hypothesis Hd2 : (2 <= d)%nat.
Hypothesis HT : forall H H' Y Y' Z Z', gext d H H' -> gext d Y Y' -> gext d Z Z' -> T H Y Z = T H' Y' Z'.
Hypothesis HW : forall H H' Y Y', gext d H H' -> gext d Y Y' -> W H Y = W H' Y'.
Let x := nodal elem xs.
Let n := length elem.

Definition forms (us : list (list R)) (r : res (mat R * list R * nte_t)) : Prop :=
  exists K F ne, r = Ok (K, F, ne) /\ numbered d n dou ne /\
    has_form d n K (fun y z => quad d q (fun r => jac s x r * T (gradU s x r (nodal elem us)) (gradU s x r y) (gradU s x r z))) /\
    has_lin d n F (fun y => - quad d q (fun r => jac s x r * W (gradU s x r (nodal elem us)) (gradU s x r y))).

Lemma finite_intro us r : forms us r -> finite_of d s q elem dou xs us r T W.
Proof.
  intros (K & F & ne & Er & Hn & (k & Hk & EK) & (f & Hf & EF)). exists K, F, ne, k, f. splits; auto.
  intros y z Hu Hy Hz Gu Gy Gz. split.
  - rewrite EK. apply quad_ext. intros g Hg. f_equal. apply HT; intros l c Hl Hc; now apply (gradients_eq s q elem xs d d).
  - unfold dofv in EF. rewrite EF. f_equal. apply quad_ext. intros g Hg. f_equal. apply HW; intros l c Hl Hc; now apply (gradients_eq s q elem xs d d).
Qed.
Lemma lin_entry F L : has_lin d n F L -> forall a, (a < d * n)%nat -> nth a F 0 = L (unitv d a) /\ length F = (d * n)%nat.
Proof.
  intros (f & Hf & EF) a Ha. split; [|apply Hf]. rewrite (proj2 (is_vec_nth _ _ _ 0 Hf) a Ha), <- EF.
  rewrite (bigsum_ext _ _ (fun b => (if (a =? b)%nat then 1 else 0) * f b)); [now rewrite bigsum_ite|].
  intros b Hb. unfold dofv, unitv. rewrite <- Nat.div_mod by (clear Hd2; intros A; rewrite A in Hb; lia). rewrite (Nat.eqb_sym b a). ring.
Qed.
Lemma gradU_line us z e r l c : moved d elem us z -> (c < d)%nat ->
  gradU s x r (nodal elem (us e)) l c = gradU s x r (nodal elem (us 0)) l c + e * gradU s x r z l c.
Proof.
  intros Hm Hc. unfold gradU. rewrite <- bigsum_scal, <- bigsum_plus. apply bigsum_ext; intros i Hi.
  destruct He as (_ & _ & HL & _). rewrite (proj2 (Hm e)) by (auto; lia). ring.
Qed.
(** the work density is differentiable along lines with derivative the tangent density *)
Lemma quad_deriv (f : R -> (nat -> R) -> R) (f' : (nat -> R) -> R) :
  (forall g, (g < q_n q)%nat -> derivable_pt_lim (fun e => f e (pt q g)) 0 (f' (pt q g))) ->
  derivable_pt_lim (fun e => quad d q (f e)) 0 (quad d q f').
Proof.
  intros H. unfold quad. induction (q_n q) as [|m IH].
  - apply derivable_pt_lim_const.
  - cbn [bigsum]. apply (derivable_pt_lim_plus (fun e => bigsum m _)); [apply IH; auto|].
    apply (derivable_pt_lim_scal (fun e => f e (fun k => nth k (nth m (q_points q) []) 0))). apply (H m). lia.
Qed.
Lemma consistent_intro us z call eps : 0 < eps -> moved d elem us z -> (forall e, Rabs e < eps -> forms (us e) (call (us e))) ->
  (forall g Y, (g < q_n q)%nat -> derivable_pt_lim (fun e => W (fun l c => gradU s x (pt q g) (nodal elem (us 0)) l c + e * gradU s x (pt q g) z l c) Y) 0
     (T (gradU s x (pt q g) (nodal elem (us 0))) Y (gradU s x (pt q g) z))) ->
  consistent d elem us z call.
Proof.
  intros Hp Hm Hf HD. split.
  - exists eps. split; auto. intros e He'. destruct (Hf e He') as (K & F & ne & E & _ & _ & (f & HF & _)). exists K, F, ne. split; auto. apply HF.
  - destruct (Hf 0 ltac:(rewrite Rabs_R0; auto)) as (K & F & ne & E & _ & (k & Hk & EK) & _). exists K, F, ne, k. splits; auto.
    intros a Ha. rewrite <- form_unit, EK by auto.
    eapply deriv_ext with (eps := eps) (g := fun e => - quad d q (fun r => jac s x r * W (fun l c => gradU s x r (nodal elem (us 0)) l c + e * gradU s x r z l c) (gradU s x r (unitv d a)))); auto.
    + intros e He'. destruct (Hf e He') as (K' & F' & ne' & E' & _ & _ & HF). rewrite E'. cbn [residual].
      rewrite (proj1 (lin_entry _ _ HF a Ha)). f_equal. apply quad_ext. intros g Hg. f_equal. apply HW; [|intros ? ? _ _; reflexivity].
      intros l c Hl Hc. now apply gradU_line.
    + apply (derivable_pt_lim_opp (fun e => quad d q _)). apply quad_deriv. intros g Hg. apply (derivable_pt_lim_scal (fun e => W _ _)). now apply HD.
Qed.
End Generic.

Lemma svk_deriv d l m H Y Z : derivable_pt_lim (fun e => svk_work d l m (fun i j => H i j + e * Z i j) Y) 0 (svk_tangent d l m H Y Z).
Proof.
  destruct (svk_line d l m H Z Y) as (A & B & E). apply deriv_ext with (eps := 1) (g := fun e => svk_work d l m H Y + e * svk_tangent d l m H Y Z + e * e * (A + e * B)); [lra| |].
  - intros. apply E.
  - apply cubic_deriv.
Qed.

Lemma green_0 d H a b : gext d H (fun _ _ => 0) -> (a < d)%nat -> (b < d)%nat -> green d H a b = 0.
Proof.
  intros HH Ha Hb. rewrite (green_bext d _ _ HH a b Ha Hb). unfold green, defgrad.
  rewrite (bigsum_ext d _ (fun c => (if (a =? c)%nat then 1 else 0) * kron c b)).
  - rewrite bigsum_ite by auto. cbv beta. unfold Rdiv. ring.
  - intros c _. unfold kron. rewrite (Nat.eqb_sym a c). ring.
Qed.
Lemma dgreen_0 d H Y a b : gext d H (fun _ _ => 0) -> (a < d)%nat -> (b < d)%nat -> dgreen d H Y a b = strain Y a b.
Proof.
  intros HH Ha Hb. rewrite (dgreen_bext d _ _ Y Y HH (fun _ _ _ _ => eq_refl) a b Ha Hb). unfold dgreen, strain, defgrad.
  assert (A : forall i j, (i < d)%nat -> bigsum d (fun c => (kron c i + 0) * Y j c) = Y j i).
  { intros i j Hi. rewrite (bigsum_ext d _ (fun c => (if (i =? c)%nat then 1 else 0) * Y j c)).
    - now rewrite bigsum_ite.
    - intros c _. unfold kron. rewrite (Nat.eqb_sym i c). ring. }
  rewrite !A by auto. field.
Qed.
Lemma hooke_0 d l m e f : gext d e (fun _ _ => 0) -> hooke d l m e f = 0.
Proof.
  intros H. rewrite (hooke_ext d l m e (fun _ _ => 0) f f H (fun _ _ _ _ => eq_refl)). unfold hooke, trace, ddot.
  rewrite (bigsum_zero d (fun i => 0)) by auto. rewrite (bigsum_zero d (fun i => bigsum d (fun j => 0 * f i j))) by (intros; apply bigsum_zero; intros; ring). ring.
Qed.
Lemma svk_tangent_0 d l m H Y Z : gext d H (fun _ _ => 0) -> svk_tangent d l m H Y Z = hooke d l m (strain Y) (strain Z).
Proof.
  intros HH. unfold svk_tangent. rewrite (hooke_0 d l m (green d H)) by (intros a b Ha Hb; now apply green_0). rewrite Rplus_0_r.
  apply hooke_ext; intros a b Ha Hb; now apply dgreen_0.
Qed.
Lemma svk_work_0 d l m H Y : gext d H (fun _ _ => 0) -> svk_work d l m H Y = 0.
Proof. intros HH. apply hooke_0. intros a b Ha Hb. now apply green_0. Qed.
Lemma gradU_0 d s q elem xs us r : element_ok d s q elem xs -> (forall i c, (i < length elem)%nat -> (c < d)%nat -> nodal elem us i c = 0) ->
  gext d (gradU s (nodal elem xs) r (nodal elem us)) (fun _ _ => 0).
Proof. intros (_ & _ & HL & _) H l c _ Hc. unfold gradU. apply bigsum_zero. intros i Hi. rewrite H by (auto; lia). ring. Qed.
Lemma quad_0 d q f : (forall g, (g < q_n q)%nat -> f (pt q g) = 0) -> quad d q f = 0.
Proof. intros H. unfold quad. apply bigsum_zero. intros g Hg. unfold pt in H. rewrite (H g Hg). ring. Qed.

(** at zero displacement *)
Lemma zero_call d s q elem dou xs us (T : field -> field -> field -> R) W r r' (S : field -> field -> R) :
  element_ok d s q elem xs -> (forall i c, (i < length elem)%nat -> (c < d)%nat -> nodal elem us i c = 0) ->
  forms d s q elem dou xs T W us r ->
  (exists K ne, r' = Ok (K, ne) /\ numbered d (length elem) dou ne /\ has_form d (length elem) K (fun y z => quad d q (fun p => jac s (nodal elem xs) p * S (gradU s (nodal elem xs) p y) (gradU s (nodal elem xs) p z)))) ->
  (forall H Y Z, gext d H (fun _ _ => 0) -> T H Y Z = S Y Z) -> (forall H Y, gext d H (fun _ _ => 0) -> W H Y = 0) ->
  exists K ne, r = Ok (K, repeat 0 (d * length elem), ne) /\ r' = Ok (K, ne).
Proof.
  intros He Hz (K & F & ne & Er & Hn & HK & HF) Hr' HT HW.
  assert (E : Ok (K, ne) = r').
  { eapply same_result; [|exact Hr'|]; [exists K, ne; splits; eauto|]. intros y z. cbv beta. apply quad_ext. intros g Hg. f_equal. apply HT. now apply (gradU_0 d s q). }
  exists K, ne. split; auto. rewrite Er. do 3 f_equal.
  apply nth_ext with (d := 0) (d' := 0); [rewrite repeat_length; destruct HF as (f & HF & _); apply HF|].
  intros a Ha. assert (Ha' : (a < d * length elem)%nat) by (destruct HF as (f & HF & _); destruct HF as [HF _]; lia).
  rewrite (proj1 (lin_entry _ _ _ _ HF a Ha')). rewrite nth_repeat.
  rewrite quad_0; [ring|]. intros g Hg. rewrite HW; [ring|]. now apply (gradU_0 d s q).
Qed.
Lemma moved_nodes m elem us z e : moved m elem us z -> nodes_ok m elem (us e).
Proof. intros H. apply H. Qed.


Lemma C39_forms_pf : forall s q elem dou xs us E V t,
  (element_ok 2 s q elem xs -> nodes_ok 2 elem us -> length dou = 2%nat -> (1 - 2 * V) * (1 + V) <> 0 ->
     finite_of 2 s q elem dou xs us (PlaneStrainStiffnessTotalLagrange s q elem dou xs us E V t)
       (svk_tangent 2 (lame_lambda E V) (lame_mu E V)) (svk_work 2 (lame_lambda E V) (lame_mu E V))) /\
  (element_ok 3 s q elem xs -> nodes_ok 3 elem us -> length dou = 3%nat -> (1 + V) * (1 - 2 * V) <> 0 ->
     finite_of 3 s q elem dou xs us (SolidTotalLagrange s q elem dou xs us E V)
       (svk_tangent 3 (lame_lambda E V) (lame_mu E V)) (svk_work 3 (lame_lambda E V) (lame_mu E V))).
Proof.
  intros s q elem dou xs us E V t. split; intros He Hu Hd HV; (apply finite_intro; [exact He|lia|intros; now apply svk_tangent_ext|intros; now apply svk_work_ext|]).
  - now apply TL_form.
  - now apply STL_form.
Qed.

Lemma C39_consistent_pf : forall s q elem dou xs us z E V t,
  (element_ok 2 s q elem xs -> moved 2 elem us z -> length dou = 2%nat -> (1 - 2 * V) * (1 + V) <> 0 ->
     consistent 2 elem us z (fun u => PlaneStrainStiffnessTotalLagrange s q elem dou xs u E V t)) /\
  (element_ok 3 s q elem xs -> moved 3 elem us z -> length dou = 3%nat -> (1 + V) * (1 - 2 * V) <> 0 ->
     consistent 3 elem us z (fun u => SolidTotalLagrange s q elem dou xs u E V)).
Proof.
  intros s q elem dou xs us z E V t. split; intros He Hm Hd HV.
  - apply (consistent_intro 2 s q elem dou xs (svk_tangent 2 (lame_lambda E V) (lame_mu E V)) (svk_work 2 (lame_lambda E V) (lame_mu E V)) He) with (eps := 1);
      [lia|intros; now apply svk_work_ext|lra|exact Hm| |intros; apply svk_deriv]. intros e _. apply TL_form; auto. apply (moved_nodes _ _ _ _ e Hm).
  - apply (consistent_intro 3 s q elem dou xs (svk_tangent 3 (lame_lambda E V) (lame_mu E V)) (svk_work 3 (lame_lambda E V) (lame_mu E V)) He) with (eps := 1);
      [lia|intros; now apply svk_work_ext|lra|exact Hm| |intros; apply svk_deriv]. intros e _. apply STL_form; auto. apply (moved_nodes _ _ _ _ e Hm).
Qed.

Lemma C39_zero_pf : forall s q elem dou xs us E V t,
  (element_ok 2 s q elem xs -> nodes_ok 2 elem us -> length dou = 2%nat -> (1 - 2 * V) * (1 + V) <> 0 ->
     (forall i c, (i < length elem)%nat -> (c < 2)%nat -> nodal elem us i c = 0) ->
     exists K ne, PlaneStrainStiffnessTotalLagrange s q elem dou xs us E V t = Ok (K, repeat 0 (2 * length elem), ne) /\
       PlaneStrainStiffness s q elem dou xs E V 1 = Ok (K, ne)) /\
  (element_ok 3 s q elem xs -> nodes_ok 3 elem us -> length dou = 3%nat -> (1 + V) * (1 - 2 * V) <> 0 ->
     (forall i c, (i < length elem)%nat -> (c < 3)%nat -> nodal elem us i c = 0) ->
     exists K ne, SolidTotalLagrange s q elem dou xs us E V = Ok (K, repeat 0 (3 * length elem), ne) /\
       SolidLinearIsotropicElastic s q elem dou xs E V = Ok (K, ne)).
Proof.
  intros s q elem dou xs us E V t. split; intros He Hu Hd HV Hz.
  - eapply (zero_call 2 s q elem dou xs us _ _ _ _ (fun Y Z => hooke 2 (lame_lambda E V) (lame_mu E V) (strain Y) (strain Z))); [exact He|exact Hz|now apply TL_form| | |].
    + destruct (D_strain_ok E V HV) as (D & Df & ED & HD & FD).
      destruct (plane_stiffness_form s q elem dou xs D Df 1 He Hd HD) as (K & ne & EK & Hn & HK).
      exists K, ne. splits; auto. { unfold PlaneStrainStiffness. now rewrite ED. }
      eapply has_form_eq; [|exact HK]. intros y z. cbv beta. apply quad_ext. intros g Hg. rewrite Rmult_1_r. f_equal. apply FD.
    + intros. now apply svk_tangent_0.
    + intros. now apply svk_work_0.
  - eapply (zero_call 3 s q elem dou xs us _ _ _ _ (fun Y Z => hooke 3 (lame_lambda E V) (lame_mu E V) (strain Y) (strain Z))); [exact He|exact Hz|now apply STL_form| | |].
    + now apply solid_form.
    + intros. now apply svk_tangent_0.
    + intros. now apply svk_work_0.
Qed.

Lemma C39_thickness_refuted_pf : exists s q elem dou xs us E V t,
  element_ok 2 s q elem xs /\ nodes_ok 2 elem us /\ length dou = 2%nat /\ (1 - 2 * V) * (1 + V) <> 0 /\ 0 < t /\
  (forall i c, (i < length elem)%nat -> (c < 2)%nat -> nodal elem us i c = 0) /\
  exists K F ne K' ne', PlaneStrainStiffnessTotalLagrange s q elem dou xs us E V t = Ok (K, F, ne) /\
    PlaneStrainStiffness s q elem dou xs E V t = Ok (K', ne') /\ K <> K'.
Proof.
  set (us := [[0; 0]; [0; 0]; [0; 0]] : list (list R)).
  assert (Hu : nodes_ok 2 [2; 0; 1]%nat us) by (intros e He; cbn in He; decompose [or] He; subst; cbn; try lia; contradiction).
  assert (Hz : forall i c, (i < length [2; 0; 1]%nat)%nat -> (c < 2)%nat -> nodal [2; 0; 1]%nat us i c = 0).
  { intros i c Hi Hc. cbn in Hi. destruct i as [|[|[|i]]]; try lia; destruct c as [|[|c]]; try lia; reflexivity. }
  exists sf_3Triangle, Gauss1Triangle, [2; 0; 1]%nat, [0; 1]%nat, tri_xs, us, 1, 0, 2.
  assert (HV : (1 - 2 * 0) * (1 + 0) <> 0) by lra.
  splits; auto; try lra; [apply tri_ok|].
  destruct (proj1 (C39_zero_pf _ _ _ [0; 1]%nat _ us 1 0 2) tri_ok Hu eq_refl HV Hz) as (K & ne & E1 & E2).
  destruct (C59_plane _ _ _ [0; 1]%nat _ 1 0 2 tri_ok eq_refl) as [H _]. destruct (H HV) as (K' & ne' & k' & E' & Hk' & _ & HF').
  destruct (C59_plane _ _ _ [0; 1]%nat _ 1 0 1 tri_ok eq_refl) as [H1 _]. destruct (H1 HV) as (K1 & ne1 & k1 & E1' & Hk1 & _ & HF1).
  exists K, (repeat 0 (2 * 3)), ne, K', ne'. splits; auto.
  rewrite E2 in E1'. injection E1' as <- <-. intros <-.
  set (y := fun i c => if (c =? 0)%nat then nodal [2; 0; 1]%nat tri_xs i 0 else 0).
  assert (G : gradients sf_3Triangle Gauss1Triangle (nodal [2; 0; 1]%nat tri_xs) 2 y (fun _ l c => if (l + c =? 0)%nat then 1 else 0)).
  { intros g _ k0 c Hk0 Hc. cbn in Hk0. unfold y, tangent, dshp, nodal, tri_xs, sf_3Triangle, dN_3Triangle. cbn [sf_d sf_n sf_dN bigsum nth].
    destruct k0 as [|[|k0]]; try lia; destruct c as [|[|c]]; try lia; cbn [nth Nat.add Nat.eqb]; lra. }
  assert (EE : form 2 (length [2; 0; 1]%nat) k1 y y = form 2 (length [2; 0; 1]%nat) k' y y).
  { unfold form. apply bigsum_ext; intros a Ha. apply bigsum_ext; intros b Hb. do 2 f_equal.
    destruct Hk1 as (_ & _ & _ & A1 & _). destruct Hk' as (_ & _ & _ & A2 & _). pose proof (A1 a b Ha Hb) as B1. rewrite (A2 a b Ha Hb) in B1. now injection B1. }
  rewrite (HF' y y _ _ G G), (HF1 y y _ _ G G) in EE.
  unfold quad, hooke, trace, ddot, strain, lame_lambda, lame_mu, Gauss1Triangle, wprod, jac, detd, det2, tangent, dshp, nodal, tri_xs, sf_3Triangle, dN_3Triangle in EE.
  cbn [q_n q_points q_weights sf_d sf_n sf_dN bigsum nth Nat.add Nat.eqb] in EE.
  pose proof (sqrt_lt_R0 2 ltac:(lra)).
  assert (Wt : 1 / sqrt 2 * (1 / sqrt 2) = 1 / 2). { pose proof (sqrt_def 2 ltac:(lra)). field_simplify; [|lra]. replace (sqrt 2 ^ 2) with 2 by (cbn; lra). reflexivity. }
  set (w := 1 / sqrt 2) in *. clearbody w. lra.
Qed.
