(** Property C81 and the energy form of C39: hyperelastic elements: the proofs. *)
From Coq Require Import List Arith Lia Bool Reals Lra.
From Verif Require Import Res SumR DenseModel DenseR DenseSpec ShapeModel QuadModel QuadSpec ElemModel ElemSpec ElemSpec2 ElemSpec3 PropElem.
Import ListNotations.
Local Open Scope R_scope.
From Verif Require Import DenseProof DenseMain ShapeMain ElemProof ElemProof2 ElemProof3 ElemProof4 ElemProof5 ElemProof6 ElemMain ElemMain2 PropElem2.

Lemma potential_intro d s q elem dou xs us r T W Psi : element_ok d s q elem xs -> (2 <= d)%nat ->
  (forall H H', gext d H H' -> Psi H = Psi H') -> forms d s q elem dou xs T W us r ->
  (forall g Y, (g < q_n q)%nat -> derivable_pt_lim (fun e => Psi (fun l c => gradU s (nodal elem xs) (pt q g) (nodal elem us) l c + e * Y l c)) 0
     (W (gradU s (nodal elem xs) (pt q g) (nodal elem us)) Y)) ->
  potential_of d s q elem dou xs us r Psi.
Proof.
  intros He Hd2 HP (K & F & ne & Er & Hn & _ & (f & Hf & EF)) HD. exists K, F, ne, f. splits; auto.
  intros y Hu Hy Gu Gy. fold (dofv d y). change (fun a : nat => f a * y (a / d)%nat (a mod d)%nat) with (fun a => f a * dofv d y a). rewrite EF, Ropp_involutive.
  apply deriv_all_ext with (g := fun e => quad d q (fun p => jac s (nodal elem xs) p * Psi (fun l c => gradU s (nodal elem xs) p (nodal elem us) l c + e * gradU s (nodal elem xs) p y l c))).
  { intros e. apply quad_ext. intros g Hg. f_equal. apply HP.
    intros l c Hl Hc. now rewrite (gradients_eq s q elem xs d d _ _ He Hd2 Gu g l c Hg Hl Hc), (gradients_eq s q elem xs d d _ _ He Hd2 Gy g l c Hg Hl Hc). }
  apply (quad_deriv d q elem Hd2 (fun e p => jac s (nodal elem xs) p * Psi (fun l c => gradU s (nodal elem xs) p (nodal elem us) l c + e * gradU s (nodal elem xs) p y l c))).
  intros g Hg. apply (derivable_pt_lim_scal (fun e => Psi _)). now apply HD.
Qed.

Lemma svk_energy_ext d la mu H H' : gext d H H' -> svk_energy d la mu H = svk_energy d la mu H'.
Proof.
  intros E. pose proof (green_bext d H H' E) as G. unfold svk_energy, trace, ddot.
  rewrite (bigsum_ext d _ (fun i => green d H' i i)) by (intros; now apply G).
  rewrite (bigsum_ext d (fun i => bigsum d (fun j => green d H i j * green d H i j)) (fun i => bigsum d (fun j => green d H' i j * green d H' i j))); auto.
  intros i Hi. apply bigsum_ext; intros j Hj. now rewrite G.
Qed.
Lemma green_deriv d H Z a b : derivable_pt_lim (fun e => green d (fun l c => H l c + e * Z l c) a b) 0 (dgreen d H Z a b).
Proof.
  eapply deriv_all_ext; [|apply (cubic_deriv (green d H a b) (dgreen d H Z a b) (bigsum d (fun c => Z a c * Z b c) / 2) 0)].
  intros e. unfold green, dgreen, strain, defgrad.
  rewrite (bigsum_ext d (fun c => (kron c a + (H a c + e * Z a c)) * (kron c b + (H b c + e * Z b c)))
    (fun c => (kron c a + H a c) * (kron c b + H b c) + e * ((kron c a + H a c) * Z b c + (kron c b + H b c) * Z a c) + e * e * (Z a c * Z b c))) by (intros; ring).
  rewrite !bigsum_plus, !bigsum_scal, bigsum_plus. field.
Qed.
Lemma svk_energy_deriv d la mu H Z : derivable_pt_lim (fun e => svk_energy d la mu (fun l c => H l c + e * Z l c)) 0 (svk_work d la mu H Z).
Proof.
  assert (E0 : forall a b, green d (fun l c => H l c + 0 * Z l c) a b = green d H a b).
  { intros. unfold green, defgrad. do 2 f_equal. apply bigsum_ext; intros. ring. }
  unfold svk_energy. eapply eq_rect.
  { apply (derivable_pt_lim_plus (fun e => la / 2 * (trace d (green d (fun l c => H l c + e * Z l c)) * trace d (green d (fun l c => H l c + e * Z l c))))
       (fun e => mu * ddot d (green d (fun l c => H l c + e * Z l c)) (green d (fun l c => H l c + e * Z l c)))).
    - apply (derivable_pt_lim_scal (fun e => _ * _)).
      apply (derivable_pt_lim_mult (fun e => trace d (green d (fun l c => H l c + e * Z l c))) (fun e => trace d (green d (fun l c => H l c + e * Z l c))));
        unfold trace; apply (bigsum_deriv d (fun i e => green d (fun l c => H l c + e * Z l c) i i)); intros; apply green_deriv.
    - apply (derivable_pt_lim_scal (fun e => ddot _ _ _)). unfold ddot.
      apply (bigsum_deriv d (fun i e => bigsum d (fun j => green d (fun l c => H l c + e * Z l c) i j * green d (fun l c => H l c + e * Z l c) i j))). intros i _.
      apply (bigsum_deriv d (fun j e => green d (fun l c => H l c + e * Z l c) i j * green d (fun l c => H l c + e * Z l c) i j)). intros j _.
      apply (derivable_pt_lim_mult (fun e => green d (fun l c => H l c + e * Z l c) i j) (fun e => green d (fun l c => H l c + e * Z l c) i j)); apply green_deriv. }
  cbv beta. unfold svk_work, hooke, trace, ddot.
  rewrite (bigsum_ext d (fun i => green d (fun l c => H l c + 0 * Z l c) i i) (fun i => green d H i i)) by (intros; apply E0).
  rewrite (bigsum_ext d (fun i => bigsum d (fun j => dgreen d H Z i j * green d (fun l c => H l c + 0 * Z l c) i j + green d (fun l c => H l c + 0 * Z l c) i j * dgreen d H Z i j))
    (fun i => 2 * bigsum d (fun j => green d H i j * dgreen d H Z i j))).
  - rewrite bigsum_scal. field.
  - intros i _. rewrite <- bigsum_scal. apply bigsum_ext; intros j _. rewrite E0. ring.
Qed.

(** admissible displacements *)
Lemma admissible_pos d s q elem xs us : element_ok d s q elem xs -> (2 <= d)%nat -> admissible d s q elem xs us ->
  forall g, (g < q_n q)%nat -> 0 < detd d (defgrad (gradU s (nodal elem xs) (pt q g) (nodal elem us))).
Proof. intros He Hd H g Hg. apply (H (fun r => gradU s (nodal elem xs) r (nodal elem us))); auto. now apply (gradients_gradU s q elem xs d d). Qed.
Lemma finite_eps (P : nat -> R -> Prop) n : (forall g, (g < n)%nat -> exists eps, 0 < eps /\ forall e, Rabs e < eps -> P g e) ->
  exists eps, 0 < eps /\ forall e, Rabs e < eps -> forall g, (g < n)%nat -> P g e.
Proof.
  induction n as [|n IH]; intros H; [exists 1; split; [lra|intros; lia]|].
  destruct IH as (e1 & H1 & A1); [auto|]. destruct (H n ltac:(lia)) as (e2 & H2 & A2).
  exists (Rmin e1 e2). split; [now apply Rmin_pos|]. intros e He g Hg. pose proof (Rmin_l e1 e2). pose proof (Rmin_r e1 e2).
  destruct (Nat.eq_dec g n) as [->|]; [apply A2; lra|apply A1; [lra|lia]].
Qed.
Lemma dim3 d s q elem xs : element_ok d s q elem xs -> (2 <= d)%nat -> (2 <= d <= 3)%nat.
Proof. intros (Hs & Hd & _) H. pose proof (sf_d_range s Hs). lia. Qed.
Lemma admissible_near d s q elem xs us z : element_ok d s q elem xs -> (2 <= d)%nat -> moved d elem us z -> admissible d s q elem xs (us 0) ->
  exists eps, 0 < eps /\ forall e, Rabs e < eps -> forall g, (g < q_n q)%nat -> 0 < detd d (defgrad (gradU s (nodal elem xs) (pt q g) (nodal elem (us e)))).
Proof.
  intros He Hd Hm Ha. apply finite_eps. intros g Hg. pose proof (dim3 _ _ _ _ _ He Hd) as Hr.
  destruct (det_near d (gradU s (nodal elem xs) (pt q g) (nodal elem (us 0))) (gradU s (nodal elem xs) (pt q g) z) Hr (admissible_pos d s q elem xs (us 0) He Hd Ha g Hg)) as (eps & Hp & H).
  exists eps. split; auto. intros e He'. specialize (H e He').
  rewrite (detd_ext d _ (defgrad (fun l c => gradU s (nodal elem xs) (pt q g) (nodal elem (us 0)) l c + e * gradU s (nodal elem xs) (pt q g) z l c)) Hr); auto.
  intros i j Hi Hj. unfold defgrad. f_equal. apply (gradU_line d s q elem xs He); auto.
Qed.

(** rotations *)
Lemma rotated_gradient d s q elem xs us : element_ok d s q elem xs -> (2 <= d)%nat -> rotated d elem xs us -> exists Q,
  (forall i j, (i < d)%nat -> (j < d)%nat -> bigsum d (fun k => Q i k * Q j k) = kron i j) /\ 0 < detd d Q /\
  forall g, (g < q_n q)%nat -> forall i j, (i < d)%nat -> (j < d)%nat -> defgrad (gradU s (nodal elem xs) (pt q g) (nodal elem us)) i j = Q i j.
Proof.
  intros (Hs & Hd & HL & Hn & Hq & HJ) Hd2 (Q & a & HQ & HD & Hx). exists Q. splits; auto. intros g Hg i j Hi Hj. subst d.
  rewrite <- (gradU_cur s (nodal elem xs) (nodal elem us) (pt q g) Hs Hd2 (HJ g Hg)) by auto. symmetry.
  apply (field_gradient_unique s (nodal elem xs) (pt q g) Hs Hd2 (HJ g Hg) (sf_d s) _ (fun l c => Q c l)); auto.
  apply (affine_gradient s (nodal elem xs) (pt q g) Hs (sf_d s) _ a). intros k c Hk Hc. cbv beta. rewrite Hx by (auto; lia). f_equal. apply bigsum_ext; intros. ring.
Qed.
(** columns of a rotation are orthonormal too, and its determinant is one *)
Lemma rotation_facts d Q : (2 <= d <= 3)%nat -> (forall i j, (i < d)%nat -> (j < d)%nat -> bigsum d (fun k => Q i k * Q j k) = kron i j) -> 0 < detd d Q ->
  detd d Q = 1 /\ forall i j, (i < d)%nat -> (j < d)%nat -> bigsum d (fun k => Q k i * Q k j) = kron i j.
Proof.
  intros Hr HQ HD.
  assert (H2 : detd d Q * detd d Q = 1).
  { transitivity (detd d (fun i j => bigsum d (fun k => Q i k * Q j k))).
    - destruct d as [|[|[|[|d]]]]; try lia; cbn [detd]; unfold det2, det3; cbn [bigsum]; ring.
    - rewrite (detd_ext d _ kron Hr HQ). destruct d as [|[|[|[|d]]]]; try lia; cbn [detd]; unfold det2, det3, kron; cbn [Nat.eqb]; ring. }
  assert (H1 : detd d Q = 1) by nra. split; auto. intros i j Hi Hj.
  assert (Ec : forall a b, (a < d)%nat -> (b < d)%nat -> Q b a = cof d Q a b / detd d Q).
  { intros a b Ha Hb.
    transitivity (bigsum d (fun m => bigsum d (fun k => cof d Q a k / detd d Q * Q k m) * Q b m)).
    - rewrite (bigsum_ext d _ (fun m => (if (a =? m)%nat then 1 else 0) * Q b m)); [now rewrite (bigsum_ite d a (Q b))|].
      intros m Hm. rewrite cof_left by (auto; lra). reflexivity.
    - rewrite (bigsum_ext d _ (fun m => bigsum d (fun k => cof d Q a k / detd d Q * (Q k m * Q b m)))).
      2:{ intros m _. rewrite <- bigsum_scal_r. apply bigsum_ext; intros. ring. }
      rewrite bigsum_swap. rewrite (bigsum_ext d _ (fun k => (if (b =? k)%nat then 1 else 0) * (cof d Q a k / detd d Q))).
      + now rewrite (bigsum_ite d b (fun k => cof d Q a k / detd d Q)).
      + intros k Hk. rewrite bigsum_scal, HQ by auto. unfold kron. rewrite (Nat.eqb_sym k b). ring. }
  rewrite (bigsum_ext d _ (fun k => cof d Q i k / detd d Q * Q k j)) by (intros; rewrite Ec by auto; reflexivity).
  apply cof_left; auto. lra.
Qed.
Lemma neo_rotation d la mu H Q Y : (2 <= d <= 3)%nat -> (forall i j, (i < d)%nat -> (j < d)%nat -> bigsum d (fun k => Q i k * Q j k) = kron i j) -> 0 < detd d Q ->
  (forall i j, (i < d)%nat -> (j < d)%nat -> defgrad H i j = Q i j) -> neo_W d la mu H Y = 0.
Proof.
  intros Hr HQ HD E. destruct (rotation_facts d Q Hr HQ HD) as [H1 _].
  assert (HJ : detd d (defgrad H) = 1) by (rewrite (detd_ext d _ Q Hr E); exact H1).
  rewrite neo_W_spatial by (auto; lra). apply bigsum_zero; intros a Ha. apply bigsum_zero; intros b Hb. unfold kirchhoff. rewrite HJ, ln_1.
  rewrite (bigsum_ext d (fun k => defgrad H a k * defgrad H b k) (fun k => Q a k * Q b k)) by (intros; now rewrite !E). rewrite HQ by auto. ring.
Qed.
Lemma svk_rotation d la mu H Q Y : (2 <= d <= 3)%nat -> (forall i j, (i < d)%nat -> (j < d)%nat -> bigsum d (fun k => Q i k * Q j k) = kron i j) -> 0 < detd d Q ->
  (forall i j, (i < d)%nat -> (j < d)%nat -> defgrad H i j = Q i j) -> svk_work d la mu H Y = 0.
Proof.
  intros Hr HQ HD E. destruct (rotation_facts d Q Hr HQ HD) as [_ H1]. apply hooke_0. intros a b Ha Hb. unfold green.
  rewrite (bigsum_ext d _ (fun k => Q k a * Q k b)) by (intros; now rewrite !E). rewrite H1 by auto. unfold Rdiv. ring.
Qed.
Lemma zero_residual d s q elem dou xs us T W r : forms d s q elem dou xs T W us r ->
  (forall g Y, (g < q_n q)%nat -> W (gradU s (nodal elem xs) (pt q g) (nodal elem us)) Y = 0) -> exists K ne, r = Ok (K, repeat 0 (d * length elem), ne).
Proof.
  intros (K & F & ne & Er & _ & _ & HF) HW. exists K, ne. rewrite Er. do 3 f_equal.
  apply nth_ext with (d := 0) (d' := 0); [rewrite repeat_length; destruct HF as (f & HF & _); apply HF|].
  intros a Ha. assert (Ha' : (a < d * length elem)%nat) by (destruct HF as (f & HF & _); destruct HF as [HF _]; lia).
  rewrite (proj1 (lin_entry _ _ _ _ HF a Ha')). rewrite nth_repeat. rewrite quad_0; [ring|]. intros g Hg. rewrite HW by auto. ring.
Qed.
Lemma rotated_pos d s q elem xs us : element_ok d s q elem xs -> (2 <= d)%nat -> rotated d elem xs us ->
  forall g, (g < q_n q)%nat -> 0 < detd d (defgrad (gradU s (nodal elem xs) (pt q g) (nodal elem us))).
Proof.
  intros He Hd2 Hrot g Hg. destruct (rotated_gradient d s q elem xs us He Hd2 Hrot) as (Q & HQ & HD & E).
  rewrite (detd_ext d _ Q (dim3 _ _ _ _ _ He Hd2)); auto.
Qed.

(** zero displacement *)
Lemma defgrad_0 d H : gext d H (fun _ _ => 0) -> forall i j, (i < d)%nat -> (j < d)%nat -> defgrad H i j = kron i j.
Proof. intros E i j Hi Hj. unfold defgrad. rewrite E by auto. ring. Qed.
Lemma detd_kron d : (2 <= d <= 3)%nat -> detd d kron = 1.
Proof. intros Hr. destruct d as [|[|[|[|d]]]]; try lia; cbn [detd]; unfold det2, det3, kron; cbn [Nat.eqb]; ring. Qed.
Lemma kron_orth d i j : (i < d)%nat -> (j < d)%nat -> bigsum d (fun k => kron i k * kron j k) = kron i j.
Proof. intros Hi Hj. unfold kron at 1. rewrite (bigsum_ite d i (fun k => kron j k)) by auto. unfold kron. now rewrite Nat.eqb_sym. Qed.
Lemma neo_W_0 d la mu H Y : (2 <= d <= 3)%nat -> gext d H (fun _ _ => 0) -> neo_W d la mu H Y = 0.
Proof.
  intros Hr E. apply (neo_rotation d la mu H kron Y Hr); [intros; now apply kron_orth|rewrite detd_kron by auto; lra|now apply defgrad_0].
Qed.
Lemma neo_T_0 d la mu H Y Z : (2 <= d <= 3)%nat -> gext d H (fun _ _ => 0) -> neo_T d la mu H Y Z = hooke d la mu (strain Y) (strain Z).
Proof.
  intros Hr E. pose proof (defgrad_0 d H E) as ED.
  assert (HJ : detd d (defgrad H) = 1) by (rewrite (detd_ext d _ kron Hr ED); now apply detd_kron).
  assert (EP : forall Y l c, (l < d)%nat -> push d H Y l c = Y l c).
  { intros Y0 l c Hl. rewrite <- (push_pull d H Hr ltac:(lra) Y0 l c Hl).
    rewrite (bigsum_ext d _ (fun a => (if (l =? a)%nat then 1 else 0) * push d H Y0 a c)); [now rewrite (bigsum_ite d l (fun a => push d H Y0 a c))|].
    intros a Ha. rewrite ED by auto. unfold kron. now rewrite (Nat.eqb_sym a l). }
  rewrite neo_T_spatial by (auto; lra). rewrite HJ, ln_1.
  rewrite (hooke_ext d la (mu - la * 0) (strain (push d H Y)) (strain Y) (strain (push d H Z)) (strain Z)).
  - rewrite (bigsum_zero d (fun a => bigsum d (fun b => kirchhoff d la mu H a b * bigsum d (fun c => push d H Y a c * push d H Z b c)))).
    + replace (mu - la * 0) with mu by ring. ring.
    + intros a Ha. apply bigsum_zero; intros b Hb. unfold kirchhoff. rewrite HJ, ln_1.
      rewrite (bigsum_ext d (fun k => defgrad H a k * defgrad H b k) (fun k => kron a k * kron b k)) by (intros; now rewrite !ED). rewrite kron_orth by auto. ring.
  - intros a b Ha Hb. unfold strain. now rewrite !EP.
  - intros a b Ha Hb. unfold strain. now rewrite !EP.
Qed.
Lemma neo_T_sym d la mu H Y Z : neo_T d la mu H Y Z = neo_T d la mu H Z Y.
Proof.
  unfold neo_T. f_equal; [f_equal|].
  - f_equal. unfold ddot. apply bigsum_ext; intros; apply bigsum_ext; intros; ring.
  - ring.
  - f_equal. rewrite bigsum_swap. apply bigsum_ext; intros; apply bigsum_ext; intros; ring.
Qed.
Lemma forms_symmetric d s q elem dou xs us T W r : forms d s q elem dou xs T W us r -> (forall H Y Z, T H Y Z = T H Z Y) ->
  exists K F ne k, r = Ok (K, F, ne) /\ is_mat K (d * length elem) (d * length elem) k /\
    forall a b, (a < d * length elem)%nat -> (b < d * length elem)%nat -> k a b = k b a.
Proof.
  intros (K & F & ne & Er & _ & (k & Hk & EK) & _) HT. exists K, F, ne, k. splits; auto. apply form_sym_entries. intros y z. rewrite !EK.
  apply quad_ext. intros g Hg. now rewrite HT.
Qed.

(** an inverted Gauss point makes the loop fail *)
Lemma bind_never_r {A B} (r : res A) (k : A -> res B) v : (forall a, k a <> Ok v) -> bind r k <> Ok v.
Proof. intros H. destruct r as [a|]; cbn [bind]; [apply H|discriminate]. Qed.
Lemma foldM_never {A B} (f : A -> B -> res A) l g : In g l -> (forall a v, f a g <> Ok v) -> forall a v, foldM f l a <> Ok v.
Proof.
  intros Hin Hf. induction l as [|b l IH]; [contradiction|]. intros a v. cbn [foldM]. destruct Hin as [->|Hin].
  - destruct (f a g) as [a'|] eqn:E; [now apply Hf in E|discriminate].
  - destruct (f a b) as [a'|]; cbn [bind]; [now apply IH|discriminate].
Qed.
Lemma bind_never {A B} (r : res A) (k : A -> res B) : (forall v, r <> Ok v) -> forall v, bind r k <> Ok v.
Proof. intros H v. destruct r as [a|]; cbn [bind]; [now destruct (H a)|discriminate]. Qed.


Lemma C81_potential_pf : forall s q elem dou xs us E V t,
  (element_ok 2 s q elem xs -> nodes_ok 2 elem us -> length dou = 2%nat -> (1 - 2 * V) * (1 + V) <> 0 -> admissible 2 s q elem xs us ->
     potential_of 2 s q elem dou xs us (PlaneStrainStiffnessUpdatedLagrange s q elem dou xs us E V t)
       (neo_energy 2 (lame_lambda E V) (lame_mu E V))) /\
  (element_ok 3 s q elem xs -> nodes_ok 3 elem us -> length dou = 3%nat -> (1 + V) * (1 - 2 * V) <> 0 -> admissible 3 s q elem xs us ->
     potential_of 3 s q elem dou xs us (SolidUpdatedLagrange s q elem dou xs us E V)
       (neo_energy 3 (lame_lambda E V) (lame_mu E V))).
Proof.
  intros s q elem dou xs us E V t. split; intros He Hu Hd HV Ha.
  - eapply (potential_intro 2); [exact He|lia|intros; apply neo_energy_ext; [lia|assumption]|apply UL_form; auto; now apply (admissible_pos 2)|].
    intros g Y Hg. apply neo_energy_deriv; [lia|]. apply (admissible_pos 2 s q elem xs us He); auto.
  - eapply (potential_intro 3); [exact He|lia|intros; apply neo_energy_ext; [lia|assumption]|apply SUL_form; auto; apply (admissible_pos 3); auto|].
    intros g Y Hg. apply neo_energy_deriv; [lia|]. apply (admissible_pos 3 s q elem xs us He); auto.
Qed.

Lemma C81_consistent_pf : forall s q elem dou xs us z E V t,
  (element_ok 2 s q elem xs -> moved 2 elem us z -> length dou = 2%nat -> (1 - 2 * V) * (1 + V) <> 0 -> admissible 2 s q elem xs (us 0) ->
     consistent 2 elem us z (fun u => PlaneStrainStiffnessUpdatedLagrange s q elem dou xs u E V t)) /\
  (element_ok 3 s q elem xs -> moved 3 elem us z -> length dou = 3%nat -> (1 + V) * (1 - 2 * V) <> 0 -> admissible 3 s q elem xs (us 0) ->
     consistent 3 elem us z (fun u => SolidUpdatedLagrange s q elem dou xs u E V)).
Proof.
  intros s q elem dou xs us z E V t. split; intros He Hm Hd HV Ha.
  - destruct (admissible_near 2 s q elem xs us z He ltac:(lia) Hm Ha) as (eps & Hp & Hn).
    apply (consistent_intro 2 s q elem dou xs (neo_T 2 (lame_lambda E V) (lame_mu E V)) (neo_W 2 (lame_lambda E V) (lame_mu E V)) He) with (eps := eps);
      [lia|intros; apply neo_W_ext; [lia|assumption|assumption]|exact Hp|exact Hm| |].
    + intros e He'. apply UL_form; auto. apply (moved_nodes _ _ _ _ e Hm).
    + intros g Y Hg. apply neo_deriv; [lia|]. apply (admissible_pos 2 s q elem xs (us 0) He); auto.
  - destruct (admissible_near 3 s q elem xs us z He ltac:(lia) Hm Ha) as (eps & Hp & Hn).
    apply (consistent_intro 3 s q elem dou xs (neo_T 3 (lame_lambda E V) (lame_mu E V)) (neo_W 3 (lame_lambda E V) (lame_mu E V)) He) with (eps := eps);
      [lia|intros; apply neo_W_ext; [lia|assumption|assumption]|exact Hp|exact Hm| |].
    + intros e He'. apply SUL_form; auto. apply (moved_nodes _ _ _ _ e Hm).
    + intros g Y Hg. apply neo_deriv; [lia|]. apply (admissible_pos 3 s q elem xs (us 0) He); auto.
Qed.

Lemma C81_symmetric_pf : forall s q elem dou xs us E V t,
  (element_ok 2 s q elem xs -> nodes_ok 2 elem us -> length dou = 2%nat -> (1 - 2 * V) * (1 + V) <> 0 -> admissible 2 s q elem xs us ->
     exists K F ne k, PlaneStrainStiffnessUpdatedLagrange s q elem dou xs us E V t = Ok (K, F, ne) /\ is_mat K (2 * length elem) (2 * length elem) k /\
       forall a b, (a < 2 * length elem)%nat -> (b < 2 * length elem)%nat -> k a b = k b a) /\
  (element_ok 3 s q elem xs -> nodes_ok 3 elem us -> length dou = 3%nat -> (1 + V) * (1 - 2 * V) <> 0 -> admissible 3 s q elem xs us ->
     exists K F ne k, SolidUpdatedLagrange s q elem dou xs us E V = Ok (K, F, ne) /\ is_mat K (3 * length elem) (3 * length elem) k /\
       forall a b, (a < 3 * length elem)%nat -> (b < 3 * length elem)%nat -> k a b = k b a).
Proof.
  intros s q elem dou xs us E V t. split; intros He Hu Hd HV Ha.
  - eapply (forms_symmetric 2); [apply UL_form; auto; now apply (admissible_pos 2)|]. intros; apply neo_T_sym.
  - eapply (forms_symmetric 3); [apply SUL_form; auto; apply (admissible_pos 3); auto|]. intros; apply neo_T_sym.
Qed.

Lemma C81_zero_pf : forall s q elem dou xs us E V t,
  (element_ok 2 s q elem xs -> nodes_ok 2 elem us -> length dou = 2%nat -> (1 - 2 * V) * (1 + V) <> 0 ->
     (forall i c, (i < length elem)%nat -> (c < 2)%nat -> nodal elem us i c = 0) ->
     exists K ne, PlaneStrainStiffnessUpdatedLagrange s q elem dou xs us E V t = Ok (K, repeat 0 (2 * length elem), ne) /\
       PlaneStrainStiffness s q elem dou xs E V 1 = Ok (K, ne)) /\
  (element_ok 3 s q elem xs -> nodes_ok 3 elem us -> length dou = 3%nat -> (1 + V) * (1 - 2 * V) <> 0 ->
     (forall i c, (i < length elem)%nat -> (c < 3)%nat -> nodal elem us i c = 0) ->
     exists K ne, SolidUpdatedLagrange s q elem dou xs us E V = Ok (K, repeat 0 (3 * length elem), ne) /\
       SolidLinearIsotropicElastic s q elem dou xs E V = Ok (K, ne)).
Proof.
  intros s q elem dou xs us E V t. split; intros He Hu Hd HV Hz.
  - eapply (zero_call 2 s q elem dou xs us _ _ _ _ (fun Y Z => hooke 2 (lame_lambda E V) (lame_mu E V) (strain Y) (strain Z))); [exact He|exact Hz|apply UL_form; auto| | |].
    + intros g Hg. rewrite (detd_ext 2 _ kron ltac:(lia)); [rewrite detd_kron by lia; lra|]. apply defgrad_0. now apply (gradU_0 2 s q).
    + destruct (D_strain_ok E V HV) as (D & Df & ED & HD & FD).
      destruct (plane_stiffness_form s q elem dou xs D Df 1 He Hd HD) as (K & ne & EK & Hn & HK).
      exists K, ne. splits; auto. { unfold PlaneStrainStiffness. now rewrite ED. }
      eapply has_form_eq; [|exact HK]. intros y z. cbv beta. apply quad_ext. intros g Hg. rewrite Rmult_1_r. f_equal. apply FD.
    + intros. apply neo_T_0; [lia|assumption].
    + intros. apply neo_W_0; [lia|assumption].
  - eapply (zero_call 3 s q elem dou xs us _ _ _ _ (fun Y Z => hooke 3 (lame_lambda E V) (lame_mu E V) (strain Y) (strain Z))); [exact He|exact Hz|apply SUL_form; auto| | |].
    + intros g Hg. rewrite (detd_ext 3 _ kron ltac:(lia)); [rewrite detd_kron by lia; lra|]. apply defgrad_0. now apply (gradU_0 3 s q).
    + now apply solid_form.
    + intros. apply neo_T_0; [lia|assumption].
    + intros. apply neo_W_0; [lia|assumption].
Qed.

Lemma C81_rigid_pf : forall s q elem dou xs us E V t,
  (element_ok 2 s q elem xs -> nodes_ok 2 elem us -> length dou = 2%nat -> (1 - 2 * V) * (1 + V) <> 0 -> rotated 2 elem xs us ->
     exists K ne, PlaneStrainStiffnessUpdatedLagrange s q elem dou xs us E V t = Ok (K, repeat 0 (2 * length elem), ne)) /\
  (element_ok 3 s q elem xs -> nodes_ok 3 elem us -> length dou = 3%nat -> (1 + V) * (1 - 2 * V) <> 0 -> rotated 3 elem xs us ->
     exists K ne, SolidUpdatedLagrange s q elem dou xs us E V = Ok (K, repeat 0 (3 * length elem), ne)).
Proof.
  intros s q elem dou xs us E V t. split; intros He Hu Hd HV Hrot.
  - destruct (rotated_gradient 2 s q elem xs us He ltac:(lia) Hrot) as (Q & HQ & HD & EQ).
    eapply (zero_residual 2); [apply UL_form; auto; apply (rotated_pos 2); auto|]. intros g Y Hg. apply (neo_rotation 2 _ _ _ Q); auto; lia.
  - destruct (rotated_gradient 3 s q elem xs us He ltac:(lia) Hrot) as (Q & HQ & HD & EQ).
    eapply (zero_residual 3); [apply SUL_form; auto; apply (rotated_pos 3); auto|]. intros g Y Hg. apply (neo_rotation 3 _ _ _ Q); auto; lia.
Qed.

Lemma C81_inverted_pf : forall s q elem dou xs us E V t,
  (element_ok 2 s q elem xs -> nodes_ok 2 elem us ->
     (exists Hu g, gradients s q (nodal elem xs) 2 (nodal elem us) Hu /\ (g < q_n q)%nat /\ detd 2 (defgrad (Hu (pt q g))) <= 0) ->
     forall v, PlaneStrainStiffnessUpdatedLagrange s q elem dou xs us E V t <> Ok v) /\
  (element_ok 3 s q elem xs -> nodes_ok 3 elem us ->
     (exists Hu g, gradients s q (nodal elem xs) 3 (nodal elem us) Hu /\ (g < q_n q)%nat /\ detd 3 (defgrad (Hu (pt q g))) <= 0) ->
     forall v, SolidUpdatedLagrange s q elem dou xs us E V <> Ok v).
Proof.
  intros s q elem dou xs us E V t. split; intros He Hu (Hg0 & g & GG & Hg & Hneg).
  - assert (HP : detd 2 (defgrad (gradU s (nodal elem xs) (pt q g) (nodal elem us))) <= 0).
    { rewrite (detd_ext 2 _ (defgrad (Hg0 (pt q g))) ltac:(lia)); auto. intros i j Hi Hj. unfold defgrad. f_equal. apply (gradients_eq s q elem xs 2 2); auto. }
    unfold PlaneStrainStiffnessUpdatedLagrange. intros v. apply bind_never_r. intros _. apply bind_never_r. intros ne.
    destruct (node_mat_ok 2 elem xs ltac:(apply He)) as (X & EX & HX). rewrite EX. cbn [bind].
    destruct (node_mat_ok 2 elem us Hu) as (U & EU & HUm). rewrite EU. cbn [bind].
    destruct (cur_mat 2 elem xs us X U HX HUm) as (xm & Exm & Hxm). rewrite Exm. cbn [bind].
    apply bind_never_r. intros mu0. apply bind_never_r. intros l0. apply bind_never.
    apply (foldM_never _ _ g); [apply in_seq; lia|]. intros (K & F0) v'. cbv beta iota.
    destruct (spatial_ok 2 s q elem xs us He g xm Hg Hxm) as (T & ET & HT). rewrite ET. cbn [bind].
    apply bind_never_r. intros inv. apply bind_never_r. intros dN.
    destruct (defgrad_ok 2 s q elem xs us He ltac:(lia) g X xm Hg HX Hxm) as (T0 & T0i & G0 & G1 & Fm & E1 & E2 & E3 & E4 & E5 & HFm & EdF).
    rewrite E1. cbn [bind]. rewrite E2. cbn [bind]. rewrite E3. cbn [bind]. rewrite E4. cbn [bind]. rewrite E5. cbn [bind]. rewrite EdF. cbn [bind].
    rewrite rlog_fail by exact HP. discriminate.
  - assert (HP : detd 3 (defgrad (gradU s (nodal elem xs) (pt q g) (nodal elem us))) <= 0).
    { rewrite (detd_ext 3 _ (defgrad (Hg0 (pt q g))) ltac:(lia)); auto. intros i j Hi Hj. unfold defgrad. f_equal. apply (gradients_eq s q elem xs 3 3); auto. }
    unfold SolidUpdatedLagrange. intros v. apply bind_never_r. intros _. apply bind_never_r. intros ne.
    destruct (node_mat_ok 3 elem xs ltac:(apply He)) as (X & EX & HX). rewrite EX. cbn [bind].
    destruct (node_mat_ok 3 elem us Hu) as (U & EU & HUm). rewrite EU. cbn [bind].
    destruct (cur_mat 3 elem xs us X U HX HUm) as (xm & Exm & Hxm). rewrite Exm. cbn [bind].
    apply bind_never_r. intros mu0. apply bind_never_r. intros l0. apply bind_never.
    apply (foldM_never _ _ g); [apply in_seq; lia|]. intros (K & F0) v'. cbv beta iota.
    destruct (spatial_ok 3 s q elem xs us He g xm Hg Hxm) as (T & ET & HT). rewrite ET. cbn [bind].
    apply bind_never_r. intros inv. apply bind_never_r. intros dN.
    destruct (defgrad_ok 3 s q elem xs us He ltac:(lia) g X xm Hg HX Hxm) as (T0 & T0i & G0 & G1 & Fm & E1 & E2 & E3 & E4 & E5 & HFm & EdF).
    rewrite E1. cbn [bind]. rewrite E2. cbn [bind]. rewrite E3. cbn [bind]. rewrite E4. cbn [bind]. rewrite E5. cbn [bind]. rewrite EdF. cbn [bind].
    rewrite rlog_fail by exact HP. discriminate.
Qed.

Lemma C39_potential_pf : forall s q elem dou xs us E V t,
  (element_ok 2 s q elem xs -> nodes_ok 2 elem us -> length dou = 2%nat -> (1 - 2 * V) * (1 + V) <> 0 ->
     potential_of 2 s q elem dou xs us (PlaneStrainStiffnessTotalLagrange s q elem dou xs us E V t)
       (svk_energy 2 (lame_lambda E V) (lame_mu E V))) /\
  (element_ok 3 s q elem xs -> nodes_ok 3 elem us -> length dou = 3%nat -> (1 + V) * (1 - 2 * V) <> 0 ->
     potential_of 3 s q elem dou xs us (SolidTotalLagrange s q elem dou xs us E V)
       (svk_energy 3 (lame_lambda E V) (lame_mu E V))).
Proof.
  intros s q elem dou xs us E V t. split; intros He Hu Hd HV.
  - eapply (potential_intro 2); [exact He|lia|intros; now apply svk_energy_ext|apply TL_form; auto|]. intros g Y Hg. apply svk_energy_deriv.
  - eapply (potential_intro 3); [exact He|lia|intros; now apply svk_energy_ext|apply STL_form; auto|]. intros g Y Hg. apply svk_energy_deriv.
Qed.

Lemma C39_rigid_pf : forall s q elem dou xs us E V t,
  (element_ok 2 s q elem xs -> nodes_ok 2 elem us -> length dou = 2%nat -> (1 - 2 * V) * (1 + V) <> 0 -> rotated 2 elem xs us ->
     exists K ne, PlaneStrainStiffnessTotalLagrange s q elem dou xs us E V t = Ok (K, repeat 0 (2 * length elem), ne)) /\
  (element_ok 3 s q elem xs -> nodes_ok 3 elem us -> length dou = 3%nat -> (1 + V) * (1 - 2 * V) <> 0 -> rotated 3 elem xs us ->
     exists K ne, SolidTotalLagrange s q elem dou xs us E V = Ok (K, repeat 0 (3 * length elem), ne)).
Proof.
  intros s q elem dou xs us E V t. split; intros He Hu Hd HV Hrot.
  - destruct (rotated_gradient 2 s q elem xs us He ltac:(lia) Hrot) as (Q & HQ & HD & EQ).
    eapply (zero_residual 2); [apply TL_form; auto|]. intros g Y Hg. apply (svk_rotation 2 _ _ _ Q); auto; lia.
  - destruct (rotated_gradient 3 s q elem xs us He ltac:(lia) Hrot) as (Q & HQ & HD & EQ).
    eapply (zero_residual 3); [apply STL_form; auto|]. intros g Y Hg. apply (svk_rotation 3 _ _ _ Q); auto; lia.
Qed.
