(** Updated Lagrangian routines: forms and residuals. *)
From Coq Require Import List Arith Lia Bool Reals Lra.
From Verif Require Import Res SumR DenseModel DenseR DenseSpec DenseProof DenseMain ShapeModel ShapeMain QuadModel QuadSpec ElemModel ElemSpec ElemSpec2 ElemSpec3 ElemProof ElemProof2 ElemProof3 ElemProof4 ElemProof5.
Import ListNotations.
Local Open Scope R_scope.

Lemma rlog_ok x : 0 < x -> rlog x = Ok (ln x).
Proof. intros H. unfold rlog. destruct (Rlt_dec 0 x); auto. contradiction. Qed.
Lemma rlog_fail x : x <= 0 -> rlog x = Fail DivByZero.
Proof. intros H. unfold rlog. destruct (Rlt_dec 0 x); auto. lra. Qed.

Lemma bind_ok {A B} (v : A) (f : A -> res B) : bind (Ok v) f = f v.
Proof. reflexivity. Qed.

(** the kinematic quantities at one Gauss point *)
Section UL.
Variables (d : nat) (s : shape) (q : rule) (elem : list nat) (xs us : list (list R)).
Hypothesis He : element_ok d s q elem xs.
Hypothesis Hd2 : (2 <= d)%nat.
Let x := nodal elem xs.
Let u := nodal elem us.
Let xc : field := fun i c => x i c + u i c.
Let n := length elem.
Notation HU g := (gradU s x (pt q g) u).

Lemma cur_mat X U : is_mat X n d x -> is_mat U n d u -> exists xm, madd R_ops X U = Ok xm /\ is_mat xm n d xc.
Proof. intros HX HUm. apply (Rmadd _ _ _ _ _ _ HX HUm). Qed.

Lemma spatial_ok g xm : (g < q_n q)%nat -> is_mat xm n d xc -> exists T,
  jacobian s q g xm = Ok (jac s xc (pt q g), T, sf_mat s (nth g (q_points q) [])) /\ is_mat T d d (tangent s xc (pt q g)).
Proof. intros Hg Hx. apply (jacobian_ok' d s q elem xs He g xm xc Hg). destruct He as (_ & _ & HL & _). unfold n in Hx. rewrite HL in Hx. exact Hx. Qed.

Lemma dN_ok g : (g < q_n q)%nat -> is_mat (sf_mat s (nth g (q_points q) [])) d n (dshp s (pt q g)).
Proof. intros Hg. destruct He as (Hs & Hd & HL & Hn & Hq & HJ). subst d. unfold n. rewrite HL. apply (sf_mat_ok s Hs). Qed.

Lemma cur_gradient_ok g T : (g < q_n q)%nat -> jac s xc (pt q g) <> 0 -> is_mat T d d (tangent s xc (pt q g)) -> exists Ti G,
  minv R_ops T = Ok Ti /\ mmul R_ops Ti (sf_mat s (nth g (q_points q) [])) = Ok G /\ is_mat G d n (gradN s xc (pt q g)).
Proof.
  intros Hg HJc HT. pose proof (dN_ok g Hg) as HN. destruct He as (Hs & Hd & HL & Hn & Hq & HJ). pose proof (sf_d_range s Hs). subst d.
  destruct (Rminv (sf_d s) _ _ ltac:(lia) HT HJc) as (Ti & ETi & HTi). destruct (Rmmul _ _ _ _ _ _ _ HTi HN) as (G & EG & HG). exists Ti, G. splits; auto.
Qed.

Lemma defgrad_ok g X xm : (g < q_n q)%nat -> is_mat X n d x -> is_mat xm n d xc -> exists T0 Ti G0 G F,
  mmul R_ops (sf_mat s (nth g (q_points q) [])) X = Ok T0 /\ minv R_ops T0 = Ok Ti /\ mmul R_ops Ti (sf_mat s (nth g (q_points q) [])) = Ok G0 /\
  mmul R_ops G0 xm = Ok G /\ mtrans R_ops G = Ok F /\ is_mat F d d (defgrad (HU g)) /\ mdet R_ops F = Ok (detd d (defgrad (HU g))).
Proof.
  intros Hg HX Hx. pose proof (dN_ok g Hg) as HN. destruct He as (Hs & Hd & HL & Hn & Hq & HJ). pose proof (sf_d_range s Hs). subst d.
  destruct (Rmmul _ _ _ _ _ _ _ HN HX) as (T0 & ET0 & HT0).
  assert (HT : is_mat T0 (sf_d s) (sf_d s) (tangent s x (pt q g))).
  { eapply is_mat_ext; [|exact HT0]. intros. unfold tangent, n. now rewrite HL. }
  destruct (Rminv (sf_d s) _ _ ltac:(lia) HT (HJ g Hg)) as (Ti & ETi & HTi).
  destruct (Rmmul _ _ _ _ _ _ _ HTi HN) as (G0 & EG0 & HG0).
  destruct (Rmmul _ _ _ _ _ _ _ HG0 Hx) as (G & EG & HG).
  destruct (Rmtrans _ _ _ _ HG) as (F & EF & HF).
  assert (HF' : is_mat F (sf_d s) (sf_d s) (defgrad (HU g))).
  { eapply is_mat_ext; [|exact HF]. intros i j Hi Hj. cbv beta.
    rewrite <- (gradU_cur s x u (pt q g) Hs Hd2 (HJ g Hg)) by auto. unfold gradU, gradN, n. rewrite HL. reflexivity. }
  exists T0, Ti, G0, G, F. splits; auto. apply Rdetd; auto; lia.
Qed.
Lemma grd_cur g y l c : (g < q_n q)%nat -> 0 < detd d (defgrad (HU g)) -> (l < d)%nat -> (c < d)%nat ->
  grd n (gradN s xc (pt q g)) y l c = push d (HU g) (gradU s x (pt q g) y) l c.
Proof.
  intros Hg HF Hl Hc. destruct He as (Hs & Hd & HL & Hn & Hq & HJ). subst d.
  rewrite <- (gradU_push s x u (pt q g) Hs Hd2 (HJ g Hg)) by (auto; lra). unfold grd, gradU, n. now rewrite HL.
Qed.
Lemma jac_cur_ok g : (g < q_n q)%nat -> jac s xc (pt q g) = jac s x (pt q g) * detd d (defgrad (HU g)).
Proof. intros Hg. destruct He as (Hs & Hd & HL & Hn & Hq & HJ). subst d. apply jac_cur; auto. Qed.

(** the stress *)
Lemma stress_ok F H la mu : (2 <= d <= 3)%nat -> is_mat F d d (defgrad H) -> detd d (defgrad H) <> 0 ->
  exists Ft P id A S, mtrans R_ops F = Ok Ft /\ mmul R_ops F Ft = Ok P /\ midentity R_ops d = Ok id /\ msub R_ops P id = Ok A /\
    madd R_ops (mscal R_ops (mu / detd d (defgrad H)) A) (mscal R_ops (la * ln (detd d (defgrad H)) / detd d (defgrad H)) id) = Ok S /\
    is_mat S d d (fun a b => kirchhoff d la mu H a b / detd d (defgrad H)).
Proof.
  intros Hr HF HJ. destruct (Rmtrans _ _ _ _ HF) as (Ft & E1 & H1). destruct (Rmmul _ _ _ _ _ _ _ HF H1) as (P & E2 & H2).
  destruct (Rmid d) as (M & E3 & H3). destruct (Rmsub _ _ _ _ _ _ H2 H3) as (A & E4 & H4).
  destruct (Rmadd _ _ _ _ _ _ (Rmscal (mu / detd d (defgrad H)) _ _ _ _ H4) (Rmscal (la * ln (detd d (defgrad H)) / detd d (defgrad H)) _ _ _ _ H3)) as (S & E5 & H5).
  exists Ft, P, M, A, S. splits; auto. eapply is_mat_ext; [|exact H5]. intros i j Hi Hj. cbv beta. unfold kirchhoff, kron. field. auto.
Qed.
End UL.

Definition voigtC3 (l m : R) : list R :=
  [l + 2 * m; l; l; 0; 0; 0;  l; l + 2 * m; l; 0; 0; 0;  l; l; l + 2 * m; 0; 0; 0;  0; 0; 0; m; 0; 0;  0; 0; 0; 0; m; 0;  0; 0; 0; 0; 0; m].
Lemma voigtC3_hooke l m h k : bigsum 6 (fun i => bigsum 6 (fun j => voigt3' h i * nth (i * 6 + j) (voigtC3 l m) 0 * voigt3' k j)) =
  hooke 3 l m (strain h) (strain k).
Proof. unfold voigtC3, hooke, trace, ddot, strain. cbn [bigsum nth Nat.mul Nat.add voigt3' voigt3]. field. Qed.
Lemma stack3_form (S h k : field) : bigsum 9 (fun i => bigsum 9 (fun j => h (i / 3)%nat (i mod 3)%nat *
    (if (i mod 3 =? j mod 3)%nat then nth (j / 3) (nth (i / 3) [[S 0%nat 0%nat; S 0%nat 1%nat; S 0%nat 2%nat]; [S 1%nat 0%nat; S 1%nat 1%nat; S 1%nat 2%nat]; [S 2%nat 0%nat; S 2%nat 1%nat; S 2%nat 2%nat]] []) 0 else 0)
    * k (j / 3)%nat (j mod 3)%nat)) =
  bigsum 3 (fun a => bigsum 3 (fun b => S a b * bigsum 3 (fun c => h a c * k b c))).
Proof. cbn [bigsum nth Nat.div Nat.modulo Nat.divmod fst snd Nat.sub Nat.eqb]. ring. Qed.
Lemma stress_lin3 (S h : field) : (forall a b, S a b = S b a) ->
  bigsum 6 (fun i => voigt3' h i * nth i [S 0%nat 0%nat; S 1%nat 1%nat; S 2%nat 2%nat; S 0%nat 1%nat; S 0%nat 2%nat; S 1%nat 2%nat] 0) =
  bigsum 3 (fun a => bigsum 3 (fun b => S a b * strain h a b)).
Proof. intros Sy. unfold strain. cbn [bigsum nth voigt3' voigt3]. rewrite (Sy 1%nat 0%nat), (Sy 2%nat 0%nat), (Sy 2%nat 1%nat). field. Qed.
Lemma voigt3'_ext h h' i : (forall l c, (l < 3)%nat -> (c < 3)%nat -> h l c = h' l c) -> voigt3' h i = voigt3' h' i.
Proof. intros EE. destruct i as [|[|[|[|[|[|i]]]]]]; cbn [voigt3' voigt3]; rewrite ?EE by lia; reflexivity. Qed.
Lemma hooke_div d l m e f D : D <> 0 -> hooke d (l / D) (m / D) e f * D = hooke d l m e f.
Proof. intros HD. unfold hooke. field. auto. Qed.

Section Point3.
Variables (lam muu J0 : R) (H Yg Zg gy gz : field).
Hypothesis HP : 0 < detd 3 (defgrad H).
Hypothesis Ey : forall l c, (l < 3)%nat -> (c < 3)%nat -> gy l c = push 3 H Yg l c.
Hypothesis Ez : forall l c, (l < 3)%nat -> (c < 3)%nat -> gz l c = push 3 H Zg l c.
Notation dF := (detd 3 (defgrad H)).
Notation S a b := (kirchhoff 3 lam muu H a b / dF).

Lemma point3_C : bigsum 6 (fun i => bigsum 6 (fun j => voigt3' gy i * nth (i * 6 + j) (voigtC3 (lam / dF) ((muu - lam * ln dF) / dF)) 0 * voigt3' gz j)) * dF =
  hooke 3 lam (muu - lam * ln dF) (strain (push 3 H Yg)) (strain (push 3 H Zg)).
Proof.
  rewrite <- (hooke_div 3 lam (muu - lam * ln dF) _ _ dF) by lra. rewrite <- voigtC3_hooke. f_equal.
  apply bigsum_ext; intros i _. apply bigsum_ext; intros j _. rewrite (voigt3'_ext gy _ i Ey), (voigt3'_ext gz _ j Ez). reflexivity.
Qed.
Lemma point3_S : bigsum 9 (fun i => bigsum 9 (fun j => gy (i / 3)%nat (i mod 3)%nat *
    (if (i mod 3 =? j mod 3)%nat then nth (j / 3) (nth (i / 3) [[S 0 0; S 0 1; S 0 2]; [S 1 0; S 1 1; S 1 2]; [S 2 0; S 2 1; S 2 2]] []) 0 else 0)
    * gz (j / 3)%nat (j mod 3)%nat)) * dF =
  bigsum 3 (fun a => bigsum 3 (fun b => kirchhoff 3 lam muu H a b * bigsum 3 (fun c => push 3 H Yg a c * push 3 H Zg b c))).
Proof.
  rewrite (stack3_form (fun a b => S a b) gy gz). rewrite <- bigsum_scal_r. apply bigsum_ext; intros a Ha. rewrite <- bigsum_scal_r. apply bigsum_ext; intros b Hb.
  rewrite (bigsum_ext 3 (fun c => gy a c * gz b c) (fun c => push 3 H Yg a c * push 3 H Zg b c)) by (intros; now rewrite Ey, Ez). field. lra.
Qed.
Lemma point3_f : bigsum 6 (fun i => voigt3' gy i * nth i [S 0 0; S 1 1; S 2 2; S 0 1; S 0 2; S 1 2] 0) * dF = neo_W 3 lam muu H Yg.
Proof.
  rewrite (neo_W_spatial 3 lam muu H) by (try lia; lra).
  assert (Sy : forall a b, S a b = S b a).
  { intros a b. f_equal. unfold kirchhoff, kron. rewrite (Nat.eqb_sym b a). cbn [bigsum]. ring. }
  rewrite (stress_lin3 (fun a b => S a b) gy Sy). rewrite <- bigsum_scal_r. apply bigsum_ext; intros a Ha. rewrite <- bigsum_scal_r. apply bigsum_ext; intros b Hb.
  unfold strain. rewrite !Ey by auto. field. lra.
Qed.
End Point3.

Section UL2.
Variables (s : shape) (q : rule) (elem dou : list nat) (xs us : list (list R)) (E V t : R).
Let x := nodal elem xs.
Let u := nodal elem us.
Let n := length elem.
Notation HU g := (gradU s x (pt q g) u).
Notation la := (lame_lambda E V).
Notation mu := (lame_mu E V).

Lemma lame_code : (1 - 2 * V) * (1 + V) <> 0 -> Rdiv_res (1 / 2 * E) (1 + V) = Ok mu /\ Rdiv_res (2 * mu * V) (1 - 2 * V) = Ok la.
Proof.
  intros HV. assert (1 - 2 * V <> 0) by (intros A; apply HV; rewrite A; ring). assert (1 + V <> 0) by (intros A; apply HV; rewrite A; ring).
  rewrite !Rdiv_res_ok by auto. unfold lame_mu, lame_lambda. split; f_equal; field; auto.
Qed.

Lemma UL_form : element_ok 2 s q elem xs -> nodes_ok 2 elem us -> length dou = 2%nat -> (1 - 2 * V) * (1 + V) <> 0 ->
  (forall g, (g < q_n q)%nat -> 0 < detd 2 (defgrad (HU g))) ->
  exists K F ne, PlaneStrainStiffnessUpdatedLagrange s q elem dou xs us E V t = Ok (K, F, ne) /\ numbered 2 n dou ne /\
    has_form 2 n K (fun y z => quad 2 q (fun r => jac s x r * neo_T 2 la mu (gradU s x r u) (gradU s x r y) (gradU s x r z))) /\
    has_lin 2 n F (fun y => - quad 2 q (fun r => jac s x r * neo_W 2 la mu (gradU s x r u) (gradU s x r y))).
Proof.
  intros He Hu Hdou HV HP. unfold PlaneStrainStiffnessUpdatedLagrange. rewrite (eqb2 _ _ Hdou). cbn [assert_ bind].
  destruct (nte_of_ok 2 (length elem) dou ltac:(lia)) as (ne & En & Hn). rewrite En. cbn [bind].
  destruct (node_mat_ok 2 elem xs ltac:(apply He)) as (X & EX & HX). rewrite EX. cbn [bind].
  destruct (node_mat_ok 2 elem us Hu) as (U & EU & HUm). rewrite EU. cbn [bind].
  destruct (cur_mat 2 elem xs us X U HX HUm) as (xm & Exm & Hxm). rewrite Exm. cbn [bind].
  destruct (lame_code HV) as [Em El]. rewrite Em. cbn [bind]. rewrite El. cbn [bind]. clear Em El.
  set (lam := lame_lambda E V) in *. set (muu := lame_mu E V) in *.
  match goal with |- context [foldM ?body (seq 0 (q_n q)) _] => set (bd := body) end.
  destruct (kf_loop 2 (length elem) q bd
    (fun g y z => neo_T 2 lam muu (HU g) (gradU s x (pt q g) y) (gradU s x (pt q g) z) * jac s x (pt q g) * wgt 2 q g)
    (fun g y => neo_W 2 lam muu (HU g) (gradU s x (pt q g) y) * jac s x (pt q g) * wgt 2 q g)) as (K & F & EK & HK & HF).
  - intros g K F0 K0 L0 Hg HK0 HL0. unfold bd. specialize (HP g Hg).
    assert (HJ0 : jac s x (pt q g) <> 0) by (destruct He as (_ & _ & _ & _ & _ & HJ); now apply HJ).
    destruct (spatial_ok 2 s q elem xs us He g xm Hg Hxm) as (T & ET & HT). rewrite ET. cbn [bind].
    pose proof (jac_cur_ok 2 s q elem xs us He ltac:(lia) g Hg) as EJ. set (J := jac s _ (pt q g)) in ET, EJ |- *.
    assert (HJ : J <> 0) by (rewrite EJ; apply Rmult_integral_contrapositive_currified; [exact HJ0|apply Rgt_not_eq; exact HP]).
    destruct (cur_gradient_ok 2 s q elem xs us He ltac:(lia) g T Hg HJ HT) as (Ti & G & ETi & EG & HG). rewrite ETi. cbn [bind]. rewrite EG. cbn [bind].
    destruct (defgrad_ok 2 s q elem xs us He ltac:(lia) g X xm Hg HX Hxm) as (T0 & T0i & G0 & G1 & Fm & E1 & E2 & E3 & E4 & E5 & HFm & EdF).
    rewrite E1. cbn [bind]. rewrite E2. cbn [bind]. rewrite E3. cbn [bind]. rewrite E4. cbn [bind]. rewrite E5. cbn [bind]. rewrite EdF. cbn [bind].
    change (gradU s (nodal elem xs) (pt q g) (nodal elem us)) with (HU g) in *.
    rewrite (rlog_ok _ HP). cbn [bind]. set (dF := detd 2 (defgrad (HU g))) in *. rewrite !Rdiv_res_ok by lra. cbn [bind].
    destruct (plane_B_ok _ _ _ HG) as (BL & EBL & HBL). rewrite EBL. cbn [bind].
    match goal with |- context [mkMat 3 3 ?l] => pose proof (is_mat_of_list 3 3 l eq_refl) as HD; set (Dl := l) in HD |- *; set (D := mkMat 3 3 Dl) in HD |- * end.
    destruct (hf_atdb _ _ _ _ _ _ _ _ _ _ HBL HD HBL) as (k & Ek & Hk). rewrite Ek. cbn [bind].
    destruct (hf_weigh 2 2 _ _ q g _ _ (le_n 2) ltac:(apply He) Hg (hf_scal _ _ _ _ J Hk)) as (k1 & Ek1 & Hk1). rewrite Ek1. cbn [bind].
    destruct (hf_add _ _ _ _ _ _ HK0 Hk1) as (K1 & EK1 & HK1). rewrite EK1. cbn [bind].
    destruct (stress_ok 2 Fm (HU g) lam muu ltac:(lia) HFm ltac:(fold dF; lra)) as (Ft & P & id & A & S & S1 & S2 & S3 & S4 & S5 & HS).
    rewrite S1. cbn [bind]. rewrite S2. cbn [bind]. rewrite S3. cbn [bind]. rewrite S4. cbn [bind]. fold dF in S5, HS. rewrite S5. cbn [bind].
    destruct (plane_BNL_ok _ _ _ HG) as (BNL & EBNL & HBNL). rewrite EBNL. cbn [bind].
    rewrite !(Rget S 2 2 _ _ _ HS) by lia. cbn [bind].
    match goal with |- context [stack2 2 ?a ?b ?c ?e] => destruct (stack2_ok a b c e) as (S' & ES & HS') end. rewrite ES. cbn [bind].
    destruct (hf_atdb _ _ _ _ _ _ _ _ _ _ HBNL HS' HBNL) as (k2 & Ek2 & Hk2). rewrite Ek2. cbn [bind].
    destruct (hf_weigh 2 2 _ _ q g _ _ (le_n 2) ltac:(apply He) Hg (hf_scal _ _ _ _ J Hk2)) as (k3 & Ek3 & Hk3). rewrite Ek3. cbn [bind].
    destruct (hf_add _ _ _ _ _ _ HK1 Hk3) as (K2 & EK2 & HK2). rewrite EK2. cbn [bind].
    match goal with |- context [mmulv R_ops _ ?l] => pose proof (is_vec_of_list l) as HSv end.
    destruct (hl_atv _ _ _ _ _ _ _ HBL HSv) as (BLt & f & EBLt & Ef & Hf). rewrite EBLt. cbn [bind]. rewrite Ef. cbn [bind].
    destruct (hl_weigh 2 2 _ _ q g _ _ (le_n 2) ltac:(apply He) Hg (hl_scal _ _ _ _ J Hf)) as (f1 & Ef1 & Hf1). rewrite Ef1. cbn [bind].
    destruct (hl_sub _ _ _ _ _ _ HL0 Hf1) as (F2 & EF2 & HF2). rewrite EF2. cbn [bind].
    exists K2, F2. split; [reflexivity|].
    assert (EE : forall z l c, (l < 2)%nat -> (c < 2)%nat ->
      grd (length elem) (gradN s (fun i c => nodal elem xs i c + nodal elem us i c) (pt q g)) z l c = push 2 (HU g) (gradU s x (pt q g) z) l c)
      by (intros; apply (grd_cur 2 s q elem xs us He ltac:(lia) g); auto).
    fold x in EJ. change (detd 2 (defgrad (gradU s x (pt q g) (nodal elem us)))) with dF in EJ.
    split.
    + eapply has_form_eq; [|exact HK2]. intros y z. cbv beta. rewrite Rplus_assoc, <- !Rmult_plus_distr_r. f_equal. f_equal.
      rewrite EJ. rewrite (neo_T_spatial 2 lam muu (HU g)) by (try lia; fold dF; lra). fold dF.
      unfold Dl, hooke, trace, ddot, strain.
      cbn [bigsum nth Nat.div Nat.modulo Nat.divmod fst snd Nat.sub Nat.eqb Nat.mul Nat.add voigt2]. rewrite !EE by lia. field. lra.
    + eapply has_lin_eq; [|exact HF2]. intros y. cbv beta. do 2 f_equal.
      rewrite EJ. rewrite (neo_W_spatial 2 lam muu (HU g)) by (try lia; fold dF; lra).
      assert (Sy : forall a b, kirchhoff 2 lam muu (HU g) a b = kirchhoff 2 lam muu (HU g) b a).
      { intros a b. unfold kirchhoff, kron. rewrite (Nat.eqb_sym b a). cbn [bigsum]. ring. }
      unfold strain. cbn [bigsum nth voigt2]. rewrite (Sy 1%nat 0%nat). rewrite !EE by lia. field. lra.
  - rewrite EK. cbn [bind]. exists K, F, ne. splits; auto.
    + eapply has_form_eq; [|exact HK]. intros y z. cbv beta. unfold quad. apply bigsum_ext; intros g _. unfold wgt. fold (pt q g). ring.
    + eapply has_lin_eq; [|exact HF]. intros y. cbv beta. f_equal. unfold quad. apply bigsum_ext; intros g _. unfold wgt. fold (pt q g). ring.
Qed.
Lemma SUL_form : element_ok 3 s q elem xs -> nodes_ok 3 elem us -> length dou = 3%nat -> (1 + V) * (1 - 2 * V) <> 0 ->
  (forall g, (g < q_n q)%nat -> 0 < detd 3 (defgrad (HU g))) ->
  exists K F ne, SolidUpdatedLagrange s q elem dou xs us E V = Ok (K, F, ne) /\ numbered 3 n dou ne /\
    has_form 3 n K (fun y z => quad 3 q (fun r => jac s x r * neo_T 3 la mu (gradU s x r u) (gradU s x r y) (gradU s x r z))) /\
    has_lin 3 n F (fun y => - quad 3 q (fun r => jac s x r * neo_W 3 la mu (gradU s x r u) (gradU s x r y))).
Proof.
  intros He Hu Hdou HV HP. unfold SolidUpdatedLagrange. rewrite (eqb2 _ _ Hdou). cbn [assert_ bind].
  destruct (nte_of_ok 3 (length elem) dou ltac:(lia)) as (ne & En & Hn). rewrite En. cbn [bind].
  destruct (node_mat_ok 3 elem xs ltac:(apply He)) as (X & EX & HX). rewrite EX. cbn [bind].
  destruct (node_mat_ok 3 elem us Hu) as (U & EU & HUm). rewrite EU. cbn [bind].
  destruct (cur_mat 3 elem xs us X U HX HUm) as (xm & Exm & Hxm). rewrite Exm. cbn [bind].
  destruct (lame_code ltac:(rewrite Rmult_comm; exact HV)) as [Em El]. rewrite Em. cbn [bind]. rewrite El. cbn [bind]. clear Em El.
  set (lam := lame_lambda E V) in *. set (muu := lame_mu E V) in *.
  match goal with |- context [foldM ?body (seq 0 (q_n q)) _] => set (bd := body) end.
  destruct (kf_loop 3 (length elem) q bd
    (fun g y z => neo_T 3 lam muu (HU g) (gradU s x (pt q g) y) (gradU s x (pt q g) z) * jac s x (pt q g) * wgt 3 q g)
    (fun g y => neo_W 3 lam muu (HU g) (gradU s x (pt q g) y) * jac s x (pt q g) * wgt 3 q g)) as (K & F & EK & HK & HF).
  - intros g K F0 K0 L0 Hg HK0 HL0. unfold bd. specialize (HP g Hg).
    assert (HJ0 : jac s x (pt q g) <> 0) by (destruct He as (_ & _ & _ & _ & _ & HJ); now apply HJ).
    destruct (spatial_ok 3 s q elem xs us He g xm Hg Hxm) as (T & ET & HT). rewrite ET. cbn [bind].
    pose proof (jac_cur_ok 3 s q elem xs us He ltac:(lia) g Hg) as EJ. set (J := jac s _ (pt q g)) in ET, EJ |- *.
    assert (HJ : J <> 0) by (rewrite EJ; apply Rmult_integral_contrapositive_currified; [exact HJ0|apply Rgt_not_eq; exact HP]).
    destruct (cur_gradient_ok 3 s q elem xs us He ltac:(lia) g T Hg HJ HT) as (Ti & G & ETi & EG & HG). rewrite ETi. cbn [bind]. rewrite EG. cbn [bind].
    destruct (defgrad_ok 3 s q elem xs us He ltac:(lia) g X xm Hg HX Hxm) as (T0 & T0i & G0 & G1 & Fm & E1 & E2 & E3 & E4 & E5 & HFm & EdF).
    rewrite E1. cbn [bind]. rewrite E2. cbn [bind]. rewrite E3. cbn [bind]. rewrite E4. cbn [bind]. rewrite E5. cbn [bind]. rewrite EdF. cbn [bind].
    change (gradU s (nodal elem xs) (pt q g) (nodal elem us)) with (HU g) in *.
    rewrite (rlog_ok _ HP). cbn [bind]. remember (detd 3 (defgrad (HU g))) as dF eqn:EdF0. pose proof (Rgt_not_eq _ _ HP) as HdF. rewrite !Rdiv_res_ok by exact HdF. cbn [bind].
    match goal with |- context [mkMat 6 6 ?l] => pose proof (is_mat_of_list 6 6 l eq_refl) as HD; remember (mkMat 6 6 l) as D eqn:ED; clear ED end.
    destruct (solid_B2_ok _ _ _ HG) as (BL & EBL & HBL). rewrite EBL. rewrite ?bind_ok.
    destruct (hf_atdb _ _ _ _ _ _ _ _ _ _ HBL HD HBL) as (k & Ek & Hk). rewrite Ek. rewrite ?bind_ok.
    destruct (hf_weigh 3 3 _ _ q g _ _ (le_n 3) ltac:(apply He) Hg (hf_scal _ _ _ _ J Hk)) as (k1 & Ek1 & Hk1). rewrite Ek1. rewrite ?bind_ok.
    destruct (hf_add _ _ _ _ _ _ HK0 Hk1) as (K1 & EK1 & HK1). rewrite EK1. rewrite ?bind_ok.
    destruct (stress_ok 3 Fm (HU g) lam muu ltac:(lia) HFm ltac:(rewrite <- EdF0; exact HdF)) as (Ft & P & id & A & S & S1 & S2 & S3 & S4 & S5 & HS).
    rewrite S1. rewrite ?bind_ok. rewrite S2. rewrite ?bind_ok. rewrite S3. rewrite ?bind_ok. rewrite S4. rewrite ?bind_ok. rewrite <- EdF0 in S5, HS. rewrite S5. rewrite ?bind_ok.
    destruct (solid_BNL_ok _ _ _ HG) as (BNL & EBNL & HBNL). rewrite EBNL. rewrite ?bind_ok.
    rewrite !(Rget S 3 3 _ _ _ HS) by lia. rewrite ?bind_ok.
    match goal with |- context [stack3 ?a] => destruct (stack3_ok a) as (S' & ES & HS') end. rewrite ES. rewrite ?bind_ok.
    destruct (hf_atdb _ _ _ _ _ _ _ _ _ _ HBNL HS' HBNL) as (k2 & Ek2 & Hk2). rewrite Ek2. rewrite ?bind_ok.
    destruct (hf_weigh 3 3 _ _ q g _ _ (le_n 3) ltac:(apply He) Hg (hf_scal _ _ _ _ J Hk2)) as (k3 & Ek3 & Hk3). rewrite Ek3. rewrite ?bind_ok.
    destruct (hf_add _ _ _ _ _ _ HK1 Hk3) as (K2 & EK2 & HK2). rewrite EK2. rewrite ?bind_ok.
    match goal with |- context [mmulv R_ops _ ?l] => pose proof (is_vec_of_list l) as HSv end.
    destruct (hl_atv _ _ _ _ _ _ _ HBL HSv) as (BLt & f & EBLt & Ef & Hf). rewrite EBLt. rewrite ?bind_ok. rewrite Ef. rewrite ?bind_ok.
    destruct (hl_weigh 3 3 _ _ q g _ _ (le_n 3) ltac:(apply He) Hg (hl_scal _ _ _ _ J Hf)) as (f1 & Ef1 & Hf1). rewrite Ef1. rewrite ?bind_ok.
    destruct (hl_sub _ _ _ _ _ _ HL0 Hf1) as (F2 & EF2 & HF2). rewrite EF2. rewrite ?bind_ok.
    exists K2, F2. split; [reflexivity|].
    assert (HP' : 0 < detd 3 (defgrad (HU g))) by (rewrite <- EdF0; exact HP).
    assert (EE : forall z l c, (l < 3)%nat -> (c < 3)%nat ->
      grd (length elem) (gradN s (fun i c => nodal elem xs i c + nodal elem us i c) (pt q g)) z l c = push 3 (HU g) (gradU s x (pt q g) z) l c)
      by (intros; apply (grd_cur 3 s q elem xs us He ltac:(lia) g); auto; exact HP').
    fold x in EJ. change (detd 3 (defgrad (gradU s x (pt q g) (nodal elem us)))) with (detd 3 (defgrad (HU g))) in EJ. try rewrite <- EdF0 in EJ.
    split.
    + eapply has_form_eq; [|exact HK2]. intros y z. cbv beta. rewrite Rplus_assoc, <- !Rmult_plus_distr_r. f_equal. f_equal.
      rewrite EJ. clear - HP EE EdF0. subst dF. rewrite (neo_T_spatial 3 lam muu (HU g)) by (try lia; apply Rgt_not_eq; exact HP).
      rewrite <- (point3_C lam muu (HU g) _ _ _ _ HP (EE y) (EE z)), <- (point3_S lam muu (HU g) _ _ _ _ HP (EE y) (EE z)).
      rewrite (Rmult_comm (jac s x (pt q g)) _), <- Rmult_assoc. f_equal. rewrite Rmult_plus_distr_r. reflexivity.
    + eapply has_lin_eq; [|exact HF2]. intros y. cbv beta. do 2 f_equal.
      rewrite EJ. clear - HP EE EdF0. subst dF. rewrite <- (point3_f lam muu (HU g) _ _ HP (EE y)). rewrite (Rmult_comm (jac s x (pt q g)) _), <- Rmult_assoc. reflexivity.
  - rewrite EK. cbn [bind]. exists K, F, ne. splits; auto.
    + eapply has_form_eq; [|exact HK]. intros y z. cbv beta. unfold quad. apply bigsum_ext; intros g _. unfold wgt. fold (pt q g). ring.
    + eapply has_lin_eq; [|exact HF]. intros y. cbv beta. f_equal. unfold quad. apply bigsum_ext; intros g _. unfold wgt. fold (pt q g). ring.
Qed.
End UL2.
