(** Total Lagrangian routines: forms, residuals and derivatives. *)
From Coq Require Import List Arith Lia Bool Reals Lra.
From Verif Require Import Res SumR DenseModel DenseR DenseSpec DenseProof DenseMain ShapeModel ShapeMain QuadModel QuadSpec ElemModel ElemSpec ElemSpec2 ElemProof ElemProof2 ElemProof3.
Import ListNotations.
Local Open Scope R_scope.

(** loops which update a matrix and a vector *)
Lemma kf_loop m n q (body : mat R * list R -> nat -> res (mat R * list R)) (KF : nat -> field -> field -> R) (LF : nat -> field -> R) :
  (forall g K F0 K0 L0, (g < q_n q)%nat -> has_form m n K K0 -> has_lin m n F0 L0 -> exists K' F', body (K, F0) g = Ok (K', F') /\
     has_form m n K' (fun y z => K0 y z + KF g y z) /\ has_lin m n F' (fun y => L0 y - LF g y)) ->
  exists K F, foldM body (seq 0 (q_n q)) (mnew R_ops (m * n) (m * n), vnew R_ops (m * n)) = Ok (K, F) /\
    has_form m n K (fun y z => bigsum (q_n q) (fun g => KF g y z)) /\ has_lin m n F (fun y => - bigsum (q_n q) (fun g => LF g y)).
Proof.
  intros Hb.
  destruct (loop_inv body (fun i st => has_form m n (fst st) (fun y z => bigsum i (fun g => KF g y z)) /\
     has_lin m n (snd st) (fun y => - bigsum i (fun g => LF g y))) (q_n q) (mnew R_ops (m * n) (m * n), vnew R_ops (m * n))) as ((K & F) & E & H1 & H2).
  - cbn [fst snd bigsum]. split; [apply hf_new|]. eapply has_lin_eq; [|apply hl_new]. intros; cbv beta; ring.
  - intros i (K & F) Hi [H1 H2]. cbn [fst snd] in *. destruct (Hb i K F _ _ Hi H1 H2) as (K' & F' & E & H3 & H4). exists (K', F').
    split; auto. cbn [fst snd bigsum]. split; auto. eapply has_lin_eq; [|exact H4]. intros; cbv beta; ring.
  - exists K, F. auto.
Qed.

Lemma stack2_ok a b c e : exists S, stack2 2 a b c e = Ok S /\
  is_mat S 4 4 (fun i j => if (i mod 2 =? j mod 2)%nat then nth (i / 2 * 2 + j / 2) [a; b; c; e] 0 else 0).
Proof.
  unfold stack2. destruct (Rmid 2) as (M & EM & HM). rewrite EM. cbn [bind].
  destruct (C19_reshape_pf R R_ops (mscal R_ops a M) 2 2 _ (Rmscal a _ _ _ _ HM)) as (_ & _ & HS & _).
  destruct (HS (mscal R_ops b M) 2%nat _ (Rmscal b _ _ _ _ HM)) as (r0 & E0 & H0). rewrite E0. cbn [bind].
  destruct (C19_reshape_pf R R_ops (mscal R_ops c M) 2 2 _ (Rmscal c _ _ _ _ HM)) as (_ & _ & HS' & _).
  destruct (HS' (mscal R_ops e M) 2%nat _ (Rmscal e _ _ _ _ HM)) as (r1 & E1 & H1). rewrite E1. cbn [bind].
  destruct (C19_reshape_pf R R_ops r0 2 _ _ H0) as (_ & HV & _). destruct (HV r1 2%nat _ H1) as (S & ES & HS2). exists S. split; auto.
  eapply is_mat_ext; [|exact HS2]. intros i j Hi Hj.
  destruct i as [|[|[|[|i]]]]; try lia; destruct j as [|[|[|[|j]]]]; try lia; cbn; ring.
Qed.

(** Z, F and the Green-Lagrange strain *)
Lemma displacement_gradient d n G Gf U u : is_mat G d n Gf -> is_mat U n d u ->
  exists dU Z F, mmul R_ops G U = Ok dU /\ mtrans R_ops dU = Ok Z /\ (id <- midentity R_ops d ;; madd R_ops id Z) = Ok F /\
    is_mat Z d d (fun i j => grd n Gf u j i) /\ is_mat F d d (defgrad (grd n Gf u)).
Proof.
  intros HG HU. destruct (Rmmul _ _ _ _ _ _ _ HG HU) as (dU & E1 & H1). destruct (Rmtrans _ _ _ _ H1) as (Z & E2 & H2).
  destruct (Rmid d) as (M & E3 & H3). destruct (Rmadd _ _ _ _ _ _ H3 H2) as (F & E4 & H4).
  exists dU, Z, F. rewrite E3. cbn [bind]. splits; auto.
Qed.
Lemma green_ok d Z H : is_mat Z d d (fun i j => H j i) -> exists Em, green_lagrange Z = Ok Em /\ is_mat Em d d (green d H).
Proof.
  intros HZ. unfold green_lagrange. destruct (Rmtrans _ _ _ _ HZ) as (Zt & E1 & H1). rewrite E1. cbn [bind].
  destruct (Rmmul _ _ _ _ _ _ _ H1 HZ) as (P & E2 & H2). rewrite E2. cbn [bind].
  destruct (Rmadd _ _ _ _ _ _ HZ H1) as (A & E3 & H3). rewrite E3. cbn [bind].
  destruct (Rmadd _ _ _ _ _ _ H3 H2) as (B & E4 & H4). rewrite E4. cbn [bind].
  destruct (Rmdivs B _ _ _ 2 ltac:(lra) H4) as (C & E5 & H5). exists C. split; auto.
  eapply is_mat_ext; [|exact H5]. intros i j Hi Hj. cbv beta. unfold green, defgrad, kron.
  rewrite (bigsum_ext d (fun c => ((if (c =? i)%nat then 1 else 0) + H i c) * ((if (c =? j)%nat then 1 else 0) + H j c))
    (fun c => (if (i =? c)%nat then 1 else 0) * (if (c =? j)%nat then 1 else 0) + (if (i =? c)%nat then 1 else 0) * H j c
      + ((if (j =? c)%nat then 1 else 0) * H i c + H i c * H j c))).
  - rewrite !bigsum_plus. rewrite (bigsum_ite d i (fun c => if (c =? j)%nat then 1 else 0)), (bigsum_ite d i (H j)), (bigsum_ite d j (H i)) by auto. field.
  - intros c _. rewrite (Nat.eqb_sym c i), (Nat.eqb_sym c j). ring.
Qed.

Lemma voigt2F_pull H Y i : voigt2F (defgrad H) Y i = voigt2 (fun a b => bigsum 2 (fun c => defgrad H c a * Y b c)) i.
Proof. destruct i as [|[|i]]; cbn [voigt2F voigt2 bigsum]; ring. Qed.

Lemma hooke_sym_ d l m e f : hooke d l m e f = hooke d l m f e.
Proof.
  unfold hooke. assert (ddot d e f = ddot d f e) as ->; [|ring].
  unfold ddot. apply bigsum_ext; intros i _. apply bigsum_ext; intros j _. ring.
Qed.

Section TL.
Variables (s : shape) (q : rule) (elem dou : list nat) (xs us : list (list R)) (E V t : R).
Let x := nodal elem xs.
Let u := nodal elem us.
Let n := length elem.
Notation HU g := (gradU s x (pt q g) u).

Lemma TL_form : element_ok 2 s q elem xs -> nodes_ok 2 elem us -> length dou = 2%nat -> (1 - 2 * V) * (1 + V) <> 0 ->
  exists K F ne, PlaneStrainStiffnessTotalLagrange s q elem dou xs us E V t = Ok (K, F, ne) /\ numbered 2 n dou ne /\
    has_form 2 n K (fun y z => quad 2 q (fun r => jac s x r * svk_tangent 2 (lame_lambda E V) (lame_mu E V) (gradU s x r u) (gradU s x r y) (gradU s x r z))) /\
    has_lin 2 n F (fun y => - quad 2 q (fun r => jac s x r * svk_work 2 (lame_lambda E V) (lame_mu E V) (gradU s x r u) (gradU s x r y))).
Proof.
  intros He Hu Hdou HV. unfold PlaneStrainStiffnessTotalLagrange. rewrite (eqb2 _ _ Hdou). cbn [assert_ bind].
  destruct (nte_of_ok 2 (length elem) dou ltac:(lia)) as (ne & En & Hn). rewrite En. cbn [bind].
  destruct (node_mat_ok 2 elem xs ltac:(apply He)) as (X & EX & HX). rewrite EX. cbn [bind].
  destruct (node_mat_ok 2 elem us Hu) as (U & EU & HUm). rewrite EU. cbn [bind].
  destruct (D_strain_ok E V HV) as (D & Df & ED & HD & FD). rewrite ED. cbn [bind].
  match goal with |- context [foldM ?body (seq 0 (q_n q)) _] => set (bd := body) end.
  destruct (kf_loop 2 (length elem) q bd
    (fun g y z => svk_tangent 2 (lame_lambda E V) (lame_mu E V) (HU g) (gradU s x (pt q g) y) (gradU s x (pt q g) z) * jac s x (pt q g) * wgt 2 q g)
    (fun g y => svk_work 2 (lame_lambda E V) (lame_mu E V) (HU g) (gradU s x (pt q g) y) * jac s x (pt q g) * wgt 2 q g)) as (K & F & EK & HK & HF).
  - intros g K F0 K0 L0 Hg HK0 HL0. unfold bd.
    destruct (gradient_ok 2 s q elem xs He g X ltac:(lia) Hg HX) as (G & EG & HG). rewrite EG. cbn [bind].
    set (J := jac s (nodal elem xs) (pt q g)).
    destruct (displacement_gradient 2 _ _ _ _ _ HG HUm) as (dU & Z & Fm & E1 & E2 & E3 & HZ & HFm).
    rewrite E1. cbn [bind]. rewrite E2. cbn [bind].
    destruct (midentity R_ops 2) as [id|]; [|discriminate]. cbn [bind] in *. rewrite E3. cbn [bind].
    destruct (plane_BL_ok _ _ _ _ _ HG HFm) as (BL & EBL & HBL). rewrite EBL. cbn [bind].
    destruct (hf_atdb _ _ _ _ _ _ _ _ _ _ HBL HD HBL) as (k & Ek & Hk). rewrite Ek. cbn [bind].
    destruct (hf_weigh 2 2 _ _ q g _ _ (le_n 2) ltac:(apply He) Hg (hf_scal _ _ _ _ J Hk)) as (k1 & Ek1 & Hk1). rewrite Ek1. cbn [bind].
    destruct (hf_add _ _ _ _ _ _ HK0 Hk1) as (K1 & EK1 & HK1). rewrite EK1. cbn [bind].
    destruct (green_ok 2 Z _ HZ) as (Em & EEm & HEm). rewrite EEm. cbn [bind].
    rewrite !(Rget Em 2 2 _ _ _ HEm) by lia. cbn [bind].
    set (gr := green 2 (grd (length elem) (gradN s (nodal elem xs) (pt q g)) (nodal elem us))) in *.
    destruct (Rmmulv D _ _ _ _ _ HD (is_vec_of_list [gr 0%nat 0%nat; gr 1%nat 1%nat; gr 0%nat 1%nat + gr 1%nat 0%nat])) as (Sv & ESv & HSv).
    rewrite ESv. cbn [bind length] in *.
    destruct (plane_BNL_ok _ _ _ HG) as (BNL & EBNL & HBNL). rewrite EBNL. cbn [bind].
    rewrite !(Rvget Sv 3 _ _ HSv) by lia. cbn [bind].
    match goal with |- context [stack2 2 ?a ?b ?c ?e] => destruct (stack2_ok a b c e) as (S & ES & HS) end. rewrite ES. cbn [bind].
    destruct (hf_atdb _ _ _ _ _ _ _ _ _ _ HBNL HS HBNL) as (k2 & Ek2 & Hk2). rewrite Ek2. cbn [bind].
    destruct (hf_weigh 2 2 _ _ q g _ _ (le_n 2) ltac:(apply He) Hg (hf_scal _ _ _ _ J Hk2)) as (k3 & Ek3 & Hk3). rewrite Ek3. cbn [bind].
    destruct (hf_add _ _ _ _ _ _ HK1 Hk3) as (K2 & EK2 & HK2). rewrite EK2. cbn [bind].
    destruct (hl_atv _ _ _ _ _ _ _ HBL HSv) as (BLt & f & EBLt & Ef & Hf). rewrite EBLt. cbn [bind]. rewrite Ef. cbn [bind].
    destruct (hl_weigh 2 2 _ _ q g _ _ (le_n 2) ltac:(apply He) Hg (hl_scal _ _ _ _ J Hf)) as (f1 & Ef1 & Hf1). rewrite Ef1. cbn [bind].
    destruct (hl_sub _ _ _ _ _ _ HL0 Hf1) as (F2 & EF2 & HF2). rewrite EF2. cbn [bind].
    exists K2, F2. split; [reflexivity|].
    assert (EE : forall z l c, grd (length elem) (gradN s (nodal elem xs) (pt q g)) z l c = gradU s x (pt q g) z l c)
      by (intros; apply (grd_gradU s elem xs 2 q); auto).
    assert (EV2 : forall i, (i < 3)%nat -> nth i [gr 0%nat 0%nat; gr 1%nat 1%nat; gr 0%nat 1%nat + gr 1%nat 0%nat] 0 = voigt2 gr i).
    { intros i Hi. destruct i as [|[|[|i]]]; try lia; cbn [nth voigt2]; ring. }
    assert (Egr : forall a b, gr a b = green 2 (HU g) a b).
    { intros a b. unfold gr, green, defgrad. cbn [bigsum]. now rewrite !EE. }
    assert (Esg : forall a b, strain gr a b = green 2 (HU g) a b).
    { intros a b. unfold strain. rewrite !Egr. unfold green, kron. rewrite (Nat.eqb_sym b a). cbn [bigsum]. field. }
    assert (ES3 : forall W, bigsum 3 (fun i => voigt2 W i * bigsum 3 (fun j => Df i j * nth j [gr 0%nat 0%nat; gr 1%nat 1%nat; gr 0%nat 1%nat + gr 1%nat 0%nat] 0)) =
       hooke 2 (lame_lambda E V) (lame_mu E V) (green 2 (HU g)) (strain W)).
    { intros W. rewrite hooke_sym_. rewrite <- (hooke_ext 2 _ _ (strain W) (strain W) (strain gr) (green 2 (HU g))) by auto.
      rewrite <- (proj1 (FD W gr)). unfold quad_form3. apply bigsum_ext; intros i Hi. rewrite <- bigsum_scal. apply bigsum_ext; intros j Hj. rewrite EV2 by auto. ring. }
    split.
    + eapply has_form_eq; [|exact HK2]. intros y z. cbv beta. unfold svk_tangent. fold J. rewrite Rplus_assoc, <- !Rmult_plus_distr_r. f_equal. change (jac s x (pt q g)) with J. do 3 f_equal.
      * unfold dgreen. rewrite <- (proj1 (FD _ _)). unfold quad_form3. apply bigsum_ext; intros i _. apply bigsum_ext; intros j _.
        f_equal; [f_equal|]; rewrite <- voigt2F_pull; destruct i as [|[|i]], j as [|[|j]]; cbn [voigt2F]; unfold defgrad; now rewrite ?EE.
      * unfold ddgreen. rewrite <- ES3. cbn [bigsum nth Nat.div Nat.modulo Nat.divmod fst snd Nat.sub Nat.eqb Nat.mul Nat.add voigt2]. rewrite !EE. ring.
    + eapply has_lin_eq; [|exact HF2]. intros y. cbv beta. change (jac s x (pt q g)) with J. do 3 f_equal. unfold svk_work, dgreen. rewrite <- ES3.
      apply bigsum_ext; intros i _. f_equal. rewrite <- voigt2F_pull. destruct i as [|[|i]]; cbn [voigt2F]; unfold defgrad; now rewrite ?EE.
  - rewrite EK. cbn [bind]. exists K, F, ne. splits; auto.
    + eapply has_form_eq; [|exact HK]. intros y z. cbv beta. unfold quad. apply bigsum_ext; intros g _. unfold wgt. fold (pt q g). ring.
    + eapply has_lin_eq; [|exact HF]. intros y. cbv beta. f_equal. unfold quad. apply bigsum_ext; intros g _. unfold wgt. fold (pt q g). ring.
Qed.
End TL.

Lemma stack3_ok a : exists S, stack3 a = Ok S /\ is_mat S 9 9 (fun i j => if (i mod 3 =? j mod 3)%nat then a (i / 3)%nat (j / 3)%nat else 0).
Proof.
  unfold stack3. destruct (Rmid 3) as (M & EM & HM). rewrite EM. cbn [bind].
  assert (HR : forall i, exists r, (h <- mhstack R_ops (mscal R_ops (a i 1%nat) M) (mscal R_ops (a i 2%nat) M) ;; mhstack R_ops (mscal R_ops (a i 0%nat) M) h) = Ok r /\
     is_mat r 3 9 (fun k j => if (k =? j mod 3)%nat then a i (j / 3)%nat else 0)).
  { intros i. destruct (C19_reshape_pf R R_ops _ 3 3 _ (Rmscal (a i 1%nat) _ _ _ _ HM)) as (_ & _ & HS & _).
    destruct (HS (mscal R_ops (a i 2%nat) M) 3%nat _ (Rmscal (a i 2%nat) _ _ _ _ HM)) as (h & E0 & H0). rewrite E0. cbn [bind].
    destruct (C19_reshape_pf R R_ops _ 3 3 _ (Rmscal (a i 0%nat) _ _ _ _ HM)) as (_ & _ & HS' & _).
    destruct (HS' h _ _ H0) as (r & E1 & H1). exists r. split; auto. eapply is_mat_ext; [|exact H1]. intros k j Hk Hj.
    do 3 (destruct k as [|k]; [do 9 (destruct j as [|j]; [cbn; ring|]); lia|]). lia. }
  destruct (HR 1%nat) as (r1 & E1 & H1). destruct (HR 2%nat) as (r2 & E2 & H2). destruct (HR 0%nat) as (r0 & E0 & H0).
  rewrite E1. cbn [bind]. rewrite E2. cbn [bind].
  destruct (C19_reshape_pf R R_ops r1 3 9 _ H1) as (_ & HV & _). destruct (HV r2 3%nat _ H2) as (b & Eb & Hb). rewrite Eb. cbn [bind]. rewrite E0. cbn [bind].
  destruct (C19_reshape_pf R R_ops r0 3 9 _ H0) as (_ & HV' & _). destruct (HV' b _ _ Hb) as (S & ES & HS). exists S. split; auto.
  eapply is_mat_ext; [|exact HS]. intros i j Hi Hj. do 9 (destruct i as [|i]; [reflexivity|]). lia.
Qed.
Lemma voigt3F_pull H Y i : voigt3F (defgrad H) Y i = voigt3 (fun a b => bigsum 3 (fun c => defgrad H c a * Y b c)) i.
Proof. do 5 (destruct i as [|i]; [cbn [voigt3F voigt3 bigsum]; ring|]). cbn [voigt3F voigt3 bigsum]; ring. Qed.
Lemma voigt3F_ext F F' Y Y' i : (forall a b, F a b = F' a b) -> (forall a b, Y a b = Y' a b) -> voigt3F F Y i = voigt3F F' Y' i.
Proof. intros H1 H2. do 5 (destruct i as [|i]; [cbn [voigt3F]; now rewrite ?H1, ?H2|]). cbn [voigt3F]; now rewrite ?H1, ?H2. Qed.
Lemma defgrad_ext H H' : (forall a b, H a b = H' a b) -> forall a b, defgrad H a b = defgrad H' a b.
Proof. intros E a b. unfold defgrad. now rewrite E. Qed.
Lemma green_ext d H H' : (forall a b, H a b = H' a b) -> forall a b, green d H a b = green d H' a b.
Proof. intros E a b. unfold green. do 2 f_equal. apply bigsum_ext. intros. now rewrite !(defgrad_ext _ _ E). Qed.
Lemma green_sym d H a b : green d H a b = green d H b a.
Proof. unfold green, kron. rewrite (Nat.eqb_sym b a). do 2 f_equal. apply bigsum_ext. intros. ring. Qed.

Section STL.
Variables (s : shape) (q : rule) (elem dou : list nat) (xs us : list (list R)) (E V : R).
Let x := nodal elem xs.
Let u := nodal elem us.
Let n := length elem.
Notation HU g := (gradU s x (pt q g) u).

Lemma STL_form : element_ok 3 s q elem xs -> nodes_ok 3 elem us -> length dou = 3%nat -> (1 + V) * (1 - 2 * V) <> 0 ->
  exists K F ne, SolidTotalLagrange s q elem dou xs us E V = Ok (K, F, ne) /\ numbered 3 n dou ne /\
    has_form 3 n K (fun y z => quad 3 q (fun r => jac s x r * svk_tangent 3 (lame_lambda E V) (lame_mu E V) (gradU s x r u) (gradU s x r y) (gradU s x r z))) /\
    has_lin 3 n F (fun y => - quad 3 q (fun r => jac s x r * svk_work 3 (lame_lambda E V) (lame_mu E V) (gradU s x r u) (gradU s x r y))).
Proof.
  intros He Hu Hdou HV. unfold SolidTotalLagrange. rewrite (eqb2 _ _ Hdou). cbn [assert_ bind].
  destruct (nte_of_ok 3 (length elem) dou ltac:(lia)) as (ne & En & Hn). rewrite En. cbn [bind].
  destruct (node_mat_ok 3 elem xs ltac:(apply He)) as (X & EX & HX). rewrite EX. cbn [bind].
  destruct (node_mat_ok 3 elem us Hu) as (U & EU & HUm). rewrite EU. cbn [bind].
  destruct (C_solid_ok E V HV) as (D & Df & ED & HD & FD). rewrite ED. cbn [bind].
  match goal with |- context [foldM ?body (seq 0 (q_n q)) _] => set (bd := body) end.
  destruct (kf_loop 3 (length elem) q bd
    (fun g y z => svk_tangent 3 (lame_lambda E V) (lame_mu E V) (HU g) (gradU s x (pt q g) y) (gradU s x (pt q g) z) * jac s x (pt q g) * wgt 3 q g)
    (fun g y => svk_work 3 (lame_lambda E V) (lame_mu E V) (HU g) (gradU s x (pt q g) y) * jac s x (pt q g) * wgt 3 q g)) as (K & F & EK & HK & HF).
  - intros g K F0 K0 L0 Hg HK0 HL0. unfold bd.
    destruct (gradient_ok 3 s q elem xs He g X ltac:(lia) Hg HX) as (G & EG & HG). rewrite EG. cbn [bind].
    set (J := jac s (nodal elem xs) (pt q g)).
    destruct (displacement_gradient 3 _ _ _ _ _ HG HUm) as (dU & Z & Fm & E1 & E2 & E3 & HZ & HFm).
    rewrite E1. cbn [bind]. rewrite E2. cbn [bind].
    destruct (midentity R_ops 3) as [id|]; [|discriminate]. cbn [bind] in *. rewrite E3. cbn [bind].
    destruct (solid_BL_ok _ _ _ _ _ HG HFm) as (BL & EBL & HBL). rewrite EBL. cbn [bind].
    destruct (hf_atdb _ _ _ _ _ _ _ _ _ _ HBL HD HBL) as (k & Ek & Hk). rewrite Ek. cbn [bind].
    destruct (hf_weigh 3 3 _ _ q g _ _ (le_n 3) ltac:(apply He) Hg (hf_scal _ _ _ _ J Hk)) as (k1 & Ek1 & Hk1). rewrite Ek1. cbn [bind].
    destruct (hf_add _ _ _ _ _ _ HK0 Hk1) as (K1 & EK1 & HK1). rewrite EK1. cbn [bind].
    destruct (green_ok 3 Z _ HZ) as (Em & EEm & HEm). rewrite EEm. cbn [bind].
    rewrite !(Rget Em 3 3 _ _ _ HEm) by lia. cbn [bind].
    set (gr := green 3 (grd (length elem) (gradN s (nodal elem xs) (pt q g)) (nodal elem us))) in *.
    match goal with |- context [mmulv R_ops D ?l] => remember l as ev eqn:Eev; assert (Hev : is_vec ev 6 (voigt3 gr)) end.
    { rewrite Eev. eapply is_vec_ext; [|apply is_vec_of_list]. intros i Hi. cbn [length] in Hi.
      do 6 (destruct i as [|i]; [cbn [nth voigt3]; ring|]). lia. }
    destruct (Rmmulv D _ _ _ _ _ HD Hev) as (Sv & ESv & HSv).
    rewrite ESv. cbn [bind].
    destruct (solid_BNL_ok _ _ _ HG) as (BNL & EBNL & HBNL). rewrite EBNL. cbn [bind].
    rewrite !(Rvget Sv 6 _ _ HSv) by lia. cbn [bind].
    match goal with |- context [stack3 ?a] => destruct (stack3_ok a) as (S & ES & HS) end. rewrite ES. cbn [bind].
    destruct (hf_atdb _ _ _ _ _ _ _ _ _ _ HBNL HS HBNL) as (k2 & Ek2 & Hk2). rewrite Ek2. cbn [bind].
    destruct (hf_weigh 3 3 _ _ q g _ _ (le_n 3) ltac:(apply He) Hg (hf_scal _ _ _ _ J Hk2)) as (k3 & Ek3 & Hk3). rewrite Ek3. cbn [bind].
    destruct (hf_add _ _ _ _ _ _ HK1 Hk3) as (K2 & EK2 & HK2). rewrite EK2. cbn [bind].
    destruct (hl_atv _ _ _ _ _ _ _ HBL HSv) as (BLt & f & EBLt & Ef & Hf). rewrite EBLt. cbn [bind]. rewrite Ef. cbn [bind].
    destruct (hl_weigh 3 3 _ _ q g _ _ (le_n 3) ltac:(apply He) Hg (hl_scal _ _ _ _ J Hf)) as (f1 & Ef1 & Hf1). rewrite Ef1. cbn [bind].
    destruct (hl_sub _ _ _ _ _ _ HL0 Hf1) as (F2 & EF2 & HF2). rewrite EF2. cbn [bind].
    exists K2, F2. split; [reflexivity|].
    assert (EE : forall z l c, grd (length elem) (gradN s (nodal elem xs) (pt q g)) z l c = gradU s x (pt q g) z l c)
      by (intros; apply (grd_gradU s elem xs 3 q); auto).
    assert (Esg : forall a b, strain gr a b = green 3 (HU g) a b).
    { intros a b. unfold strain, gr. rewrite !(green_ext 3 _ (HU g) (EE u)), (green_sym 3 _ b a). field. }
    assert (ES3 : forall W, bigsum 6 (fun i => voigt3 W i * bigsum 6 (fun j => Df i j * voigt3 gr j)) =
       hooke 3 (lame_lambda E V) (lame_mu E V) (green 3 (HU g)) (strain W)).
    { intros W. rewrite hooke_sym_. rewrite <- (hooke_ext 3 _ _ (strain W) (strain W) (strain gr) (green 3 (HU g))) by auto.
      rewrite <- (FD W gr). unfold quad_form6. apply bigsum_ext; intros i Hi. rewrite <- bigsum_scal. apply bigsum_ext; intros j Hj. ring. }
    split.
    + eapply has_form_eq; [|exact HK2]. intros y z. cbv beta. unfold svk_tangent. fold J. rewrite Rplus_assoc, <- !Rmult_plus_distr_r. f_equal. change (jac s x (pt q g)) with J. do 3 f_equal.
      * unfold dgreen. rewrite <- (FD _ _). unfold quad_form6. apply bigsum_ext; intros i _. apply bigsum_ext; intros j _.
        rewrite <- !voigt3F_pull. f_equal; [f_equal|]; apply voigt3F_ext; auto; apply defgrad_ext; auto.
      * unfold ddgreen.
        set (sg := fun i => bigsum 6 (fun j => Df i j * voigt3 gr j)).
        set (A := gradU s x (pt q g) y). set (B := gradU s x (pt q g) z).
        transitivity (bigsum 6 (fun i => voigt3 (fun a b => bigsum 3 (fun c => A a c * B b c)) i * sg i)); [|apply ES3].
        repeat match goal with |- context [bigsum 6 (fun j => Df ?i j * voigt3 gr j)] => change (bigsum 6 (fun j => Df i j * voigt3 gr j)) with (sg i) end.
        cbn [bigsum nth Nat.div Nat.modulo Nat.divmod fst snd Nat.sub Nat.eqb Nat.mul Nat.add voigt3]. rewrite !EE. fold A B. clearbody sg A B. ring.
    + eapply has_lin_eq; [|exact HF2]. intros y. cbv beta. change (jac s x (pt q g)) with J. do 3 f_equal. unfold svk_work, dgreen. rewrite <- ES3.
      apply bigsum_ext; intros i _. f_equal. rewrite <- voigt3F_pull. apply voigt3F_ext; auto; apply defgrad_ext; auto.
  - rewrite EK. cbn [bind]. exists K, F, ne. splits; auto.
    + eapply has_form_eq; [|exact HK]. intros y z. cbv beta. unfold quad. apply bigsum_ext; intros g _. unfold wgt. fold (pt q g). ring.
    + eapply has_lin_eq; [|exact HF]. intros y. cbv beta. f_equal. unfold quad. apply bigsum_ext; intros g _. unfold wgt. fold (pt q g). ring.
Qed.
End STL.

(** hooke is bilinear, and the densities are polynomial along a line *)
Lemma trace_lin d e e' c : trace d (fun i j => e i j + c * e' i j) = trace d e + c * trace d e'.
Proof. unfold trace. rewrite bigsum_plus, bigsum_scal. ring. Qed.
Lemma ddot_lin d e e' c f : ddot d (fun i j => e i j + c * e' i j) f = ddot d e f + c * ddot d e' f.
Proof.
  unfold ddot. rewrite <- bigsum_scal, <- bigsum_plus. apply bigsum_ext; intros i _. rewrite <- bigsum_scal, <- bigsum_plus. apply bigsum_ext; intros j _. ring.
Qed.
Lemma hooke_lin d l m e e' c f : hooke d l m (fun i j => e i j + c * e' i j) f = hooke d l m e f + c * hooke d l m e' f.
Proof. unfold hooke. rewrite trace_lin, ddot_lin. ring. Qed.
Lemma hooke_lin_r d l m e e' c f : hooke d l m f (fun i j => e i j + c * e' i j) = hooke d l m f e + c * hooke d l m f e'.
Proof. rewrite hooke_sym_, hooke_lin, !(hooke_sym_ d l m f). reflexivity. Qed.

Lemma green_line d H Z e a b : green d (fun l c => H l c + e * Z l c) a b = green d H a b + e * (dgreen d H Z a b + e * (ddgreen d Z Z a b / 2)).
Proof.
  unfold green, dgreen, ddgreen, strain.
  rewrite (bigsum_ext d (fun c => defgrad (fun l c0 => H l c0 + e * Z l c0) c a * defgrad (fun l c0 => H l c0 + e * Z l c0) c b)
    (fun c => defgrad H c a * defgrad H c b + (e * (defgrad H c a * Z b c) + e * (defgrad H c b * Z a c)) + e * e * (Z a c * Z b c))).
  - rewrite !bigsum_plus, !bigsum_scal. rewrite (bigsum_ext d (fun c => Z b c * Z a c) (fun c => Z a c * Z b c)) by (intros; ring). field.
  - intros c _. unfold defgrad. ring.
Qed.
Lemma dgreen_line d H Z Y e a b : dgreen d (fun l c => H l c + e * Z l c) Y a b = dgreen d H Y a b + e * ddgreen d Y Z a b.
Proof.
  unfold dgreen, ddgreen, strain.
  rewrite (bigsum_ext d (fun c => defgrad (fun l c0 => H l c0 + e * Z l c0) c a * Y b c) (fun c => defgrad H c a * Y b c + e * (Y b c * Z a c))) by (intros; unfold defgrad; ring).
  rewrite (bigsum_ext d (fun c => defgrad (fun l c0 => H l c0 + e * Z l c0) c b * Y a c) (fun c => defgrad H c b * Y a c + e * (Y a c * Z b c))) by (intros; unfold defgrad; ring).
  rewrite !bigsum_plus, !bigsum_scal. field.
Qed.
Lemma svk_line d l m H Z Y : exists A B, forall e, svk_work d l m (fun i j => H i j + e * Z i j) Y = svk_work d l m H Y + e * svk_tangent d l m H Y Z + e * e * (A + e * B).
Proof.
  exists (hooke d l m (dgreen d H Z) (ddgreen d Y Z) + hooke d l m (fun a b => ddgreen d Z Z a b / 2) (dgreen d H Y)),
    (hooke d l m (fun a b => ddgreen d Z Z a b / 2) (ddgreen d Y Z)). intros e. unfold svk_work, svk_tangent.
  rewrite (hooke_ext d l m _ _ _ _ (fun a b _ _ => green_line d H Z e a b) (fun a b _ _ => dgreen_line d H Z Y e a b)).
  rewrite hooke_lin_r, !hooke_lin. rewrite (hooke_sym_ d l m (dgreen d H Y) (dgreen d H Z)). ring.
Qed.

Lemma cubic_deriv a b A B : derivable_pt_lim (fun e => a + e * b + e * e * (A + e * B)) 0 b.
Proof.
  intros eps He. set (M := Rabs A + Rabs B + 1). pose proof (Rabs_pos A). pose proof (Rabs_pos B).
  assert (Hd : 0 < Rmin 1 (eps / M)). { apply Rmin_pos; [lra|]. apply Rdiv_lt_0_compat; unfold M; lra. }
  exists (mkposreal _ Hd). intros h Hh Hlt. cbn [pos] in Hlt. rewrite Rplus_0_l.
  replace ((a + h * b + h * h * (A + h * B) - (a + 0 * b + 0 * 0 * (A + 0 * B))) / h - b) with (h * (A + h * B)) by (field; auto).
  rewrite Rabs_mult. pose proof (Rmin_l 1 (eps / M)). pose proof (Rmin_r 1 (eps / M)). pose proof (Rabs_pos_lt _ Hh).
  apply Rle_lt_trans with (Rabs h * (Rabs A + Rabs B)).
  - apply Rmult_le_compat_l; [lra|]. eapply Rle_trans; [apply Rabs_triang|]. rewrite Rabs_mult.
    apply Rplus_le_compat_l. rewrite <- (Rmult_1_l (Rabs B)) at 2. apply Rmult_le_compat_r; lra.
  - apply Rlt_le_trans with (Rabs h * M).
    + apply Rmult_lt_compat_l; unfold M; lra.
    + assert (H5 : Rabs h <= eps / M) by lra.
      apply (Rmult_le_compat_r M) in H5; [|unfold M; lra]. unfold Rdiv in H5. rewrite Rmult_assoc, Rinv_l in H5 by (unfold M; lra). lra.
Qed.
Lemma deriv_ext f g b eps : 0 < eps -> (forall e, Rabs e < eps -> f e = g e) -> derivable_pt_lim g 0 b -> derivable_pt_lim f 0 b.
Proof.
  intros He E Hg e1 He1. destruct (Hg e1 He1) as (dl & Hd). assert (H : 0 < Rmin eps dl) by (apply Rmin_pos; [auto|apply cond_pos]).
  exists (mkposreal _ H). intros h Hh Hlt. cbn [pos] in Hlt. pose proof (Rmin_l eps dl). pose proof (Rmin_r eps dl).
  rewrite !E by (rewrite ?Rplus_0_l, ?Rabs_R0; lra). apply Hd; auto. lra.
Qed.
