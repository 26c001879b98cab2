(** Follower pressure on a line element. *)
From Coq Require Import List Arith Lia Bool Reals Lra.
From Verif Require Import Res SumR DenseModel DenseR DenseSpec DenseProof DenseMain ShapeModel ShapeMain QuadModel QuadSpec
  ElemModel ElemSpec ElemSpec2 ElemProof ElemProof2 ElemProof3 ElemProof4 LoadSpec LoadProof KrylovProof.
Import ListNotations.
Local Open Scope R_scope.

Lemma dm20 i : ((2 * i) / 2 = i /\ (2 * i) mod 2 = 0)%nat.
Proof. destruct (dm 2 i 0 ltac:(lia)) as (A & B). now rewrite Nat.add_0_r in A, B. Qed.
Lemma dm21 i : ((2 * i + 1) / 2 = i /\ (2 * i + 1) mod 2 = 1)%nat.
Proof. apply (dm 2 i 1). lia. Qed.
Ltac dm2 i := rewrite ?(proj1 (dm20 i)), ?(proj2 (dm20 i)), ?(proj1 (dm21 i)), ?(proj2 (dm21 i)).

Section P.
Variables (n : nat) (N : list R) (dN : mat R) (Nf : nat -> R) (df : nat -> nat -> R).
Hypothesis HN : is_vec N n Nf.
Hypothesis HD : is_mat dN 1 n df.
Lemma pressure_F_ok T Tf : is_mat T 1 2 Tf -> exists F, pressure_F n N T = Ok F /\
  has_lin 2 n F (fun y => bigsum n (fun i => Nf i * y i 1%nat) * Tf 0%nat 0%nat - bigsum n (fun i => Nf i * y i 0%nat) * Tf 0%nat 1%nat).
Proof.
  intros HT. set (g := fun a => nth (a mod 2) [- Nf (a / 2)%nat * Tf 0%nat 1%nat; Nf (a / 2)%nat * Tf 0%nat 0%nat] 0).
  exists (map g (seq 0 (2 * n))). split.
  - unfold pressure_F. apply mapM_seq. intros a Ha.
    rewrite (Rvget _ _ _ _ HN) by (apply divlt; lia). rewrite !(Rget _ _ _ _ _ _ HT) by lia. cbn [bind].
    unfold g. pose proof (lt2 a). destruct (a mod 2)%nat as [|[|k]]; try lia; reflexivity.
  - exists g. split.
    + pose proof (is_vec_of_list (map g (seq 0 (2 * n)))) as A. rewrite map_length, seq_length in A.
      refine (is_vec_ext _ _ _ _ _ A). intros i Hi. rewrite (nth_map_seq g) by auto. reflexivity.
    + intros y. rewrite bigsum_block2, <- !bigsum_scal_r, <- bigsum_minus. apply bigsum_ext; intros i Hi.
      unfold g, dofv. dm2 i. cbn [nth]. ring.
Qed.
Lemma pressure_K_ok : exists K, pressure_K n N dN = Ok K /\
  has_form 2 n K (fun y z =>
    let v u c := bigsum n (fun i => Nf i * u i c) in let d u c := bigsum n (fun i => df 0%nat i * u i c) in
    d y 0%nat * v z 1%nat - v y 0%nat * d z 1%nat + (v y 1%nat * d z 0%nat - d y 1%nat * v z 0%nat)).
Proof.
  set (g := fun a b : nat => let i := (a / 2)%nat in let j := (b / 2)%nat in
     nth (b mod 2) (nth (a mod 2) [[0; df 0%nat i * Nf j - Nf i * df 0%nat j]; [- df 0%nat i * Nf j + Nf i * df 0%nat j; 0]] []) 0).
  unfold pressure_K. destruct (Rmbuild (2 * n) (2 * n) (fun a b =>
    let i := (a / 2)%nat in let j := (b / 2)%nat in
    di <- mget dN 0 i ;; Nj <- vget N j ;; Ni <- vget N i ;; dj <- mget dN 0 j ;;
    ent2 [ [Ok 0;                    Ok (di * Nj - Ni * dj)];
           [Ok (- di * Nj + Ni * dj); Ok 0] ] (a mod 2) (b mod 2)) g) as (K & EK & HK).
  - intros a b Ha Hb. cbv zeta. rewrite !(Rget _ _ _ _ _ _ HD) by (try apply divlt; lia). rewrite !(Rvget _ _ _ _ HN) by (apply divlt; lia). cbn [bind].
    unfold g. pose proof (lt2 a). pose proof (lt2 b). destruct (a mod 2)%nat as [|[|k]]; try lia; destruct (b mod 2)%nat as [|[|k']]; try lia; reflexivity.
  - exists K. split; auto. exists g. split; auto. intros y z. unfold form. cbv zeta.
    rewrite !bigsum_mult. rewrite bigsum_block2, <- !bigsum_minus, <- bigsum_plus. apply bigsum_ext; intros i Hi.
    rewrite !bigsum_block2, <- !bigsum_minus, <- !bigsum_plus. apply bigsum_ext; intros j Hj.
    unfold g. cbv zeta. dm2 i. dm2 j. cbn [nth]. ring.
Qed.
End P.

Lemma pressure_form s q elem dou xs us P t : line_ok s q elem xs -> nodes_ok 2 elem us -> length dou = 2%nat ->
  exists K F ne, PlaneStrainSurfacePressureUpdatedLagrange s q elem dou xs us P t = Ok (K, F, ne) /\ numbered 2 (length elem) dou ne /\
    has_form 2 (length elem) K (fun y z => - quad 1 q (fun p => P * t * ((pressure_work s z y p + pressure_work s y z p) / 2))) /\
    has_lin 2 (length elem) F (fun y => quad 1 q (fun p => P * t * pressure_work s (current elem xs us) y p)).
Proof.
  intros (Hs & Hd & Hl & Hx & Hq) Hu Hdou. unfold PlaneStrainSurfacePressureUpdatedLagrange. rewrite (eqb2 _ _ Hdou). cbn [assert_ bind].
  destruct (nte_of_ok 2 (length elem) dou ltac:(lia)) as (ne & En & Hn). rewrite En. cbn [bind].
  destruct (node_mat_ok 2 elem xs Hx) as (X & EX & HX). rewrite EX. cbn [bind].
  destruct (node_mat_ok 2 elem us Hu) as (U & EU & HU). rewrite EU. cbn [bind].
  destruct (Rmadd _ _ _ _ _ _ HX HU) as (x & Ex & Hxu). rewrite Ex. cbn [bind].
  match goal with |- context [foldM ?b _ _] => set (body := b) end.
  destruct (kf_loop 2 (length elem) q body
    (fun g y z => - (P * t * ((pressure_work s z y (pt q g) + pressure_work s y z (pt q g)) / 2) * wgt 1 q g))
    (fun g y => - (P * t * pressure_work s (current elem xs us) y (pt q g) * wgt 1 q g))) as (K & F & E & HK & HF).
  - intros g K0 F0 KF LF Hg H1 H2. unfold body. rewrite (gpoint_ok 1 q g Hq Hg). cbn [bind]. cbv zeta.
    pose proof (sf_mat_ok s Hs (nth g (q_points q) [])) as HM. rewrite Hd, <- Hl in HM.
    pose proof (N_vec s elem Hs Hl (nth g (q_points q) [])) as HN. change (fun k => nth k (nth g (q_points q) []) 0) with (pt q g) in HN, HM.
    destruct (Rmmul _ _ _ _ _ _ _ HM Hxu) as (T & ET & HT). rewrite ET. cbn [bind].
    destruct (pressure_K_ok _ _ _ _ _ HN HM) as (k & Ek & Hk). rewrite Ek. cbn [bind].
    destruct (pressure_F_ok _ _ _ HN _ _ HT) as (f & Ef & Hf). rewrite Ef. cbn [bind].
    destruct (hf_weigh 1 1 _ _ q g _ _ (le_n 1) Hq Hg (hf_scal _ _ _ _ t (hf_scal _ _ _ _ (1 / 2 * P) Hk))) as (k2 & Ek2 & Hk2). rewrite Ek2. cbn [bind].
    destruct (hf_sub _ _ _ _ _ _ H1 Hk2) as (k3 & Ek3 & Hk3). rewrite Ek3. cbn [bind].
    destruct (hl_weigh 1 1 _ _ q g _ _ (le_n 1) Hq Hg (hl_scal _ _ _ _ t (hl_scal _ _ _ _ P Hf))) as (f2 & Ef2 & Hf2). rewrite Ef2. cbn [bind].
    destruct (hl_add _ _ _ _ _ _ H2 Hf2) as (f3 & Ef3 & Hf3). rewrite Ef3. cbn [bind].
    exists k3, f3. splits; auto.
    + eapply has_form_eq; [|exact Hk3]. intros y z. cbv beta zeta. unfold pressure_work, field_value, tangent. rewrite <- Hl. field.
    + eapply has_lin_eq; [|exact Hf3]. intros y. cbv beta zeta. unfold pressure_work, field_value, tangent, current. rewrite <- Hl. ring.
  - rewrite E. cbn [bind]. exists K, F, ne. splits; auto.
    + eapply has_form_eq; [|exact HK]. intros y z. cbv beta. rewrite bigsum_opp. f_equal. unfold quad. apply bigsum_ext; intros g _.
      change (fun k => nth k (nth g (q_points q) []) 0) with (pt q g). unfold wgt. ring.
    + eapply has_lin_eq; [|exact HF]. intros y. cbv beta. rewrite bigsum_opp, Ropp_involutive. unfold quad. apply bigsum_ext; intros g _.
      change (fun k => nth k (nth g (q_points q) []) 0) with (pt q g). unfold wgt. ring.
Qed.
