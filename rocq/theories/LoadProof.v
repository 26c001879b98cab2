(** Load vectors of line and plane elements. *)
From Coq Require Import List Arith Lia Bool Reals Lra.
From Verif Require Import Res SumR DenseModel DenseR DenseSpec DenseProof DenseMain ShapeModel ShapeMain QuadModel QuadSpec
  ElemModel ElemSpec ElemSpec2 ElemProof ElemProof2 ElemProof3 ElemProof4 LoadSpec KrylovProof.
Import ListNotations.
Local Open Scope R_scope.

Lemma list2 (v : list R) f : is_vec v 2 f -> v = [f 0%nat; f 1%nat].
Proof.
  intros H. destruct (is_vec_nth _ _ _ 0 H) as (HL & HN). destruct v as [|a [|b [|c v]]]; try discriminate.
  pose proof (HN 0%nat ltac:(lia)) as A. pose proof (HN 1%nat ltac:(lia)) as B. cbn in A, B. now rewrite A, B.
Qed.
Lemma works_intro m n dou F ne W : numbered m n dou ne -> has_lin m n F W -> works_as m n dou (Ok (F, ne)) W.
Proof. intros Hn (f & Hf & E). exists F, ne, f. splits; auto. Qed.

Section Any.
Variables (s : shape) (elem : list nat) (xs : list (list R)).
Hypothesis Hs : In s all_shapes.
Hypothesis Hl : length elem = sf_n s.
Let x := nodal elem xs.
Let n := length elem.
Lemma N_vec p : is_vec (sf_vec s p) n (shp s (fun k => nth k p 0)).
Proof. unfold n. rewrite Hl. now apply sf_vec_ok. Qed.
Lemma at_point_ok X p : is_mat X n 2 x -> interpolate X (sf_vec s p) = Ok (at_point s x (fun k => nth k p 0)).
Proof.
  intros HX. unfold interpolate. destruct (Rmtrans _ _ _ _ HX) as (T & ET & HT). rewrite ET. cbn [bind].
  destruct (Rmmulv _ _ _ _ _ _ HT (N_vec p)) as (U & EU & HU). rewrite EU. f_equal.
  rewrite (list2 _ _ HU). unfold at_point, field_value. rewrite <- Hl. fold n. f_equal; [|f_equal]; apply bigsum_ext; intros; ring.
Qed.
Lemma dXdr_ok X p : sf_d s = 1%nat -> is_mat X n 2 x -> exists T, mmul R_ops (sf_mat s p) X = Ok T /\
  is_mat T 1 2 (tangent s x (fun k => nth k p 0)).
Proof.
  intros Hd HX. pose proof (sf_mat_ok s Hs p) as HM. rewrite Hd, <- Hl in HM. fold n in HM.
  destruct (Rmmul _ _ _ _ _ _ _ HM HX) as (T & ET & HT). exists T. split; auto.
  eapply is_mat_ext; [|exact HT]. intros i j _ _. unfold tangent, n. now rewrite Hl.
Qed.
Lemma length_ok T p : is_mat T 1 2 (tangent s x p) -> length_element T = Ok (arc s x p).
Proof.
  intros HT. unfold length_element. destruct (Rmtrans _ _ _ _ HT) as (T' & E' & H'). rewrite E'. cbn [bind].
  destruct (Rmmul _ _ _ _ _ _ _ HT H') as (P & EP & HP). rewrite EP. cbn [bind].
  rewrite (Rget _ _ _ _ _ _ HP) by lia. cbn [bind]. unfold arc. do 2 f_equal. cbn [bigsum]. ring.
Qed.
(** N^T f of the plane routines *)
Lemma plane_atv p v : length v = 2%nat -> exists B Bt w, plane_N n (sf_vec s p) = Ok B /\ mtrans R_ops B = Ok Bt /\ mmulv R_ops Bt v = Ok w /\
  has_lin 2 n w (fun y => bigsum 2 (fun c => field_value s (fun k => nth k p 0) y c * nth c v 0)).
Proof.
  intros Hv. destruct (plane_N_ok n _ _ (N_vec p)) as (B & EB & HB).
  pose proof (is_vec_of_list v) as Hv'. rewrite Hv in Hv'.
  destruct (hl_atv _ _ _ _ _ _ _ HB Hv') as (Bt & w & E1 & E2 & H). exists B, Bt, w. splits; auto.
  eapply has_lin_eq; [|exact H]. intros y. cbv beta. apply bigsum_ext; intros c _. unfold field_value, n. now rewrite Hl.
Qed.
Lemma scalar_N p : has_lin 1 n (sf_vec s p) (fun y => field_value s (fun k => nth k p 0) y 0%nat).
Proof.
  eapply has_lin_eq; [|apply (hl_vec _ _ _ (N_vec p))]. intros y. unfold field_value, n. now rewrite Hl.
Qed.
End Any.

Lemma surface_force_works s q elem dou xs f t : line_ok s q elem xs -> length dou = 2%nat ->
  (forall v, length v = 2%nat -> length (f v) = 2%nat) ->
  works_as 2 (length elem) dou (PlaneSurfaceForce s q elem dou xs f t)
    (fun y => quad 1 q (fun p => arc s (nodal elem xs) p * t *
       bigsum 2 (fun c => field_value s p y c * nth c (f (at_point s (nodal elem xs) p)) 0))).
Proof.
  intros (Hs & Hd & Hl & Hx & Hq) Hdou Hf. unfold PlaneSurfaceForce. rewrite (eqb2 _ _ Hdou). cbn [assert_ bind].
  destruct (nte_of_ok 2 (length elem) dou ltac:(lia)) as (ne & En & Hn). rewrite En. cbn [bind].
  destruct (node_mat_ok 2 elem xs Hx) as (X & EX & HX). rewrite EX. cbn [bind].
  match goal with |- context [gaussv q ?b _] => set (body := b) end.
  destruct (hl_gauss0 2 (length elem) q body (fun g y =>
     bigsum 2 (fun c => field_value s (pt q g) y c * nth c (f (at_point s (nodal elem xs) (pt q g))) 0) * arc s (nodal elem xs) (pt q g) * t * wgt 1 q g)) as (F & E & HF).
  - intros g Hg. unfold body. rewrite (gpoint_ok 1 q g Hq Hg). cbn [bind]. cbv zeta.
    rewrite (at_point_ok s elem xs Hs Hl X _ HX). cbn [bind].
    destruct (dXdr_ok s elem xs Hs Hl X (nth g (q_points q) []) Hd HX) as (T & ET & HT). rewrite ET. cbn [bind].
    rewrite (length_ok s elem xs Hl T _ HT). cbn [bind].
    destruct (plane_atv s elem Hs Hl (nth g (q_points q) []) (f (at_point s (nodal elem xs) (pt q g))) (Hf (at_point s (nodal elem xs) (pt q g)) eq_refl)) as (B & Bt & w & E1 & E2 & E3 & Hw).
    rewrite E1. cbn [bind]. rewrite E2. cbn [bind]. change (fun k => nth k (nth g (q_points q) []) 0) with (pt q g) in *. rewrite E3. cbn [bind].
    destruct (hl_weigh 1 1 _ _ q g _ _ (le_n 1) Hq Hg (hl_scal _ _ _ _ t (hl_scal _ _ _ _ (arc s (nodal elem xs) (pt q g)) Hw))) as (v2 & Ev & Hv).
    exists v2. split; auto.
  - rewrite E. cbn [bind]. apply works_intro; auto. eapply has_lin_eq; [|exact HF]. intros y. cbv beta. unfold quad.
    apply bigsum_ext; intros g _. change (fun k => nth k (nth g (q_points q) []) 0) with (pt q g). unfold wgt. ring.
Qed.

Lemma body_force_works s q elem dou xs f t : element_ok 2 s q elem xs -> length dou = 2%nat ->
  (forall v, length v = 2%nat -> length (f v) = 2%nat) ->
  works_as 2 (length elem) dou (PlaneBodyForce s q elem dou xs f t)
    (fun y => quad 2 q (fun p => jac s (nodal elem xs) p * t *
       bigsum 2 (fun c => field_value s p y c * nth c (f (at_point s (nodal elem xs) p)) 0))).
Proof.
  intros He Hdou Hf. destruct He as (Hs & Hd & Hl & Hx & Hq & Hj). assert (He : element_ok 2 s q elem xs) by (unfold element_ok; auto 10).
  unfold PlaneBodyForce. rewrite (eqb2 _ _ Hdou). cbn [assert_ bind].
  destruct (nte_of_ok 2 (length elem) dou ltac:(lia)) as (ne & En & Hn). rewrite En. cbn [bind].
  destruct (node_mat_ok 2 elem xs Hx) as (X & EX & HX). rewrite EX. cbn [bind].
  match goal with |- context [gaussv q ?b _] => set (body := b) end.
  destruct (hl_gauss0 2 (length elem) q body (fun g y =>
     bigsum 2 (fun c => field_value s (pt q g) y c * nth c (f (at_point s (nodal elem xs) (pt q g))) 0) * jac s (nodal elem xs) (pt q g) * t * wgt 2 q g)) as (F & E & HF).
  - intros g Hg. unfold body. rewrite (gpoint_ok 2 q g Hq Hg). cbn [bind]. cbv zeta.
    rewrite (at_point_ok s elem xs Hs Hl X _ HX). cbn [bind].
    destruct (jacobian_ok 2 s q elem xs He g X Hg HX) as (T & ET & _). rewrite ET. cbn [bind].
    destruct (plane_atv s elem Hs Hl (nth g (q_points q) []) (f (at_point s (nodal elem xs) (pt q g))) (Hf (at_point s (nodal elem xs) (pt q g)) eq_refl)) as (B & Bt & w & E1 & E2 & E3 & Hw).
    rewrite E1. cbn [bind]. rewrite E2. cbn [bind]. change (fun k => nth k (nth g (q_points q) []) 0) with (pt q g) in *. rewrite E3. cbn [bind].
    destruct (hl_weigh 2 2 _ _ q g _ _ (le_n 2) Hq Hg (hl_scal _ _ _ _ t (hl_scal _ _ _ _ (jac s (nodal elem xs) (pt q g)) Hw))) as (v2 & Ev & Hv).
    exists v2. split; auto.
  - rewrite E. cbn [bind]. apply works_intro; auto. eapply has_lin_eq; [|exact HF]. intros y. cbv beta. unfold quad.
    apply bigsum_ext; intros g _. change (fun k => nth k (nth g (q_points q) []) 0) with (pt q g). unfold wgt. ring.
Qed.

Lemma surface_flux_works s q elem dou xs f t : line_ok s q elem xs -> length dou = 1%nat ->
  works_as 1 (length elem) dou (HeatTransferSurfaceFlux s q elem dou xs f t)
    (fun y => quad 1 q (fun p => arc s (nodal elem xs) p * t * (f (at_point s (nodal elem xs) p) * field_value s p y 0))).
Proof.
  intros (Hs & Hd & Hl & Hx & Hq) Hdou. unfold HeatTransferSurfaceFlux. rewrite (eqb2 _ _ Hdou). cbn [assert_ bind].
  destruct (nte_of_ok 1 (length elem) dou ltac:(lia)) as (ne & En & Hn). rewrite En. cbn [bind].
  destruct (node_mat_ok 2 elem xs Hx) as (X & EX & HX). rewrite EX. cbn [bind].
  match goal with |- context [gaussv q ?b _] => set (body := b) end.
  destruct (hl_gauss0 1 (length elem) q body (fun g y =>
     field_value s (pt q g) y 0%nat * f (at_point s (nodal elem xs) (pt q g)) * arc s (nodal elem xs) (pt q g) * t * wgt 1 q g)) as (F & E & HF).
  - intros g Hg. unfold body. rewrite (gpoint_ok 1 q g Hq Hg). cbn [bind]. cbv zeta.
    rewrite (at_point_ok s elem xs Hs Hl X _ HX). cbn [bind].
    destruct (dXdr_ok s elem xs Hs Hl X (nth g (q_points q) []) Hd HX) as (T & ET & HT). rewrite ET. cbn [bind].
    rewrite (length_ok s elem xs Hl T _ HT). cbn [bind]. change (fun k => nth k (nth g (q_points q) []) 0) with (pt q g).
    destruct (hl_weigh 1 1 _ _ q g _ _ (le_n 1) Hq Hg (hl_scal _ _ _ _ t (hl_scal _ _ _ _ (arc s (nodal elem xs) (pt q g))
      (hl_scal _ _ _ _ (f (at_point s (nodal elem xs) (pt q g))) (scalar_N s elem Hs Hl (nth g (q_points q) [])))))) as (v2 & Ev & Hv).
    exists v2. split; auto.
  - rewrite Nat.mul_1_l in E. rewrite E. cbn [bind]. apply works_intro; auto. eapply has_lin_eq; [|exact HF]. intros y. cbv beta. unfold quad.
    apply bigsum_ext; intros g _. change (fun k => nth k (nth g (q_points q) []) 0) with (pt q g). unfold wgt. ring.
Qed.

Lemma mapM_nodes elem us : nodes_ok 1 elem us -> exists U, mapM (fun e => v <- rd us e ;; vget v 0) elem = Ok U /\
  is_vec U (length elem) (fun i => nodal elem us i 0).
Proof.
  intros H. exists (map (fun e => nth 0 (nth e us []) 0) elem). split.
  - clear -H. induction elem as [|e l IH]; [reflexivity|]. cbn [mapM map].
    destruct (H e (or_introl eq_refl)) as (A & B). rewrite (rd_nth us e [] A). cbn [bind]. rewrite (Rvget _ _ _ 0 (is_vec_of_list (nth e us []))) by lia. cbn [bind].
    change (mapM _ l) with (mapM (fun e => v <- rd us e ;; vget v 0) l). rewrite IH; [reflexivity|]. intros a Ha. apply H. now right.
  - pose proof (is_vec_of_list (map (fun e => nth 0 (nth e us []) 0) elem)) as A. rewrite map_length in A.
    eapply is_vec_ext; [|exact A]. intros i Hi. unfold nodal.
    rewrite (nth_indep _ 0 (nth 0 (nth O us []) 0)) by now rewrite map_length. now rewrite (map_nth (fun e => nth 0 (nth e us []) 0)).
Qed.

Lemma reaction_works s q elem dou xs us f : element_ok 2 s q elem xs -> nodes_ok 1 elem us -> length dou = 1%nat ->
  works_as 1 (length elem) dou (ReactionDiffusionReaction s q elem dou xs us f)
    (fun y => quad 2 q (fun p => jac s (nodal elem xs) p *
       (f (field_value s p (nodal elem us) 0) [gradU s (nodal elem xs) p (nodal elem us) 0%nat 0%nat; gradU s (nodal elem xs) p (nodal elem us) 1%nat 0%nat]
          * field_value s p y 0))).
Proof.
  intros He Hu Hdou. destruct He as (Hs & Hd & Hl & Hx & Hq & Hj). assert (He : element_ok 2 s q elem xs) by (unfold element_ok; auto 10).
  unfold ReactionDiffusionReaction. rewrite (eqb2 _ _ Hdou). cbn [assert_ bind].
  destruct (nte_of_ok 1 (length elem) dou ltac:(lia)) as (ne & En & Hn). rewrite En. cbn [bind].
  destruct (node_mat_ok 2 elem xs Hx) as (X & EX & HX). rewrite EX. cbn [bind].
  destruct (mapM_nodes elem us Hu) as (U & EU & HU). rewrite EU. cbn [bind].
  match goal with |- context [gaussv q ?b _] => set (body := b) end.
  destruct (hl_gauss0 1 (length elem) q body (fun g y =>
     field_value s (pt q g) y 0%nat * f (field_value s (pt q g) (nodal elem us) 0) [gradU s (nodal elem xs) (pt q g) (nodal elem us) 0%nat 0%nat; gradU s (nodal elem xs) (pt q g) (nodal elem us) 1%nat 0%nat]
       * jac s (nodal elem xs) (pt q g) * wgt 2 q g)) as (F & E & HF).
  - intros g Hg. unfold body. rewrite (gpoint_ok 2 q g Hq Hg). cbn [bind]. cbv zeta.
    destruct (gradient_ok 2 s q elem xs He g X ltac:(lia) Hg HX) as (Gm & EG & HG). rewrite EG. cbn [bind].
    pose proof (N_vec s elem Hs Hl (nth g (q_points q) [])) as HN. change (fun k => nth k (nth g (q_points q) []) 0) with (pt q g) in HN.
    
    assert (Ed : vdot R_ops (sf_vec s (nth g (q_points q) [])) U = Ok (field_value s (pt q g) (nodal elem us) 0)).
    { rewrite (vdot_ok R R_ops _ _ _ _ _ HN HU), gsum_bigsum. f_equal. unfold field_value. now rewrite Hl. }
    rewrite Ed. cbn [bind].
    destruct (Rmmulv _ _ _ _ _ _ HG HU) as (w & Ew & Hw). rewrite Ew. cbn [bind]. rewrite (list2 _ _ Hw).
    replace (bigsum (length elem) (fun i => gradN s (nodal elem xs) (pt q g) 0 i * nodal elem us i 0)) with (gradU s (nodal elem xs) (pt q g) (nodal elem us) 0 0) by (unfold gradU; now rewrite Hl).
    replace (bigsum (length elem) (fun i => gradN s (nodal elem xs) (pt q g) 1 i * nodal elem us i 0)) with (gradU s (nodal elem xs) (pt q g) (nodal elem us) 1 0) by (unfold gradU; now rewrite Hl).
    destruct (hl_weigh 2 2 _ _ q g _ _ (le_n 2) Hq Hg (hl_scal _ _ _ _ (jac s (nodal elem xs) (pt q g))
      (hl_scal _ _ _ _ (f (field_value s (pt q g) (nodal elem us) 0) [gradU s (nodal elem xs) (pt q g) (nodal elem us) 0%nat 0%nat; gradU s (nodal elem xs) (pt q g) (nodal elem us) 1%nat 0%nat])
        (scalar_N s elem Hs Hl (nth g (q_points q) []))))) as (v2 & Ev & Hv).
    exists v2. split; auto.
  - rewrite Nat.mul_1_l in E. rewrite E. cbn [bind]. apply works_intro; auto. eapply has_lin_eq; [|exact HF]. intros y. cbv beta. unfold quad.
    apply bigsum_ext; intros g _. change (fun k => nth k (nth g (q_points q) []) 0) with (pt q g). unfold wgt. ring.
Qed.
