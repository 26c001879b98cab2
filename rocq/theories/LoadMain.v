(** Properties C82 and C83: distributed loads and follower pressure: the proofs. *)
From Coq Require Import List Arith Lia Bool Reals Lra.
From Verif Require Import Res SumR DenseModel DenseR DenseSpec ShapeModel QuadModel QuadSpec ElemModel ElemSpec ElemSpec2 FlowModel FlowSpec LoadSpec PropElem.
Import ListNotations.
Local Open Scope R_scope.
From Verif Require Import DenseProof DenseMain ShapeMain ElemProof ElemProof2 ElemProof3 ElemProof4 ElemProof5 FlowProof FlowProof2 LoadProof LoadProof2 KrylovProof.

(** constant and rotation fields give the resultants *)
Lemma resultants_of d s q elem dou xs r g : In s all_shapes -> length elem = sf_n s ->
  works_as 2 (length elem) dou r (fun y => quad d q (fun p => bigsum 2 (fun c => field_value s p y c * g p c))) ->
  has_resultants d s q (nodal elem xs) r g.
Proof.
  intros Hs Hl (F & ne & f & E & Hf & Hn & HW). exists F, ne, f. rewrite <- Hl. splits; auto.
  - intros c Hc. unfold total_force. pose proof (HW (fun _ e => if (e =? c)%nat then 1 else 0)) as H. rewrite bigsum_block2 in H.
    rewrite (bigsum_ext _ _ (fun i => f (2 * i + c)%nat)) in H.
    + rewrite H. apply quad_ext. intros k _. unfold field_value.
      assert (A : forall a b, bigsum (sf_n s) (fun i => shp s (pt q k) i * (if (a =? b)%nat then 1 else 0)) = if (a =? b)%nat then 1 else 0).
      { intros a b. rewrite bigsum_scal_r, shp_sum by auto. ring. }
      cbn [bigsum]. rewrite !A. destruct c as [|[|c]]; try lia; cbn [Nat.eqb]; ring.
    + intros i Hi. dm2 i. destruct c as [|[|c]]; try lia; cbn [Nat.eqb]; rewrite ?Nat.add_0_r; ring.
  - unfold total_moment. pose proof (HW (fun i e => match e with O => - nodal elem xs i 1 | _ => nodal elem xs i 0 end)) as H. rewrite bigsum_block2 in H.
    rewrite (bigsum_ext _ _ (fun i => nodal elem xs i 0 * f (2 * i + 1)%nat - nodal elem xs i 1 * f (2 * i)%nat)) in H.
    + rewrite H. apply quad_ext. intros k _. cbn [bigsum].
      replace (field_value s (pt q k) (fun i e => match e with O => - nodal elem xs i 1 | _ => nodal elem xs i 0 end) 0) with (- field_value s (pt q k) (nodal elem xs) 1).
      { unfold field_value at 2. unfold field_value. ring. }
      unfold field_value. rewrite <- bigsum_opp. apply bigsum_ext; intros; ring.
    + intros i Hi. dm2 i. ring.
Qed.
Lemma works_eq m n dou r W W' : (forall y, W y = W' y) -> works_as m n dou r W -> works_as m n dou r W'.
Proof. intros H (F & ne & f & E & Hf & Hn & HW). exists F, ne, f. splits; auto. intros y. now rewrite HW. Qed.

(** the library rules for line elements *)
Lemma line_rule_ok q : In q [Gauss1Line; Gauss2Line] -> rule_ok 1 q.
Proof.
  intros [<-|[<-|[]]]; unfold rule_ok; cbn [q_n q_points q_weights Gauss1Line Gauss2Line length]; splits; try lia; intros g Hg;
    destruct g as [|[|g]]; try lia; cbn; lia.
Qed.
(** both rules are exact for affine functions of the coordinate *)
Lemma quad_affine q f a b : In q [Gauss1Line; Gauss2Line] -> (forall p, f p = a + b * p 0%nat) -> quad 1 q f = 2 * a.
Proof.
  intros Hq H. unfold quad. destruct Hq as [<-|[<-|[]]]; cbn [q_n q_points q_weights Gauss1Line Gauss2Line bigsum nth wprod]; rewrite !H; cbn [nth]; lra.
Qed.
(** the two-point rule is exact for cubics *)
Lemma quad_cubic f a b c d : (forall p, f p = a + b * p 0%nat + c * (p 0%nat * p 0%nat) + d * (p 0%nat * p 0%nat * p 0%nat)) -> quad 1 Gauss2Line f = 2 * a + 2 / 3 * c.
Proof.
  intros H. unfold quad. cbn [q_n q_points q_weights Gauss2Line bigsum nth wprod]. rewrite !H. cbn [nth].
  assert (S : sqrt 3 * sqrt 3 = 3) by (apply sqrt_sqrt; lra). assert (S0 : 0 < sqrt 3) by (apply sqrt_lt_R0; lra).
  replace (- 1 / sqrt 3) with (- (1 / sqrt 3)) by (field; lra). set (k := 1 / sqrt 3).
  assert (K : k * k = 1 / 3). { unfold k. rewrite <- S at 3. field. lra. }
  replace (- k * - k) with (k * k) by ring. rewrite K. lra.
Qed.
Lemma chord2 x p l : tangent sf_2Line x p 0 l = (x 1%nat l - x 0%nat l) / 2.
Proof. unfold tangent, dshp. cbn [sf_2Line sf_n sf_dN dN_2Line bigsum nth]. lra. Qed.
Lemma tang3 x p l : tangent sf_3Line x p 0 l = (x 1%nat l - x 0%nat l) / 2 + p 0%nat * (x 0%nat l + x 1%nat l - 2 * x 2%nat l).
Proof. unfold tangent, dshp. cbn [sf_3Line sf_n sf_dN dN_3Line bigsum nth]. cbv zeta. lra. Qed.
Lemma value2 y p c : field_value sf_2Line p y c = (y 0%nat c + y 1%nat c) / 2 + p 0%nat * ((y 1%nat c - y 0%nat c) / 2).
Proof. unfold field_value, shp. cbn [sf_2Line sf_n sf_N N_2Line bigsum nth]. cbv zeta. lra. Qed.
Lemma value3 y p c : field_value sf_3Line p y c = y 2%nat c + p 0%nat * ((y 1%nat c - y 0%nat c) / 2) + p 0%nat * p 0%nat * ((y 0%nat c + y 1%nat c - 2 * y 2%nat c) / 2).
Proof. unfold field_value, shp. cbn [sf_3Line sf_n sf_N N_3Line bigsum nth]. cbv zeta. nra. Qed.

(** matrix of the Stokes surface routine *)
Lemma stokes_B m n M Mf v : is_vec M m Mf -> length v = 2%nat -> exists B Bt w,
  mbuild R_ops 2 (2 * m + n) (fun r a => let '(c, i) := split m a in ent2 [ [vget M i; Ok 0; Ok 0]; [Ok 0; vget M i; Ok 0] ] r c) = Ok B /\
  mtrans R_ops B = Ok Bt /\ mmulv R_ops Bt v = Ok w /\
  has_mlin (2 * m + n) w (fun y => bigsum 2 (fun c => bigsum m (fun i => Mf i * vel m y i c) * nth c v 0)).
Proof.
  intros HM Hv. set (b := fun r a => if (a <? m)%nat then (if (r =? 0)%nat then Mf a else 0) else if (a <? 2 * m)%nat then (if (r =? 1)%nat then Mf (a - m)%nat else 0) else 0).
  destruct (Rmbuild 2 (2 * m + n) (fun r a => let '(c, i) := split m a in ent2 [ [vget M i; Ok 0; Ok 0]; [Ok 0; vget M i; Ok 0] ] r c) b) as (B & EB & HB).
  { intros r a Hr Ha. unfold split, b. destruct (Nat.ltb_spec a m); [|destruct (Nat.ltb_spec a (2 * m))].
    - rewrite (Rvget _ _ _ _ HM) by lia. destruct r as [|[|r]]; try lia; reflexivity.
    - rewrite (Rvget _ _ _ _ HM) by lia. destruct r as [|[|r]]; try lia; reflexivity.
    - destruct r as [|[|r]]; try lia; reflexivity. }
  destruct (Rmtrans _ _ _ _ HB) as (Bt & E1 & H1). pose proof (is_vec_of_list v) as Hv'. rewrite Hv in Hv'.
  destruct (Rmmulv _ _ _ _ _ _ H1 Hv') as (w & E2 & H2). exists B, Bt, w. splits; auto.
  eexists. split; [exact H2|]. intros y. cbv beta. cbn [bigsum].
  rewrite (bigsum_split (2 * m) n). replace (2 * m)%nat with (m + m)%nat by lia. rewrite (bigsum_split m m).
  rewrite (bigsum_zero n); [|intros i Hi; unfold b; destruct (Nat.ltb_spec (m + m + i) m); [lia|]; destruct (Nat.ltb_spec (m + m + i) (2 * m)); [lia|]; ring].
  rewrite (bigsum_ext m _ (fun i => Mf i * vel m y i 0 * nth 0 v 0)); [rewrite (bigsum_ext m (fun i => _ * y (m + i)%nat) (fun i => Mf i * vel m y i 1 * nth 1 v 0))|].
  - rewrite !bigsum_scal_r. ring.
  - intros i Hi. unfold b, vel. destruct (Nat.ltb_spec (m + i) m); [lia|]. destruct (Nat.ltb_spec (m + i) (2 * m)); [|lia].
    rewrite Nat.mul_1_l. replace (m + i - m)%nat with i by lia. cbn [Nat.eqb]. ring.
  - intros i Hi. unfold b, vel. destruct (Nat.ltb_spec i m); [|lia]. cbn [Nat.eqb]. rewrite Nat.mul_0_l, Nat.add_0_l. ring.
Qed.
Lemma hv_weigh1 N q g v F : rule_ok 1 q -> (g < q_n q)%nat -> has_mlin N v F ->
  exists v2, weighv 1 q g v = Ok v2 /\ has_mlin N v2 (fun y => F y * wgt 1 q g).
Proof.
  intros Hq Hg (f & Hf & E). destruct (weighv_ok 1 1 q g v _ f (le_n 1) Hq Hg Hf) as (v2 & Ev & Hv).
  exists v2. split; auto. eexists. split; [exact Hv|]. intros. rewrite <- E, <- bigsum_scal_r. apply bigsum_ext; intros; ring.
Qed.


Lemma C82_surface_force_pf : forall s q elem dou xs (f : list R -> list R) t, line_ok s q elem xs -> length dou = 2%nat ->
  (forall v, length v = 2%nat -> length (f v) = 2%nat) ->
  works_as 2 (length elem) dou (PlaneSurfaceForce s q elem dou xs f t)
    (fun y => quad 1 q (fun p => arc s (nodal elem xs) p * t *
       bigsum 2 (fun c => field_value s p y c * nth c (f (at_point s (nodal elem xs) p)) 0))) /\
  has_resultants 1 s q (nodal elem xs) (PlaneSurfaceForce s q elem dou xs f t)
    (fun p c => arc s (nodal elem xs) p * t * nth c (f (at_point s (nodal elem xs) p)) 0).
Proof.
  intros s q elem dou xs f t He Hdou Hf. pose proof (surface_force_works s q elem dou xs f t He Hdou Hf) as H. split; auto.
  apply (resultants_of 1 s q elem dou xs); try apply He. eapply works_eq; [|exact H]. intros y. cbv beta. apply quad_ext. intros g _. cbn [bigsum]. ring.
Qed.

Lemma C82_body_force_pf : forall s q elem dou xs (f : list R -> list R) t, element_ok 2 s q elem xs -> length dou = 2%nat ->
  (forall v, length v = 2%nat -> length (f v) = 2%nat) ->
  works_as 2 (length elem) dou (PlaneBodyForce s q elem dou xs f t)
    (fun y => quad 2 q (fun p => jac s (nodal elem xs) p * t *
       bigsum 2 (fun c => field_value s p y c * nth c (f (at_point s (nodal elem xs) p)) 0))) /\
  has_resultants 2 s q (nodal elem xs) (PlaneBodyForce s q elem dou xs f t)
    (fun p c => jac s (nodal elem xs) p * t * nth c (f (at_point s (nodal elem xs) p)) 0).
Proof.
  intros s q elem dou xs f t He Hdou Hf. pose proof (body_force_works s q elem dou xs f t He Hdou Hf) as H. split; auto.
  apply (resultants_of 2 s q elem dou xs); try apply He. eapply works_eq; [|exact H]. intros y. cbv beta. apply quad_ext. intros g _. cbn [bigsum]. ring.
Qed.

Lemma C82_uniform_edge_pf : forall q elem dou xs v t, In q [Gauss1Line; Gauss2Line] -> length elem = 2%nat -> nodes_ok 2 elem xs -> length dou = 2%nat -> length v = 2%nat ->
  let len := distance (nodal elem xs) 0 1 in
  exists F ne f, PlaneSurfaceForce sf_2Line q elem dou xs (fun _ => v) t = Ok (F, ne) /\ is_vec F 4 f /\
    forall i c, (i < 2)%nat -> (c < 2)%nat -> f (2 * i + c)%nat = len * t * nth c v 0 / 2.
Proof.
  intros q elem dou xs v t Hq Hl Hx Hdou Hv len. set (x := nodal elem xs) in *.
  assert (He : line_ok sf_2Line q elem xs). { unfold line_ok. splits; auto; try reflexivity; [cbn; auto|now apply line_rule_ok]. }
  destruct (surface_force_works _ _ _ _ _ (fun _ => v) t He Hdou ltac:(auto)) as (F & ne & f & E & Hf & _ & HW).
  rewrite Hl in Hf, HW. exists F, ne, f. splits; auto. intros i c Hi Hc.
  assert (A : forall p, arc sf_2Line x p = len / 2).
  { intros p. unfold arc. rewrite !chord2. apply sqrt_lem_1.
    - apply Rplus_le_le_0_compat; apply Rle_0_sqr.
    - unfold len, distance. apply Rmult_le_pos; [apply sqrt_pos|lra].
    - unfold len, distance. match goal with |- sqrt ?k / 2 * _ = _ => assert (S : sqrt k * sqrt k = k) by (apply sqrt_sqrt; apply Rplus_le_le_0_compat; apply Rle_0_sqr) end.
      match goal with |- sqrt ?k / 2 * (sqrt ?k / 2) = _ => replace (sqrt k / 2 * (sqrt k / 2)) with (sqrt k * sqrt k / 4) by field end. rewrite S. field. }
  specialize (HW (unitv 2 (2 * i + c))).
  rewrite (bigsum_single _ (2 * i + c)) in HW.
  - destruct (dm 2 i c Hc) as (D1 & D2). rewrite D1, D2 in HW. unfold unitv at 1 in HW. rewrite Nat.eqb_refl, Rmult_1_r in HW. rewrite HW.
    rewrite (quad_affine q _ (len * t * nth c v 0 / 4) ((if (i =? 0)%nat then -1 else 1) * (len * t * nth c v 0 / 4)) Hq).
    + field.
    + intros p. fold x. rewrite A. cbn [bigsum]. rewrite !value2. unfold unitv.
      destruct i as [|[|i]]; try lia; destruct c as [|[|c]]; try lia; cbn [Nat.eqb Nat.mul Nat.add]; field.
  - lia.
  - intros a Ha Hne. unfold unitv. destruct (Nat.eqb_spec (2 * (a / 2) + a mod 2) (2 * i + c)) as [e|e]; [|ring].
    exfalso. apply Hne. rewrite <- e. apply Nat.div_mod. lia.
Qed.

Lemma C82_surface_flux_pf : forall s q elem dou xs (f : list R -> R) t, line_ok s q elem xs -> length dou = 1%nat ->
  works_as 1 (length elem) dou (HeatTransferSurfaceFlux s q elem dou xs f t)
    (fun y => quad 1 q (fun p => arc s (nodal elem xs) p * t * (f (at_point s (nodal elem xs) p) * field_value s p y 0))).
Proof. intros. now apply surface_flux_works. Qed.

Lemma C82_reaction_pf : forall s q elem dou xs us (f : R -> list R -> R), element_ok 2 s q elem xs -> nodes_ok 1 elem us -> length dou = 1%nat ->
  exists F ne v, ReactionDiffusionReaction s q elem dou xs us f = Ok (F, ne) /\ is_vec F (length elem) v /\ numbered 1 (length elem) dou ne /\
    forall y H, gradients s q (nodal elem xs) 1 (nodal elem us) H ->
      bigsum (length elem) (fun i => v i * y i) =
      quad 2 q (fun p => jac s (nodal elem xs) p * (f (field_value s p (nodal elem us) 0) [H p 0%nat 0%nat; H p 1%nat 0%nat] * field_value s p (fun i _ => y i) 0)).
Proof.
  intros s q elem dou xs us f He Hu Hdou. destruct (reaction_works s q elem dou xs us f He Hu Hdou) as (F & ne & v & E & Hv & Hn & HW).
  exists F, ne, v. rewrite Nat.mul_1_l in Hv. splits; auto. intros y H HG.
  specialize (HW (fun i _ => y i)). rewrite Nat.mul_1_l in HW.
  rewrite (bigsum_ext _ _ (fun a => v a * y (a / 1)%nat)) by (intros; now rewrite Nat.div_1_r). rewrite HW. apply quad_ext. intros g Hg.
  rewrite (gradients_eq s q elem xs 2 1 _ _ He ltac:(lia) HG g 0 0 Hg ltac:(lia) ltac:(lia)).
  now rewrite (gradients_eq s q elem xs 2 1 _ _ He ltac:(lia) HG g 1 0 Hg ltac:(lia) ltac:(lia)).
Qed.

Lemma C82_stokes_surface_force_pf : forall su sg q elemu elemp dou xs (f : list R -> list R),
  In su all_shapes -> length elemu = sf_n su -> nodes_ok 2 elemu xs -> line_ok sg q elemp xs -> length dou = 3%nat ->
  (forall v, length v = 2%nat -> length (f v) = 2%nat) ->
  let m := length elemu in let n := length elemp in
  exists F nu np k, StokesSurfaceForce su sg q elemu elemp dou xs f = Ok (F, nu, np) /\ is_vec F (2 * m + n) k /\
    numbered_u m dou nu /\ numbered_p m n dou np /\
    forall y, bigsum (2 * m + n) (fun a => k a * y a) =
      quad 1 q (fun p => arc sg (nodal elemp xs) p * bigsum 2 (fun c => field_value su p (vel m y) c * nth c (f (at_point sg (nodal elemp xs) p)) 0)).
Proof.
  intros su sg q elemu elemp dou xs f Hsu Hlu Hxu (Hs & Hd & Hl & Hx & Hq) Hdou Hf m n.
  unfold StokesSurfaceForce. rewrite (eqb2 _ _ Hdou). cbn [assert_ bind]. fold m n.
  destruct (nte_u_ok m dou ltac:(lia)) as (nu & Eu & Hu). destruct (nte_p_ok m n dou ltac:(lia)) as (np & Ep & Hp). rewrite Eu, Ep. cbn [bind].
  destruct (node_mat_ok 2 elemu xs Hxu) as (Xu & EXu & _). rewrite EXu. cbn [bind].
  destruct (node_mat_ok 2 elemp xs Hx) as (X & EX & HX). rewrite EX. cbn [bind].
  match goal with |- context [gaussv q ?b _] => set (body := b) end.
  destruct (hv_gauss (2 * m + n) q body (fun g y =>
     bigsum 2 (fun c => field_value su (pt q g) (vel m y) c * nth c (f (at_point sg (nodal elemp xs) (pt q g))) 0) * arc sg (nodal elemp xs) (pt q g) * wgt 1 q g)) as (F & E & HF).
  - intros g Hg. unfold body. rewrite (gpoint_ok 1 q g Hq Hg). cbn [bind]. cbv zeta.
    rewrite (at_point_ok sg elemp xs Hs Hl X _ HX). cbn [bind].
    destruct (dXdr_ok sg elemp xs Hs Hl X (nth g (q_points q) []) Hd HX) as (T & ET & HT). rewrite ET. cbn [bind].
    rewrite (length_ok sg elemp xs Hl T _ HT). cbn [bind].
    change (fun k => nth k (nth g (q_points q) []) 0) with (pt q g).
    pose proof (N_vec su elemu Hsu Hlu (nth g (q_points q) [])) as HM. change (fun k => nth k (nth g (q_points q) []) 0) with (pt q g) in HM. fold m in HM.
    destruct (stokes_B m n _ _ (f (at_point sg (nodal elemp xs) (pt q g))) HM (Hf (at_point sg (nodal elemp xs) (pt q g)) eq_refl)) as (B & Bt & w & E1 & E2 & E3 & Hw).
    rewrite E1. cbn [bind]. rewrite E2. cbn [bind]. rewrite E3. cbn [bind].
    destruct (hv_weigh1 _ q g _ _ Hq Hg (hv_scal _ _ _ (arc sg (nodal elemp xs) (pt q g)) Hw)) as (v2 & Ev & ff & Hff & HE).
    exists v2. split; auto. exists ff. split; auto. intros y. rewrite HE. unfold field_value. rewrite <- Hlu. reflexivity.
  - rewrite E. cbn [bind]. destruct HF as (k & Hk & HE). exists F, nu, np, k. splits; auto. intros y. rewrite HE. unfold quad.
    apply bigsum_ext; intros g _. change (fun k => nth k (nth g (q_points q) []) 0) with (pt q g). unfold wgt. ring.
Qed.

Lemma C83_pressure_pf : forall s q elem dou xs us P t, line_ok s q elem xs -> nodes_ok 2 elem us -> length dou = 2%nat ->
  exists K F ne k f, PlaneStrainSurfacePressureUpdatedLagrange s q elem dou xs us P t = Ok (K, F, ne) /\
    is_mat K (2 * length elem) (2 * length elem) k /\ is_vec F (2 * length elem) f /\ numbered 2 (length elem) dou ne /\
    (forall y, bigsum (2 * length elem) (fun a => f a * y (a / 2)%nat (a mod 2)%nat) =
       quad 1 q (fun p => P * t * pressure_work s (current elem xs us) y p)) /\
    (forall a b, (a < 2 * length elem)%nat -> (b < 2 * length elem)%nat -> k a b = k b a) /\
    (forall us' y z, us' 0 = us -> moved 2 elem us' z ->
       derivable_pt_lim (fun e => bigsum (2 * length elem) (fun a =>
           nth a (residual (PlaneStrainSurfacePressureUpdatedLagrange s q elem dou xs (us' e) P t)) 0 * y (a / 2)%nat (a mod 2)%nat)) 0
         (quad 1 q (fun p => P * t * pressure_work s z y p))) /\
    (forall y z, form 2 (length elem) k y z =
       - (quad 1 q (fun p => P * t * pressure_work s z y p) + quad 1 q (fun p => P * t * pressure_work s y z p)) / 2).
Proof.
  intros s q elem dou xs us P t He Hu Hdou. destruct (pressure_form s q elem dou xs us P t He Hu Hdou) as (K & F & ne & E & Hn & (k & Hk & EK) & (f & Hf & EF)).
  exists K, F, ne, k, f. splits; auto.
  - apply form_sym_entries. intros y z. rewrite !EK. f_equal. apply quad_ext. intros g _. field.
  - intros us' y z H0 Hm. apply deriv_all_ext with (g := fun e => quad 1 q (fun p => P * t * pressure_work s (current elem xs us) y p) + e * quad 1 q (fun p => P * t * pressure_work s z y p)).
    + intros e. destruct (pressure_form s q elem dou xs (us' e) P t He (proj1 (Hm e)) Hdou) as (Ke & Fe & ne' & Ee & _ & _ & (fe & Hfe & EFe)).
        rewrite Ee. cbn [residual]. rewrite (bigsum_ext _ _ (fun a => fe a * dofv 2 y a)).
        { rewrite EFe. rewrite (Rmult_comm e), <- quad_scal, <- quad_plus. apply quad_ext. intros g _.
          unfold pressure_work, tangent. destruct He as (_ & _ & Hl & _).
          assert (A : forall c, (c < 2)%nat -> bigsum (sf_n s) (fun i => dshp s (pt q g) 0 i * current elem xs (us' e) i c) =
             bigsum (sf_n s) (fun i => dshp s (pt q g) 0 i * current elem xs us i c) + e * bigsum (sf_n s) (fun i => dshp s (pt q g) 0 i * z i c)).
          { intros c Hc. rewrite <- bigsum_scal, <- bigsum_plus. apply bigsum_ext; intros i Hi. unfold current. rewrite (proj2 (Hm e)) by lia. rewrite H0. ring. }
          rewrite !A by lia. ring. }
        intros a Ha. destruct (is_vec_nth _ _ _ 0 Hfe) as (_ & B). now rewrite B.
    + eapply deriv_all_ext; [|apply (cubic_deriv (quad 1 q (fun p => P * t * pressure_work s (current elem xs us) y p)) (quad 1 q (fun p => P * t * pressure_work s z y p)) 0 0)].
        intros e. cbv beta. ring.
  - intros y z. rewrite EK. unfold Rdiv. rewrite Ropp_mult_distr_l_reverse, <- quad_plus, <- quad_scal. f_equal. apply quad_ext. intros g _. field.
Qed.

Lemma C83_resultant_pf : forall s q elem dou xs us P t, In s [sf_2Line; sf_3Line] -> In q [Gauss1Line; Gauss2Line] ->
  length elem = sf_n s -> nodes_ok 2 elem xs -> nodes_ok 2 elem us -> length dou = 2%nat ->
  let x := current elem xs us in
  exists K F ne f, PlaneStrainSurfacePressureUpdatedLagrange s q elem dou xs us P t = Ok (K, F, ne) /\ is_vec F (2 * length elem) f /\
    total_force (length elem) f 0 = - (P * t * (x 1%nat 1%nat - x 0%nat 1%nat)) /\
    total_force (length elem) f 1 = P * t * (x 1%nat 0%nat - x 0%nat 0%nat).
Proof.
  intros s q elem dou xs us P t Hs Hq Hl Hx Hu Hdou x.
  assert (He : line_ok s q elem xs). { unfold line_ok. splits; auto; [|now destruct Hs as [<-|[<-|[]]]|now apply line_rule_ok]. destruct Hs as [<-|[<-|[]]]; cbn; auto. }
  destruct (pressure_form s q elem dou xs us P t He Hu Hdou) as (K & F & ne & E & Hn & _ & (f & Hf & EF)).
  exists K, F, ne, f. assert (Hin : In s all_shapes) by apply He.
  assert (A : forall c, (c < 2)%nat -> total_force (length elem) f c = quad 1 q (fun p => P * t * (match c with O => - tangent s x p 0 1 | _ => tangent s x p 0 0 end))).
  { intros c Hc. pose proof (EF (fun _ e => if (e =? c)%nat then 1 else 0)) as H. unfold dofv in H. rewrite bigsum_block2 in H.
    unfold total_force. rewrite (bigsum_ext _ _ (fun i => f (2 * i + c)%nat)) in H.
    - rewrite H. apply quad_ext. intros g _. unfold pressure_work. fold x. unfold field_value.
      rewrite !bigsum_scal_r, shp_sum by auto. destruct c as [|[|c]]; try lia; cbn [Nat.eqb]; ring.
    - intros i Hi. dm2 i. destruct c as [|[|c]]; try lia; cbn [Nat.eqb]; rewrite ?Nat.add_0_r; ring. }
  splits; auto.
  - rewrite A by lia. destruct Hs as [<-|[<-|[]]].
    + rewrite (quad_affine q _ (- (P * t * (x 1%nat 1%nat - x 0%nat 1%nat)) / 2) 0 Hq); [field|]. intros p. rewrite chord2. field.
    + rewrite (quad_affine q _ (- (P * t * (x 1%nat 1%nat - x 0%nat 1%nat)) / 2) (- (P * t * (x 0%nat 1%nat + x 1%nat 1%nat - 2 * x 2%nat 1%nat))) Hq); [field|]. intros p. rewrite tang3. field.
  - rewrite A by lia. destruct Hs as [<-|[<-|[]]].
    + rewrite (quad_affine q _ (P * t * (x 1%nat 0%nat - x 0%nat 0%nat) / 2) 0 Hq); [field|]. intros p. rewrite chord2. field.
    + rewrite (quad_affine q _ (P * t * (x 1%nat 0%nat - x 0%nat 0%nat) / 2) (P * t * (x 0%nat 0%nat + x 1%nat 0%nat - 2 * x 2%nat 0%nat)) Hq); [field|]. intros p. rewrite tang3. field.
Qed.

Lemma C83_boundary_pf : forall s q elem dou xs us P t, (s, q) = (sf_2Line, Gauss1Line) \/ (s, q) = (sf_2Line, Gauss2Line) \/ (s, q) = (sf_3Line, Gauss2Line) ->
  length elem = sf_n s -> nodes_ok 2 elem xs -> nodes_ok 2 elem us -> length dou = 2%nat ->
  exists K F ne k, PlaneStrainSurfacePressureUpdatedLagrange s q elem dou xs us P t = Ok (K, F, ne) /\
    is_mat K (2 * length elem) (2 * length elem) k /\
    forall y z, form 2 (length elem) k y z = - quad 1 q (fun p => P * t * pressure_work s z y p)
      + P * t / 2 * (cross y z 1 - cross y z 0).
Proof.
  intros s q elem dou xs us P t Hsq Hl Hx Hu Hdou.
  assert (Hq : In q [Gauss1Line; Gauss2Line]). { destruct Hsq as [e|[e|e]]; injection e as -> ->; cbn; auto. }
  assert (He : line_ok s q elem xs). { unfold line_ok. splits; auto; try now apply line_rule_ok; destruct Hsq as [e|[e|e]]; injection e as -> ->; cbn; auto. all: destruct Hsq as [e|[e|e]]; injection e as -> ->; cbn; auto. }
  destruct (pressure_form s q elem dou xs us P t He Hu Hdou) as (K & F & ne & E & Hn & (k & Hk & EK) & _).
  exists K, F, ne, k. splits; auto. intros y z. rewrite EK.
  apply Rplus_eq_reg_l with (quad 1 q (fun p => P * t * pressure_work s z y p)).
  replace (quad 1 q (fun p => P * t * pressure_work s z y p) + - quad 1 q (fun p => P * t * ((pressure_work s z y p + pressure_work s y z p) / 2)))
    with (quad 1 q (fun p => P * t / 2 * (pressure_work s z y p - pressure_work s y z p))).
  2:{ apply Rplus_eq_reg_r with (quad 1 q (fun p => P * t * ((pressure_work s z y p + pressure_work s y z p) / 2))).
      rewrite Rplus_assoc, Rplus_opp_l, Rplus_0_r, <- quad_plus. apply quad_ext. intros g _. field. }
  ring_simplify (quad 1 q (fun p => P * t * pressure_work s z y p) + (- quad 1 q (fun p => P * t * pressure_work s z y p) + P * t / 2 * (cross y z 1 - cross y z 0))).
  destruct Hsq as [e|[e|e]]; injection e as -> ->.
  - rewrite (quad_affine Gauss1Line _ (P * t / 2 * ((cross y z 1 - cross y z 0) / 2))
      (P * t / 2 * ((y 1%nat 1%nat - y 0%nat 1%nat) / 2 * (z 1%nat 0%nat - z 0%nat 0%nat) - (y 1%nat 0%nat - y 0%nat 0%nat) / 2 * (z 1%nat 1%nat - z 0%nat 1%nat))) Hq); [field|].
    intros p. unfold pressure_work. rewrite !chord2, !value2. unfold cross. field.
  - rewrite (quad_affine Gauss2Line _ (P * t / 2 * ((cross y z 1 - cross y z 0) / 2))
      (P * t / 2 * ((y 1%nat 1%nat - y 0%nat 1%nat) / 2 * (z 1%nat 0%nat - z 0%nat 0%nat) - (y 1%nat 0%nat - y 0%nat 0%nat) / 2 * (z 1%nat 1%nat - z 0%nat 1%nat))) Hq); [field|].
    intros p. unfold pressure_work. rewrite !chord2, !value2. unfold cross. field.
  - set (ya c := y 2%nat c). set (yb c := (y 1%nat c - y 0%nat c) / 2). set (yc c := (y 0%nat c + y 1%nat c - 2 * y 2%nat c) / 2).
    set (za c := z 2%nat c). set (zb c := (z 1%nat c - z 0%nat c) / 2). set (zc c := (z 0%nat c + z 1%nat c - 2 * z 2%nat c) / 2).
    set (h := P * t / 2).
    rewrite (quad_cubic _ (h * (ya 1%nat * zb 0%nat + yb 1%nat * za 0%nat - ya 0%nat * zb 1%nat - yb 0%nat * za 1%nat))
      (h * (2 * (ya 1%nat * zc 0%nat + yb 1%nat * zb 0%nat + yc 1%nat * za 0%nat - ya 0%nat * zc 1%nat - yb 0%nat * zb 1%nat - yc 0%nat * za 1%nat)))
      (h * (3 * (yb 1%nat * zc 0%nat + yc 1%nat * zb 0%nat - yb 0%nat * zc 1%nat - yc 0%nat * zb 1%nat)))
      (h * (4 * (yc 1%nat * zc 0%nat - yc 0%nat * zc 1%nat)))).
    + unfold h, ya, yb, yc, za, zb, zc, cross. field.
    + intros p. unfold pressure_work. rewrite !tang3, !value3. unfold h, ya, yb, yc, za, zb, zc. field.
Qed.

Lemma C83_consistent_refuted_pf : exists s q elem dou xs us z P t, line_ok s q elem xs /\ moved 2 elem us z /\ length dou = 2%nat /\
  ~ consistent 2 elem us z (fun u => PlaneStrainSurfacePressureUpdatedLagrange s q elem dou xs u P t).
Proof.
  exists sf_2Line, Gauss1Line, [0; 1]%nat, [0; 1]%nat, [[0; 0]; [2; 0]], (fun e => [[0; e]; [0; e]]), (fun _ c => match c with O => 0 | _ => 1 end), 2, 1.
  assert (He : line_ok sf_2Line Gauss1Line [0; 1]%nat [[0; 0]; [2; 0]]).
  { unfold line_ok. splits; auto; try reflexivity; [cbn; auto| |apply line_rule_ok; cbn; auto].
    intros i Hi. cbn in Hi. decompose [or] Hi; subst; cbn; try lia; contradiction. }
  assert (Hm : moved 2 [0; 1]%nat (fun e => [[0; e]; [0; e]]) (fun _ c => match c with O => 0 | _ => 1 end)).
  { intros e. split; [intros i Hi; cbn in Hi; decompose [or] Hi; subst; cbn; try lia; contradiction|].
    intros i c Hi Hc. cbn in Hi. destruct i as [|[|i]]; try lia; destruct c as [|[|c]]; try lia; unfold nodal; cbn [nth]; ring. }
  splits; auto. intros (_ & K & F & ne & k & E & Hk & HD).
  destruct (pressure_form sf_2Line Gauss1Line [0; 1]%nat [0; 1]%nat [[0; 0]; [2; 0]] [[0; 0]; [0; 0]] 2 1 He (proj1 (Hm 0)) eq_refl) as (K' & F' & ne' & E' & _ & (k' & Hk' & EK) & _).
  rewrite E in E'. injection E' as <- <- <-.
  specialize (HD 0%nat ltac:(cbn; lia)).
  assert (A : apply_field 2 2 k (fun _ c => match c with O => 0 | _ => 1 end) 0 = apply_field 2 2 k' (fun _ c => match c with O => 0 | _ => 1 end) 0).
  { unfold apply_field. apply bigsum_ext; intros b Hb. f_equal. pose proof (Rget _ _ _ _ 0 b Hk ltac:(cbn; lia) Hb) as G. rewrite (Rget _ _ _ _ 0 b Hk' ltac:(cbn; lia) Hb) in G. now injection G. }
  cbn [length] in HD. rewrite A, <- form_unit, EK in HD by (cbn; lia).
  assert (Z : derivable_pt_lim (fun e => nth 0 (residual (PlaneStrainSurfacePressureUpdatedLagrange sf_2Line Gauss1Line [0; 1]%nat [0; 1]%nat [[0; 0]; [2; 0]] [[0; e]; [0; e]] 2 1)) 0) 0 0).
  { apply deriv_all_ext with (g := fun _ => 0).
    - intros e. destruct (pressure_form sf_2Line Gauss1Line [0; 1]%nat [0; 1]%nat [[0; 0]; [2; 0]] [[0; e]; [0; e]] 2 1 He (proj1 (Hm e)) eq_refl) as (Ke & Fe & nee & Ee & _ & _ & (fe & Hfe & EFe)).
      rewrite Ee. cbn [residual]. destruct (is_vec_nth _ _ _ 0 Hfe) as (_ & B). rewrite B by (cbn; lia).
      specialize (EFe (unitv 2 0)). transitivity (bigsum (2 * length [0%nat; 1%nat]) (fun a => fe a * dofv 2 (unitv 2 0) a)); [|rewrite EFe].
      { unfold dofv, unitv. cbn. ring. }
      rewrite (quad_affine Gauss1Line _ 0 0); [ring|cbn; auto|]. intros p. unfold pressure_work. rewrite !chord2. unfold current, nodal, unitv. rewrite !value2. cbn [nth Nat.mul Nat.add Nat.eqb]. field.
    - apply derivable_pt_lim_const. }
  pose proof (uniqueness_limite _ _ _ _ HD Z) as U. revert U.
  rewrite (quad_affine Gauss1Line _ (- 1 / 2) 0); [lra|cbn; auto|]. intros p. unfold pressure_work. rewrite !chord2, !value2. unfold unitv. cbn [Nat.mul Nat.add Nat.eqb]. field.
Qed.
