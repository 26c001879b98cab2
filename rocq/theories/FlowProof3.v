(** Loads, stabilised terms and the decoupled routines. *)
From Coq Require Import List Arith Lia Bool Reals Lra.
From Verif Require Import Res SumR DenseModel DenseR DenseSpec DenseProof DenseMain ShapeModel ShapeMain QuadModel QuadSpec
  ElemModel ElemSpec ElemProof FlowModel FlowSpec FlowProof FlowProof2 KrylovProof.
Import ListNotations.
Local Open Scope R_scope.

Section Mixed.
Variables (su sg : shape) (q : rule) (elemu elemp dou : list nat) (xs : list (list R)).
Hypothesis He : mixed_ok su sg q elemu elemp dou xs.
Let x := nodal elemp xs.
Let m := length elemu.
Let n := length elemp.
Let N := (2 * m + n)%nat.
Let st y r := state su sg x m n y r.

Lemma load_intro F nu np L : numbered_u m dou nu -> numbered_p m n dou np ->
  has_mlin N F (fun y => quad 2 q (fun p => jac sg x p * L p (st y p))) ->
  load_of su sg q elemu elemp dou xs (Ok (F, nu, np)) L.
Proof.
  intros Hu Hp (k & Hk & H). exists F, nu, np, k. splits; auto. intros y Y HY. fold m n N. rewrite H.
  destruct He as (H1 & H2 & H3 & H4 & H5 & H6 & H7 & H8 & H9 & H10 & H11).
  unfold quad. apply bigsum_ext; intros g Hg. change (fun k => nth k (nth g (q_points q) []) 0) with (pt q g). fold x.
  destruct (HY g Hg) as (a & b). unfold m in a, b. fold x in a, b. rewrite H5 in a, b.
  unfold st, m, n. rewrite H5, H6. fold x in H11. now rewrite <- (state_eq su sg x y _ _ H4 (H11 g Hg) a b).
Qed.

(** the position of a point *)
Lemma position_ok Xp r Nv : is_mat Xp n 2 x -> is_vec Nv n (shp sg r) -> exists xv, interpolate Xp Nv = Ok xv /\ is_vec xv 2 (field_value sg r x).
Proof.
  intros Hu HM. unfold interpolate. destruct (Rmtrans _ _ _ _ Hu) as (T & ET & HT). rewrite ET. cbn [bind].
  destruct (Rmmulv _ _ _ _ _ _ HT HM) as (U & EU & HU). rewrite EU. exists U. split; auto.
  refine (is_vec_ext U 2 _ _ _ HU). intros c Hc. unfold field_value. destruct He as (_ & _ & _ & _ & _ & H6 & _). unfold n. rewrite H6.
  apply bigsum_ext; intros. ring.
Qed.
Lemma vec2 (v : list R) f : is_vec v 2 f -> v = [f 0%nat; f 1%nat].
Proof.
  intros H. destruct (is_vec_nth _ _ _ 0 H) as (HL & HN). destruct v as [|a [|b [|c v]]]; try discriminate.
  pose proof (HN 0%nat ltac:(lia)) as A. pose proof (HN 1%nat ltac:(lia)) as B. cbn in A, B. now rewrite A, B.
Qed.
Lemma StokesBodyForce_load f : (forall v, length v = 2%nat -> (2 <= length (f v))%nat) ->
  load_of su sg q elemu elemp dou xs (StokesBodyForce su sg q elemu elemp dou xs f)
    (fun p Y => dot2 (fun c => nth c (f [field_value sg p x 0; field_value sg p x 1]) 0) (val Y)).
Proof.
  intros Hf. destruct (start su sg q elemu elemp dou xs He) as (E0 & (nu & Eu & Hu) & (np & Ep & Hp) & _ & (Xp & EXp & HX)).
  fold m n in Eu, Ep, Hu, Hp, HX. fold x in HX.
  unfold StokesBodyForce. rewrite E0. cbn [assert_ bind]. fold m n. rewrite Eu, Ep, EXp. cbn [bind].
  match goal with |- context [gaussv q ?b _] => set (body := b) end.
  set (L := fun p Y => dot2 (fun c => nth c (f [field_value sg p x 0; field_value sg p x 1]) 0) (val Y)).
  destruct (hv_gauss N q body (fun g y => L (pt q g) (st y (pt q g)) * jac sg x (pt q g) * wgt 2 q g)) as (F & E & HF).
  - intros g Hg. unfold body. rewrite (gpoint_ok 2 q g (rule2 su sg q elemu elemp dou xs He) Hg). cbn [bind].
    destruct (flow_jacobian su sg q elemu elemp dou xs He g Xp Hg HX) as (T & ET & _). fold x in ET. rewrite ET. cbn [bind].
    destruct He as (Hs & Hsg & _ & _ & H5 & H6 & _).
    pose proof (sf_vec_ok su Hs (nth g (q_points q) [])) as HM. rewrite <- H5 in HM. fold m in HM.
    pose proof (sf_vec_ok sg Hsg (nth g (q_points q) [])) as HN. rewrite <- H6 in HN. fold n in HN.
    destruct (position_ok Xp _ _ HX HN) as (xv & Ex & Hx). rewrite Ex. cbn [bind]. rewrite (vec2 _ _ Hx). cbv beta zeta.
    change (fun k => nth k (nth g (q_points q) []) 0) with (pt q g) in HM.
    change (fun k => nth k (nth g (q_points q) []) 0) with (pt q g).
    set (b := f _). assert (Hb : is_vec b (length b) (fun i => nth i b 0)) by apply is_vec_of_list.
    assert (Hb2 : (2 <= length b)%nat) by (apply Hf; reflexivity).
    assert (LL : linear (L (pt q g))) by (unfold L; lin).
    destruct (table_lin m n (shp su (pt q g)) (gradM sg su x (pt q g)) (shp sg (pt q g)) (gradM sg sg x (pt q g))
       (fun i => [vget b 0 *! vget (sf_vec su (nth g (q_points q) [])) i; vget b 1 *! vget (sf_vec su (nth g (q_points q) [])) i; Ok 0]) (L (pt q g)) LL) as (v & Ev & Hv).
    { unfold L. fold b. ventries. }
    rewrite Ev. cbn [bind].
    destruct (hv_weigh 2 N q g _ _ (le_n _) (rule2 su sg q elemu elemp dou xs He) Hg (hv_scal N v _ (jac sg x (pt q g)) Hv)) as (f2 & Ef2 & Hf2).
    exists f2. split; auto. destruct Hf2 as (ff & Hff & HE). exists ff. split; [exact Hff|]. intros y. rewrite HE.
    now rewrite (comb_mixed m n (shp su (pt q g)) (gradM sg su x (pt q g)) (shp sg (pt q g)) (gradM sg sg x (pt q g)) y _ LL).
  - unfold N in E. rewrite E. cbn [bind]. apply load_intro; auto. destruct HF as (ff & Hff & HE). exists ff. split; [exact Hff|].
    intros y. rewrite HE. unfold quad. apply bigsum_ext; intros g Hg.
    change (fun k => nth k (nth g (q_points q) []) 0) with (pt q g). unfold wgt, L. ring.
Qed.

(** *** Stabilised terms *)
Lemma Rdiv_res_Ok a b c : Rdiv_res a b = Ok c -> b <> 0 /\ c = a / b.
Proof. unfold Rdiv_res. destruct (Req_EM_T b 0); [discriminate|]. intros H. injection H as <-. auto. Qed.
Lemma tau_range P U area rho mu dt t : tau_flow m P U area rho mu dt = Ok t -> 0 < t <= Rabs dt / 2.
Proof using.
  clear. unfold tau_flow. intros H. inv_bind H. inv_bind H. inv_bind H. inv_bind H. inv_bind H.
  repeat match goal with E : Rdiv_res _ _ = Ok _ |- _ => apply Rdiv_res_Ok in E as (? & ?) end.
  match goal with H : sqrt ?s <> 0 |- _ => set (S := s) in *; rename H into HS end. subst t.
  match goal with E : ?a = 2 / dt |- _ => assert (HA : a * a <= S); [unfold S; nra|]; set (A := a) in *; rename E into EA end.
  assert (S0 : 0 < S). { destruct (Rle_lt_dec S 0) as [C|C]; auto. exfalso. apply HS. now apply sqrt_neg_0. }
  assert (R0 : 0 < sqrt S) by now apply sqrt_lt_R0.
  split; [unfold Rdiv; rewrite Rmult_1_l; now apply Rinv_0_lt_compat|].
  assert (B : Rabs A <= sqrt S) by (rewrite <- sqrt_Rsqr_abs; apply sqrt_le_1_alt; unfold Rsqr; exact HA).
  assert (Hd : 0 < Rabs dt) by now apply Rabs_pos_lt.
  assert (EA2 : Rabs A = 2 / Rabs dt). { rewrite EA. unfold Rdiv. rewrite Rabs_mult, Rabs_inv. now rewrite (Rabs_pos_eq 2) by lra. }
  rewrite EA2 in B. replace (Rabs dt / 2) with (1 / (2 / Rabs dt)) by (field; lra).
  unfold Rdiv at 1 2. rewrite !Rmult_1_l. apply Rinv_le_contravar; auto. apply Rdiv_lt_0_compat; lra.
Qed.

Definition supg_form (rho : R) (u : nat -> R) (Y Z : pstate) : R := rho * dot2 (supg_test u Y) (convect u Z).
Definition supg_mass_form (rho : R) (u : nat -> R) (Y Z : pstate) : R := rho * dot2 (supg_test u Y) (val Z).
Definition supg_continuity_form (u : nat -> R) (Y Z : pstate) : R := dot2 (supg_test u Y) (pgrad Z).

Section Supg.
Variable ubars : list (list R).
Hypothesis Hn : nodes_ok 2 elemu ubars.
Variables rho mu dt : R.
(** the parameters computed by the loops *)
Definition taus (g : nat) : R := supg_parameter su sg q elemu elemp xs ubars rho mu dt g.
Lemma mixed_area Xp : is_mat Xp n 2 x -> flow_area sg q Xp = Ok (quad 2 q (jac sg x)).
Proof.
  intros HX. unfold flow_area. rewrite (gausss_ok0 q _ (fun g => jac sg x (pt q g) * wgt 2 q g)).
  - f_equal. unfold quad. apply bigsum_ext; intros g Hg. change (fun k => nth k (nth g (q_points q) []) 0) with (pt q g). unfold wgt. ring.
  - intros g Hg. destruct (flow_jacobian su sg q elemu elemp dou xs He g Xp Hg HX) as (T & ET & _). fold x in ET. rewrite ET. cbn [bind fst].
    apply (weighs_ok 2 2 q g _ (le_n _) (rule2 su sg q elemu elemp dou xs He) Hg).
Qed.
Lemma grad_dot (u r : nat -> R) i : dot2 u (fun c => gradM sg su x r c i) = dot2 u (mixed_grad sg su x r i).
Proof using. clear He Hn. unfold dot2, gradM, mixed_grad, cof. cbn [bigsum]. unfold sgn, skip. cbn. unfold Rdiv. ring. Qed.
Lemma tau_flow_unf g Nv M dN dM U : is_mat dM 2 m (gradM sg su x (pt q g)) -> is_vec U 2 (speed su elemu ubars (pt q g)) ->
  let u := speed su elemu ubars (pt q g) in
  tau_flow m (mkPoint (jac sg x (pt q g)) Nv M dN dM) U (quad 2 q (jac sg x)) rho mu dt =
  (he <- (if Rlt_dec (/ 10 ^ 10) (sqrt (dot2 u u)) then Rdiv_res (2 * sqrt (dot2 u u)) (bigsum m (fun i => Rabs (dot2 u (mixed_grad sg su x (pt q g) i))))
      else rsqrt (quad 2 q (jac sg x))) ;;
   a <- Rdiv_res 2 dt ;; b <- Rdiv_res (2 * sqrt (dot2 u u)) he ;; c <- Rdiv_res (4 * mu) (rho * (he * he)) ;;
   Rdiv_res 1 (sqrt (a * a + b * b + c * c))).
Proof using.
  clear He Hn. intros HD HU u. fold u in HU. unfold tau_flow. cbn [pdM].
  assert (EN : vnorm U = Ok (sqrt (dot2 u u))).
  { destruct (is_vec_nth _ _ _ 0 HU) as (HL & HN). unfold vnorm. rewrite HL.
    rewrite (vec2 _ _ HU). reflexivity. }
  rewrite EN. cbn [bind].
  assert (EH : (if Rlt_dec (/ 10 ^ 10) (sqrt (dot2 u u))
         then T <- mtrans R_ops dM ;; dU <- mmulv R_ops T U ;;
              h <- foldM (fun h i => x <- vget dU i ;; Ok (h + Rabs x)) (seq 0 m) 0 ;;
              Rdiv_res (2 * sqrt (dot2 u u)) h
         else rsqrt (quad 2 q (jac sg x))) =
     (if Rlt_dec (/ 10 ^ 10) (sqrt (dot2 u u)) then Rdiv_res (2 * sqrt (dot2 u u)) (bigsum m (fun i => Rabs (dot2 u (fun c => gradM sg su x (pt q g) c i))))
      else rsqrt (quad 2 q (jac sg x)))).
  { destruct (Rlt_dec _ _); [|reflexivity]. destruct (Rmtrans _ _ _ _ HD) as (T & ET & HT). rewrite ET. cbn [bind].
    destruct (Rmmulv _ _ _ _ _ _ HT HU) as (dU & EU & HdU). rewrite EU. cbn [bind].
    assert (EF : forall k, (k <= m)%nat -> foldM (fun h i => x <- vget dU i ;; Ok (h + Rabs x)) (seq 0 k) 0 =
      Ok (bigsum k (fun i => Rabs (dot2 u (fun c => gradM sg su x (pt q g) c i))))).
    { induction k as [|k IH]; intros Hk; [reflexivity|]. rewrite seq_S, foldM_app. rewrite IH by lia. cbn [bind foldM Nat.add].
      destruct HdU as (_ & HV & _). rewrite (HV k) by lia. cbn [bind]. f_equal. cbn [bigsum]. f_equal. f_equal. unfold dot2. cbn [bigsum]. ring. }
    now rewrite EF by lia. }
  rewrite EH. now rewrite (bigsum_ext m (fun i => Rabs (dot2 u (mixed_grad sg su x (pt q g) i))) (fun i => Rabs (dot2 u (fun c => gradM sg su x (pt q g) c i)))) by (intros; now rewrite grad_dot).
Qed.
Lemma tau_flow_eq g Nv M dN dM U tau : is_mat dM 2 m (gradM sg su x (pt q g)) -> is_vec U 2 (speed su elemu ubars (pt q g)) ->
  tau_flow m (mkPoint (jac sg x (pt q g)) Nv M dN dM) U (quad 2 q (jac sg x)) rho mu dt = Ok tau -> taus g = tau.
Proof using.
  clear He Hn. intros HD HU E. rewrite (tau_flow_unf g Nv M dN dM U HD HU) in E. unfold taus, supg_parameter. fold x m.
  set (u := speed su elemu ubars (pt q g)) in *. unfold stream_length.
  destruct (Rlt_dec (/ 10 ^ 10) (sqrt (dot2 u u))).
  - inv_bind E. inv_bind E. inv_bind E. inv_bind E.
    repeat match goal with E : Rdiv_res _ _ = Ok _ |- _ => apply Rdiv_res_Ok in E as (? & ?) end. subst.
    cbn [pow]. rewrite !Rmult_1_r. reflexivity.
  - inv_bind E. inv_bind E. inv_bind E. inv_bind E. unfold rsqrt in *.
    match goal with E : (if Rle_dec 0 ?a then _ else _) = _ |- _ => destruct (Rle_dec 0 a); [|discriminate E]; injection E as <- end.
    repeat match goal with E : Rdiv_res _ _ = Ok _ |- _ => apply Rdiv_res_Ok in E as (? & ?) end. subst.
    cbn [pow]. rewrite !Rmult_1_r. reflexivity.
Qed.
(** the parameter exists: the denominators do not vanish *)
Lemma tau_flow_returns g Nv M dN dM U : is_mat dM 2 m (gradM sg su x (pt q g)) -> is_vec U 2 (speed su elemu ubars (pt q g)) ->
  dt <> 0 -> rho <> 0 -> stream_ok su sg m x (pt q g) (speed su elemu ubars (pt q g)) (quad 2 q (jac sg x)) ->
  exists tau, tau_flow m (mkPoint (jac sg x (pt q g)) Nv M dN dM) U (quad 2 q (jac sg x)) rho mu dt = Ok tau.
Proof using.
  clear He Hn. intros HD HU H1 H2 HS. rewrite (tau_flow_unf g Nv M dN dM U HD HU).
  set (u := speed su elemu ubars (pt q g)) in *. unfold stream_ok in HS. set (un := sqrt (dot2 u u)) in *.
  assert (HE : exists he, (if Rlt_dec (/ 10 ^ 10) un then Rdiv_res (2 * un) (bigsum m (fun i => Rabs (dot2 u (mixed_grad sg su x (pt q g) i))))
      else rsqrt (quad 2 q (jac sg x))) = Ok he /\ he <> 0).
  { destruct (Rlt_dec (/ 10 ^ 10) un) as [C|C].
    - rewrite (Rdiv_res_ok _ _ HS). eexists. split; [reflexivity|].
      assert (0 < un) by (apply Rlt_trans with (/ 10 ^ 10); [apply Rinv_0_lt_compat; apply pow_lt; lra|exact C]).
      unfold Rdiv. apply Rmult_integral_contrapositive_currified; [lra|]. now apply Rinv_neq_0_compat.
    - unfold rsqrt. destruct (Rle_dec 0 _); [|lra]. eexists. split; [reflexivity|]. apply Rgt_not_eq. now apply sqrt_lt_R0. }
  destruct HE as (he & EHe & Hh). rewrite EHe. cbn [bind]. rewrite (Rdiv_res_ok _ _ H1), (Rdiv_res_ok _ _ Hh). cbn [bind].
  rewrite (Rdiv_res_ok _ (rho * (he * he))) by (repeat apply Rmult_integral_contrapositive_currified; auto). cbn [bind].
  eexists. apply Rdiv_res_ok. apply Rgt_not_eq. apply sqrt_lt_R0.
  assert (0 < 2 / dt * (2 / dt)) by (apply Rlt_0_sqr; unfold Rdiv; apply Rmult_integral_contrapositive_currified; [lra|now apply Rinv_neq_0_compat]).
  set (p1 := 2 * un / he). set (p2 := 4 * mu / _). nra.
Qed.
Lemma supg_stabilised t W :
  (forall g, (g < q_n q)%nat -> bilinear (W (pt q g))) ->
  (forall g P Nv M dN dM U, (g < q_n q)%nat -> P = mkPoint (jac sg x (pt q g)) Nv M dN dM ->
     is_vec Nv n (shp sg (pt q g)) -> is_vec M m (shp su (pt q g)) ->
     is_mat dN 2 n (gradM sg sg x (pt q g)) -> is_mat dM 2 m (gradM sg su x (pt q g)) -> is_vec U 2 (speed su elemu ubars (pt q g)) ->
     forall c e i j, (c < 3)%nat -> (e < 3)%nat -> (i < size m n c)%nat -> (j < size m n e)%nat ->
         ent2 (t P U i j) c e = Ok (W (pt q g) (unit_at su sg x (pt q g) (c, i)) (unit_at su sg x (pt q g) (e, j)))) ->
  stabilised_of su sg q elemu elemp dou xs taus dt (supg_routine su sg q elemu elemp dou xs ubars rho mu dt t) W.
Proof.
  intros HB HT K nu np HR. fold m n. fold N x.
  destruct (start su sg q elemu elemp dou xs He) as (E0 & (nu' & Eu & Hu) & (np' & Ep & Hp) & _ & (Xp & EXp & HX)).
  fold m n in Eu, Ep, Hu, Hp, HX. fold x in HX. destruct (node_mat_ok 2 elemu ubars Hn) as (u & EU & HU).
  unfold supg_routine in HR. rewrite E0 in HR. cbn [assert_ bind] in HR. fold m n in HR. rewrite Eu, Ep, EXp, EU in HR. cbn [bind] in HR.
  destruct (supg_loop _ _ _ _ _ _ _ _ _ _ _) as [K9|] eqn:EL; [|discriminate HR]. cbn [bind] in HR. injection HR as -> <- <-.
  unfold supg_loop in EL. rewrite (mixed_area Xp HX) in EL. cbn [bind] in EL.
  assert (S : forall g, (g < q_n q)%nat -> forall K0 K1, (k <- (P <- mixed_point su sg q g Xp ;;
    U <- interpolate u (pM P) ;;
    tau <- tau_flow m P U (quad 2 q (jac sg x)) rho mu dt ;;
    k <- mixed m n (t P U) ;;
    weigh 2 q g (mscal R_ops (pJ P) (mscal R_ops tau k))) ;; madd R_ops K0 k) = Ok K1 ->
    0 < taus g <= Rabs dt / 2 /\ forall F, has_mform N K0 F ->
     has_mform N K1 (fun y z => F y z + W (pt q g) (st y (pt q g)) (st z (pt q g)) * taus g * jac sg x (pt q g) * wgt 2 q g)).
  { intros g Hg K0 K1 E1. destruct (point_ok su sg q elemu elemp dou xs He g Xp Hg HX) as (Nv & M & dN & dM & EPt & H1 & H2 & H3 & H4).
    fold x in EPt, H3, H4. destruct (speed_ok su sg q elemu elemp dou xs He ubars u M _ Hn HU H2) as (U & EU2 & HU2).
    assert (ET : forall tau, tau_flow m (mkPoint (jac sg x (pt q g)) Nv M dN dM) U (quad 2 q (jac sg x)) rho mu dt = Ok tau -> taus g = tau).
    { intros tau Et. exact (tau_flow_eq g Nv M dN dM U tau H4 HU2 Et). }
    rewrite EPt in E1. cbn [bind pM] in E1. rewrite EU2 in E1. cbn [bind] in E1.
    destruct (tau_flow _ _ _ _ _ _ _) as [tau|] eqn:Et; [|discriminate E1]. cbn [bind] in E1. rewrite (ET _ eq_refl).
    split; [exact (tau_range _ _ _ _ _ _ _ Et)|]. intros F HF.
    destruct (HB g Hg) as (HR & HL).
    destruct (table_form m n _ _ _ _ _ (W (pt q g)) HR HL (HT g _ Nv M dN dM U Hg eq_refl H1 H2 H3 H4 HU2)) as (k & Ek & Hk).
    rewrite Ek in E1. cbn [bind pJ] in E1.
    pose proof (hm_eq _ _ _ _ (fun y z => bilinear_state (W (pt q g)) m n su sg x (pt q g) y z HR HL) Hk) as Hk2.
    destruct (hm_weigh N q g _ _ (rule2 su sg q elemu elemp dou xs He) Hg (hm_scal N _ _ (jac sg x (pt q g)) (hm_scal N k _ tau Hk2))) as (k2 & Ek2 & Hk3).
    rewrite Ek2 in E1. cbn [bind] in E1. destruct (hm_add N K0 F k2 _ HF Hk3) as (K' & EK' & HK').
    rewrite EK' in E1. injection E1 as <-. refine (hm_eq _ _ _ _ _ HK'). intros y z. reflexivity. }
  assert (R : forall l K0 K1, (forall g, In g l -> (g < q_n q)%nat) -> foldM (fun K g => k <- (P <- mixed_point su sg q g Xp ;;
    U <- interpolate u (pM P) ;;
    tau <- tau_flow m P U (quad 2 q (jac sg x)) rho mu dt ;;
    k <- mixed m n (t P U) ;;
    weigh 2 q g (mscal R_ops (pJ P) (mscal R_ops tau k))) ;; madd R_ops K k) l K0 = Ok K1 ->
    (forall g, In g l -> 0 < taus g <= Rabs dt / 2) /\ forall F, has_mform N K0 F ->
      has_mform N K1 (fun y z => F y z + fold_right Rplus 0 (map (fun g => W (pt q g) (st y (pt q g)) (st z (pt q g)) * taus g * jac sg x (pt q g) * wgt 2 q g) l))).
  { induction l as [|g l IH]; intros K0 K1 Hl E1.
    - injection E1 as <-. split; [intros ? []|]. intros F HF. refine (hm_eq _ _ _ _ _ HF). intros. cbn. ring.
    - cbn [foldM] in E1. match type of E1 with bind ?a _ = _ => destruct a as [K2|] eqn:E2; [|discriminate E1] end. cbn [bind] in E1.
      destruct (S g (Hl g (or_introl eq_refl)) _ _ E2) as (T1 & F1). destruct (IH K2 K1 (fun g' H => Hl g' (or_intror H)) E1) as (T2 & F2).
      split; [intros g' [<-|Hg']; auto|]. intros F HF. refine (hm_eq _ _ _ _ _ (F2 _ (F1 F HF))). intros. cbn. ring. }
  destruct (R (seq 0 (q_n q)) _ _ ltac:(intros g Hg; apply in_seq in Hg; lia) EL) as (TR & FR).
  destruct (FR _ (hm_new N)) as (k & Hk & EQ). exists k. splits; auto.
  - intros g Hg. apply TR. apply in_seq. lia.
  - intros y z Y Z HY HZ. rewrite EQ. rewrite Rplus_0_l.
    assert (SL : forall c f, fold_right Rplus 0 (map f (seq 0 c)) = bigsum c f).
    { clear. intros c f. induction c as [|c IH]; [reflexivity|]. rewrite seq_S, map_app, fold_right_app. cbn [map fold_right bigsum Nat.add].
      rewrite <- IH. generalize (map f (seq 0 c)). clear. intros l. induction l as [|a l IH]; cbn; [ring|]. rewrite IH. ring. }
    rewrite SL. apply bigsum_ext; intros g Hg.
    destruct He as (H1 & H2 & H3 & H4 & H5 & H6 & H7 & H8 & H9 & H10 & H11).
    destruct (HY g Hg) as (a & b). destruct (HZ g Hg) as (c & d). unfold m in a, b, c, d. fold x in a, b, c, d. rewrite H5 in a, b, c, d.
    unfold st, m, n. rewrite H5, H6. fold x in H11.
    rewrite <- (state_eq su sg x y _ _ H4 (H11 g Hg) a b), <- (state_eq su sg x z _ _ H4 (H11 g Hg) c d). unfold wgt. ring.
Qed.
Lemma supg_returns t W :
  (forall g, (g < q_n q)%nat -> bilinear (W (pt q g))) ->
  (forall g P Nv M dN dM U, (g < q_n q)%nat -> P = mkPoint (jac sg x (pt q g)) Nv M dN dM ->
     is_vec Nv n (shp sg (pt q g)) -> is_vec M m (shp su (pt q g)) ->
     is_mat dN 2 n (gradM sg sg x (pt q g)) -> is_mat dM 2 m (gradM sg su x (pt q g)) -> is_vec U 2 (speed su elemu ubars (pt q g)) ->
     forall c e i j, (c < 3)%nat -> (e < 3)%nat -> (i < size m n c)%nat -> (j < size m n e)%nat ->
         ent2 (t P U i j) c e = Ok (W (pt q g) (unit_at su sg x (pt q g) (c, i)) (unit_at su sg x (pt q g) (e, j)))) ->
  dt <> 0 -> rho <> 0 -> (forall g, (g < q_n q)%nat -> stream_ok su sg m x (pt q g) (speed su elemu ubars (pt q g)) (quad 2 q (jac sg x))) ->
  exists K nu np, supg_routine su sg q elemu elemp dou xs ubars rho mu dt t = Ok (K, nu, np).
Proof.
  intros HB HT H0 H00 HS.
  destruct (start su sg q elemu elemp dou xs He) as (E0 & (nu' & Eu & Hu) & (np' & Ep & Hp) & _ & (Xp & EXp & HX)).
  fold m n in Eu, Ep, Hu, Hp, HX. fold x in HX. destruct (node_mat_ok 2 elemu ubars Hn) as (u & EU & HU).
  unfold supg_routine. rewrite E0. cbn [assert_ bind]. fold m n. rewrite Eu, Ep, EXp, EU. cbn [bind].
  unfold supg_loop. rewrite (mixed_area Xp HX). cbn [bind].
  match goal with |- context [gauss q ?b _] => set (body := b) end.
  destruct (hm_gauss N q body (fun g y z => W (pt q g) (st y (pt q g)) (st z (pt q g)) * taus g * jac sg x (pt q g) * wgt 2 q g)) as (K & E & _).
  - intros g Hg. unfold body. destruct (point_ok su sg q elemu elemp dou xs He g Xp Hg HX) as (Nv & M & dN & dM & EPt & H1 & H2 & H3 & H4).
    fold x in EPt, H3, H4. destruct (speed_ok su sg q elemu elemp dou xs He ubars u M _ Hn HU H2) as (U & EU2 & HU2).
    rewrite EPt. cbn [bind pM]. rewrite EU2. cbn [bind].
    destruct (tau_flow_returns g Nv M dN dM U H4 HU2 H0 H00 (HS g Hg)) as (tau & Et). rewrite Et. cbn [bind].
    rewrite (tau_flow_eq g Nv M dN dM U tau H4 HU2 Et). destruct (HB g Hg) as (HR & HL).
    destruct (table_form m n _ _ _ _ _ (W (pt q g)) HR HL (HT g _ Nv M dN dM U Hg eq_refl H1 H2 H3 H4 HU2)) as (k & Ek & Hk).
    rewrite Ek. cbn [bind pJ].
    pose proof (hm_eq _ _ _ _ (fun y z => bilinear_state (W (pt q g)) m n su sg x (pt q g) y z HR HL) Hk) as Hk2.
    destruct (hm_weigh N q g _ _ (rule2 su sg q elemu elemp dou xs He) Hg (hm_scal N _ _ (jac sg x (pt q g)) (hm_scal N k _ tau Hk2))) as (k2 & Ek2 & Hk3).
    exists k2. split; auto.
  - unfold N in E. rewrite E. cbn [bind]. eauto.
Qed.
Ltac wcbn2 := unfold supg_form, supg_mass_form, supg_continuity_form, supg_test in *; wcbn.
Lemma SUPGStiffness_st : stabilised_of su sg q elemu elemp dou xs taus dt
  (NavierStokesSUPGPSPGStiffness su sg q elemu elemp dou xs ubars rho mu dt) (fun p => supg_form rho (speed su elemu ubars p)).
Proof.
  apply supg_stabilised.
  - unfold supg_form, supg_test. bilin.
  - intros g P Nv M dN dM U Hg -> H1 H2 H3 H4 H5. unfold supg_table, supg_form, supg_test. cbn [pN pM pdN pdM]. cbv zeta. entries.
Qed.
Lemma SUPGMass_st : stabilised_of su sg q elemu elemp dou xs taus dt
  (NavierStokesSUPGPSPGConsistentMass su sg q elemu elemp dou xs ubars rho mu dt) (fun p => supg_mass_form rho (speed su elemu ubars p)).
Proof.
  apply supg_stabilised.
  - unfold supg_mass_form, supg_test. bilin.
  - intros g P Nv M dN dM U Hg -> H1 H2 H3 H4 H5. unfold supg_mass_table, supg_mass_form, supg_test. cbn [pN pM pdN pdM]. cbv zeta. entries.
Qed.
Lemma SUPGContinuity_st : stabilised_of su sg q elemu elemp dou xs taus dt
  (ContinuitySUPGPSPGStiffness su sg q elemu elemp dou xs ubars rho mu dt) (fun p => supg_continuity_form (speed su elemu ubars p)).
Proof.
  apply supg_stabilised.
  - unfold supg_continuity_form, supg_test. bilin.
  - intros g P Nv M dN dM U Hg -> H1 H2 H3 H4 H5. unfold supg_continuity_table, supg_continuity_form, supg_test. cbn [pN pM pdN pdM]. cbv zeta. entries.
Qed.
Lemma SUPGStiffness_returns : dt <> 0 -> rho <> 0 ->
  (forall g, (g < q_n q)%nat -> stream_ok su sg m x (pt q g) (speed su elemu ubars (pt q g)) (quad 2 q (jac sg x))) ->
  exists K nu np, NavierStokesSUPGPSPGStiffness su sg q elemu elemp dou xs ubars rho mu dt = Ok (K, nu, np).
Proof.
  apply (supg_returns (supg_table rho) (fun p => supg_form rho (speed su elemu ubars p))).
  - unfold supg_form, supg_test. bilin.
  - intros g P Nv M dN dM U Hg -> H1 H2 H3 H4 H5. unfold supg_table, supg_form, supg_test. cbn [pN pM pdN pdM]. cbv zeta. entries.
Qed.
Lemma SUPGMass_returns : dt <> 0 -> rho <> 0 ->
  (forall g, (g < q_n q)%nat -> stream_ok su sg m x (pt q g) (speed su elemu ubars (pt q g)) (quad 2 q (jac sg x))) ->
  exists K nu np, NavierStokesSUPGPSPGConsistentMass su sg q elemu elemp dou xs ubars rho mu dt = Ok (K, nu, np).
Proof.
  apply (supg_returns (supg_mass_table rho) (fun p => supg_mass_form rho (speed su elemu ubars p))).
  - unfold supg_mass_form, supg_test. bilin.
  - intros g P Nv M dN dM U Hg -> H1 H2 H3 H4 H5. unfold supg_mass_table, supg_mass_form, supg_test. cbn [pN pM pdN pdM]. cbv zeta. entries.
Qed.
Lemma SUPGContinuity_returns : dt <> 0 -> rho <> 0 ->
  (forall g, (g < q_n q)%nat -> stream_ok su sg m x (pt q g) (speed su elemu ubars (pt q g)) (quad 2 q (jac sg x))) ->
  exists K nu np, ContinuitySUPGPSPGStiffness su sg q elemu elemp dou xs ubars rho mu dt = Ok (K, nu, np).
Proof.
  apply (supg_returns (supg_continuity_table) (fun p => supg_continuity_form (speed su elemu ubars p))).
  - unfold supg_continuity_form, supg_test. bilin.
  - intros g P Nv M dN dM U Hg -> H1 H2 H3 H4 H5. unfold supg_continuity_table, supg_continuity_form, supg_test. cbn [pN pM pdN pdM]. cbv zeta. entries.
Qed.
End Supg.
End Mixed.
