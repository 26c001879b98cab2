(** The decoupled Navier-Stokes routines. *)
From Coq Require Import List Arith Lia Bool Reals Lra.
From Verif Require Import Res SumR DenseModel DenseR DenseSpec DenseProof DenseMain ShapeModel ShapeMain QuadModel QuadSpec
  ElemModel ElemSpec ElemProof ElemProof2 ElemProof3 FlowModel FlowSpec FlowProof FlowProof2 FlowProof3.
Import ListNotations.
Local Open Scope R_scope.

Ltac entries0 := let c := fresh "c" in let e := fresh "e" in intros c e ? ? ? ? ? ?;
  destruct c as [|[|[|c]]]; [| |exfalso; cbn [size Nat.eqb] in *; lia|lia];
  (destruct e as [|[|[|e]]]; [| |exfalso; cbn [size Nat.eqb] in *; lia|lia]);
  cbn [size Nat.eqb] in *; unfold ent2; cbn [nth];
  (eapply Ok_eq; [ev|wring]).
Ltac ventries0 := let c := fresh "c" in intros c ? ? ?;
  destruct c as [|[|[|c]]]; [| |exfalso; cbn [size Nat.eqb] in *; lia|lia];
  cbn [size Nat.eqb] in *; cbn [nth];
  (eapply Ok_eq; [ev|wring]).

Section Single.
Variables (s : shape) (q : rule) (elem dou : list nat) (xs : list (list R)).
Hypothesis He : element_ok 2 s q elem xs.
Let x := nodal elem xs.
Let m := length elem.
Let N := (2 * m + 0)%nat.
Let st y r := state s s x m 0 y r.

Lemma hq : rule_ok 2 q. Proof. apply He. Qed.
Lemma single_ok g X : (g < q_n q)%nat -> is_mat X m 2 x -> exists Nv dN,
  single_point s q g X = Ok (jac s x (pt q g), Nv, dN) /\ is_vec Nv m (shp s (pt q g)) /\ is_mat dN 2 m (gradM s s x (pt q g)).
Proof.
  intros Hg HX. unfold single_point. rewrite (gpoint_ok 2 q g hq Hg). cbn [bind].
  destruct (gradient_ok 2 s q elem xs He g X ltac:(lia) Hg HX) as (G & EG & HG). rewrite EG. cbn [bind].
  do 2 eexists. split; [reflexivity|]. destruct He as (Hs & Hd & HL & _). unfold m. split.
  - rewrite HL. apply (sf_vec_ok s Hs).
  - refine (is_mat_ext G 2 _ _ _ _ HG). intros i j _ _. unfold gradN, gradM. now rewrite Hd.
Qed.
Lemma begin : (2 <= length dou)%nat -> (exists nu, nte_u m dou = Ok nu /\ numbered_u m dou nu) /\ (exists X, node_mat 2 elem xs = Ok X /\ is_mat X m 2 x).
Proof.
  intros Hd. split; [now apply nte_u_ok|]. apply node_mat_ok. apply He.
Qed.
Lemma interp_ok us u Nv r : nodes_ok 2 elem us -> is_mat u m 2 (nodal elem us) -> is_vec Nv m (shp s r) ->
  exists U, interpolate u Nv = Ok U /\ is_vec U 2 (speed s elem us r).
Proof.
  intros Hn Hu HM. unfold interpolate. destruct (Rmtrans _ _ _ _ Hu) as (T & ET & HT). rewrite ET. cbn [bind].
  destruct (Rmmulv _ _ _ _ _ _ HT HM) as (U & EU & HU). rewrite EU. exists U. split; auto.
  refine (is_vec_ext U 2 _ _ _ HU). intros c Hc. unfold speed, field_value. destruct He as (_ & _ & HL & _). unfold m. rewrite HL.
  apply bigsum_ext; intros. ring.
Qed.

Lemma mixed_point_form g t W : (g < q_n q)%nat -> bilinear W ->
  (forall c e i j, (c < 3)%nat -> (e < 3)%nat -> (i < size m 0 c)%nat -> (j < size m 0 e)%nat ->
     ent2 (t i j) c e = Ok (W (unit_at s s x (pt q g) (c, i)) (unit_at s s x (pt q g) (e, j)))) ->
  exists k, (k <- mixed m 0 t ;; weigh 2 q g (mscal R_ops (jac s x (pt q g)) k)) = Ok k /\
    has_mform N k (fun y z => W (st y (pt q g)) (st z (pt q g)) * jac s x (pt q g) * wgt 2 q g).
Proof.
  intros Hg (HR & HL) HT. destruct (table_form m 0 _ _ _ _ _ W HR HL HT) as (k & Ek & Hk). rewrite Ek. cbn [bind].
  pose proof (hm_eq _ _ _ _ (fun y z => bilinear_state W m 0 s s x (pt q g) y z HR HL) Hk) as Hk2.
  apply (hm_weigh N q g _ _ hq Hg (hm_scal N k _ (jac s x (pt q g)) Hk2)).
Qed.
Lemma mixedv_point_form g t L : (g < q_n q)%nat -> linear L ->
  (forall c i, (c < 3)%nat -> (i < size m 0 c)%nat -> nth c (t i) (Fail OutOfBounds) = Ok (L (unit_at s s x (pt q g) (c, i)))) ->
  exists k, (k <- mixedv m 0 t ;; weighv 2 q g (vscal R_ops (jac s x (pt q g)) k)) = Ok k /\
    has_mlin N k (fun y => L (st y (pt q g)) * jac s x (pt q g) * wgt 2 q g).
Proof.
  intros Hg HL HT. destruct (table_lin m 0 _ _ _ _ _ L HL HT) as (k & Ek & Hk). rewrite Ek. cbn [bind].
  destruct (hv_weigh 2 N q g _ _ (le_n _) hq Hg (hv_scal N k _ (jac s x (pt q g)) Hk)) as (f2 & Ef2 & ff & Hff & HE).
  exists f2. split; auto. exists ff. split; [exact Hff|]. intros y. rewrite HE.
  now rewrite (comb_mixed m 0 (shp s (pt q g)) (gradM s s x (pt q g)) (shp s (pt q g)) (gradM s s x (pt q g)) y _ HL).
Qed.
Definition nopress (Y : pstate) : pstate := mkS (sv0 Y) (sv1 Y) (sH00 Y) (sH01 Y) (sH10 Y) (sH11 Y) 0 0 0.
Lemma st_eq y Y g : (g < q_n q)%nat -> velocities s q x m y Y -> st y (pt q g) = nopress (Y (pt q g)).
Proof.
  intros Hg HY. destruct He as (Hs & Hd & HL & _ & _ & HJ). unfold nopress.
  rewrite (vstate_eq s x y (pt q g) (Y (pt q g)) Hd (HJ g Hg)); [unfold st, m; now rewrite HL|]. pose proof (HY g Hg) as H. unfold m in H. now rewrite HL in H.
Qed.
Lemma vflow_intro K nu W : numbered_u m dou nu -> (forall p Y Z, W p Y Z = W p (nopress Y) (nopress Z)) ->
  has_mform N K (fun y z => quad 2 q (fun p => jac s x p * W p (st y p) (st z p))) -> vflow_of s q elem dou xs (Ok (K, nu)) W.
Proof.
  intros Hu HW (k & Hk & H). unfold N in Hk, H. rewrite Nat.add_0_r in Hk, H. exists K, nu, k. splits; auto. intros y z Y Z HY HZ. fold m. rewrite H.
  unfold quad. apply bigsum_ext; intros g Hg. change (fun k => nth k (nth g (q_points q) []) 0) with (pt q g). fold x.
  rewrite (HW _ (Y _)), (st_eq y Y g Hg HY), (st_eq z Z g Hg HZ). reflexivity.
Qed.
Lemma vload_intro K nu L : numbered_u m dou nu -> (forall p Y, L p Y = L p (nopress Y)) ->
  has_mlin N K (fun y => quad 2 q (fun p => jac s x p * L p (st y p))) -> vload_of s q elem dou xs (Ok (K, nu)) L.
Proof.
  intros Hu HW (k & Hk & H). unfold N in Hk, H. rewrite Nat.add_0_r in Hk, H. exists K, nu, k. splits; auto. intros y Y HY. fold m. rewrite H.
  unfold quad. apply bigsum_ext; intros g Hg. change (fun k => nth k (nth g (q_points q) []) 0) with (pt q g). fold x.
  rewrite (HW _ (Y _)), (st_eq y Y g Hg HY). reflexivity.
Qed.
Lemma eq2 : length dou = 2%nat -> (length dou =? 2)%nat = true. Proof. now intros ->. Qed.

Lemma DecoupledMass_flow rho : length dou = 2%nat ->
  vflow_of s q elem dou xs (NavierStokesDecoupledConsistentMass s q elem dou xs rho) (fun _ => mass_form rho).
Proof.
  intros Hd. destruct (begin ltac:(lia)) as ((nu & Eu & Hu) & (X & EX & HX)).
  unfold NavierStokesDecoupledConsistentMass. rewrite (eq2 Hd). cbn [assert_ bind]. fold m. rewrite Eu, EX. cbn [bind].
  match goal with |- context [gauss q ?b _] => set (body := b) end.
  destruct (hm_gauss N q body (fun g y z => mass_form rho (st y (pt q g)) (st z (pt q g)) * jac s x (pt q g) * wgt 2 q g)) as (K & E & H).
  - intros g Hg. unfold body. destruct (single_ok g X Hg HX) as (Nv & dN & ES & H1 & H2). rewrite ES. cbn [bind].
    apply (mixed_point_form g _ (mass_form rho) Hg); [unfold mass_form; bilin|]. unfold mass_table, mass_form. entries0.
  - unfold N in E. rewrite E. cbn [bind]. apply vflow_intro; auto. refine (hm_eq _ _ _ _ _ H). intros y z. unfold quad. apply bigsum_ext; intros g Hg.
    change (fun k => nth k (nth g (q_points q) []) 0) with (pt q g). unfold wgt. ring.
Qed.
Lemma flow_area_ok X : is_mat X m 2 x -> flow_area s q X = Ok (quad 2 q (jac s x)).
Proof.
  intros HX. unfold flow_area. rewrite (gausss_ok0 q _ (fun g => jac s x (pt q g) * wgt 2 q g)).
  - f_equal. unfold quad. apply bigsum_ext; intros g Hg. change (fun k => nth k (nth g (q_points q) []) 0) with (pt q g). unfold wgt. ring.
  - intros g Hg. destruct (jacobian_ok 2 s q elem xs He g X Hg HX) as (T & ET & _). fold x in ET. rewrite ET. cbn [bind fst].
    now apply (weighs_ok 2 2 q g _ (le_n _) hq).
Qed.
Lemma LumpedMass_ok rho : length dou = 2%nat -> (0 < m)%nat -> exists K nu,
  NavierStokesDecoupledLumpedMass s q elem dou xs rho = Ok (K, nu) /\ numbered_u m dou nu /\
  is_mat K (2 * m) (2 * m) (fun a b => if (a =? b)%nat then rho * quad 2 q (jac s x) / INR m else 0).
Proof.
  intros Hd Hm. destruct (begin ltac:(lia)) as ((nu & Eu & Hu) & (X & EX & HX)).
  unfold NavierStokesDecoupledLumpedMass. rewrite (eq2 Hd). cbn [assert_ bind]. fold m. rewrite Eu, EX. cbn [bind].
  rewrite (flow_area_ok X HX). cbn [bind]. set (v := rho * quad 2 q (jac s x)).
  assert (ED : Rdiv_res v (INR m) = Ok (v / INR m)).
  { unfold Rdiv_res. destruct (Req_EM_T (INR m) 0) as [C|C]; auto. exfalso. apply not_0_INR in C; auto; lia. }
  rewrite ED.
  destruct (mixed_ok_ m 0 (fun i j => let e := if (i =? j)%nat then Ok (v / INR m) else Ok 0 in [ [e; Ok 0]; [Ok 0; e] ])
    (fun a b => if (fst a =? fst b)%nat then if (snd a =? snd b)%nat then v / INR m else 0 else 0)) as (K & E & HK).
  - intros c e i j Hc He' Hi Hj. destruct c as [|[|[|c]]]; [| |exfalso; cbn [size Nat.eqb] in *; lia|lia];
      (destruct e as [|[|[|e]]]; [| |exfalso; cbn [size Nat.eqb] in *; lia|lia]); unfold ent2; cbn [nth fst snd Nat.eqb]; destruct (i =? j)%nat; reflexivity.
  - cbv zeta in E |- *. rewrite E. cbn [bind]. exists K, nu. splits; auto. rewrite !Nat.add_0_r in HK. refine (is_mat_ext K _ _ _ _ _ HK).
    intros a b Ha Hb. pose proof (split_range m 0 a ltac:(lia)) as Sa. pose proof (split_range m 0 b ltac:(lia)) as Sb.
    destruct (split m a) as (c & i). destruct (split m b) as (e & j). cbn [fst snd]. unfold size in *.
    destruct Sa as (? & Hi & ->). destruct Sb as (? & Hj & ->).
    destruct (Nat.eqb_spec c e) as [->|Hce].
    + destruct (Nat.eqb_spec i j) as [->|Hij]; [now rewrite Nat.eqb_refl|]. destruct (Nat.eqb_spec (e * m + i) (e * m + j)); auto. lia.
    + destruct (Nat.eqb_spec (c * m + i) (e * m + j)) as [A|A]; auto. exfalso.
      destruct c as [|[|[|c]]], e as [|[|[|e]]]; cbn [Nat.eqb] in *; try lia.
Qed.

(** the flow of the nodal table *)
Section V.
Variable us : list (list R).
Hypothesis Hn : nodes_ok 2 elem us.
Let S p := st (v_dofs elem us) p.
Lemma v_vel i c : (i < m)%nat -> (c < 2)%nat -> vel m (v_dofs elem us) i c = nodal elem us i c.
Proof using .
  intros Hi Hc. unfold vel, v_dofs, dofs. fold m. destruct c as [|[|c]]; [| |lia]; cbn [Nat.mul Nat.add]; rewrite ?Nat.add_0_r.
  - now destruct (Nat.ltb_spec i m); [|lia].
  - destruct (Nat.ltb_spec (m + i) m); [lia|]. destruct (Nat.ltb_spec (m + i) (m + m)); [|lia]. now replace (m + i - m)%nat with i by lia.
Qed.
Lemma v_speed r c : (c < 2)%nat -> speed s elem us r c = val (S r) c.
Proof.
  intros Hc. unfold speed, field_value. destruct He as (_ & _ & HL & _). rewrite <- HL. fold m. unfold S, st, state.
  destruct c as [|[|c]]; [| |lia]; cbn [val sv0 sv1]; apply bigsum_ext; intros i Hi; now rewrite v_vel by (auto; lia).
Qed.
Lemma v_gradient dN u g : is_mat dN 2 m (gradM s s x (pt q g)) -> is_mat u m 2 (nodal elem us) ->
  exists dU, mmul R_ops dN u = Ok dU /\ is_mat dU 2 2 (vgrad (S (pt q g))).
Proof.
  intros H Hu. destruct (Rmmul _ _ _ _ _ _ _ H Hu) as (dU & E & HdU). exists dU. split; auto.
  refine (is_mat_ext dU 2 2 _ _ _ HdU). intros l c Hl Hc. unfold S, st, state.
  destruct l as [|[|l]]; [| |lia]; (destruct c as [|[|c]]; [| |lia]); cbn [vgrad sH00 sH01 sH10 sH11];
    apply bigsum_ext; intros i Hi; now rewrite v_vel by (auto; lia).
Qed.
Definition aux_work (rho mu : R) (T Y : pstate) : R :=
  rho * dot2 (val Y) (convect (val T) T) + mu * ddot 2 (vgrad T) (vgrad Y).
Lemma AuxVelocity_load rho mu : length dou = 2%nat ->
  vload_of s q elem dou xs (NavierStokesAuxiliaryVelocity s q elem dou xs us rho mu) (fun p Y => - aux_work rho mu (S p) Y).
Proof.
  intros Hd. destruct (begin ltac:(lia)) as ((nu & Eu & Hu) & (X & EX & HX)). destruct (node_mat_ok 2 elem us Hn) as (u & EU & HU).
  unfold NavierStokesAuxiliaryVelocity. rewrite (eq2 Hd). cbn [assert_ bind]. fold m. rewrite Eu, EX, EU. cbn [bind].
  match goal with |- context [foldM ?b _ _] => set (body := b) end.
  destruct (loop_inv body (fun i F => has_mlin N F (fun y => bigsum i (fun g => - aux_work rho mu (S (pt q g)) (st y (pt q g)) * jac s x (pt q g) * wgt 2 q g)))
    (q_n q) (vnew R_ops N)) as (F & E & HF).
  - apply hv_new.
  - intros g F Hg HF. unfold body. destruct (single_ok g X Hg HX) as (Nv & dN & ES & H1 & H2). rewrite ES. cbn [bind].
    destruct (interp_ok us u Nv _ Hn HU H1) as (U & EU2 & HU2). rewrite EU2. cbn [bind].
    assert (HU3 : is_vec U 2 (val (S (pt q g)))) by (refine (is_vec_ext U 2 _ _ _ HU2); intros; now apply v_speed).
    destruct (v_gradient dN u g H2 HU) as (dU & EdU & HdU). rewrite EdU. cbn [bind].
    set (T := S (pt q g)) in *.
    match goal with |- context [mixedv m 0 ?t] => destruct (mixedv_point_form g t (aux_work rho mu T) Hg) as (k & Ek & Hk) end.
    { unfold aux_work. lin. }
    { unfold aux_work. ventries0. }
    match type of Ek with bind ?a _ = _ => destruct a as [k0|] eqn:E0; [|discriminate Ek] end. cbn [bind] in Ek |- *. rewrite Ek. cbn [bind].
    destruct (hv_sub N F _ k _ HF Hk) as (F' & EF' & ff & Hff & HE). exists F'. split; auto. exists ff. split; auto. intros y. rewrite HE. cbn [bigsum].
    fold T. ring.
  - unfold N in E. rewrite E. cbn [bind]. apply vload_intro; auto. destruct HF as (ff & Hff & HE). exists ff. split; auto. intros y. rewrite HE.
    unfold quad. apply bigsum_ext; intros g Hg. change (fun k => nth k (nth g (q_points q) []) 0) with (pt q g). unfold wgt. ring.
Qed.
(** the gradient of the nodal pressures *)
Lemma NextVelocity_load ps rho : length dou = 2%nat -> nodes_ok 1 elem ps ->
  vload_of s q elem dou xs (NavierStokesNextstepVelocity s q elem dou xs us ps rho)
    (fun p Y => - dot2 (fun l => gradU s x p (nodal elem ps) l 0) (val Y)).
Proof.
  intros Hd Hp. destruct (begin ltac:(lia)) as ((nu & Eu & Hu) & (X & EX & HX)). destruct (node_mat_ok 2 elem us Hn) as (u & EU & HU).
  destruct (node_vec_ok 0 elem ps Hp) as (pv & EP & HP). fold m in HP.
  unfold NavierStokesNextstepVelocity. rewrite (eq2 Hd). cbn [assert_ bind]. fold m. rewrite Eu, EX, EU, EP. cbn [bind].
  match goal with |- context [foldM ?b _ _] => set (body := b) end.
  destruct (loop_inv body (fun i F => has_mlin N F (fun y => bigsum i (fun g => - dot2 (fun l => gradU s x (pt q g) (nodal elem ps) l 0) (val (st y (pt q g))) * jac s x (pt q g) * wgt 2 q g)))
    (q_n q) (vnew R_ops N)) as (F & E & HF).
  - apply hv_new.
  - intros g F Hg HF. unfold body. destruct (single_ok g X Hg HX) as (Nv & dN & ES & H1 & H2). rewrite ES. cbn [bind].
    destruct (interp_ok us u Nv _ Hn HU H1) as (U & EU2 & HU2). rewrite EU2. cbn [bind].
    destruct (Rmmulv _ _ _ _ _ _ H2 HP) as (dP & EdP & HdP). rewrite EdP. cbn [bind].
    assert (HdP2 : is_vec dP 2 (fun l => gradU s x (pt q g) (nodal elem ps) l 0)).
    { refine (is_vec_ext dP 2 _ _ _ HdP). intros l Hl. unfold gradU, gradN, gradM. destruct He as (_ & Hsd & HL & _). now rewrite Hsd, <- HL. }
    set (G := fun l => gradU s x (pt q g) (nodal elem ps) l 0) in HdP2.
    match goal with |- context [mixedv m 0 ?t] => destruct (mixedv_point_form g t (fun Y => dot2 G (val Y)) Hg) as (k & Ek & Hk) end.
    { clearbody G. lin. }
    { clear HdP. clearbody G. ventries0. }
    match type of Ek with bind ?a _ = _ => destruct a as [k0|] eqn:E0; [|discriminate Ek] end. cbn [bind] in Ek |- *. rewrite Ek. cbn [bind].
    destruct (hv_sub N F _ k _ HF Hk) as (F' & EF' & ff & Hff & HE). exists F'. split; auto. exists ff. split; auto. intros y. rewrite HE. cbn [bigsum].
    unfold G. ring.
  - unfold N in E. rewrite E. cbn [bind]. apply vload_intro; auto. destruct HF as (ff & Hff & HE). exists ff. split; auto. intros y. rewrite HE.
    unfold quad. apply bigsum_ext; intros g Hg. change (fun k => nth k (nth g (q_points q) []) 0) with (pt q g). unfold wgt. ring.
Qed.
Lemma PressurePoisson_ok rho dt : length dou = 1%nat -> dt <> 0 -> exists K F ne k f,
  NavierStokesPressurePoisson s q elem dou xs us rho dt = Ok (K, F, ne) /\ numbered 1 m dou ne /\ is_mat K m m k /\ is_vec F m f /\
  (forall y z, mform m k y z = quad 2 q (fun p => jac s x p * bigsum 2 (fun l => gradU s x p (fun i _ => y i) l 0 * gradU s x p (fun i _ => z i) l 0))) /\
  (forall y, bigsum m (fun a => f a * y a) = quad 2 q (fun p => jac s x p * (- (rho / dt) * field_value s p (fun i _ => y i) 0 * dvg (S p)))).
Proof.
  intros Hd Hdt. destruct (node_mat_ok 2 elem xs (proj1 (proj2 (proj2 (proj2 He))))) as (X & EX & HX). fold m x in HX.
  destruct (node_mat_ok 2 elem us Hn) as (u & EU & HU). fold m in HU.
  destruct (nte_of_ok 1 m dou ltac:(lia)) as (ne & Ene & Hne).
  unfold NavierStokesPressurePoisson. rewrite Hd. cbn [Nat.eqb assert_ bind]. fold m. rewrite Ene, EX, EU. cbn [bind].
  assert (GM : forall p y l, bigsum m (fun j => gradM s s x p l j * y j) = gradU s x p (fun i _ => y i) l 0).
  { intros p y l. unfold gradU, gradN, gradM. destruct He as (_ & Hsd & HL & _). now rewrite Hsd, <- HL. }
  match goal with |- context [foldM ?b _ _] => set (body := b) end.
  destruct (kf_mixed q body (fun g y z => bigsum 2 (fun l => gradU s x (pt q g) (fun i _ => y i) l 0 * gradU s x (pt q g) (fun i _ => z i) l 0) * jac s x (pt q g) * wgt 2 q g)
    (fun g y => - (rho / dt) * field_value s (pt q g) (fun i _ => y i) 0 * dvg (S (pt q g)) * jac s x (pt q g) * wgt 2 q g) m) as (K & F & E & (k & HK & EK) & (f & HF & EF)).
  - intros g K F0 K0 L0 Hg HK0 HL0. unfold body. destruct (single_ok g X Hg HX) as (Nv & dN & ES & H1 & H2). rewrite ES. cbn [bind].
    destruct (v_gradient dN u g H2 HU) as (dU & EdU & HdU). rewrite EdU. cbn [bind]. set (T := S (pt q g)) in *.
    set (D := gradM s s x (pt q g)) in *.
    destruct (Rmbuild m m (fun i j => mget dN 0 i *! mget dN 0 j +! mget dN 1 i *! mget dN 1 j) (fun i j => D 0%nat i * D 0%nat j + D 1%nat i * D 1%nat j)) as (k1 & Ek1 & Hk1).
    { intros i j Hi Hj. eapply Ok_eq; [ev|reflexivity]. }
    rewrite Ek1. cbn [bind].
    assert (M1 : has_mform m k1 (fun y z => bigsum 2 (fun l => gradU s x (pt q g) (fun i _ => y i) l 0 * gradU s x (pt q g) (fun i _ => z i) l 0))).
    { eexists. split; [exact Hk1|]. intros y z. rewrite (bigsum_ext 2 _ (fun l => bigsum m (fun i => D l i * y i) * bigsum m (fun j => D l j * z j))) by (intros; unfold D; now rewrite !GM).
      cbn [bigsum]. rewrite Rplus_0_l, !bigsum_mult. unfold mform. rewrite <- bigsum_plus. apply bigsum_ext; intros i Hi. rewrite <- bigsum_plus. apply bigsum_ext; intros j Hj. ring. }
    destruct (hm_weigh m q g _ _ hq Hg (hm_scal m k1 _ (jac s x (pt q g)) M1)) as (k2 & Ek2 & Hk2). rewrite Ek2. cbn [bind].
    destruct (hm_add m K K0 k2 _ HK0 Hk2) as (K' & EK' & HK'). rewrite EK'. cbn [bind].
    rewrite (mapM_seq _ (fun i => - rho / dt * shp s (pt q g) i * (vgrad T 0 0 + vgrad T 1 1))).
    2:{ intros i Hi. eapply Ok_eq; [|reflexivity]. eapply rmul_Ok; [eapply rmul_Ok|].
        - unfold Rdiv_res. destruct (Req_EM_T dt 0); [contradiction|reflexivity].
        - eapply Rvget; [eassumption|lia].
        - ev. }
    cbn [bind].
    assert (V1 : has_mlin m (map (fun i => - rho / dt * shp s (pt q g) i * (vgrad T 0 0 + vgrad T 1 1)) (seq 0 m))
       (fun y => - (rho / dt) * field_value s (pt q g) (fun i _ => y i) 0 * dvg T)).
    { eexists. split.
      - apply (is_vec_intro R_ops); [now rewrite map_length, seq_length|]. intros i Hi. rewrite nth_map_seq by auto. reflexivity.
      - intros y. unfold field_value, dvg, trace. destruct He as (_ & _ & HL & _). rewrite <- HL. fold m. cbn [bigsum].
        rewrite Rmult_assoc, <- bigsum_scal_r, <- bigsum_scal. apply bigsum_ext; intros. field. auto. }
    destruct (hv_weigh 2 m q g _ _ (le_n _) hq Hg (hv_scal m _ _ (jac s x (pt q g)) V1)) as (f2 & Ef2 & Hf2). rewrite Ef2. cbn [bind].
    destruct (hv_add m F0 L0 f2 _ HL0 Hf2) as (F' & EF' & HF'). rewrite EF'. cbn [bind]. exists K', F'. splits; auto.
  - rewrite E. cbn [bind]. exists K, F, ne, k, f. splits; auto.
    + intros y z. rewrite EK. unfold quad. apply bigsum_ext; intros g Hg. change (fun k => nth k (nth g (q_points q) []) 0) with (pt q g). unfold wgt. ring.
    + intros y. rewrite EF. unfold quad. apply bigsum_ext; intros g Hg. change (fun k => nth k (nth g (q_points q) []) 0) with (pt q g). unfold wgt. ring.
Qed.
End V.
End Single.
