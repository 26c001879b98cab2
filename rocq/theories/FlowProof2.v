(** Each flow routine as a form on dof vectors. *)
From Coq Require Import List Arith Lia Bool Reals Lra.
From Verif Require Import Res SumR DenseModel DenseR DenseSpec DenseProof DenseMain ShapeModel ShapeMain QuadModel QuadSpec
  ElemModel ElemSpec ElemProof FlowModel FlowSpec FlowProof.
Import ListNotations.
Local Open Scope R_scope.

Ltac wcbn := unfold ns_work, ns_tangent, viscous, dvg, convect, dot2, trace, ddot, strain, flip, unit_at;
  cbn [sadd sscal szero basis sv0 sv1 sH00 sH01 sH10 sH11 sp sG0 sG1 val vgrad pgrad bigsum].
Ltac wring := wcbn; first [ring | field].
Ltac lin := split; [|split]; intros; wring.
Ltac bilin := intros; split; intros; lin.
Ltac ev := repeat first [eapply radd_Ok | eapply rmul_Ok | eapply rsub_Ok | eapply ropp_Ok
  | match goal with |- Ok _ = Ok _ => reflexivity end
  | eapply Rget; [eassumption|lia|lia] | eapply Rvget; [eassumption|lia] ].
Ltac entries := let c := fresh "c" in let e := fresh "e" in intros c e ? ? ? ? ? ?;
  destruct c as [|[|[|c]]]; [| | |lia]; (destruct e as [|[|[|e]]]; [| | |lia]);
  cbn [size Nat.eqb] in *; unfold ent2; cbn [nth];
  (eapply Ok_eq; [ev|wring]).
Ltac ventries := let c := fresh "c" in intros c ? ? ?;
  destruct c as [|[|[|c]]]; [| | |lia];
  cbn [size Nat.eqb] in *; cbn [nth];
  (eapply Ok_eq; [ev|wring]).

Section Routines.
Variables (su sg : shape) (q : rule) (elemu elemp dou : list nat) (xs : list (list R)).
Hypothesis He : mixed_ok su sg q elemu elemp dou xs.
Let x := nodal elemp xs.
Let m := length elemu.
Let n := length elemp.
Let N := (2 * m + n)%nat.
Let st y r := state su sg x m n y r.

Lemma start : (length dou =? 3)%nat = true /\ (exists nu, nte_u m dou = Ok nu /\ numbered_u m dou nu) /\
  (exists np, nte_p m n dou = Ok np /\ numbered_p m n dou np) /\ (exists Xu, node_mat 2 elemu xs = Ok Xu) /\
  (exists Xp, node_mat 2 elemp xs = Ok Xp /\ is_mat Xp n 2 x).
Proof.
  destruct He as (H1 & H2 & H3 & H4 & H5 & H6 & H7 & H8 & H9 & H10 & H11).
  splits.
  - now rewrite H7.
  - apply nte_u_ok. lia.
  - apply nte_p_ok. lia.
  - destruct (node_mat_ok 2 elemu xs H8) as (X & E & _). eauto.
  - apply (node_mat_ok 2 elemp xs H9).
Qed.

Definition stokes_form (mu : R) (Y Z : pstate) : R :=
  viscous mu Y Z - sp Z * dvg Y - sp Y * dvg Z
  + mu * (vgrad Y 0 0 * vgrad Z 1 1 + vgrad Y 1 1 * vgrad Z 0 0 - vgrad Y 1 0 * vgrad Z 0 1 - vgrad Y 0 1 * vgrad Z 1 0).
Lemma StokesStiffness_flow mu : flow_of su sg q elemu elemp dou xs (StokesStiffness su sg q elemu elemp dou xs mu) (fun _ => stokes_form mu).
Proof.
  destruct start as (E0 & (nu & Eu & Hu) & (np & Ep & Hp) & (Xu & EXu) & (Xp & EXp & HX)).
  unfold StokesStiffness. rewrite E0. cbn [assert_ bind]. fold m n. rewrite Eu, Ep, EXu, EXp. cbn [bind].
  destruct (loop_form su sg q elemu elemp dou xs He (fun P => Ok (stokes_table mu P)) (fun _ => stokes_form mu) Xp HX) as (K & EK & HK).
  - unfold stokes_form. bilin.
  - intros g P Nv M dN dM Hg -> H1 H2 H3 H4. eexists. split; [reflexivity|].
    unfold stokes_table, stokes_form. cbn [pN pM pdN pdM]. fold x m n. fold x in H3, H4. entries.
  - fold m n in EK. rewrite EK. cbn [bind]. apply (flow_intro su sg q elemu elemp dou xs He _ _ _ _ Hu Hp HK).
Qed.

Lemma is_mat_ext2 (A : mat R) r c f g : is_mat A r c f -> (forall i j, (i < r)%nat -> (j < c)%nat -> f i j = g i j) -> is_mat A r c g.
Proof. intros H E. exact (is_mat_ext A r c f g E H). Qed.

(** the advection velocity *)
Lemma speed_ok us u M r : nodes_ok 2 elemu us -> is_mat u m 2 (nodal elemu us) -> is_vec M m (shp su r) ->
  exists U, interpolate u M = Ok U /\ is_vec U 2 (speed su elemu us r).
Proof.
  intros Hn Hu HM. unfold interpolate. destruct (Rmtrans _ _ _ _ Hu) as (T & ET & HT). rewrite ET. cbn [bind].
  destruct (Rmmulv _ _ _ _ _ _ HT HM) as (U & EU & HU). rewrite EU. exists U. split; auto.
  refine (is_vec_ext U 2 _ _ _ HU). intros c Hc. unfold speed, field_value. destruct He as (_ & _ & _ & _ & H5 & _). unfold m. rewrite H5.
  apply bigsum_ext; intros. ring.
Qed.

Definition picard_form (rho mu : R) (u : nat -> R) (Y Z : pstate) : R := rho * dot2 (val Y) (convect u Z) + viscous mu Y Z.
Lemma NavierStokesStiffness_flow us rho mu : nodes_ok 2 elemu us ->
  flow_of su sg q elemu elemp dou xs (NavierStokesStiffness su sg q elemu elemp dou xs us rho mu)
    (fun p => picard_form rho mu (speed su elemu us p)).
Proof.
  intros Hn. destruct start as (E0 & (nu & Eu & Hu) & (np & Ep & Hp) & _ & (Xp & EXp & HX)).
  destruct (node_mat_ok 2 elemu us Hn) as (u & EU & HU).
  unfold NavierStokesStiffness. rewrite E0. cbn [assert_ bind]. fold m n. rewrite Eu, Ep, EXp, EU. cbn [bind].
  destruct (loop_form su sg q elemu elemp dou xs He (fun P => U <- interpolate u (pM P) ;; Ok (picard_table rho mu P U))
    (fun p => picard_form rho mu (speed su elemu us p)) Xp HX) as (K & EK & HK).
  - unfold picard_form. bilin.
  - intros g P Nv M dN dM Hg -> H1 H2 H3 H4. cbn [pN pM pdN pdM]. destruct (speed_ok us u M _ Hn HU H2) as (U & EU2 & HU2).
    rewrite EU2. cbn [bind]. eexists. split; [reflexivity|].
    unfold picard_table, picard_form. cbn [pN pM pdN pdM]. fold x m n. fold x in H3, H4. entries.
  - fold m n in EK. rewrite EK. cbn [bind]. apply (flow_intro su sg q elemu elemp dou xs He _ _ _ _ Hu Hp HK).
Qed.

Definition continuity_form (Y Z : pstate) : R := sp Y * dvg Z - sp Z * dvg Y.
Lemma ContinuityStiffness_flow : flow_of su sg q elemu elemp dou xs (ContinuityStiffness su sg q elemu elemp dou xs) (fun _ => continuity_form).
Proof.
  destruct start as (E0 & (nu & Eu & Hu) & (np & Ep & Hp) & _ & (Xp & EXp & HX)).
  unfold ContinuityStiffness. rewrite E0. cbn [assert_ bind]. fold m n. rewrite Eu, Ep, EXp. cbn [bind].
  destruct (loop_form su sg q elemu elemp dou xs He (fun P => Ok (continuity_table P)) (fun _ => continuity_form) Xp HX) as (K & EK & HK).
  - unfold continuity_form. bilin.
  - intros g P Nv M dN dM Hg -> H1 H2 H3 H4. eexists. split; [reflexivity|].
    unfold continuity_table, continuity_form. cbn [pN pM pdN pdM]. fold x m n. fold x in H3, H4. entries.
  - fold m n in EK. rewrite EK. cbn [bind]. apply (flow_intro su sg q elemu elemp dou xs He _ _ _ _ Hu Hp HK).
Qed.

Definition mass_form (rho : R) (Y Z : pstate) : R := rho * dot2 (val Y) (val Z).
Lemma mass_loop rho Xp : is_mat Xp n 2 x -> exists K, value_loop su sg q m n Xp (mass_table rho) = Ok K /\
    has_mform N K (fun y z => quad 2 q (fun p => jac sg x p * mass_form rho (st y p) (st z p))).
Proof.
  intros HX. apply (vloop_form su sg q elemu elemp dou xs He (mass_table rho) (fun _ => mass_form rho) Xp HX).
  - unfold mass_form. bilin.
  - intros g M Hg H1. unfold mass_table, mass_form. fold x m n. entries.
Qed.
Lemma StokesMass_flow rho : flow_of su sg q elemu elemp dou xs (StokesMass su sg q elemu elemp dou xs rho) (fun _ => mass_form rho).
Proof.
  destruct start as (E0 & (nu & Eu & Hu) & (np & Ep & Hp) & (Xu & EXu) & (Xp & EXp & HX)).
  unfold StokesMass. rewrite E0. cbn [assert_ bind]. fold m n. rewrite Eu, Ep, EXu, EXp. cbn [bind].
  destruct (mass_loop rho Xp HX) as (K & EK & HK). rewrite EK. cbn [bind]. apply (flow_intro su sg q elemu elemp dou xs He _ _ _ _ Hu Hp HK).
Qed.
Lemma NavierStokesConsistentMass_flow rho :
  flow_of su sg q elemu elemp dou xs (NavierStokesConsistentMass su sg q elemu elemp dou xs rho) (fun _ => mass_form rho).
Proof.
  destruct start as (E0 & (nu & Eu & Hu) & (np & Ep & Hp) & _ & (Xp & EXp & HX)).
  unfold NavierStokesConsistentMass. rewrite E0. cbn [assert_ bind]. fold m n. rewrite Eu, Ep, EXp. cbn [bind].
  destruct (mass_loop rho Xp HX) as (K & EK & HK). rewrite EK. cbn [bind]. apply (flow_intro su sg q elemu elemp dou xs He _ _ _ _ Hu Hp HK).
Qed.

Definition brinkman_form (k : nat -> nat -> R) (Y Z : pstate) : R :=
  bigsum 2 (fun a => bigsum 2 (fun b => val Y a * k a b * val Z b)).
Lemma BrinkmanBodyForce_flow km k : is_mat km 2 2 k ->
  flow_of su sg q elemu elemp dou xs (BrinkmanBodyForce su sg q elemu elemp dou xs km) (fun _ => brinkman_form k).
Proof.
  intros Hk. destruct start as (E0 & (nu & Eu & Hu) & (np & Ep & Hp) & _ & (Xp & EXp & HX)).
  unfold BrinkmanBodyForce. rewrite E0. cbn [assert_ bind]. fold m n. rewrite Eu, Ep, EXp. cbn [bind].
  destruct (vloop_form su sg q elemu elemp dou xs He (brinkman_table km) (fun _ => brinkman_form k) Xp HX) as (K & EK & HK).
  - unfold brinkman_form. bilin.
  - intros g M Hg H1. unfold brinkman_table, brinkman_form. fold x m n. entries.
  - fold m n in EK. rewrite EK. cbn [bind]. apply (flow_intro su sg q elemu elemp dou xs He _ _ _ _ Hu Hp HK).
Qed.

(** ** The state of the table of velocities and pressures *)
Section Up.
Variable ups : list (list R).
Hypothesis Hn2 : nodes_ok 2 elemu ups.
Hypothesis Hn3 : nodes_ok 3 elemp ups.
Let S p := st (up_dofs elemu elemp ups) p.

Lemma up_vel i c : (i < m)%nat -> (c < 2)%nat -> vel m (up_dofs elemu elemp ups) i c = nodal elemu ups i c.
Proof using .
  clear. intros Hi Hc. unfold vel, up_dofs, dofs. fold m.
  destruct c as [|[|c]]; [| |lia]; cbn [Nat.mul Nat.add]; rewrite ?Nat.add_0_r; nat_all; f_equal; lia.
Qed.
Lemma up_prs j : (j < n)%nat -> prs m (up_dofs elemu elemp ups) j 0 = nodal elemp ups j 2.
Proof using .
  clear. intros Hj. unfold prs, up_dofs, dofs. fold m. nat_all. f_equal. lia.
Qed.
Lemma up_speed p c : (c < 2)%nat -> speed su elemu ups p c = val (S p) c.
Proof.
  intros Hc. unfold speed, field_value. destruct He as (_ & _ & _ & _ & H5 & _).
  destruct c as [|[|c]]; [| |lia]; cbn [val S st state sv0 sv1]; unfold S, st, state; cbn [sv0 sv1]; rewrite <- H5; apply bigsum_ext; intros i Hi;
    rewrite up_vel by (unfold m; lia); ring.
Qed.
Lemma up_gradient dM u g : is_mat dM 2 m (gradM sg su x (pt q g)) -> is_mat u m 2 (nodal elemu ups) ->
  exists dU, mmul R_ops dM u = Ok dU /\ is_mat dU 2 2 (vgrad (S (pt q g))).
Proof.
  intros HM Hu. destruct (Rmmul _ _ _ _ _ _ _ HM Hu) as (dU & E & H). exists dU. split; auto. apply (is_mat_ext2 _ _ _ _ _ H).
  intros l c Hl Hc. unfold S, st, state.
  destruct l as [|[|l]]; [| |lia]; (destruct c as [|[|c]]; [| |lia]); cbn [vgrad sH00 sH01 sH10 sH11]; apply bigsum_ext; intros i Hi; rewrite up_vel by lia; ring.
Qed.
Lemma node_vec_ok k elem us : nodes_ok (Datatypes.S k) elem us ->
  exists p, node_vec k elem us = Ok p /\ is_vec p (length elem) (fun j => nodal elem us j k).
Proof using .
  clear. intros Hn. exists (map (fun e => nth k (nth e us []) 0) elem). split.
  - unfold node_vec. induction elem as [|e l IH]; [reflexivity|]. cbn [mapM map].
    destruct (Hn e (or_introl eq_refl)) as (H1 & H2). rewrite rd_nth with (d := []) by lia. cbn [bind].
    assert (E : vget (nth e us []) k = Ok (nth k (nth e us []) 0)).
    { apply (Rvget _ (length (nth e us [])) (fun i => nth i (nth e us []) 0)); [apply is_vec_of_list|lia]. }
    rewrite E. cbn [bind]. rewrite IH by (intros e' He'; apply Hn; now right). reflexivity.
  - apply (is_vec_intro R_ops); [apply map_length|]. intros i Hi. unfold nodal. cbn [o0 R_ops].
    rewrite nth_indep with (d' := (fun e => nth k (nth e us []) 0) O) by (now rewrite map_length).
    now rewrite (map_nth (fun e => nth k (nth e us []) 0)).
Qed.
Lemma up_pressure p Nv r : is_vec p n (fun j => nodal elemp ups j 2) -> is_vec Nv n (shp sg r) -> vdot R_ops p Nv = Ok (sp (S r)).
Proof.
  intros Hp HN. rewrite (vdot_ok R R_ops _ _ _ _ _ Hp HN). f_equal. rewrite gsum_bigsum. unfold S, st, state. cbn [sp].
  apply bigsum_ext; intros j Hj. rewrite up_prs by auto. cbn [omul R_ops]. ring.
Qed.

(** the tangent as it is coded *)
Definition tangent_form (rho mu : R) (T Y Z : pstate) : R :=
  ns_tangent rho mu T Y Z
  + mu * (vgrad Y 1 0 * (vgrad Z 0 0 - vgrad Z 0 1) + vgrad Y 0 1 * (vgrad Z 1 1 - vgrad Z 1 0)).

Lemma kf_mixed (body : mat R * list R -> nat -> res (mat R * list R)) (KF : nat -> (nat -> R) -> (nat -> R) -> R) (LF : nat -> (nat -> R) -> R) k :
  (forall g K F0 K0 L0, (g < q_n q)%nat -> has_mform k K K0 -> has_mlin k F0 L0 -> exists K' F', body (K, F0) g = Ok (K', F') /\
     has_mform k K' (fun y z => K0 y z + KF g y z) /\ has_mlin k F' (fun y => L0 y + LF g y)) ->
  exists K F, foldM body (seq 0 (q_n q)) (mnew R_ops k k, vnew R_ops k) = Ok (K, F) /\
    has_mform k K (fun y z => bigsum (q_n q) (fun g => KF g y z)) /\ has_mlin k F (fun y => bigsum (q_n q) (fun g => LF g y)).
Proof using .
  clear. intros Hb.
  destruct (loop_inv body (fun i st => has_mform k (fst st) (fun y z => bigsum i (fun g => KF g y z)) /\
     has_mlin k (snd st) (fun y => bigsum i (fun g => LF g y))) (q_n q) (mnew R_ops k k, vnew R_ops k)) as ((K & F) & E & H1 & H2).
  - cbn [fst snd bigsum]. split; [apply hm_new|apply hv_new].
  - intros i (K & F) Hi [H1 H2]. cbn [fst snd] in *. destruct (Hb i K F _ _ Hi H1 H2) as (K' & F' & E & H3 & H4). exists (K', F').
    split; auto.
  - exists K, F. auto.
Qed.

Lemma NavierStokesTangent_ok rho mu :
  exists K F nu np, NavierStokesTangent su sg q elemu elemp dou xs ups rho mu = Ok (K, F, nu, np) /\ numbered_u m dou nu /\ numbered_p m n dou np /\
    has_mform N K (fun y z => quad 2 q (fun p => jac sg x p * tangent_form rho mu (S p) (st y p) (st z p))) /\
    has_mlin N F (fun y => - quad 2 q (fun p => jac sg x p * ns_work rho mu (S p) (st y p))).
Proof.
  destruct start as (E0 & (nu & Eu & Hu) & (np & Ep & Hp) & (Xu & EXu) & (Xp & EXp & HX)).
  destruct (node_mat_ok 2 elemu ups Hn2) as (u & EU & HU). destruct (node_vec_ok 2 elemp ups Hn3) as (pv & EP & HP).
  unfold NavierStokesTangent. rewrite E0. cbn [assert_ bind]. fold m n. rewrite Eu, Ep, EXu, EXp, EU, EP. cbn [bind].
  match goal with |- context [foldM ?b _ _] => set (body := b) end.
  destruct (kf_mixed body (fun g y z => tangent_form rho mu (S (pt q g)) (st y (pt q g)) (st z (pt q g)) * jac sg x (pt q g) * wgt 2 q g)
    (fun g y => - (ns_work rho mu (S (pt q g)) (st y (pt q g)) * jac sg x (pt q g) * wgt 2 q g)) N) as (K & F & E & HK & HF).
  - intros g K F0 K0 L0 Hg HK0 HL0. unfold body.
    destruct (point_ok su sg q elemu elemp dou xs He g Xp Hg HX) as (Nv & M & dN & dM & EPt & H1 & H2 & H3 & H4).
    fold x in EPt, H3, H4. rewrite EPt. cbn [bind pM pN pdN pdM pJ].
    destruct (speed_ok ups u M _ Hn2 HU H2) as (U & EU2 & HU2). rewrite EU2. cbn [bind].
    assert (HU3 : is_vec U 2 (val (S (pt q g)))) by (refine (is_vec_ext U 2 _ _ _ HU2); intros; now apply up_speed).
    destruct (up_gradient dM u g H4 HU) as (dU & EdU & HdU). rewrite EdU. cbn [bind].
    rewrite (up_pressure pv Nv _ HP H1). cbn [bind].
    destruct (Rmmulv _ _ _ _ _ _ H3 HP) as (dp & Edp & _). rewrite Edp. cbn [bind].
    set (T := S (pt q g)) in *. fold n in H1, H3.
    assert (B : bilinear (tangent_form rho mu T)) by (unfold tangent_form; bilin). destruct B as (HR & HL).
    destruct (table_form m n (shp su (pt q g)) (gradM sg su x (pt q g)) (shp sg (pt q g)) (gradM sg sg x (pt q g))
       (tangent_table rho mu (mkPoint (jac sg x (pt q g)) Nv M dN dM) U dU) (tangent_form rho mu T) HR HL) as (k & Ek & Hk).
    { unfold tangent_table, tangent_form. cbn [pN pM pdN pdM]. entries. }
    rewrite Ek. cbn [bind].
    pose proof (hm_eq _ _ _ _ (fun y z => bilinear_state (tangent_form rho mu T) m n su sg x (pt q g) y z HR HL) Hk) as Hk2.
    destruct (hm_weigh N q g _ _ (rule2 su sg q elemu elemp dou xs He) Hg (hm_scal N k _ (jac sg x (pt q g)) Hk2)) as (k2 & Ek2 & Hk3).
    rewrite Ek2. cbn [bind].
    destruct (hm_add N K K0 k2 _ HK0 Hk3) as (K' & EK' & HK'). rewrite EK'. cbn [bind].
    assert (LW : linear (ns_work rho mu T)) by lin.
    destruct (table_lin m n (shp su (pt q g)) (gradM sg su x (pt q g)) (shp sg (pt q g)) (gradM sg sg x (pt q g))
       (residual_table rho mu (mkPoint (jac sg x (pt q g)) Nv M dN dM) U dU (sp T)) (ns_work rho mu T) LW) as (f & Ef & Hf).
    { unfold residual_table. cbn [pN pM pdN pdM]. ventries. }
    rewrite Ef. cbn [bind].
    destruct (hv_weigh 2 N q g _ _ (le_n _) (rule2 su sg q elemu elemp dou xs He) Hg (hv_scal N f _ (jac sg x (pt q g)) Hf)) as (f2 & Ef2 & Hf2).
    rewrite Ef2. cbn [bind].
    destruct (hv_sub N F0 L0 f2 _ HL0 Hf2) as (F' & EF' & HF'). rewrite EF'. cbn [bind].
    exists K', F'. split; [reflexivity|]. split; [exact HK'|].
    destruct HF' as (ff & Hff & HE). exists ff. split; [exact Hff|]. intros y. rewrite HE. cbv beta.
    rewrite (comb_mixed m n (shp su (pt q g)) (gradM sg su x (pt q g)) (shp sg (pt q g)) (gradM sg sg x (pt q g)) y _ LW). unfold Rminus. reflexivity.
  - unfold N in E. rewrite E. cbn [bind]. exists K, F, nu, np. splits; auto.
    + refine (hm_eq _ _ _ _ _ HK). intros y z. unfold quad. apply bigsum_ext; intros g Hg.
      change (fun k => nth k (nth g (q_points q) []) 0) with (pt q g). unfold wgt. ring.
    + destruct HF as (ff & Hff & HE). exists ff. split; [exact Hff|]. intros y. rewrite HE. unfold quad.
      rewrite <- bigsum_opp. apply bigsum_ext; intros g Hg. change (fun k => nth k (nth g (q_points q) []) 0) with (pt q g). unfold wgt. ring.
Qed.

Definition adjoint_form (rho mu : R) (T Y Z : pstate) : R := ns_tangent rho mu T (flip Z) (flip Y).
Lemma NavierStokesAdjoint_flow rho mu :
  flow_of su sg q elemu elemp dou xs (NavierStokesAdjoint su sg q elemu elemp dou xs ups rho mu) (fun p => adjoint_form rho mu (S p)).
Proof.
  destruct start as (E0 & (nu & Eu & Hu) & (np & Ep & Hp) & (Xu & EXu) & (Xp & EXp & HX)).
  destruct (node_mat_ok 2 elemu ups Hn2) as (u & EU & HU). destruct (node_vec_ok 2 elemp ups Hn3) as (pv & EP & HP).
  unfold NavierStokesAdjoint. rewrite E0. cbn [assert_ bind]. fold m n. rewrite Eu, Ep, EXu, EXp, EU, EP. cbn [bind].
  match goal with |- context [mixed_loop _ _ _ _ _ _ ?b] => set (body := b) end.
  destruct (loop_form su sg q elemu elemp dou xs He body (fun p => adjoint_form rho mu (S p)) Xp HX) as (K & EK & HK).
  - unfold adjoint_form. bilin.
  - intros g P Nv M dN dM Hg -> H1 H2 H3 H4. unfold body. cbn [pN pM pdN pdM]. fold x in H3, H4.
    destruct (speed_ok ups u M _ Hn2 HU H2) as (U & EU2 & HU2). rewrite EU2. cbn [bind].
    assert (HU3 : is_vec U 2 (val (S (pt q g)))) by (refine (is_vec_ext U 2 _ _ _ HU2); intros; now apply up_speed).
    destruct (up_gradient dM u g H4 HU) as (dU & EdU & HdU). rewrite EdU. cbn [bind].
    rewrite (up_pressure pv Nv _ HP H1). cbn [bind].
    destruct (Rmmulv _ _ _ _ _ _ H3 HP) as (dp & Edp & _). rewrite Edp. cbn [bind].
    eexists. split; [reflexivity|]. set (T := S (pt q g)) in *.
    unfold adjoint_table, adjoint_form. cbn [pN pM pdN pdM]. fold x m n. entries.
  - fold m n in EK. rewrite EK. cbn [bind]. apply (flow_intro su sg q elemu elemp dou xs He _ _ _ _ Hu Hp HK).
Qed.
End Up.
End Routines.
