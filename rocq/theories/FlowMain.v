(** Properties C40, C41 and C61-C67: flow elements: the proofs. *)
From Coq Require Import List Arith Lia Bool Reals Lra.
From Verif Require Import Res SumR DenseModel DenseR DenseSpec ShapeModel QuadModel QuadSpec ElemModel ElemSpec FlowModel FlowSpec.
Import ListNotations.
Local Open Scope R_scope.
From Verif Require Import DenseProof DenseMain ShapeMain ElemProof ElemProof2 ElemProof3 ElemProof4 ElemMain ElemMain2 FlowProof FlowProof2 FlowProof3 FlowProof4.

Definition unit_ (a b : nat) : R := if (b =? a)%nat then 1 else 0.
Lemma bigsum_unit N a f : (a < N)%nat -> bigsum N (fun b => unit_ a b * f b) = f a.
Proof.
  intros Ha. rewrite (bigsum_ext _ _ (fun b => (if (a =? b)%nat then 1 else 0) * f b)); [now rewrite bigsum_ite|].
  intros b _. unfold unit_. now rewrite (Nat.eqb_sym b a).
Qed.
Lemma mform_row N k a z : (a < N)%nat -> mform N k (unit_ a) z = applyv N k z a.
Proof.
  intros Ha. unfold mform, applyv.
  rewrite (bigsum_ext _ _ (fun a' => unit_ a a' * bigsum N (fun b => k a' b * z b))); [now rewrite bigsum_unit|].
  intros a' _. rewrite <- bigsum_scal. apply bigsum_ext; intros; ring.
Qed.
Lemma applyv_unit N k a b : (b < N)%nat -> applyv N k (unit_ b) a = k a b.
Proof. intros Hb. unfold applyv. rewrite (bigsum_ext _ _ (fun c => unit_ b c * k a c)) by (intros; ring). now rewrite bigsum_unit. Qed.
Lemma mform_rows N k y z : mform N k y z = bigsum N (fun a => y a * applyv N k z a).
Proof. unfold mform, applyv. apply bigsum_ext; intros a _. rewrite <- bigsum_scal. apply bigsum_ext; intros; ring. Qed.

Lemma vel_dofs m u p i c : (i < m)%nat -> (c < 2)%nat -> vel m (dofs m u p) i c = u i c.
Proof.
  intros Hi Hc. unfold vel, dofs. destruct c as [|[|c]]; [| |lia]; cbn [Nat.mul Nat.add]; rewrite ?Nat.add_0_r; nat_all; f_equal; lia.
Qed.
Lemma prs_dofs m u p j c : prs m (dofs m u p) j c = p j.
Proof. unfold prs, dofs. nat_all. f_equal. lia. Qed.

Section G.
Variables (su sg : shape) (q : rule) (elemu elemp dou : list nat) (xs : list (list R)).
Hypothesis He : mixed_ok su sg q elemu elemp dou xs.
Let x := nodal elemp xs.
Let m := length elemu.
Let n := length elemp.
Let N := (2 * m + n)%nat.
Let st y r := state su sg x m n y r.

Lemma st_flow y : flow_at su sg q x m y (st y).
Proof.
  intros g Hg. destruct He as (H1 & H2 & H3 & H4 & H5 & H6 & H7 & H8 & H9 & H10 & H11).
  unfold st, m, n. rewrite H5, H6. exact (state_flow su sg x y _ H4 (H11 g Hg)).
Qed.
Lemma flow_unique y Y g : flow_at su sg q x m y Y -> (g < q_n q)%nat -> Y (pt q g) = st y (pt q g).
Proof.
  intros HY Hg. destruct He as (H1 & H2 & H3 & H4 & H5 & H6 & H7 & H8 & H9 & H10 & H11).
  destruct (HY g Hg) as (a & b). unfold m in a, b. rewrite H5 in a, b. unfold st, m, n. rewrite H5, H6. exact (state_eq su sg x y _ _ H4 (H11 g Hg) a b).
Qed.
(** the flow of an affine velocity and a constant pressure *)
Definition affine_dofs (a : nat -> R) (B : nat -> nat -> R) (b : R) : nat -> R :=
  dofs m (fun i c => a c + (nodal elemu xs i 0 * B 0%nat c + nodal elemu xs i 1 * B 1%nat c)) (fun _ => b).
Lemma affine_flow a B b : (forall l c, B l c = 0) \/ compatible su sg q elemu elemp xs ->
  exists v0 v1, flow_at su sg q x m (affine_dofs a B b) (fun p => mkS (v0 p) (v1 p) (B 0 0)%nat (B 0 1)%nat (B 1 0)%nat (B 1 1)%nat b 0 0).
Proof.
  intros HB. exists (fun p => field_value su p (vel m (affine_dofs a B b)) 0), (fun p => field_value su p (vel m (affine_dofs a B b)) 1).
  intros g Hg. destruct He as (H1 & H2 & H3 & H4 & H5 & H6 & H7 & H8 & H9 & H10 & H11). split; split.
  - intros [|[|c]] Hc; [reflexivity|reflexivity|lia].
  - intros k c Hk Hc. rewrite (bigsum_ext (sf_n su) _ (fun i => a c * dshp su (pt q g) k i +
      (dshp su (pt q g) k i * nodal elemu xs i 0 * B 0%nat c + dshp su (pt q g) k i * nodal elemu xs i 1 * B 1%nat c))).
    2:{ intros i Hi. unfold affine_dofs. rewrite vel_dofs by (unfold m; lia). ring. }
    rewrite !bigsum_plus, bigsum_scal, !bigsum_scal_r, (dshp_sum su H1) by lia.
    fold (tangent su (nodal elemu xs) (pt q g) k 0) (tangent su (nodal elemu xs) (pt q g) k 1).
    assert (E : bigsum 2 (fun l => tangent sg x (pt q g) k l * B l c) = tangent su (nodal elemu xs) (pt q g) k 0 * B 0%nat c + tangent su (nodal elemu xs) (pt q g) k 1 * B 1%nat c).
    { cbn [bigsum]. destruct HB as [HB|HB]; [rewrite !HB; ring|]. unfold x. rewrite !(HB g k) by (auto; lia). ring. }
    rewrite Rmult_0_r, Rplus_0_l, <- E. apply bigsum_ext. intros l Hl. destruct c as [|[|c]]; [| |lia]; (destruct l as [|[|l]]; [| |lia]); reflexivity.
  - cbn [sp]. unfold field_value. rewrite (bigsum_ext _ _ (fun j => b * shp sg (pt q g) j)).
    + rewrite bigsum_scal, (shp_sum sg H2). ring.
    + intros j Hj. unfold affine_dofs. rewrite prs_dofs. ring.
  - intros k c Hk Hc. rewrite bigsum_zero.
    2:{ intros l Hl. destruct l as [|[|l]]; [| |lia]; cbn [pgrad sG0 sG1]; ring. }
    rewrite (bigsum_ext _ _ (fun j => b * dshp sg (pt q g) k j)).
    + rewrite bigsum_scal, (dshp_sum sg H2) by lia. ring.
    + intros j Hj. unfold affine_dofs. rewrite prs_dofs. ring.
Qed.
Lemma uniform_flow v : flow_at su sg q x m (dofs m (fun _ c => v c) (fun _ => 0)) (fun _ => mkS (v 0%nat) (v 1%nat) 0 0 0 0 0 0 0).
Proof.
  intros g Hg. destruct He as (H1 & H2 & H3 & H4 & H5 & H6 & H7 & H8 & H9 & H10 & H11). split; split.
  - intros c Hc. unfold field_value. rewrite (bigsum_ext _ _ (fun i => v c * shp su (pt q g) i)).
    + rewrite bigsum_scal, (shp_sum su H1). destruct c as [|[|c]]; [| |lia]; cbn [val sv0 sv1]; ring.
    + intros i Hi. rewrite vel_dofs by (unfold m; lia). ring.
  - intros k c Hk Hc. rewrite bigsum_zero. 2:{ intros l Hl. destruct l as [|[|l]], c as [|[|c]]; cbn [vgrad sH00 sH01 sH10 sH11]; try ring; lia. }
    rewrite (bigsum_ext _ _ (fun i => v c * dshp su (pt q g) k i)).
    + rewrite bigsum_scal, (dshp_sum su H1) by lia. ring.
    + intros i Hi. rewrite vel_dofs by (unfold m; lia). ring.
  - cbn [sp]. unfold field_value. symmetry. apply bigsum_zero. intros j Hj. rewrite prs_dofs. ring.
  - intros k c Hk Hc. rewrite !bigsum_zero; auto; intros l Hl.
    + rewrite prs_dofs. ring.
    + destruct l as [|[|l]]; cbn [pgrad sG0 sG1]; ring.
Qed.
Lemma quad_const (c : R) : quad 2 q (fun p => jac sg x p * c) = quad 2 q (jac sg x) * c.
Proof using . rewrite <- quad_scal. reflexivity. Qed.

(** consequences of a form *)
Lemma flow_entries r W : flow_of su sg q elemu elemp dou xs r W ->
  exists K nu np k, r = Ok (K, nu, np) /\ is_mat K N N k /\ numbered_u m dou nu /\ numbered_p m n dou np /\
    (forall y z, mform N k y z = quad 2 q (fun p => jac sg x p * W p (st y p) (st z p))) /\
    forall y z Y Z, flow_at su sg q x m y Y -> flow_at su sg q x m z Z ->
      mform N k y z = quad 2 q (fun p => jac sg x p * W p (Y p) (Z p)).
Proof.
  intros (K & nu & np & k & E & Hk & Hu & Hp & HF). exists K, nu, np, k. splits; auto. intros y z. apply HF; apply st_flow.
Qed.
Lemma sym_entries k W : (forall y z, mform N k y z = quad 2 q (fun p => jac sg x p * W p (st y p) (st z p))) ->
  (forall p Y Z, W p Y Z = W p Z Y) -> forall a b, (a < N)%nat -> (b < N)%nat -> k a b = k b a.
Proof using .
  intros HF HW a b Ha Hb. rewrite <- (applyv_unit N k a b Hb), <- (applyv_unit N k b a Ha), <- !mform_row by auto. rewrite !HF.
  apply quad_ext. intros g Hg. now rewrite HW.
Qed.
Lemma skew_entries k W : (forall y z, mform N k y z = quad 2 q (fun p => jac sg x p * W p (st y p) (st z p))) ->
  (forall p Y Z, W p Y Z = - W p Z Y) -> forall a b, (a < N)%nat -> (b < N)%nat -> k a b = - k b a.
Proof using .
  intros HF HW a b Ha Hb. rewrite <- (applyv_unit N k a b Hb), <- (applyv_unit N k b a Ha), <- !mform_row by auto. rewrite !HF.
  match goal with |- _ = - ?c => replace (- c) with (c * -1) by ring end. rewrite <- quad_scal. apply quad_ext. intros g Hg. rewrite HW. ring.
Qed.
Lemma kills k W z Z : (forall y z Y Z, flow_at su sg q x m y Y -> flow_at su sg q x m z Z ->
      mform N k y z = quad 2 q (fun p => jac sg x p * W p (Y p) (Z p))) -> flow_at su sg q x m z Z ->
  (forall g Y, (g < q_n q)%nat -> W (pt q g) Y (Z (pt q g)) = 0) -> forall a, (a < N)%nat -> applyv N k z a = 0.
Proof.
  intros HF HZ HW a Ha. rewrite <- mform_row by auto. rewrite (HF (unit_ a) z _ _ (st_flow _) HZ). apply quad_0. intros g Hg. rewrite HW by auto. ring.
Qed.
Lemma up_state ups : flow_at su sg q x m (up_dofs elemu elemp ups) (st (up_dofs elemu elemp ups)). Proof. apply st_flow. Qed.

(** the state along a line *)
Lemma up_line ups z e g : moved_flow elemu elemp ups z -> (g < q_n q)%nat ->
  st (up_dofs elemu elemp (ups e)) (pt q g) = sadd (st (up_dofs elemu elemp (ups 0)) (pt q g)) (sscal e (st z (pt q g))).
Proof.
  intros Hm Hg. destruct (Hm e) as (_ & _ & HV & HP). unfold st, state, sadd, sscal. cbn [sv0 sv1 sH00 sH01 sH10 sH11 sp sG0 sG1].
  assert (V : forall i c, (i < m)%nat -> (c < 2)%nat -> vel m (up_dofs elemu elemp (ups e)) i c = vel m (up_dofs elemu elemp (ups 0)) i c + e * vel m z i c).
  { intros i c Hi Hc. unfold m, up_dofs. rewrite !vel_dofs by auto. now apply HV. }
  assert (P : forall j, (j < n)%nat -> prs m (up_dofs elemu elemp (ups e)) j 0 = prs m (up_dofs elemu elemp (ups 0)) j 0 + e * prs m z j 0).
  { intros j Hj. unfold m, up_dofs. rewrite !prs_dofs. now apply HP. }
  f_equal; rewrite <- bigsum_scal, <- bigsum_plus; apply bigsum_ext; intros i Hi; rewrite ?V, ?P by (auto; lia); ring.
Qed.
Lemma work_line rho mu S Y Z : forall e, ns_work rho mu (sadd S (sscal e Z)) Y =
  ns_work rho mu S Y + e * ns_tangent rho mu S Y Z + e * e * (rho * dot2 (val Y) (convect (val Z) Z)).
Proof using . intros e. wring. Qed.
Lemma work_deriv rho mu S Y Z : derivable_pt_lim (fun e => ns_work rho mu (sadd S (sscal e Z)) Y) 0 (ns_tangent rho mu S Y Z).
Proof using .
  apply deriv_ext with (eps := 1) (g := fun e => ns_work rho mu S Y + e * ns_tangent rho mu S Y Z + e * e * (rho * dot2 (val Y) (convect (val Z) Z) + e * 0)); [lra| |apply cubic_deriv].
  intros e _. rewrite work_line. ring.
Qed.
Lemma residual_entry F L a : has_mlin N F L -> (a < N)%nat -> nth a F 0 = L (unit_ a).
Proof.
  intros (f & Hf & EF) Ha. rewrite (proj2 (is_vec_nth _ _ _ 0 Hf) a Ha), <- EF.
  rewrite (bigsum_ext _ _ (fun b => unit_ a b * f b)) by (intros; ring). now rewrite bigsum_unit.
Qed.
Lemma entry_deriv rho mu ups z a : moved_flow elemu elemp ups z -> (a < N)%nat ->
  derivable_pt_lim (fun e => nth a (flow_residual (NavierStokesTangent su sg q elemu elemp dou xs (ups e) rho mu)) 0) 0
    (- quad 2 q (fun p => jac sg x p * ns_tangent rho mu (st (up_dofs elemu elemp (ups 0)) p) (st (unit_ a) p) (st z p))).
Proof.
  intros Hm Ha.
  eapply deriv_ext with (eps := 1) (g := fun e => - quad 2 q (fun p => jac sg x p *
    ns_work rho mu (sadd (st (up_dofs elemu elemp (ups 0)) p) (sscal e (st z p))) (st (unit_ a) p))); [lra| |].
  - intros e _. destruct (Hm e) as (Hn2 & Hn3 & _).
    destruct (NavierStokesTangent_ok su sg q elemu elemp dou xs He (ups e) Hn2 Hn3 rho mu) as (K & F & nu & np & E & _ & _ & _ & HF).
    rewrite E. cbn [flow_residual]. rewrite (residual_entry F _ a HF Ha). f_equal. apply quad_ext. intros g Hg. do 2 f_equal.
    exact (up_line ups z e g Hm Hg).
  - apply (derivable_pt_lim_opp (fun e => quad 2 q _)). apply (quad_deriv 2 q elemu (le_n _)). intros g Hg. apply (derivable_pt_lim_scal (fun e => ns_work _ _ _ _)).
    apply work_deriv.
Qed.
Lemma bigsum_deriv k (f : R -> nat -> R) f' : (forall a, (a < k)%nat -> derivable_pt_lim (fun e => f e a) 0 (f' a)) ->
  derivable_pt_lim (fun e => bigsum k (f e)) 0 (bigsum k f').
Proof using .
  clear. induction k as [|k IH]; intros H; cbn [bigsum]; [apply derivable_pt_lim_const|].
  apply (derivable_pt_lim_plus (fun e => bigsum k (f e))); [apply IH; auto|]. apply (H k). lia.
Qed.
Lemma st_comb y L g : linear L -> bigsum N (fun a => y a * L (st (unit_ a) (pt q g))) = L (st y (pt q g)).
Proof using .
  intros HL. pose proof (comb_mixed m n (shp su (pt q g)) (gradM sg su x (pt q g)) (shp sg (pt q g)) (gradM sg sg x (pt q g))) as C.
  unfold st, state. rewrite <- (C y L HL), (linear_comb L _ _ _ HL). apply bigsum_ext; intros a Ha. f_equal.
  rewrite <- (C (unit_ a) L HL), (linear_comb L _ _ _ HL). fold N. now rewrite bigsum_unit.
Qed.
Lemma pairing_deriv rho mu ups z y : moved_flow elemu elemp ups z ->
  derivable_pt_lim (fun e => bigsum N (fun a => nth a (flow_residual (NavierStokesTangent su sg q elemu elemp dou xs (ups e) rho mu)) 0 * y a)) 0
    (- quad 2 q (fun p => jac sg x p * ns_tangent rho mu (st (up_dofs elemu elemp (ups 0)) p) (st y p) (st z p))).
Proof.
  intros Hm.
  replace (- quad 2 q _) with (bigsum N (fun a => - quad 2 q (fun p => jac sg x p * ns_tangent rho mu (st (up_dofs elemu elemp (ups 0)) p) (st (unit_ a) p) (st z p)) * y a)).
  - apply (bigsum_deriv N (fun e a => nth a (flow_residual (NavierStokesTangent su sg q elemu elemp dou xs (ups e) rho mu)) 0 * y a)). intros a Ha.
    eapply deriv_ext with (eps := 1); [lra|intros e _; apply Rmult_comm|]. rewrite Rmult_comm. apply derivable_pt_lim_scal. now apply entry_deriv.
  - unfold quad. rewrite (bigsum_ext N _ (fun a => bigsum (q_n q) (fun g => - (wprod 2 (nth g (q_weights q) []) * (jac sg x (pt q g) *
      ns_tangent rho mu (st (up_dofs elemu elemp (ups 0)) (pt q g)) (st (unit_ a) (pt q g)) (st z (pt q g)))) * y a))).
    2:{ intros a _. rewrite <- bigsum_opp, <- bigsum_scal_r. apply bigsum_ext; intros; reflexivity. }
    rewrite bigsum_swap, <- bigsum_opp. apply bigsum_ext; intros g Hg. change (fun k => nth k (nth g (q_points q) []) 0) with (pt q g).
    set (T := st (up_dofs elemu elemp (ups 0)) (pt q g)). set (Z := st z (pt q g)).
    rewrite <- (st_comb y (fun Y => ns_tangent rho mu T Y Z) g ltac:(lin)), <- !bigsum_scal, <- bigsum_opp. apply bigsum_ext; intros. ring.
Qed.
End G.

(** the triangle of PropElem as a mixed element with equal interpolation *)
Definition tri3 : list (list R) := [[2; 0; 0]; [0; 1; 0]; [0; 0; 0]].
Lemma tri_mixed dou : length dou = 3%nat -> mixed_ok sf_3Triangle sf_3Triangle Gauss1Triangle [2; 0; 1]%nat [2; 0; 1]%nat dou tri3.
Proof.
  intros Hd. unfold mixed_ok. splits; auto; try (cbn; tauto).
  - intros e H. cbn in H. decompose [or] H; subst; cbn; try lia; contradiction.
  - intros e H. cbn in H. decompose [or] H; subst; cbn; try lia; contradiction.
  - repeat split; try (cbn; lia); cbn in *; (destruct g; [cbn; lia|lia]).
  - intros g Hg. cbn in Hg. replace g with O by lia. unfold jac, detd, det2, tangent, dshp, nodal, tri3, sf_3Triangle, dN_3Triangle.
    cbn [sf_d sf_n sf_dN bigsum nth]. lra.
Qed.
Lemma tri_compatible : compatible sf_3Triangle sf_3Triangle Gauss1Triangle [2; 0; 1]%nat [2; 0; 1]%nat tri3.
Proof. intros g k l _ _ _. reflexivity. Qed.
Lemma tri_area : quad 2 Gauss1Triangle (jac sf_3Triangle (nodal [2; 0; 1]%nat tri3)) = 1.
Proof.
  unfold quad, Gauss1Triangle, wprod, jac, detd, det2, tangent, dshp, nodal, tri3, sf_3Triangle, dN_3Triangle.
  cbn [q_n q_points q_weights sf_d sf_n sf_dN bigsum nth].
  pose proof (sqrt_lt_R0 2 ltac:(lra)). pose proof (sqrt_def 2 ltac:(lra)) as S.
  field_simplify; [|lra]. replace (sqrt 2 ^ 2) with 2 by (cbn; lra). field.
Qed.

(** the line of states through zero *)
Definition line_ups (z : nat -> R) (e : R) : list (list R) :=
  map (fun i => [e * z i; e * z (3 + i)%nat; e * z (6 + i)%nat]) [1; 2; 0]%nat.
Lemma line_moved z : moved_flow [2; 0; 1]%nat [2; 0; 1]%nat (line_ups z) z.
Proof.
  intros e. splits.
  - intros i H. cbn in H. decompose [or] H; subst; cbn; try lia; contradiction.
  - intros i H. cbn in H. decompose [or] H; subst; cbn; try lia; contradiction.
  - intros i c Hi Hc. cbn in Hi. destruct i as [|[|[|i]]]; try lia; destruct c as [|[|c]]; try lia; unfold nodal, vel; cbn [line_ups map nth length Nat.mul Nat.add]; ring.
  - intros j Hj. cbn in Hj. destruct j as [|[|[|j]]]; try lia; unfold nodal, prs; cbn [line_ups map nth length Nat.mul Nat.add]; ring.
Qed.
(** ** C41 *)
Lemma C41_nonzero su sg q elemu elemp dou xs mu : mixed_ok su sg q elemu elemp dou xs -> compatible su sg q elemu elemp xs ->
  mu <> 0 -> quad 2 q (jac sg (nodal elemp xs)) <> 0 -> forall w, w <> 0 ->
  exists K nu np k a, StokesStiffness su sg q elemu elemp dou xs mu = Ok (K, nu, np) /\
    is_mat K (2 * length elemu + length elemp) (2 * length elemu + length elemp) k /\
    (a < 2 * length elemu + length elemp)%nat /\ applyv (2 * length elemu + length elemp) k (rigid_velocity elemu elemp xs (fun _ => 0) w) a <> 0.
Proof.
  intros He Hc Hmu HA w Hw. set (N := (2 * length elemu + length elemp)%nat).
  destruct (flow_entries _ _ _ _ _ _ _ He _ _ (StokesStiffness_flow su sg q elemu elemp dou xs He mu)) as (K & nu & np & k & E & Hk & _ & _ & _ & HF).
  fold N in Hk, HF.
  set (B := fun l c : nat => if (l =? 0)%nat then (if (c =? 0)%nat then 0 else w) else (if (c =? 0)%nat then - w else 0)).
  set (D := fun l c : nat => if (l =? 0)%nat then (if (c =? 0)%nat then 0 else 1) else 0).
  destruct (affine_flow _ _ _ _ _ _ _ He (fun _ => 0) B 0 (or_intror Hc)) as (v0 & v1 & H1).
  destruct (affine_flow _ _ _ _ _ _ _ He (fun _ => 0) D 0 (or_intror Hc)) as (u0 & u1 & H2).
  pose proof (HF _ _ _ _ H2 H1) as HE.
  assert (EZ : forall b, affine_dofs elemu xs (fun _ => 0) B 0 b = rigid_velocity elemu elemp xs (fun _ => 0) w b).
  { intros b. unfold affine_dofs, rigid_velocity, dofs, B. destruct (b <? length elemu)%nat; [cbn; ring|]. destruct (b <? 2 * length elemu)%nat; cbn; ring. }
  rewrite (quad_ext _ _ _ (fun p => jac sg (nodal elemp xs) p * (mu * w))) in HE.
  2:{ intros g Hg. f_equal. unfold stokes_form, B, D. wcbn. cbn [Nat.eqb]. field. }
  rewrite quad_const in HE. rewrite mform_rows in HE.
  destruct (List.Exists_dec (fun a => applyv N k (rigid_velocity elemu elemp xs (fun _ => 0) w) a <> 0) (seq 0 N)) as [X|X].
  { intros a. destruct (Req_EM_T (applyv N k (rigid_velocity elemu elemp xs (fun _ => 0) w) a) 0); [right|left]; lra. }
  - apply Exists_exists in X as (a & Ha & HX). apply in_seq in Ha. exists K, nu, np, k, a. splits; auto. lia.
  - exfalso. apply (Rmult_integral_contrapositive_currified _ _ HA (Rmult_integral_contrapositive_currified _ _ Hmu Hw)). rewrite <- HE.
    apply bigsum_zero. intros a Ha.
    assert (Z0 : applyv N k (rigid_velocity elemu elemp xs (fun _ => 0) w) a = 0).
    { destruct (Req_EM_T (applyv N k (rigid_velocity elemu elemp xs (fun _ => 0) w) a) 0) as [e|e]; auto. exfalso. apply X. apply Exists_exists. exists a. split; [apply in_seq; lia|auto]. }
    replace (applyv N k (affine_dofs elemu xs (fun _ => 0) B 0) a) with (applyv N k (rigid_velocity elemu elemp xs (fun _ => 0) w) a); [rewrite Z0; ring|].
    unfold applyv. apply bigsum_ext; intros. now rewrite EZ.
Qed.

Lemma tri_const f c : (forall p, f p = c) -> quad 2 Gauss1Triangle (fun p => jac sf_3Triangle (nodal [2; 0; 1]%nat tri3) p * f p) = c.
Proof. intros H. rewrite (quad_ext _ _ _ (fun p => jac sf_3Triangle (nodal [2; 0; 1]%nat tri3) p * c)) by (intros; now rewrite H). rewrite quad_const, tri_area. ring. Qed.


Lemma C41_form_pf : forall su sg q elemu elemp dou xs mu, mixed_ok su sg q elemu elemp dou xs ->
  flow_of su sg q elemu elemp dou xs (StokesStiffness su sg q elemu elemp dou xs mu) (fun _ Y Z =>
    viscous mu Y Z - sp Z * dvg Y - sp Y * dvg Z
    + mu * (vgrad Y 0 0 * vgrad Z 1 1 + vgrad Y 1 1 * vgrad Z 0 0 - vgrad Y 1 0 * vgrad Z 0 1 - vgrad Y 0 1 * vgrad Z 1 0)).
Proof. intros. now apply StokesStiffness_flow. Qed.

Lemma C41_symmetric_pf : forall su sg q elemu elemp dou xs mu, mixed_ok su sg q elemu elemp dou xs ->
  let N := (2 * length elemu + length elemp)%nat in
  exists K nu np k, StokesStiffness su sg q elemu elemp dou xs mu = Ok (K, nu, np) /\ is_mat K N N k /\
    (forall a b, (a < N)%nat -> (b < N)%nat -> k a b = k b a) /\
    (forall v a, (a < N)%nat -> applyv N k (dofs (length elemu) (fun _ c => v c) (fun _ => 0)) a = 0).
Proof.
  intros su sg q elemu elemp dou xs mu He N.
  destruct (flow_entries _ _ _ _ _ _ _ He _ _ (StokesStiffness_flow su sg q elemu elemp dou xs He mu)) as (K & nu & np & k & E & Hk & _ & _ & HS & HF).
  exists K, nu, np, k. splits; auto.
  - apply (sym_entries su sg q elemu elemp xs k (fun _ => stokes_form mu) HS). intros. unfold stokes_form. wring.
  - intros v a Ha. destruct (affine_flow _ _ _ _ _ _ _ He v (fun _ _ => 0) 0 (or_introl (fun _ _ => eq_refl))) as (v0 & v1 & H1).
    replace (applyv N k (dofs (length elemu) (fun _ c => v c) (fun _ => 0)) a) with (applyv N k (affine_dofs elemu xs v (fun _ _ => 0) 0) a).
    + apply (kills su sg q elemu elemp dou xs He k (fun _ => stokes_form mu) _ _ HF H1); auto. intros. unfold stokes_form. wring.
    + unfold applyv. apply bigsum_ext; intros b _. f_equal. unfold affine_dofs, dofs. destruct (b <? length elemu)%nat; [ring|]. destruct (b <? 2 * length elemu)%nat; ring.
Qed.

Lemma C41_rotation_force_pf : forall su sg q elemu elemp dou xs mu, mixed_ok su sg q elemu elemp dou xs -> compatible su sg q elemu elemp xs ->
  mu <> 0 -> quad 2 q (jac sg (nodal elemp xs)) <> 0 -> forall w, w <> 0 ->
  let N := (2 * length elemu + length elemp)%nat in
  exists K nu np k a, StokesStiffness su sg q elemu elemp dou xs mu = Ok (K, nu, np) /\ is_mat K N N k /\ (a < N)%nat /\
    applyv N k (rigid_velocity elemu elemp xs (fun _ => 0) w) a <> 0.
Proof. intros. eapply C41_nonzero; eauto. Qed.

Lemma C41_refuted_pf : exists su sg q elemu elemp dou xs mu w K nu np k a, mixed_ok su sg q elemu elemp dou xs /\ compatible su sg q elemu elemp xs /\
  StokesStiffness su sg q elemu elemp dou xs mu = Ok (K, nu, np) /\
  is_mat K (2 * length elemu + length elemp) (2 * length elemu + length elemp) k /\ (a < 2 * length elemu + length elemp)%nat /\
  applyv (2 * length elemu + length elemp) k (rigid_velocity elemu elemp xs (fun _ => 0) w) a <> 0.
Proof.
  exists sf_3Triangle, sf_3Triangle, Gauss1Triangle, [2; 0; 1]%nat, [2; 0; 1]%nat, [0; 1; 2]%nat, tri3, 1, 1.
  destruct (C41_nonzero _ _ _ _ _ _ _ 1 (tri_mixed [0; 1; 2]%nat eq_refl) tri_compatible ltac:(lra) ltac:(rewrite tri_area; lra) 1 ltac:(lra))
    as (K & nu & np & k & a & E & Hk & Ha & H). exists K, nu, np, k, a. splits; auto; [now apply tri_mixed|apply tri_compatible].
Qed.

Lemma C40_forms_pf : forall su sg q elemu elemp dou xs ups rho mu, mixed_ok su sg q elemu elemp dou xs ->
  nodes_ok 2 elemu ups -> nodes_ok 3 elemp ups ->
  let m := length elemu in let n := length elemp in let N := (2 * m + n)%nat in let x := nodal elemp xs in
  exists K F nu np k f, NavierStokesTangent su sg q elemu elemp dou xs ups rho mu = Ok (K, F, nu, np) /\
    is_mat K N N k /\ is_vec F N f /\ numbered_u m dou nu /\ numbered_p m n dou np /\
    forall y z S Y Z, flow_at su sg q x m (up_dofs elemu elemp ups) S -> flow_at su sg q x m y Y -> flow_at su sg q x m z Z ->
      mform N k y z = quad 2 q (fun p => jac sg x p * (ns_tangent rho mu (S p) (Y p) (Z p)
        + mu * (vgrad (Y p) 1 0 * (vgrad (Z p) 0 0 - vgrad (Z p) 0 1) + vgrad (Y p) 0 1 * (vgrad (Z p) 1 1 - vgrad (Z p) 1 0)))) /\
      bigsum N (fun a => f a * y a) = - quad 2 q (fun p => jac sg x p * ns_work rho mu (S p) (Y p)).
Proof.
  intros su sg q elemu elemp dou xs ups rho mu He H2 H3 m n N x.
  destruct (NavierStokesTangent_ok su sg q elemu elemp dou xs He ups H2 H3 rho mu) as (K & F & nu & np & E & Hu & Hp & (k & Hk & HK) & (f & Hf & HF)).
  exists K, F, nu, np, k, f. splits; auto. intros y z S Y Z HS HY HZ. split.
  - unfold N, m, n. rewrite HK. apply quad_ext. intros g Hg. fold x.
    rewrite (flow_unique _ _ _ _ _ _ _ He _ _ g HS Hg), (flow_unique _ _ _ _ _ _ _ He _ _ g HY Hg), (flow_unique _ _ _ _ _ _ _ He _ _ g HZ Hg). reflexivity.
  - unfold N, m, n. rewrite HF. f_equal. apply quad_ext. intros g Hg. fold x.
    rewrite (flow_unique _ _ _ _ _ _ _ He _ _ g HS Hg), (flow_unique _ _ _ _ _ _ _ He _ _ g HY Hg). reflexivity.
Qed.

Lemma C40_derivative_pf : forall su sg q elemu elemp dou xs ups rho mu z y S Y Z, mixed_ok su sg q elemu elemp dou xs -> moved_flow elemu elemp ups z ->
  let m := length elemu in let N := (2 * m + length elemp)%nat in let x := nodal elemp xs in
  flow_at su sg q x m (up_dofs elemu elemp (ups 0)) S -> flow_at su sg q x m y Y -> flow_at su sg q x m z Z ->
  derivable_pt_lim (fun e => bigsum N (fun a => nth a (flow_residual (NavierStokesTangent su sg q elemu elemp dou xs (ups e) rho mu)) 0 * y a)) 0
    (- quad 2 q (fun p => jac sg x p * ns_tangent rho mu (S p) (Y p) (Z p))).
Proof.
  intros su sg q elemu elemp dou xs ups rho mu z y S Y Z He Hm m N x HS HY HZ.
  erewrite quad_ext; [apply (pairing_deriv su sg q elemu elemp dou xs He rho mu ups z y Hm)|]. intros g Hg. cbv beta. fold x.
  rewrite (flow_unique _ _ _ _ _ _ _ He _ _ g HS Hg), (flow_unique _ _ _ _ _ _ _ He _ _ g HY Hg), (flow_unique _ _ _ _ _ _ _ He _ _ g HZ Hg). reflexivity.
Qed.

Lemma C40_inviscid_partial_pf : forall su sg q elemu elemp dou xs ups rho z, mixed_ok su sg q elemu elemp dou xs -> moved_flow elemu elemp ups z ->
  let N := (2 * length elemu + length elemp)%nat in
  exists K F nu np k, NavierStokesTangent su sg q elemu elemp dou xs (ups 0) rho 0 = Ok (K, F, nu, np) /\ is_mat K N N k /\
    forall a, (a < N)%nat ->
      derivable_pt_lim (fun e => nth a (flow_residual (NavierStokesTangent su sg q elemu elemp dou xs (ups e) rho 0)) 0) 0 (- applyv N k z a).
Proof.
  intros su sg q elemu elemp dou xs ups rho z He Hm N. destruct (Hm 0) as (H2 & H3 & _).
  destruct (NavierStokesTangent_ok su sg q elemu elemp dou xs He (ups 0) H2 H3 rho 0) as (K & F & nu & np & E & _ & _ & (k & Hk & HK) & _).
  exists K, F, nu, np, k. splits; auto. intros a Ha. rewrite <- mform_row by auto. unfold N. rewrite HK.
  erewrite quad_ext; [apply (entry_deriv su sg q elemu elemp dou xs He rho 0 ups z a Hm Ha)|]. intros g Hg. cbv beta. f_equal. unfold tangent_form. ring.
Qed.

Lemma C40_refuted_pf : exists su sg q elemu elemp dou xs ups rho mu z K F nu np k a, mixed_ok su sg q elemu elemp dou xs /\ compatible su sg q elemu elemp xs /\
  moved_flow elemu elemp ups z /\ 0 < mu /\
  NavierStokesTangent su sg q elemu elemp dou xs (ups 0) rho mu = Ok (K, F, nu, np) /\
  is_mat K (2 * length elemu + length elemp) (2 * length elemu + length elemp) k /\ (a < 2 * length elemu + length elemp)%nat /\
  ~ derivable_pt_lim (fun e => nth a (flow_residual (NavierStokesTangent su sg q elemu elemp dou xs (ups e) rho mu)) 0) 0
      (- applyv (2 * length elemu + length elemp) k z a).
Proof.
  set (D := fun l c : nat => if (l =? 0)%nat then (if (c =? 0)%nat then 1 else 0) else 0).
  set (B := fun l c : nat => if (l =? 0)%nat then 0 else (if (c =? 0)%nat then 1 else 0)).
  set (el := [2; 0; 1]%nat).
  set (z := affine_dofs el tri3 (fun _ => 0) D 0). set (y := affine_dofs el tri3 (fun _ => 0) B 0).
  pose proof (tri_mixed [0; 1; 2]%nat eq_refl) as He. fold el in He. pose proof tri_compatible as Hc. fold el in Hc.
  destruct (affine_flow _ _ _ _ _ _ _ He (fun _ => 0) D 0 (or_intror Hc)) as (v0 & v1 & HZ). fold z in HZ.
  destruct (affine_flow _ _ _ _ _ _ _ He (fun _ => 0) B 0 (or_intror Hc)) as (u0 & u1 & HY). fold y in HY.
  pose proof (line_moved z) as Hm. fold el in Hm. destruct (Hm 0) as (H2 & H3 & _).
  destruct (NavierStokesTangent_ok _ _ _ _ _ _ _ He (line_ups z 0) H2 H3 0 1) as (K & F & nu & np & E & _ & _ & (k & Hk & HK) & _).
  change (2 * length el + length el)%nat with 9%nat in Hk, HK.
  set (call e a := nth a (flow_residual (NavierStokesTangent sf_3Triangle sf_3Triangle Gauss1Triangle el el [0; 1; 2]%nat tri3 (line_ups z e) 0 1)) 0).
  set (st := fun y r => state sf_3Triangle sf_3Triangle (nodal el tri3) (length el) (length el) y r) in *.
  set (T := fun a => quad 2 Gauss1Triangle (fun p => jac sf_3Triangle (nodal el tri3) p * ns_tangent 0 1 (st (up_dofs el el (line_ups z 0)) p) (st (unit_ a) p) (st z p))).
  assert (X : exists a, (a < 9)%nat /\ T a <> applyv 9 k z a).
  { destruct (List.Exists_dec (fun a => T a <> applyv 9 k z a) (seq 0 9)) as [X|X].
    { intros a. destruct (Req_EM_T (T a) (applyv 9 k z a)); [right|left]; lra. }
    - apply Exists_exists in X as (a & Ha & HX). apply in_seq in Ha. exists a. split; [lia|auto].
    - exfalso. assert (A : forall a, (a < 9)%nat -> T a = applyv 9 k z a).
      { intros a Ha. destruct (Req_EM_T (T a) (applyv 9 k z a)) as [e|e]; auto. exfalso. apply X. apply Exists_exists. exists a. split; [apply in_seq; lia|auto]. }
      assert (EQ : mform 9 k y z = quad 2 Gauss1Triangle (fun p => jac sf_3Triangle (nodal el tri3) p * ns_tangent 0 1 (st (up_dofs el el (line_ups z 0)) p) (st y p) (st z p))).
      { pose proof (pairing_deriv _ _ _ _ _ _ _ He 0 1 (line_ups z) z y Hm) as P1.
        assert (P2 : derivable_pt_lim (fun e => bigsum 9 (fun a => call e a * y a)) 0 (bigsum 9 (fun a => - T a * y a))).
        { apply (bigsum_deriv 9 (fun e a => call e a * y a)). intros a Ha.
          eapply deriv_ext with (eps := 1); [lra|intros e _; apply Rmult_comm|]. rewrite Rmult_comm. apply derivable_pt_lim_scal.
          apply (entry_deriv _ _ _ _ _ _ _ He 0 1 (line_ups z) z a Hm Ha). }
        pose proof (uniqueness_limite _ _ _ _ P1 P2) as U. rewrite mform_rows. fold st in U.
        rewrite (bigsum_ext 9 _ (fun a => - (- T a * y a))) by (intros a Ha; rewrite <- A by auto; ring). rewrite bigsum_opp, <- U. ring. }
      rewrite HK in EQ.
      assert (YE : forall g, (g < q_n Gauss1Triangle)%nat -> st y (pt Gauss1Triangle g) = mkS (u0 (pt Gauss1Triangle g)) (u1 (pt Gauss1Triangle g)) 0 0 1 0 0 0 0)
        by (intros g Hg; symmetry; apply (flow_unique _ _ _ _ _ _ _ He _ _ g HY Hg)).
      assert (ZE : forall g, (g < q_n Gauss1Triangle)%nat -> st z (pt Gauss1Triangle g) = mkS (v0 (pt Gauss1Triangle g)) (v1 (pt Gauss1Triangle g)) 1 0 0 0 0 0 0)
        by (intros g Hg; symmetry; apply (flow_unique _ _ _ _ _ _ _ He _ _ g HZ Hg)).
      pose proof tri_area as AR. fold el in AR.
      rewrite (quad_ext 2 Gauss1Triangle _ (fun p => jac sf_3Triangle (nodal el tri3) p * 1)) in EQ.
      2:{ intros g Hg. rewrite (YE g Hg), (ZE g Hg). f_equal. unfold tangent_form. wcbn. field. }
      rewrite (quad_ext 2 Gauss1Triangle (fun p => _ * ns_tangent _ _ _ _ _) (fun p => jac sf_3Triangle (nodal el tri3) p * 0)) in EQ.
      2:{ intros g Hg. rewrite (YE g Hg), (ZE g Hg). f_equal. wcbn. field. }
      rewrite !quad_const in EQ. lra. }
  destruct X as (a & Ha & HX).
  exists sf_3Triangle, sf_3Triangle, Gauss1Triangle, el, el, [0; 1; 2]%nat, tri3, (line_ups z), 0, 1, z, K, F, nu, np, k, a.
  splits; auto; try lra. intros HD. apply HX.
  pose proof (uniqueness_limite _ _ _ _ HD (entry_deriv _ _ _ _ _ _ _ He 0 1 (line_ups z) z a Hm Ha)) as U. fold st in U. fold (T a) in U.
  change (2 * length el + length el)%nat with 9%nat in U. lra.
Qed.

Lemma C61_form_pf : forall su sg q elemu elemp dou xs us rho mu, mixed_ok su sg q elemu elemp dou xs -> nodes_ok 2 elemu us ->
  flow_of su sg q elemu elemp dou xs (NavierStokesStiffness su sg q elemu elemp dou xs us rho mu) (fun p Y Z =>
    rho * dot2 (val Y) (convect (speed su elemu us p) Z) + viscous mu Y Z).
Proof. intros. now apply NavierStokesStiffness_flow. Qed.

Lemma C61_viscous_pf : forall su sg q elemu elemp dou xs us mu, mixed_ok su sg q elemu elemp dou xs -> nodes_ok 2 elemu us ->
  let N := (2 * length elemu + length elemp)%nat in
  exists K nu np k, NavierStokesStiffness su sg q elemu elemp dou xs us 0 mu = Ok (K, nu, np) /\ is_mat K N N k /\
    (forall a b, (a < N)%nat -> (b < N)%nat -> k a b = k b a) /\
    (compatible su sg q elemu elemp xs -> forall v w a, (a < N)%nat -> applyv N k (rigid_velocity elemu elemp xs v w) a = 0) /\
    (0 <= mu -> (forall g, (g < q_n q)%nat -> 0 <= wprod 2 (nth g (q_weights q) []) * jac sg (nodal elemp xs) (pt q g)) -> forall y, 0 <= mform N k y y).
Proof.
  intros su sg q elemu elemp dou xs us mu He Hn N.
  destruct (flow_entries _ _ _ _ _ _ _ He _ _ (NavierStokesStiffness_flow su sg q elemu elemp dou xs He us 0 mu Hn)) as (K & nu & np & k & E & Hk & _ & _ & HS & HF).
  exists K, nu, np, k. splits; auto.
  - apply (sym_entries su sg q elemu elemp xs k (fun p => picard_form 0 mu (speed su elemu us p)) HS). intros. unfold picard_form. wring.
  - intros Hc v w a Ha.
    set (B := fun l c : nat => if (l =? 0)%nat then (if (c =? 0)%nat then 0 else w) else (if (c =? 0)%nat then - w else 0)).
    destruct (affine_flow _ _ _ _ _ _ _ He v B 0 (or_intror Hc)) as (v0 & v1 & H1).
    replace (applyv N k (rigid_velocity elemu elemp xs v w) a) with (applyv N k (affine_dofs elemu xs v B 0) a).
    + apply (kills su sg q elemu elemp dou xs He k (fun p => picard_form 0 mu (speed su elemu us p)) _ _ HF H1); auto. intros. unfold picard_form, B. wcbn. cbn [Nat.eqb]. field.
    + unfold applyv. apply bigsum_ext; intros b _. f_equal. unfold affine_dofs, rigid_velocity, dofs, B. destruct (b <? length elemu)%nat; [cbn; ring|]. destruct (b <? 2 * length elemu)%nat; cbn; ring.
  - intros Hmu Hw y. unfold N. rewrite HS. apply quad_nonneg. intros g Hg. rewrite <- Rmult_assoc. apply Rmult_le_pos; [now apply Hw|].
    unfold picard_form. rewrite Rmult_0_l, Rplus_0_l. unfold viscous. apply Rmult_le_pos; [lra|]. unfold ddot. apply bigsum_nonneg; intros. apply bigsum_nonneg; intros. apply Rle_0_sqr.
Qed.

Lemma C62_residual_pf : forall su sg q elemu elemp dou xs ups rho mu, mixed_ok su sg q elemu elemp dou xs ->
  nodes_ok 2 elemu ups -> nodes_ok 3 elemp ups ->
  let N := (2 * length elemu + length elemp)%nat in
  exists K F nu np Kv Kc kv kc, NavierStokesTangent su sg q elemu elemp dou xs ups rho mu = Ok (K, F, nu, np) /\
    NavierStokesStiffness su sg q elemu elemp dou xs ups rho mu = Ok (Kv, nu, np) /\
    ContinuityStiffness su sg q elemu elemp dou xs = Ok (Kc, nu, np) /\ is_mat Kv N N kv /\ is_mat Kc N N kc /\ length F = N /\
    forall a, (a < N)%nat -> nth a F 0 = - (applyv N kv (up_dofs elemu elemp ups) a + applyv N kc (up_dofs elemu elemp ups) a).
Proof.
  intros su sg q elemu elemp dou xs ups rho mu He H2 H3 N.
  destruct (NavierStokesTangent_ok su sg q elemu elemp dou xs He ups H2 H3 rho mu) as (K & F & nu & np & E & Hu & Hp & _ & HF).
  destruct (flow_entries _ _ _ _ _ _ _ He _ _ (NavierStokesStiffness_flow su sg q elemu elemp dou xs He ups rho mu H2)) as (Kv & nu1 & np1 & kv & E1 & Hk1 & U1 & P1 & HS1 & _).
  destruct (flow_entries _ _ _ _ _ _ _ He _ _ (ContinuityStiffness_flow su sg q elemu elemp dou xs He)) as (Kc & nu2 & np2 & kc & E2 & Hk2 & U2 & P2 & HS2 & _).
  assert (nu1 = nu) by (rewrite Hu; exact U1). assert (np1 = np) by (rewrite Hp; exact P1). assert (nu2 = nu) by (rewrite Hu; exact U2). assert (np2 = np) by (rewrite Hp; exact P2). subst.
  exists K, F, nu, np, Kv, Kc, kv, kc. splits; auto.
  - destruct HF as (f & Hf & _). apply Hf.
  - intros a Ha. rewrite (residual_entry elemu elemp F _ a HF Ha). f_equal. rewrite <- !mform_row by auto. unfold N. rewrite HS1, HS2, <- quad_plus. apply quad_ext. intros g Hg.
    rewrite <- Rmult_plus_distr_l. f_equal. unfold picard_form, continuity_form.
    assert (SP : forall c, (c < 2)%nat -> speed su elemu ups (pt q g) c = val (state su sg (nodal elemp xs) (length elemu) (length elemp) (up_dofs elemu elemp ups) (pt q g)) c)
      by (intros; now apply (up_speed su sg q elemu elemp dou xs He ups)).
    set (T := state su sg _ _ _ (up_dofs elemu elemp ups) (pt q g)) in *. set (Y := state _ _ _ _ _ (unit_ a) _).
    unfold convect. cbn [bigsum]. rewrite !SP by lia. wring.
Qed.

Lemma C63_adjoint_pf : forall su sg q elemu elemp dou xs ups rho mu, mixed_ok su sg q elemu elemp dou xs ->
  nodes_ok 2 elemu ups -> nodes_ok 3 elemp ups ->
  let m := length elemu in let n := length elemp in let N := (2 * m + n)%nat in let x := nodal elemp xs in
  exists K nu np k, NavierStokesAdjoint su sg q elemu elemp dou xs ups rho mu = Ok (K, nu, np) /\ is_mat K N N k /\
    numbered_u m dou nu /\ numbered_p m n dou np /\
    (forall y z S Y Z, flow_at su sg q x m (up_dofs elemu elemp ups) S -> flow_at su sg q x m y Y -> flow_at su sg q x m z Z ->
      mform N k y z = quad 2 q (fun p => jac sg x p * ns_tangent rho mu (S p) (flip (Z p)) (flip (Y p)))) /\
    (forall y z line, moved_flow elemu elemp line (flipv m y) -> line 0 = ups ->
      derivable_pt_lim (fun e => bigsum N (fun a => nth a (flow_residual (NavierStokesTangent su sg q elemu elemp dou xs (line e) rho mu)) 0 * flipv m z a)) 0
        (- mform N k y z)).
Proof.
  intros su sg q elemu elemp dou xs ups rho mu He H2 H3 m n N x.
  destruct (flow_entries _ _ _ _ _ _ _ He _ _ (NavierStokesAdjoint_flow su sg q elemu elemp dou xs He ups H2 H3 rho mu)) as (K & nu & np & k & E & Hk & Hu & Hp & HS & HF).
  exists K, nu, np, k. splits; auto.
  - intros y z S Y Z HS' HY HZ. unfold N, m, n. rewrite (HF y z Y Z HY HZ). apply quad_ext. intros g Hg. fold x. f_equal. unfold adjoint_form.
    now rewrite (flow_unique _ _ _ _ _ _ _ He _ _ g HS' Hg).
  - intros y z line Hm E0. unfold N, m, n. rewrite HS.
    assert (FL : forall w g, (g < q_n q)%nat -> state su sg (nodal elemp xs) (length elemu) (length elemp) (flipv (length elemu) w) (pt q g) = flip (state su sg (nodal elemp xs) (length elemu) (length elemp) w (pt q g))).
    { intros w g Hg. unfold state, flip. cbn [sv0 sv1 sH00 sH01 sH10 sH11 sp sG0 sG1].
      assert (V : forall i c, (i < length elemu)%nat -> (c < 2)%nat -> vel (length elemu) (flipv (length elemu) w) i c = vel (length elemu) w i c).
      { intros i c Hi Hc. unfold vel, flipv. destruct (Nat.ltb_spec (c * length elemu + i) (2 * length elemu)); auto. destruct c as [|[|c]]; lia. }
      assert (P : forall j c, prs (length elemu) (flipv (length elemu) w) j c = - prs (length elemu) w j c).
      { intros j c. unfold prs, flipv. destruct (Nat.ltb_spec (2 * length elemu + j) (2 * length elemu)); auto. lia. }
      f_equal; rewrite <- ?bigsum_opp; apply bigsum_ext; intros i Hi; rewrite ?V, ?P by (auto; lia); ring. }
    erewrite quad_ext; [apply (pairing_deriv su sg q elemu elemp dou xs He rho mu line (flipv (length elemu) y) (flipv (length elemu) z) Hm)|].
    intros g Hg. cbv beta. unfold adjoint_form. rewrite E0, (FL y g Hg), (FL z g Hg). reflexivity.
Qed.

Lemma C64_continuity_pf : forall su sg q elemu elemp dou xs, mixed_ok su sg q elemu elemp dou xs ->
  let m := length elemu in let N := (2 * m + length elemp)%nat in
  flow_of su sg q elemu elemp dou xs (ContinuityStiffness su sg q elemu elemp dou xs) (fun _ Y Z => sp Y * dvg Z - sp Z * dvg Y) /\
  exists K nu np k, ContinuityStiffness su sg q elemu elemp dou xs = Ok (K, nu, np) /\ is_mat K N N k /\
    (forall a b, (a < N)%nat -> (b < N)%nat -> k a b = - k b a) /\ (forall y, mform N k y y = 0) /\
    (forall v a, (a < N)%nat -> applyv N k (dofs m (fun _ c => v c) (fun _ => 0)) a = 0).
Proof.
  intros su sg q elemu elemp dou xs He m N. split; [now apply ContinuityStiffness_flow|].
  destruct (flow_entries _ _ _ _ _ _ _ He _ _ (ContinuityStiffness_flow su sg q elemu elemp dou xs He)) as (K & nu & np & k & E & Hk & _ & _ & HS & HF).
  exists K, nu, np, k. splits; auto.
  - apply (skew_entries su sg q elemu elemp xs k (fun _ => continuity_form) HS). intros. unfold continuity_form. ring.
  - intros y. unfold N, m. rewrite HS. apply quad_0. intros. unfold continuity_form. ring.
  - intros v a Ha. destruct (affine_flow _ _ _ _ _ _ _ He v (fun _ _ => 0) 0 (or_introl (fun _ _ => eq_refl))) as (v0 & v1 & H1).
    replace (applyv N k (dofs m (fun _ c => v c) (fun _ => 0)) a) with (applyv N k (affine_dofs elemu xs v (fun _ _ => 0) 0) a).
    + apply (kills su sg q elemu elemp dou xs He k (fun _ => continuity_form) _ _ HF H1); auto. intros. unfold continuity_form. wring.
    + unfold applyv. apply bigsum_ext; intros b _. f_equal. unfold affine_dofs, dofs, m. destruct (b <? length elemu)%nat; [ring|]. destruct (b <? 2 * length elemu)%nat; ring.
Qed.

Lemma C64_stabilised_pf : forall su sg q elemu elemp dou xs us rho mu dt, mixed_ok su sg q elemu elemp dou xs -> nodes_ok 2 elemu us ->
  let u := speed su elemu us in let tau := supg_parameter su sg q elemu elemp xs us rho mu dt in
  (dt <> 0 -> rho <> 0 ->
   (forall g, (g < q_n q)%nat -> stream_ok su sg (length elemu) (nodal elemp xs) (pt q g) (u (pt q g)) (quad 2 q (jac sg (nodal elemp xs)))) ->
   (exists K nu np, NavierStokesSUPGPSPGStiffness su sg q elemu elemp dou xs us rho mu dt = Ok (K, nu, np)) /\
   (exists K nu np, ContinuitySUPGPSPGStiffness su sg q elemu elemp dou xs us rho mu dt = Ok (K, nu, np)) /\
   (exists K nu np, NavierStokesSUPGPSPGConsistentMass su sg q elemu elemp dou xs us rho mu dt = Ok (K, nu, np))) /\
  stabilised_of su sg q elemu elemp dou xs tau dt (NavierStokesSUPGPSPGStiffness su sg q elemu elemp dou xs us rho mu dt)
    (fun p Y Z => rho * dot2 (supg_test (u p) Y) (convect (u p) Z)) /\
  stabilised_of su sg q elemu elemp dou xs tau dt (ContinuitySUPGPSPGStiffness su sg q elemu elemp dou xs us rho mu dt)
    (fun p Y Z => dot2 (supg_test (u p) Y) (pgrad Z)) /\
  stabilised_of su sg q elemu elemp dou xs tau dt (NavierStokesSUPGPSPGConsistentMass su sg q elemu elemp dou xs us rho mu dt)
    (fun p Y Z => rho * dot2 (supg_test (u p) Y) (val Z)).
Proof.
  intros su sg q elemu elemp dou xs us rho mu dt He Hn u tau. splits.
  - intros Hd Hr HS. splits.
    + now apply SUPGStiffness_returns.
    + now apply SUPGContinuity_returns.
    + now apply SUPGMass_returns.
  - now apply SUPGStiffness_st.
  - now apply SUPGContinuity_st.
  - now apply SUPGMass_st.
Qed.

Lemma C65_mass_pf : forall su sg q elemu elemp dou xs rho, mixed_ok su sg q elemu elemp dou xs ->
  let m := length elemu in let N := (2 * m + length elemp)%nat in
  exists K nu np k, StokesMass su sg q elemu elemp dou xs rho = Ok (K, nu, np) /\
    NavierStokesConsistentMass su sg q elemu elemp dou xs rho = Ok (K, nu, np) /\ is_mat K N N k /\
    (forall y z Y Z, flow_at su sg q (nodal elemp xs) m y Y -> flow_at su sg q (nodal elemp xs) m z Z ->
       mform N k y z = quad 2 q (fun p => jac sg (nodal elemp xs) p * (rho * dot2 (val (Y p)) (val (Z p))))) /\
    (forall a b, (a < N)%nat -> (b < N)%nat -> k a b = k b a) /\
    (0 <= rho -> (forall g, (g < q_n q)%nat -> 0 <= wprod 2 (nth g (q_weights q) []) * jac sg (nodal elemp xs) (pt q g)) -> forall y, 0 <= mform N k y y) /\
    (forall v w, mform N k (dofs m (fun _ c => v c) (fun _ => 0)) (dofs m (fun _ c => w c) (fun _ => 0)) =
       rho * dot2 v w * quad 2 q (jac sg (nodal elemp xs))).
Proof.
  intros su sg q elemu elemp dou xs rho He m N.
  destruct (flow_entries _ _ _ _ _ _ _ He _ _ (StokesMass_flow su sg q elemu elemp dou xs He rho)) as (K & nu & np & k & E & Hk & _ & _ & HS & HF).
  assert (E2 : NavierStokesConsistentMass su sg q elemu elemp dou xs rho = Ok (K, nu, np)).
  { rewrite <- E. destruct (start su sg q elemu elemp dou xs He) as (E0 & (nu' & Eu & _) & (np' & Ep & _) & (Xu & EXu) & (Xp & EXp & _)).
    unfold StokesMass, NavierStokesConsistentMass. rewrite E0. cbn [assert_ bind]. rewrite Eu, Ep, EXu, EXp. reflexivity. }
  exists K, nu, np, k. splits; auto.
  - apply (sym_entries su sg q elemu elemp xs k (fun _ => mass_form rho) HS). intros. unfold mass_form. wring.
  - intros Hr Hw y. unfold N, m. rewrite HS. apply quad_nonneg. intros g Hg. rewrite <- Rmult_assoc. apply Rmult_le_pos; [now apply Hw|].
    unfold mass_form. apply Rmult_le_pos; auto. unfold dot2. apply bigsum_nonneg; intros. apply Rle_0_sqr.
  - intros v w. pose proof (uniform_flow su sg q elemu elemp dou xs He v) as Hv. pose proof (uniform_flow su sg q elemu elemp dou xs He w) as Hw'.
    unfold N, m. rewrite (HF _ _ _ _ Hv Hw'). rewrite quad_const. unfold mass_form, dot2. cbn [bigsum val sv0 sv1]. ring.
Qed.

Lemma C65_brinkman_pf : forall su sg q elemu elemp dou xs km k, mixed_ok su sg q elemu elemp dou xs -> is_mat km 2 2 k ->
  flow_of su sg q elemu elemp dou xs (BrinkmanBodyForce su sg q elemu elemp dou xs km)
    (fun _ Y Z => bigsum 2 (fun a => bigsum 2 (fun b => val Y a * k a b * val Z b))).
Proof. intros. now apply BrinkmanBodyForce_flow. Qed.

Lemma C65_decoupled_pf : forall s q elem dou xs rho, element_ok 2 s q elem xs -> length dou = 2%nat ->
  let m := length elem in
  vflow_of s q elem dou xs (NavierStokesDecoupledConsistentMass s q elem dou xs rho) (fun _ Y Z => rho * dot2 (val Y) (val Z)) /\
  exists K nu k, NavierStokesDecoupledLumpedMass s q elem dou xs rho = Ok (K, nu) /\ numbered_u m dou nu /\ is_mat K (2 * m) (2 * m) k /\
    (forall a b, (a < 2 * m)%nat -> (b < 2 * m)%nat -> a <> b -> k a b = 0) /\
    (forall c, (c < 2)%nat -> bigsum m (fun i => k (c * m + i)%nat (c * m + i)%nat) = rho * quad 2 q (jac s (nodal elem xs))).
Proof.
  intros s q elem dou xs rho He Hd m. split; [now apply DecoupledMass_flow|].
  assert (Hm : (0 < m)%nat). { destruct He as (Hs & _ & HL & _). unfold m. rewrite HL. unfold all_shapes in Hs. cbn [In] in Hs. decompose [or] Hs; subst; cbn; lia. }
  destruct (LumpedMass_ok s q elem dou xs He rho Hd Hm) as (K & nu & E & Hu & HK). eexists K, nu, _. split; [exact E|]. split; [exact Hu|]. split; [exact HK|]. split.
  - intros a b _ _ Hab. destruct (Nat.eqb_spec a b); congruence.
  - intros c Hc. rewrite (bigsum_ext _ _ (fun _ => rho * quad 2 q (jac s (nodal elem xs)) / INR m)) by (intros; now rewrite Nat.eqb_refl).
    rewrite bigsum_const. fold m. field. apply not_0_INR. lia.
Qed.

Lemma C66_body_force_pf : forall su sg q elemu elemp dou xs f, mixed_ok su sg q elemu elemp dou xs ->
  (forall v, length v = 2%nat -> (2 <= length (f v))%nat) ->
  let m := length elemu in let n := length elemp in let N := (2 * m + n)%nat in let x := nodal elemp xs in
  let force p c := nth c (f [field_value sg p x 0; field_value sg p x 1]) 0 in
  exists F nu np b, StokesBodyForce su sg q elemu elemp dou xs f = Ok (F, nu, np) /\ is_vec F N b /\
    numbered_u m dou nu /\ numbered_p m n dou np /\
    (forall y Y, flow_at su sg q x m y Y -> bigsum N (fun a => b a * y a) = quad 2 q (fun p => jac sg x p * dot2 (force p) (val (Y p)))) /\
    (forall c, (c < 2)%nat -> bigsum m (fun i => b (c * m + i)%nat) = quad 2 q (fun p => jac sg x p * force p c)) /\
    (forall j, (j < n)%nat -> b (2 * m + j)%nat = 0).
Proof.
  intros su sg q elemu elemp dou xs f He Hf m n N x force.
  destruct (StokesBodyForce_load su sg q elemu elemp dou xs He f Hf) as (F & nu & np & b & E & Hb & Hu & Hp & HF).
  exists F, nu, np, b. splits; auto.
  - intros c Hc. pose proof (uniform_flow su sg q elemu elemp dou xs He (fun c' => if (c' =? c)%nat then 1 else 0)) as HY.
    specialize (HF _ _ HY). fold m n in HF. rewrite bigsum_mixed in HF.
    transitivity (bigsum m (fun i => b i * dofs m (fun _ c' => if (c' =? c)%nat then 1 else 0) (fun _ => 0) i)
      + bigsum m (fun i => b (m + i)%nat * dofs m (fun _ c' => if (c' =? c)%nat then 1 else 0) (fun _ => 0) (m + i)%nat)
      + bigsum n (fun j => b (2 * m + j)%nat * dofs m (fun _ c' => if (c' =? c)%nat then 1 else 0) (fun _ => 0) (2 * m + j)%nat)).
    + rewrite (bigsum_ext m (fun i => b i * _) (fun i => b i * if (0 =? c)%nat then 1 else 0)).
      2:{ intros i Hi. unfold dofs. destruct (Nat.ltb_spec i m); [reflexivity|lia]. }
      rewrite (bigsum_ext m (fun i => b (m + i)%nat * _) (fun i => b (m + i)%nat * if (1 =? c)%nat then 1 else 0)).
      2:{ intros i Hi. unfold dofs. destruct (Nat.ltb_spec (m + i) m); [lia|]. destruct (Nat.ltb_spec (m + i) (2 * m)); [reflexivity|lia]. }
      rewrite (bigsum_zero n). 2:{ intros j Hj. unfold dofs. destruct (Nat.ltb_spec (2 * m + j) m); [lia|]. destruct (Nat.ltb_spec (2 * m + j) (2 * m)); [lia|ring]. }
      rewrite !bigsum_scal_r. destruct c as [|[|c]]; [| |lia]; cbn [Nat.eqb].
      * rewrite (bigsum_ext m _ b) by (intros; f_equal; lia). ring.
      * rewrite (bigsum_ext m _ (fun i => b (m + i)%nat)) by (intros; f_equal; lia). ring.
    + rewrite HF. apply quad_ext. intros g Hg. f_equal. unfold dot2. cbn [bigsum val sv0 sv1]. fold x.
      destruct c as [|[|c]]; [| |lia]; cbn [Nat.eqb]; unfold force; ring.
  - intros j Hj. pose proof (st_flow su sg q elemu elemp dou xs He (unit_ (2 * m + j))) as HY. specialize (HF _ _ HY). fold m n in HF.
    rewrite (bigsum_ext _ _ (fun a => unit_ (2 * m + j) a * b a)), bigsum_unit in HF by (intros; try ring; lia). rewrite HF. apply quad_0. intros g Hg.
    unfold dot2. cbn [bigsum]. unfold state. cbn [val sv0 sv1].
    rewrite !bigsum_zero; [ring| |]; intros i Hi; unfold vel, unit_; (match goal with |- context [(?u =? ?v)%nat] => destruct (Nat.eqb_spec u v) as [A|A] end; [unfold m in *; lia|ring]).
Qed.

Lemma C67_poisson_pf : forall s q elem dou xs us rho dt, element_ok 2 s q elem xs -> length dou = 1%nat -> nodes_ok 2 elem us -> dt <> 0 ->
  let m := length elem in let x := nodal elem xs in
  exists K F ne k f, NavierStokesPressurePoisson s q elem dou xs us rho dt = Ok (K, F, ne) /\ numbered 1 m dou ne /\ is_mat K m m k /\ is_vec F m f /\
    (forall y z Gy Gz, gradients s q x 1 (fun i _ => y i) Gy -> gradients s q x 1 (fun i _ => z i) Gz ->
       mform m k y z = quad 2 q (fun p => jac s x p * bigsum 2 (fun l => Gy p l 0%nat * Gz p l 0%nat))) /\
    (forall y Hu, gradients s q x 2 (nodal elem us) Hu ->
       bigsum m (fun a => f a * y a) = quad 2 q (fun p => jac s x p * (- (rho / dt) * field_value s p (fun i _ => y i) 0 * trace 2 (Hu p)))) /\
    (forall a b, (a < m)%nat -> (b < m)%nat -> k a b = k b a) /\ (forall c a, (a < m)%nat -> applyv m k (fun _ => c) a = 0) /\
    ((forall g, (g < q_n q)%nat -> 0 <= wprod 2 (nth g (q_weights q) []) * jac s x (pt q g)) -> forall y, 0 <= mform m k y y).
Proof.
  intros s q elem dou xs us rho dt He Hd Hn Hdt m x.
  destruct (PressurePoisson_ok s q elem dou xs He us Hn rho dt Hd Hdt) as (K & F & ne & k & f & E & Hne & Hk & Hf & HK & HF). fold m x in HK, HF, Hk, Hf, Hne.
  assert (SYM : forall a b, (a < m)%nat -> (b < m)%nat -> k a b = k b a).
  { intros a b Ha Hb. rewrite <- (applyv_unit m k a b Hb), <- (applyv_unit m k b a Ha), <- !mform_row by auto. rewrite !HK. apply quad_ext. intros g Hg. f_equal. apply bigsum_ext; intros; ring. }
  exists K, F, ne, k, f. splits; auto.
  - intros y z Gy Gz HGy HGz. rewrite HK. apply quad_ext. intros g Hg. f_equal. apply bigsum_ext. intros l Hl. unfold x.
    now rewrite (gradients_eq s q elem xs 2 1 _ _ He (le_n _) HGy g l 0 Hg Hl ltac:(lia)), (gradients_eq s q elem xs 2 1 _ _ He (le_n _) HGz g l 0 Hg Hl ltac:(lia)).
  - intros y Hu HGu. rewrite HF. apply quad_ext. intros g Hg. do 2 f_equal. unfold dvg, trace. apply bigsum_ext. intros l Hl.
    rewrite <- (gradients_eq s q elem xs 2 2 _ _ He (le_n _) HGu g l l Hg Hl Hl). destruct He as (Hs & Hsd & HL & _). unfold state, m. rewrite HL.
    assert (V : forall i c, (i < sf_n s)%nat -> (c < 2)%nat -> vel (sf_n s) (v_dofs elem us) i c = nodal elem us i c) by (rewrite <- HL; intros; now apply v_vel).
    destruct l as [|[|l]]; [| |lia]; cbn [vgrad sH00 sH11]; unfold gradU; apply bigsum_ext; intros i Hi; rewrite V by (auto; lia); unfold gradN, gradM; now rewrite Hsd.
  - intros c a Ha. rewrite <- mform_row by auto. rewrite HK. apply quad_0. intros g Hg. rewrite bigsum_zero; [ring|]. intros l Hl.
    assert (G0 : gradU s x (pt q g) (fun _ _ => c) l 0 = 0).
    { destruct He as (Hs & Hsd & HL & _). rewrite gradU_alt, Hsd. apply bigsum_zero. intros k0 Hk0. rewrite bigsum_scal_r, (dshp_sum s Hs) by lia. ring. }
    rewrite G0. ring.
  - intros Hw y. rewrite HK. apply quad_nonneg. intros g Hg. rewrite <- Rmult_assoc. apply Rmult_le_pos; [now apply Hw|]. apply bigsum_nonneg; intros. apply Rle_0_sqr.
Qed.

Lemma C67_velocity_pf : forall s q elem dou xs us ps rho mu, element_ok 2 s q elem xs -> length dou = 2%nat -> nodes_ok 2 elem us -> nodes_ok 1 elem ps ->
  let x := nodal elem xs in forall S G, velocities s q x (length elem) (v_dofs elem us) S -> gradients s q x 1 (nodal elem ps) G ->
  vload_of s q elem dou xs (NavierStokesAuxiliaryVelocity s q elem dou xs us rho mu)
    (fun p Y => - (rho * dot2 (val Y) (convect (val (S p)) (S p)) + mu * ddot 2 (vgrad (S p)) (vgrad Y))) /\
  vload_of s q elem dou xs (NavierStokesNextstepVelocity s q elem dou xs us ps rho)
    (fun p Y => - dot2 (fun l => G p l 0%nat) (val Y)).
Proof.
  intros s q elem dou xs us ps rho mu He Hd Hn Hp x S G HS HG. split.
  - destruct (AuxVelocity_load s q elem dou xs He us Hn rho mu Hd) as (F & nu & f & E & Hf & Hu & HF). exists F, nu, f. splits; auto. intros y Y HY. rewrite (HF y Y HY).
    apply quad_ext. intros g Hg. do 2 f_equal. rewrite (st_eq s q elem xs He (v_dofs elem us) S g Hg HS). unfold aux_work. reflexivity.
  - destruct (NextVelocity_load s q elem dou xs He us Hn ps rho Hd Hp) as (F & nu & f & E & Hf & Hu & HF). exists F, nu, f. splits; auto. intros y Y HY. rewrite (HF y Y HY).
    apply quad_ext. intros g Hg. do 2 f_equal. unfold dot2. apply bigsum_ext. intros l Hl. now rewrite (gradients_eq s q elem xs 2 1 _ _ He (le_n _) HG g l 0 Hg Hl ltac:(lia)).
Qed.
