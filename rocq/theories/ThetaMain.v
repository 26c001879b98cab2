(** Property C107: the time loops of the transient samples: the proofs. *)
From Coq Require Import List Arith Lia Bool Reals Lra.
From Verif Require Import Res SumR DenseModel DenseR DenseSpec ShapeModel QuadModel QuadSpec ElemModel ElemSpec SparseModel SparseSpec KrylovModel KrylovSpec AssemblyModel AssemblySpec PatchSpec StableSpec ThetaModel ThetaSpec PatchMain StableMain.
Import ListNotations.
Local Open Scope R_scope.
From Verif Require Import ElemMain AssemblyProof AssemblyProof2 AssemblyProof3 KrylovMain PatchProof3 StableProof3 StableProof4 ThetaProof ThetaProof2 ThetaProof3 ThetaProof4 ThetaProof5.

Lemma balance_ext esC esK dt theta T0 T1 T2 i j : (forall k c, uval T1 k c = uval T2 k c) -> theta_balance esC esK dt theta T0 T1 i j -> theta_balance esC esK dt theta T0 T2 i j.
Proof. intros H. unfold theta_balance. now rewrite !(internal_force_ext _ T1 T2) by exact H. Qed.
Lemma carries_same load els es T S : (forall T S el, load T el = load S el) -> Forall2 (carries load T) els es -> Forall2 (carries load S) els es.
Proof. intros H F. induction F as [|el e els es H1 _ IH]; constructor; auto. unfold carries in *. now rewrite (H S T). Qed.
Lemma step_inv solve dou xs fC fK load s q elements dt theta t0 t n T T1 esC esK :
  exact_solver solve -> theta_pair dou xs fC fK -> theta_mesh dou xs s q elements t0 -> 0 < dt -> 0 < theta -> renumber t0 = (t, n) ->
  (forall i j, in_table t0 i j -> in_table T i j) ->
  Forall2 (made_by fC) (map (mkPiece s q) elements) esC -> Forall2 (made_by fK) (map (mkPiece s q) elements) esK -> Forall2 (carries load T) elements esC ->
  theta_step solve fC fK load s q elements dt theta t n T = Ok T1 ->
  (forall i j, in_table t0 i j -> in_table T1 i j) /\ (forall i j, num t i j = None -> uval T1 i j = uval T i j) /\ forall i j, num t i j <> None -> theta_balance esC esK dt theta T T1 i j.
Proof.
  intros HE HP HM Hdt Hth ER HU HC HK HL ES. destruct (theta_solve dou xs fC fK load s q elements dt theta t0 t n T esC esK HP HM Hdt Hth ER HU HC HK HL) as (A & F & E1 & SQ & LF & SY & PD & HX).
  destruct (renumber_ok _ _ _ ER) as (SP & _ & _ & NU & _).
  unfold theta_step in ES. rewrite E1 in ES. cbn [bind] in ES. destruct (solve A F) as [x|] eqn:E2; [|discriminate ES]. cbn [bind] in ES.
  destruct (HE A F x E2) as [Lx Ex]. destruct SQ as (_ & _ & RA & _). rewrite RA in Lx. destruct (HX x Lx) as (T2 & ED & SH & VU & _ & IFF). rewrite ED in ES. injection ES as ->. splits.
  - intros i j H. apply SH. auto.
  - intros i j H. rewrite VU, H. reflexivity.
  - intros i j H. apply (proj1 IFF Ex). intros Z. apply H. now apply (pattern_in t0 t).
Qed.
Lemma run_inv solve dou xs fC fK load s q elements dt theta t0 t n esC esK (P : nat -> list (list R) -> Prop) steps T Tm :
  exact_solver solve -> theta_pair dou xs fC fK -> theta_mesh dou xs s q elements t0 -> 0 < dt -> 0 < theta -> renumber t0 = (t, n) -> (forall T S el, load T el = load S el) ->
  (forall i j, in_table t0 i j -> in_table T i j) ->
  Forall2 (made_by fC) (map (mkPiece s q) elements) esC -> Forall2 (made_by fK) (map (mkPiece s q) elements) esK -> Forall2 (carries load T) elements esC ->
  P 0%nat T -> (forall m T T1, (forall i j, num t i j = None -> uval T1 i j = uval T i j) -> (forall i j, num t i j <> None -> theta_balance esC esK dt theta T T1 i j) -> P m T -> P (S m) T1) ->
  theta_run solve fC fK load s q elements dt theta t n steps T = Ok Tm -> P steps Tm.
Proof.
  intros HE HP HM Hdt Hth ER HLD HU HC HK HL P0 PS. unfold theta_run. rewrite <- (seq_length steps 0) at 2. set (l := seq 0 steps). clearbody l.
  replace (length l) with (length l + 0)%nat by lia. revert T HU HL P0. generalize 0%nat as m. induction l as [|z l IH]; intros m T HU HL P0 E; cbn [foldM] in E.
  - injection E as <-. exact P0.
  - destruct (theta_step solve fC fK load s q elements dt theta t n T) as [T1|] eqn:ES; [|discriminate E]. cbn [bind] in E.
    destruct (step_inv solve dou xs fC fK load s q elements dt theta t0 t n T T1 esC esK HE HP HM Hdt Hth ER HU HC HK HL ES) as (H1 & H2 & H3).
    replace (length (z :: l) + m)%nat with (length l + S m)%nat by (cbn; lia). apply (IH (S m) T1); eauto. now apply (carries_same load elements esC T T1).
Qed.
Lemma solves_dec (A : csr R) (b x : list R) : {length x = crows A /\ csr_mulvec 0 Rplus Rmult A x = Ok b} + {~ (length x = crows A /\ csr_mulvec 0 Rplus Rmult A x = Ok b)}.
Proof.
  destruct (Nat.eq_dec (length x) (crows A)) as [H|H]; [|right; tauto]. destruct (csr_mulvec 0 Rplus Rmult A x) as [y|f]; [|right; intros [_ X]; discriminate X].
  destruct (list_eq_dec Req_EM_T y b) as [->|N]; [left; auto|right; intros [_ X]; injection X as X; auto].
Qed.
Definition try_all (cs : list (list R)) (A : csr R) (b : list R) : res (list R) :=
  match find (fun x => if solves_dec A b x then true else false) cs with Some x => Ok x | None => Fail OutOfFuel end.
Lemma try_exact cs : exact_solver (try_all cs).
Proof.
  intros A b x. unfold try_all. destruct (find _ cs) as [y|] eqn:E; [|discriminate]. intros H. injection H as <-. apply find_some in E. destruct E as [_ E]. now destruct (solves_dec A b y).
Qed.
Lemma try_finds cs A b x : In x cs -> length x = crows A -> csr_mulvec 0 Rplus Rmult A x = Ok b ->
  (forall x', length x' = crows A -> csr_mulvec 0 Rplus Rmult A x' = Ok b -> x' = x) -> try_all cs A b = Ok x.
Proof.
  intros Hin L E U. unfold try_all. destruct (find _ cs) as [y|] eqn:Ef.
  - apply find_some in Ef. destruct Ef as [_ Ef]. destruct (solves_dec A b y) as [[H1 H2]|]; [|discriminate Ef]. f_equal. auto.
  - apply find_none with (x := x) in Ef; auto. destruct (solves_dec A b x) as [|N]; [discriminate Ef|]. exfalso. apply N. auto.
Qed.
Definition spike (i j : nat) : R := if ((i =? 2) && (j =? 0))%nat then 1 else 0.
Lemma spike_force es T S x : (forall i j, uval T i j - uval S i j = x * spike i j) -> internal_force es T 2 0 - internal_force es S 2 0 = x * sum_over es (fun e => denergy e spike).
Proof.
  intros H. unfold internal_force. rewrite <- sum_over_minus, <- sum_over_scal. apply sum_ext. intros e _. unfold denergy. rewrite <- sum_over_minus, <- sum_over_scal. apply sum_ext. intros a _.
  transitivity (spike (dnode a) (ddof a) * sum_over (e_dofs e) (fun b => e_k e (dloc a) (dloc b) * (x * spike (dnode b) (ddof b)))).
  - rewrite (sum_ext (e_dofs e) (fun b => e_k e (dloc a) (dloc b) * (x * spike (dnode b) (ddof b))) (fun b => e_k e (dloc a) (dloc b) * duval T b - e_k e (dloc a) (dloc b) * duval S b)).
    + rewrite sum_over_minus. unfold at_dof, spike. destruct (_ && _); cbn [ind]; ring.
    + intros b _. unfold duval. rewrite <- H. ring.
  - rewrite <- !sum_over_scal. apply sum_ext. intros; ring.
Qed.
Lemma spike_dist es T S x : (forall i j, uval T i j - uval S i j = x * spike i j) -> cap_dist es T S = x * x * sum_over es (fun e => denergy e spike).
Proof.
  intros H. unfold cap_dist. rewrite <- sum_over_scal. apply sum_ext. intros e _. unfold denergy. rewrite <- sum_over_scal. apply sum_ext. intros a _. rewrite <- sum_over_scal. apply sum_ext. intros b _. unfold duval. rewrite !H. ring.
Qed.
Lemma tri_piece : stable_piece 2 tri_xs (mkPiece sf_3Triangle Gauss1Triangle [0; 1; 2]%nat).
Proof.
  destruct (C106_rules_pf sf_3Triangle Gauss1Triangle ltac:(cbn; tauto)) as (PP & RK & WP). split; [exact PP|]. cbn [p_shape p_rule p_nodes].
  assert (J : forall r, jac sf_3Triangle (nodal [0; 1; 2]%nat tri_xs) r = 1).
  { intros r. unfold jac, detd, det2, tangent, dshp, nodal, tri_xs, sf_3Triangle, dN_3Triangle; cbn [sf_d sf_n sf_dN bigsum nth]; lra. }
  split.
  - unfold element_ok. split; [cbn; tauto|]. split; [reflexivity|]. split; [reflexivity|]. split; [intros k Hk; cbn in Hk; destruct Hk as [<-|[<-|[<-|[]]]]; cbn; lia|]. split; [exact RK|]. intros g _; rewrite J; lra.
  - intros g Hg. rewrite J. split; [lra|now apply WP].
Qed.
Lemma tri_mesh : theta_mesh [0]%nat tri_xs sf_3Triangle Gauss1Triangle [[0; 1; 2]]%nat tri_table.
Proof.
  split; [reflexivity| | |].
  - intros el [<-|[]]. exact tri_piece.
  - intros el k c [<-|[]] Hk Hc. cbn in Hk, Hc. destruct Hc as [<-|[]]. unfold in_table. destruct Hk as [<-|[<-|[<-|[]]]]; cbn; lia.
  - intros i j H. unfold num, tri_table in H. destruct i as [|[|[|i]]]; try (destruct j as [|[|j]]; [|exfalso; now apply H|exfalso; now apply H]); try (exfalso; now apply H); [|exfalso; apply H; cbn; now destruct i, j].
    split; [now left|]. exists [0; 1; 2]%nat. cbn. tauto.
Qed.
Lemma tri_energy e r c : e_nodes e = [0; 1; 2]%nat -> is_mat (e_K e) (1 * 3) (1 * 3) c -> numbered 1 3 [0]%nat (e_nte e) -> r = Ok (e_K e, e_nte e) ->
  denergy e spike = form 1 3 c (fun i _ => nth i [0; 0; 1] 0) (fun i _ => nth i [0; 0; 1] 0).
Proof.
  intros EN Hc Hn Er. destruct tri_piece as (_ & He & _). cbn [p_shape p_rule p_nodes] in He.
  pose proof (denergy_form 2 1 sf_3Triangle Gauss1Triangle [0]%nat tri_xs (HeatTransfer sf_3Triangle Gauss1Triangle [0; 1; 2]%nat [0]%nat tri_xs 1 1) (fun H Z => 1 * 1 * bigsum 2 (fun l => H l 0%nat * Z l 0%nat)) e c spike ltac:(lia)) as D. rewrite EN in D.
  rewrite (D Hc Hn (call_heat sf_3Triangle Gauss1Triangle [0; 1; 2]%nat [0]%nat tri_xs 1 1 He eq_refl)).
  unfold form. cbn [length Nat.mul Nat.add bigsum Nat.div Nat.modulo Nat.divmod fst snd Nat.sub nth]. unfold spike. cbn [Nat.eqb andb]. reflexivity.
Qed.
Lemma tri_capacity e : made_by (fun s q el => HeatCapacity s q el [0]%nat tri_xs 1 1 1) (mkPiece sf_3Triangle Gauss1Triangle [0; 1; 2]%nat) e -> denergy e spike = 1 / 18.
Proof.
  intros [EN EF]. cbn [p_shape p_rule p_nodes] in *. destruct tri_piece as (_ & He & _). cbn [p_shape p_rule p_nodes] in He.
  destruct (call_capacity sf_3Triangle Gauss1Triangle [0; 1; 2]%nat [0]%nat tri_xs 1 1 1 He eq_refl) as (C & ne & c & EC & Hc & Hn & HG). rewrite EF in EC. injection EC as <- <-.
  cbn [length] in *. rewrite (tri_energy e _ c EN Hc Hn EF), HG.
  assert (S2 : 1 / sqrt 2 * (1 / sqrt 2) = 1 / 2). { assert (0 < sqrt 2) by (apply sqrt_lt_R0; lra). apply (Rmult_eq_reg_l (sqrt 2 * sqrt 2)); [|nra]. transitivity 1; [field; lra|]. rewrite sqrt_sqrt by lra. field. }
  unfold quad, field_value, jac, detd, det2, tangent, dshp, shp, nodal, tri_xs, sf_3Triangle, dN_3Triangle, N_3Triangle.
  cbn [q_n Gauss1Triangle q_weights q_points sf_d sf_n sf_dN sf_N bigsum nth wprod]. rewrite Rmult_1_l || idtac. nra.
Qed.
Lemma tri_conduction e : made_by (fun s q el => HeatTransfer s q el [0]%nat tri_xs 1 1) (mkPiece sf_3Triangle Gauss1Triangle [0; 1; 2]%nat) e -> denergy e spike = 1 / 2.
Proof.
  intros [EN EF]. cbn [p_shape p_rule p_nodes] in *. destruct tri_piece as (_ & He & _). cbn [p_shape p_rule p_nodes] in He.
  destruct (call_heat sf_3Triangle Gauss1Triangle [0; 1; 2]%nat [0]%nat tri_xs 1 1 He eq_refl) as (C & ne & c & EC & Hc & Hn & HG). rewrite EF in EC. injection EC as <- <-.
  cbn [length] in *. rewrite (tri_energy e _ c EN Hc Hn EF).
  assert (HH : gradients sf_3Triangle Gauss1Triangle (nodal [0; 1; 2]%nat tri_xs) 1 (fun i _ => nth i [0; 0; 1] 0) (fun _ l _ => nth l [0; 1] 0)).
  { intros g _ k c0 Hk _. cbn in Hk. unfold tangent, dshp, nodal, tri_xs, sf_3Triangle, dN_3Triangle. cbn [sf_d sf_n sf_dN]. destruct k as [|[|k]]; [| |lia]; cbn [bigsum nth]; ring. }
  rewrite (HG _ _ _ _ HH HH).
  assert (S2 : 1 / sqrt 2 * (1 / sqrt 2) = 1 / 2). { assert (0 < sqrt 2) by (apply sqrt_lt_R0; lra). apply (Rmult_eq_reg_l (sqrt 2 * sqrt 2)); [|nra]. transitivity 1; [field; lra|]. rewrite sqrt_sqrt by lra. field. }
  unfold quad, jac, detd, det2, tangent, dshp, nodal, tri_xs, sf_3Triangle, dN_3Triangle.
  cbn [q_n Gauss1Triangle q_weights q_points sf_d sf_n sf_dN bigsum nth wprod]. nra.
Qed.
Lemma tri_free_mesh : theta_mesh [0]%nat tri_xs sf_3Triangle Gauss1Triangle [[0; 1; 2]]%nat (repeat [Some 0%nat] 3).
Proof.
  split; [reflexivity| | |].
  - intros el [<-|[]]. exact tri_piece.
  - intros el k c [<-|[]] Hk Hc. cbn in Hk, Hc. destruct Hc as [<-|[]]. unfold in_table. destruct Hk as [<-|[<-|[<-|[]]]]; cbn; lia.
  - intros i j H. unfold num in H. destruct i as [|[|[|i]]]; [| | |exfalso; apply H; cbn; now destruct i, j]; (destruct j as [|[|j]]; [|exfalso; now apply H|exfalso; now apply H]); (split; [now left|]); exists [0; 1; 2]%nat; cbn; tauto.
Qed.
Lemma tri_fits (t : table) a b c : length t = 3%nat -> (forall i, (i < 3)%nat -> length (nth i t []) = 1%nat) -> forall i j, in_table t i j -> in_table [[a]; [b]; [c : R]] i j.
Proof.
  intros L H i j. unfold in_table. destruct (Nat.lt_ge_cases i 3) as [Hi|Hi]; [rewrite (H i Hi); destruct i as [|[|[|i]]]; cbn; lia|rewrite nth_overflow by lia; cbn; lia].
Qed.
Lemma tri_locs e : made_by (fun s q el => HeatCapacity s q el [0]%nat tri_xs 1 1 1) (mkPiece sf_3Triangle Gauss1Triangle [0; 1; 2]%nat) e -> map dloc (dofs [0; 1; 2]%nat (e_nte e)) = [0; 1; 2]%nat.
Proof.
  intros [EN EF]. cbn [p_shape p_rule p_nodes] in *. destruct tri_piece as (_ & He & _). cbn [p_shape p_rule p_nodes] in He.
  destruct (call_capacity sf_3Triangle Gauss1Triangle [0; 1; 2]%nat [0]%nat tri_xs 1 1 1 He eq_refl) as (C & ne & c & EC & _ & (LN & Hn) & _). rewrite EF in EC. injection EC as _ <-. cbn [length] in *.
  destruct (e_nte e) as [|r0 [|r1 [|r2 [|? ?]]]]; try discriminate LN.
  destruct (Hn 0%nat ltac:(lia)) as [L0 H0]. destruct (Hn 1%nat ltac:(lia)) as [L1 H1]. destruct (Hn 2%nat ltac:(lia)) as [L2 H2]. cbn [nth] in *.
  destruct r0 as [|p0 [|? ?]]; try discriminate L0. destruct r1 as [|p1 [|? ?]]; try discriminate L1. destruct r2 as [|p2 [|? ?]]; try discriminate L2.
  specialize (H0 0%nat ltac:(lia)). specialize (H1 0%nat ltac:(lia)). specialize (H2 0%nat ltac:(lia)). cbn [nth] in *. subst. reflexivity.
Qed.
Lemma tri_nonzero A F : theta_system (fun s q el => HeatCapacity s q el [0]%nat tri_xs 1 1 1) (fun s q el => HeatTransfer s q el [0]%nat tri_xs 1 1) no_source sf_3Triangle Gauss1Triangle [[0; 1; 2]]%nat (1 / 10) (1 / 2) tri_table 1 [[0]; [0]; [1]] = Ok (A, F) -> nonzero 1 (ix F).
Proof.
  intros E0. exists 0%nat. split; [lia|]. intros Z. set (T := [[0]; [0]; [1]]) in *.
  set (fC := fun s q el => HeatCapacity s q el [0]%nat tri_xs 1 1 1) in *. set (fK := fun s q el => HeatTransfer s q el [0]%nat tri_xs 1 1) in *.
  assert (HP : theta_pair [0]%nat tri_xs fC fK) by (constructor; lra).
  assert (FT : forall i j, in_table tri_table i j -> in_table T i j) by (apply tri_fits; [reflexivity|]; intros i Hi; destruct i as [|[|[|i]]]; [reflexivity|reflexivity|reflexivity|lia]).
  destruct (theta_elem [0]%nat tri_xs fC fK no_source sf_3Triangle Gauss1Triangle [0; 1; 2]%nat 1 0 T HP eq_refl tri_piece Rlt_0_1) as (eC & eK & _ & C1 & K1 & L1 & _).
  { intros k c Hk [<-|[]]. apply FT. unfold in_table. destruct Hk as [<-|[<-|[<-|[]]]]; cbn; lia. } { exists None. split; auto. }
  destruct (theta_solve [0]%nat tri_xs fC fK no_source sf_3Triangle Gauss1Triangle [[0; 1; 2]]%nat (1 / 10) (1 / 2) tri_table tri_table 1 T [eC] [eK] HP tri_mesh ltac:(lra) ltac:(lra) eq_refl FT (Forall2_cons _ _ C1 (Forall2_nil _)) (Forall2_cons _ _ K1 (Forall2_nil _)) (Forall2_cons _ _ L1 (Forall2_nil _))) as (A' & F' & E1 & SQ & LF & _ & _ & HX).
  rewrite E0 in E1. injection E1 as <- <-. destruct (HX [0] eq_refl) as (T1 & ED & _ & VU & HR & _). specialize (HR 2%nat 0%nat 0%nat eq_refl).
  unfold residual, matvec in HR. rewrite Z in HR. cbn [bigsum] in HR. unfold ix in HR at 1. cbn [nth] in HR.
  assert (EL : element_load [eC] 2 0 = 0). { apply no_load. intros e [<-|[]]. exact L1. } rewrite EL in HR.
  assert (V0 : forall i j, uval T1 i j = 0). { intros i j. rewrite VU. unfold num, tri_table, uval, T. destruct i as [|[|[|i]]]; destruct j as [|[|j]]; cbn; auto; destruct i; auto. }
  rewrite !(no_motion _ T1) in HR by exact V0.
  assert (D0 : forall i j, uval T i j - uval T1 i j = 1 * spike i j). { intros i j. rewrite V0. unfold uval, T, spike. destruct i as [|[|[|i]]]; destruct j as [|[|j]]; cbn; try ring; try (destruct i; cbn; ring); destruct j; cbn; ring. }
  pose proof (spike_force [eC] T T1 1 D0) as I1. pose proof (spike_force [eK] T T1 1 D0) as I2. rewrite (no_motion _ T1) in I1 by exact V0. rewrite (no_motion _ T1) in I2 by exact V0.
  unfold sum_over, sumlist in I1, I2. cbn [map fold_right] in I1, I2. rewrite (tri_capacity eC C1) in I1. rewrite (tri_conduction eK K1) in I2. lra.
Qed.

Lemma C107_elements_pf : forall dou xs fC fK load s q elements t0 T,
  theta_pair dou xs fC fK -> theta_mesh dou xs s q elements t0 -> (forall i j, in_table t0 i j -> in_table T i j) ->
  (forall el, In el elements -> exists Fe, load T el = Ok Fe /\ match Fe with Some v => length v = length el | None => True end) ->
  exists esC esK, Forall2 (made_by fC) (map (mkPiece s q) elements) esC /\ Forall2 (made_by fK) (map (mkPiece s q) elements) esK /\ Forall2 (carries load T) elements esC.
Proof.
  intros dou xs fC fK load s q elements t0 T HP [HD HS HB _] HU HL. assert (HB' : forall el k c, In el elements -> In k el -> In c dou -> in_table T k c) by eauto. clear HB.
  induction elements as [|el elements IH]; [exists [], []; repeat constructor|].
  destruct IH as (esC & esK & F1 & F2 & F3); [intros; apply HS; now right|intros; apply HL; now right|intros; eapply HB'; eauto; now right|].
  destruct (theta_elem dou xs fC fK load s q el 1 0 T HP HD (HS el (or_introl eq_refl)) Rlt_0_1 (fun k c => HB' el k c (or_introl eq_refl)) (HL el (or_introl eq_refl))) as (eC & eK & eA & H1 & H2 & H3 & _).
  exists (eC :: esC), (eK :: esK). cbn [map]. splits; constructor; auto.
Qed.

Lemma C107_step_pf : forall dou xs fC fK load s q elements dt theta t0 t n T esC esK,
  theta_pair dou xs fC fK -> theta_mesh dou xs s q elements t0 -> 0 < dt -> 0 < theta -> renumber t0 = (t, n) ->
  (forall i j, in_table t0 i j -> in_table T i j) ->
  Forall2 (made_by fC) (map (mkPiece s q) elements) esC -> Forall2 (made_by fK) (map (mkPiece s q) elements) esK -> Forall2 (carries load T) elements esC ->
  exists A F x T1, theta_system fC fK load s q elements dt theta t n T = Ok (A, F) /\ square_csr n A /\ symmetric n (entry A) /\ pos_def n (entry A) /\
    length x = n /\ csr_mulvec 0 Rplus Rmult A x = Ok F /\ (forall x', length x' = n -> csr_mulvec 0 Rplus Rmult A x' = Ok F -> x' = x) /\
    disassemble T x t = Ok T1 /\
    (forall i j, num t0 i j = None -> uval T1 i j = uval T i j) /\
    (forall i j, num t0 i j <> None -> theta_balance esC esK dt theta T T1 i j) /\
    forall T', (forall i j, num t0 i j = None -> uval T' i j = uval T i j) -> (forall i j, num t0 i j <> None -> theta_balance esC esK dt theta T T' i j) ->
      forall i j, uval T' i j = uval T1 i j.
Proof.
  intros dou xs fC fK load s q elements dt theta t0 t n T esC esK HP HM Hdt Hth ER HU HC HK HL.
  destruct (theta_solve dou xs fC fK load s q elements dt theta t0 t n T esC esK HP HM Hdt Hth ER HU HC HK HL) as (A & F & E1 & SQ & LF & SY & PD & HX).
  destruct (definite_solution n A F SQ LF SY PD) as (x & Lx & Ex & Ux). destruct (HX x Lx) as (T1 & ED & SH & VU & _ & IFF).
  destruct (renumber_ok _ _ _ ER) as (SP & _ & _ & (B2 & I2 & O2) & _).
  exists A, F, x, T1. splits; auto.
  - intros i j H. rewrite VU. apply (pattern_in t0 t i j SP) in H. now rewrite H.
  - now apply IFF.
  - intros T' V1 V2.
    destruct (finite_choice (fun k w => forall i j, num t i j = Some k -> w = uval T' i j) n) as (x' & Lx' & Hx').
    { intros k Hk. destruct (O2 k Hk) as (i & j & Eij). exists (uval T' i j). intros i' j' E'. destruct (I2 _ _ _ _ _ Eij E') as [-> ->]. reflexivity. }
    destruct (HX x' Lx') as (T2 & ED2 & _ & VU2 & _ & IFF2).
    assert (EV : forall i j, uval T2 i j = uval T' i j).
    { intros i j. rewrite VU2. destruct (num t i j) as [k|] eqn:Ek; [apply Hx'; eauto|]. symmetry. apply V1. now apply (pattern_in t0 t i j SP). }
    assert (x' = x) as ->. { apply Ux; auto. apply IFF2. intros i j H. apply (balance_ext esC esK dt theta T T' T2); auto. }
    rewrite ED2 in ED. injection ED as ->. intros i j. symmetry. apply EV.
Qed.

Lemma C107_solvers_pf : forall dou xs fC fK load s q elements dt theta t0 t n T esC esK,
  theta_pair dou xs fC fK -> theta_mesh dou xs s q elements t0 -> 0 < dt -> 0 < theta -> renumber t0 = (t, n) ->
  (forall i j, in_table t0 i j -> in_table T i j) ->
  Forall2 (made_by fC) (map (mkPiece s q) elements) esC -> Forall2 (made_by fK) (map (mkPiece s q) elements) esK -> Forall2 (carries load T) elements esC ->
  exists A F, theta_system fC fK load s q elements dt theta t n T = Ok (A, F) /\
    forall solver itrmax eps, In solver [cg; scaling_cg] -> (n <= itrmax)%nat -> 0 < eps -> nonzero n (ix F) ->
      exists x T1, solver A F itrmax eps = Ok (true, x) /\
        theta_step (fun A b => ' (_, x) <- solver A b itrmax eps ;; Ok x) fC fK load s q elements dt theta t n T = Ok T1 /\
        (forall i j, num t0 i j = None -> uval T1 i j = uval T i j) /\
        (forall i j, num t0 i j <> None ->
           Rabs ((internal_force esC T1 i j - internal_force esC T i j) / dt - (element_load esC i j - theta * internal_force esK T1 i j - (1 - theta) * internal_force esK T i j)) < eps * norm2 n (ix F)).
Proof.
  intros dou xs fC fK load s q elements dt theta t0 t n T esC esK HP HM Hdt Hth ER HU HC HK HL.
  destruct (theta_solve dou xs fC fK load s q elements dt theta t0 t n T esC esK HP HM Hdt Hth ER HU HC HK HL) as (A & F & E1 & SQ & LF & SY & PD & HX).
  destruct (renumber_ok _ _ _ ER) as (SP & _ & _ & (B2 & _ & _) & _).
  exists A, F. split; [exact E1|]. intros solver itrmax eps Hs Hi Heps Hn.
  assert (exists x, solver A F itrmax eps = Ok (true, x) /\ accurate n A F eps x) as (x & Es & Lx & Ac).
  { destruct Hs as [<-|[<-|[]]]; [now apply C24_cg_converges_pf|now apply C24_scaling_cg_pf]. }
  destruct (HX x Lx) as (T1 & ED & SH & VU & HR & _). exists x, T1. splits; auto.
  - unfold theta_step. rewrite E1. cbn [bind]. rewrite Es. cbn [bind]. exact ED.
  - intros i j H. rewrite VU. apply (pattern_in t0 t i j SP) in H. now rewrite H.
  - intros i j H. destruct (num t i j) as [k|] eqn:Ek; [|exfalso; apply H; now apply (pattern_in t0 t i j SP)]. specialize (HR i j k Ek).
    replace ((internal_force esC T1 i j - internal_force esC T i j) / dt - (element_load esC i j - theta * internal_force esK T1 i j - (1 - theta) * internal_force esK T i j)) with (- residual n A F x k).
    + rewrite Rabs_Ropp. eapply Rle_lt_trans; [|exact Ac]. apply component_le_norm. eauto.
    + apply (Rmult_eq_reg_l dt); [|lra]. transitivity (- (dt * residual n A F x k)); [ring|]. rewrite <- HR. field. lra.
Qed.

Lemma C107_runs_pf : forall dou xs fC fK load s q elements dt theta t0 t n steps Ts,
  theta_pair dou xs fC fK -> theta_mesh dou xs s q elements t0 -> 0 < dt -> 0 < theta -> renumber t0 = (t, n) ->
  (forall T el, (forall i j, in_table t0 i j -> in_table T i j) -> In el elements -> exists Fe, load T el = Ok Fe /\ match Fe with Some v => length v = length el | None => True end) ->
  (forall T, In T Ts -> forall i j, in_table t0 i j -> in_table T i j) ->
  exists solve, exact_solver solve /\ forall T, In T Ts -> exists Tm, theta_run solve fC fK load s q elements dt theta t n steps T = Ok Tm.
Proof.
  intros dou xs fC fK load s q elements dt theta t0 t n steps Ts HP HM Hdt Hth ER HLD HU.
  assert (ONE : forall l T, (forall i j, in_table t0 i j -> in_table T i j) -> exists cs Tm, forall cs', incl cs cs' ->
    foldM (fun T (_ : nat) => theta_step (try_all cs') fC fK load s q elements dt theta t n T) l T = Ok Tm).
  { induction l as [|z l IH]; intros T HT; [exists [], T; reflexivity|].
    destruct (C107_elements_pf dou xs fC fK load s q elements t0 T HP HM HT (fun el => HLD T el HT)) as (esC & esK & F1 & F2 & F3).
    destruct (C107_step_pf dou xs fC fK load s q elements dt theta t0 t n T esC esK HP HM Hdt Hth ER HT F1 F2 F3) as (A & F & x & T1 & E1 & (_ & _ & RA & _) & _ & _ & Lx & Ex & Ux & ED & _).
    destruct (theta_solve dou xs fC fK load s q elements dt theta t0 t n T esC esK HP HM Hdt Hth ER HT F1 F2 F3) as (A' & F' & E1' & _ & _ & _ & _ & HX).
    rewrite E1 in E1'. injection E1' as <- <-. destruct (HX x Lx) as (T1' & ED' & SH & _). rewrite ED in ED'. injection ED' as <-.
    destruct (IH T1) as (cs & Tm & H); [intros i j Hij; apply SH; auto|]. exists (x :: cs), Tm. intros cs' Hi. cbn [foldM].
    assert (theta_step (try_all cs') fC fK load s q elements dt theta t n T = Ok T1) as ->.
    { unfold theta_step. rewrite E1. cbn [bind]. rewrite (try_finds cs' A F x); [exact ED|apply Hi; now left|congruence|exact Ex|]. intros x' L'. apply Ux. congruence. }
    cbn [bind]. apply H. intros y Hy. apply Hi. now right. }
  assert (ALL : exists cs, forall T, In T Ts -> exists Tm, forall cs', incl cs cs' -> foldM (fun T (_ : nat) => theta_step (try_all cs') fC fK load s q elements dt theta t n T) (seq 0 steps) T = Ok Tm).
  { induction Ts as [|T Ts IH]; [exists []; intros T []|]. destruct IH as (cs & H); [intros; eapply HU; eauto; now right|].
    destruct (ONE (seq 0 steps) T (HU T (or_introl eq_refl))) as (cs1 & Tm & H1). exists (cs1 ++ cs). intros T' [<-|Hin].
    - exists Tm. intros cs' Hi. apply H1. intros y Hy. apply Hi, in_or_app. auto.
    - destruct (H T' Hin) as (Tm' & H2). exists Tm'. intros cs' Hi. apply H2. intros y Hy. apply Hi, in_or_app. auto. }
  destruct ALL as (cs & H). exists (try_all cs). split; [apply try_exact|]. intros T Hin. destruct (H T Hin) as (Tm & H1). exists Tm. apply H1, incl_refl.
Qed.

Lemma C107_steady_pf : forall solve dou xs fC fK load s q elements dt theta t0 t n T T1 esC esK,
  exact_solver solve -> theta_pair dou xs fC fK -> theta_mesh dou xs s q elements t0 -> 0 < dt -> 0 < theta -> renumber t0 = (t, n) ->
  (forall i j, in_table t0 i j -> in_table T i j) ->
  Forall2 (made_by fC) (map (mkPiece s q) elements) esC -> Forall2 (made_by fK) (map (mkPiece s q) elements) esK -> Forall2 (carries load T) elements esC ->
  theta_step solve fC fK load s q elements dt theta t n T = Ok T1 ->
  ((forall i j, uval T1 i j = uval T i j) <-> forall i j, num t0 i j <> None -> internal_force esK T i j = element_load esC i j).
Proof.
  intros solve dou xs fC fK load s q elements dt theta t0 t n T T1 esC esK HE HP HM Hdt Hth ER HU HC HK HL ES.
  destruct (step_inv solve dou xs fC fK load s q elements dt theta t0 t n T T1 esC esK HE HP HM Hdt Hth ER HU HC HK HL ES) as (_ & HF & HB).
  destruct (renumber_ok _ _ _ ER) as (SP & _ & _ & _ & _).
  assert (NN : forall i j, num t0 i j = None <-> num t i j = None) by (intros; now apply pattern_in).
  assert (BT : forall i j, theta_balance esC esK dt theta T T i j <-> internal_force esK T i j = element_load esC i j).
  { intros i j. unfold theta_balance. split; intros H; [|rewrite H; ring]. assert (X : dt * (element_load esC i j - internal_force esK T i j) = 0) by lra. apply Rmult_integral in X. lra. }
  split.
  - intros EQ i j H. apply BT. apply (balance_ext esC esK dt theta T T1 T); auto. apply HB. rewrite <- NN. exact H.
  - intros EQ. destruct (C107_step_pf dou xs fC fK load s q elements dt theta t0 t n T esC esK HP HM Hdt Hth ER HU HC HK HL) as (A & F & x & T2 & _ & _ & _ & _ & _ & _ & _ & _ & _ & _ & UN).
    intros i j. rewrite (UN T1), (UN T); auto.
    + intros i' j' H. now apply BT, EQ.
    + intros i' j' H. apply HF. now apply NN.
    + intros i' j' H. apply HB. rewrite <- NN. exact H.
Qed.

Lemma C107_contract_pf : forall solve dou xs fC fK load s q elements dt theta t0 t n esC esK steps T S Tm Sm,
  exact_solver solve -> theta_pair dou xs fC fK -> theta_mesh dou xs s q elements t0 -> 0 < dt -> 1 / 2 <= theta -> renumber t0 = (t, n) ->
  (forall T S el, load T el = load S el) ->
  (forall i j, in_table t0 i j -> in_table T i j) -> (forall i j, in_table t0 i j -> in_table S i j) -> (forall i j, num t0 i j = None -> uval T i j = uval S i j) ->
  Forall2 (made_by fC) (map (mkPiece s q) elements) esC -> Forall2 (made_by fK) (map (mkPiece s q) elements) esK -> Forall2 (carries load T) elements esC ->
  theta_run solve fC fK load s q elements dt theta t n steps T = Ok Tm -> theta_run solve fC fK load s q elements dt theta t n steps S = Ok Sm ->
  0 <= cap_dist esC Tm Sm <= cap_dist esC T S.
Proof.
  intros solve dou xs fC fK load s q elements dt theta t0 t n esC esK steps T S0 Tm Sm HE HP HM Hdt Hth ER HLD HU HV HF HC HK HL ET ES.
  destruct (pairs dou xs fC fK s q elements esC esK HP (tm_dou _ _ _ _ _ _ HM) (tm_piece _ _ _ _ _ _ HM) HC HK) as (ps & EC & EK & HG).
  destruct (renumber_ok _ _ _ ER) as (SP & _ & _ & NU & _).
  assert (HF' : forall i j, num t i j = None -> uval T i j = uval S0 i j) by (intros i j H; apply HF; now apply (pattern_in t0 t i j SP)).
  assert (Hth' : 0 < theta) by lra.
  split.
  - unfold cap_dist. apply sum_over_nonneg. intros e He. rewrite EC in He. apply in_map_iff in He. destruct He as (c & <- & Hc). destruct (HG c Hc) as (_ & _ & _ & PO & _).
    exact (proj1 (PO (fun i j => uval Tm i j - uval Sm i j))).
  - revert T S0 HU HV HF HF' HL ET ES. unfold theta_run. set (l := seq 0 steps). clearbody l. induction l as [|z l IH]; intros T S0 HU HV HF HF' HL ET ES; cbn [foldM] in ET, ES.
    + injection ET as <-. injection ES as <-. lra.
    + destruct (theta_step solve fC fK load s q elements dt theta t n T) as [T1|] eqn:E1; [|discriminate ET]. destruct (theta_step solve fC fK load s q elements dt theta t n S0) as [S1|] eqn:E2; [|discriminate ES]. cbn [bind] in ET, ES.
      destruct (step_inv solve dou xs fC fK load s q elements dt theta t0 t n T T1 esC esK HE HP HM Hdt Hth' ER HU HC HK HL E1) as (A1 & A2 & A3).
      destruct (step_inv solve dou xs fC fK load s q elements dt theta t0 t n S0 S1 esC esK HE HP HM Hdt Hth' ER HV HC HK (carries_same load elements esC T S0 HLD HL) E2) as (B1 & B2 & B3).
      apply (Rle_trans _ (cap_dist esC T1 S1)).
      * apply IH; auto; [| |now apply (carries_same load elements esC T T1)]; intros i j H; [rewrite A2, B2; auto; now apply (pattern_in t0 t i j SP)|rewrite A2, B2; auto].
      * rewrite EC in *. rewrite EK in *. apply (contract_step dou elements ps dt theta t n T T1 S0 S1 NU HG Hdt Hth); auto. intros i j H. split; auto. rewrite A2, B2; auto.
Qed.

Lemma C107_heat_pf : forall solve dou xs fC fK load s q elements dt theta t0 t n esC esK steps T Tm,
  exact_solver solve -> theta_pair dou xs fC fK -> theta_mesh dou xs s q elements t0 -> 0 < dt -> 0 < theta -> renumber t0 = (t, n) ->
  (forall T S el, load T el = load S el) ->
  (forall el k c, In el elements -> In k el -> In c dou -> num t0 k c <> None) ->
  (forall i j, in_table t0 i j -> in_table T i j) ->
  Forall2 (made_by fC) (map (mkPiece s q) elements) esC -> Forall2 (made_by fK) (map (mkPiece s q) elements) esK -> Forall2 (carries load T) elements esC ->
  theta_run solve fC fK load s q elements dt theta t n steps T = Ok Tm ->
  heat esC Tm = heat esC T + INR steps * dt * sum_over esC (fun e => sum_over (e_dofs e) (fun a => e_f e (dloc a))).
Proof.
  intros solve dou xs fC fK load s q elements dt theta t0 t n esC esK steps T Tm HE HP HM Hdt Hth ER HLD HFR HU HC HK HL ET.
  destruct (pairs dou xs fC fK s q elements esC esK HP (tm_dou _ _ _ _ _ _ HM) (tm_piece _ _ _ _ _ _ HM) HC HK) as (ps & EC & EK & HG).
  destruct (renumber_ok _ _ _ ER) as (SP & _ & _ & NU & _).
  apply (run_inv solve dou xs fC fK load s q elements dt theta t0 t n esC esK (fun m Z => heat esC Z = heat esC T + INR m * dt * sum_over esC (fun e => sum_over (e_dofs e) (fun a => e_f e (dloc a)))) steps T Tm); auto.
  - cbn [INR]. ring.
  - intros m Z Z1 _ HB HZ. rewrite S_INR. assert (X : heat esC Z1 - heat esC Z = dt * sum_over esC (fun e => sum_over (e_dofs e) (fun a => e_f e (dloc a)))).
    { rewrite EC in *. rewrite EK in *. apply (heat_step dou elements ps dt theta t n Z Z1 NU HG); auto. intros el k c H1 H2 H3 H4. apply (HFR el k c H1 H2 H3). now apply (pattern_in t0 t k c SP). }
    lra.
Qed.

Lemma C107_half_pf : forall theta, 0 < theta < 1 / 2 ->
  exists dt solve t n esC T S T1 S1, 0 < dt /\ exact_solver solve /\
    theta_mesh [0]%nat tri_xs sf_3Triangle Gauss1Triangle [[0; 1; 2]]%nat tri_table /\ renumber tri_table = (t, n) /\
    (forall i j, in_table tri_table i j -> in_table T i j /\ in_table S i j) /\ (forall i j, num tri_table i j = None -> uval T i j = uval S i j) /\
    Forall2 (made_by (fun s q el => HeatCapacity s q el [0]%nat tri_xs 1 1 1)) (map (mkPiece sf_3Triangle Gauss1Triangle) [[0; 1; 2]]%nat) esC /\
    theta_run solve (fun s q el => HeatCapacity s q el [0]%nat tri_xs 1 1 1) (fun s q el => HeatTransfer s q el [0]%nat tri_xs 1 1) no_source
      sf_3Triangle Gauss1Triangle [[0; 1; 2]]%nat dt theta t n 1 T = Ok T1 /\
    theta_run solve (fun s q el => HeatCapacity s q el [0]%nat tri_xs 1 1 1) (fun s q el => HeatTransfer s q el [0]%nat tri_xs 1 1) no_source
      sf_3Triangle Gauss1Triangle [[0; 1; 2]]%nat dt theta t n 1 S = Ok S1 /\
    cap_dist esC T S < cap_dist esC T1 S1.
Proof.
  intros theta [Ht1 Ht2]. set (fC := fun s q el => HeatCapacity s q el [0]%nat tri_xs 1 1 1). set (fK := fun s q el => HeatTransfer s q el [0]%nat tri_xs 1 1).
  assert (HP : theta_pair [0]%nat tri_xs fC fK) by (constructor; lra). pose proof tri_mesh as HM. destruct (renumber tri_table) as [t n] eqn:ER.
  set (T := [[0]; [0]; [1]]). set (S := [[0]; [0]; [0]]). set (dt := 1 / (1 - 2 * theta)). assert (Hdt : 0 < dt) by (apply Rdiv_lt_0_compat; lra).
  assert (FT : forall i j, in_table tri_table i j -> in_table T i j /\ in_table S i j). { intros i j. unfold in_table, tri_table, T, S. destruct i as [|[|[|i]]]; cbn; try lia; destruct i; cbn; lia. }
  destruct (C107_elements_pf [0]%nat tri_xs fC fK no_source sf_3Triangle Gauss1Triangle [[0; 1; 2]]%nat tri_table T HP HM (fun i j H => proj1 (FT i j H))) as (esC & esK & F1 & F2 & F3). { intros el _. exists None. auto. }
  assert (F4 : Forall2 (carries no_source S) [[0; 1; 2]]%nat esC) by (apply (carries_same no_source _ _ T S); auto).
  destruct (C107_runs_pf [0]%nat tri_xs fC fK no_source sf_3Triangle Gauss1Triangle [[0; 1; 2]]%nat dt theta tri_table t n 1 [T; S] HP HM Hdt Ht1 ER) as (solve & HE & HR).
  { intros Z el _ _. exists None. auto. } { intros Z [<-|[<-|[]]] i j H; apply (FT i j H). }
  destruct (HR T) as (T1 & E1); [now left|]. destruct (HR S) as (S1 & E2); [right; now left|]. exists dt, solve, t, n, esC, T, S, T1, S1. splits; auto.
  { intros i j. unfold num, tri_table, uval, T, S. destruct i as [|[|[|i]]]; destruct j as [|[|j]]; cbn; auto; try discriminate; destruct i; auto. }
  assert (G1 : theta_step solve fC fK no_source sf_3Triangle Gauss1Triangle [[0; 1; 2]]%nat dt theta t n T = Ok T1) by (unfold theta_run in E1; cbn [seq foldM] in E1; destruct (theta_step _ _ _ _ _ _ _ _ _ _ _ T); cbn [bind] in E1; [exact E1|discriminate E1]).
  assert (G2 : theta_step solve fC fK no_source sf_3Triangle Gauss1Triangle [[0; 1; 2]]%nat dt theta t n S = Ok S1) by (unfold theta_run in E2; cbn [seq foldM] in E2; destruct (theta_step _ _ _ _ _ _ _ _ _ _ _ S); cbn [bind] in E2; [exact E2|discriminate E2]).
  destruct (step_inv solve [0]%nat tri_xs fC fK no_source sf_3Triangle Gauss1Triangle [[0; 1; 2]]%nat dt theta tri_table t n T T1 esC esK HE HP HM Hdt Ht1 ER (fun i j H => proj1 (FT i j H)) F1 F2 F3 G1) as (_ & A2 & A3).
  destruct (step_inv solve [0]%nat tri_xs fC fK no_source sf_3Triangle Gauss1Triangle [[0; 1; 2]]%nat dt theta tri_table t n S S1 esC esK HE HP HM Hdt Ht1 ER (fun i j H => proj2 (FT i j H)) F1 F2 F4 G2) as (_ & B2 & B3).
  inversion F1 as [|? eC ? ? C1 C2]; subst. inversion C2; subst. inversion F2 as [|? eK ? ? K1 K2]; subst. inversion K2; subst.
  pose proof (tri_capacity eC C1) as QC. pose proof (tri_conduction eK K1) as QK. injection ER as <- <-.
  set (x := uval T1 2 0 - uval S1 2 0).
  assert (D0 : forall i j, uval T i j - uval S i j = 1 * spike i j). { intros i j. unfold uval, T, S, spike. destruct i as [|[|[|i]]]; destruct j as [|[|j]]; cbn; try ring; destruct i; ring. }
  assert (D1 : forall i j, uval T1 i j - uval S1 i j = x * spike i j).
  { intros i j. unfold spike. destruct (Nat.eqb_spec i 2) as [->|Hi]; [destruct (Nat.eqb_spec j 0) as [->|Hj]|]; cbn [andb]; [unfold x; ring| |].
    - rewrite A2, B2; [destruct j as [|[|j]]; [lia|unfold uval; cbn; ring|unfold uval; cbn; ring]| |]; destruct j as [|[|j]]; try lia; reflexivity.
    - assert (N : num [[None]; [None]; [Some 0%nat]] i j = None) by (destruct i as [|[|[|i]]]; [destruct j as [|[|j]]; reflexivity|destruct j as [|[|j]]; reflexivity|lia|cbn; now destruct i, j]).
      rewrite A2, B2 by exact N. specialize (D0 i j). unfold spike in D0. apply Nat.eqb_neq in Hi. rewrite Hi in D0. cbn [andb] in D0. lra. }
  assert (NF : num [[None]; [None]; [Some 0%nat]] 2 0 <> None) by discriminate.
  specialize (A3 2%nat 0%nat NF). specialize (B3 2%nat 0%nat NF). unfold theta_balance in A3, B3.
  pose proof (spike_force [eC] T S 1 D0) as I1. pose proof (spike_force [eC] T1 S1 x D1) as I2. pose proof (spike_force [eK] T S 1 D0) as I3. pose proof (spike_force [eK] T1 S1 x D1) as I4.
  rewrite (spike_dist [eC] T S 1 D0), (spike_dist [eC] T1 S1 x D1). unfold sum_over, sumlist in I1, I2, I3, I4 |- *. cbn [map fold_right] in I1, I2, I3, I4 |- *. rewrite QC in *. rewrite QK in *.
  assert (BAL : x / 18 - 1 / 18 = dt * (- theta * (x / 2) - (1 - theta) * (1 / 2))).
  { set (e := element_load [eC] 2 0) in *. set (a1 := internal_force [eC] T1 2 0) in *. set (a2 := internal_force [eC] T 2 0) in *. set (a3 := internal_force [eK] T1 2 0) in *. set (a4 := internal_force [eK] T 2 0) in *.
    set (b1 := internal_force [eC] S1 2 0) in *. set (b2 := internal_force [eC] S 2 0) in *. set (b3 := internal_force [eK] S1 2 0) in *. set (b4 := internal_force [eK] S 2 0) in *.
    replace (x / 2) with (a3 - b3) by lra. replace (1 / 2) with (a4 - b4) by lra. replace (x / 18) with (a1 - b1) by lra. replace (1 / 18) with (a2 - b2) by lra.
    transitivity ((a1 - a2) - (b1 - b2)); [ring|]. rewrite A3, B3. ring. }
  assert (DT : dt * (1 - 2 * theta) = 1) by (unfold dt; field; lra).
  assert (x < - 1). { assert (X : x * (1 + 9 * (dt * theta)) = 1 - 9 * dt * (1 - theta)) by nra. assert (0 < dt * theta) by nra. assert (Y : (x + 1) * (1 + 9 * (dt * theta)) = 2 - 9 * (dt * (1 - 2 * theta))) by nra. rewrite DT in Y. nra. }
  assert (1 < x * x) by nra. lra.
Qed.
