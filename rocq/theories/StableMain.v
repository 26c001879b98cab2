(** Property C106: the assembled system of a mesh that is held: the proofs. *)
From Coq Require Import List Arith Lia Bool Reals Lra.
From Verif Require Import Res SumR DenseModel DenseR DenseSpec ShapeModel QuadModel QuadSpec ElemModel ElemSpec SparseModel SparseSpec KrylovModel KrylovSpec AssemblyModel AssemblySpec PatchSpec StableSpec PatchMain.
Import ListNotations.
Local Open Scope R_scope.
From Verif Require Import ElemProof3 ElemMain KrylovMain PatchProof3 StableProof StableProof2 StableProof3 StableProof4.

Lemma wprod_pos q d g : In (q, d) [(Gauss1Triangle, 2%nat); (Gauss3Triangle, 2%nat); (Gauss4Square, 2%nat); (Gauss9Square, 2%nat); (Gauss1Tetrahedron, 3%nat)] -> (g < q_n q)%nat -> 0 < wprod d (nth g (q_weights q) []).
Proof.
  assert (S2 : 0 < 1 / sqrt 2) by (apply Rdiv_lt_0_compat; [lra|apply sqrt_lt_R0; lra]).
  assert (S6 : 0 < 1 / sqrt 6) by (apply Rdiv_lt_0_compat; [lra|apply sqrt_lt_R0; lra]).
  assert (C6 : 0 < 1 / cbrt 6). { apply Rdiv_lt_0_compat; [lra|]. unfold cbrt. apply exp_pos. }
  intros Hq Hg. cbn [In] in Hq. destruct Hq as [E|[E|[E|[E|[E|[]]]]]]; injection E as <- <-; cbn in Hg;
    do 9 (destruct g as [|g]; [cbn [nth q_weights Gauss1Triangle Gauss3Triangle Gauss4Square Gauss9Square Gauss1Tetrahedron wprod]; rewrite ?Rmult_1_l; repeat apply Rmult_lt_0_compat; lra|try lia]).
Qed.
Lemma internal_force_ext es u v i j : (forall k c, uval u k c = uval v k c) -> internal_force es u i j = internal_force es v i j.
Proof.
  intros H. unfold internal_force. apply AssemblyProof.sum_ext. intros e _. apply AssemblyProof.sum_ext. intros a _. f_equal. apply AssemblyProof.sum_ext. intros b _. unfold duval. now rewrite H.
Qed.
Lemma no_motion es u i j : (forall k c, uval u k c = 0) -> internal_force es u i j = 0.
Proof.
  intros H. unfold internal_force. apply AssemblyProof.sum_zero. intros e _. apply AssemblyProof.sum_zero. intros a _. rewrite AssemblyProof.sum_zero; [unfold ind; now destruct (at_dof i j a)|].
  intros b _. unfold duval. rewrite H. ring.
Qed.
Lemma alternating_kills s q elem dou xs m r W : s = sf_4Square -> element_ok 2 s q elem xs -> (m <> 0)%nat -> (forall g, (g < q_n q)%nat -> pt q g 0%nat = 0 /\ pt q g 1%nat = 0) ->
  stiffness_of 2 m s q elem dou xs r W -> (forall Y, W Y (fun _ _ => 0) = 0) -> forall b : nat -> R, kills m (length elem) r (fun i c => (-1) ^ i * b c).
Proof.
  intros Es He Hm Hp HS HW b. apply (stiffness_kills 2 m s q elem dou xs r W _ (fun _ _ _ => 0)); auto.
  intros g Hg k c Hk Hc. destruct (Hp g Hg) as [P0 P1]. rewrite bigsum_zero by (intros; ring). subst s. cbn in Hk. unfold dshp, sf_4Square, dN_4Square. cbn [sf_n sf_dN bigsum nth]. rewrite P0, P1.
  destruct k as [|[|k]]; [| |lia]; cbn [nth]; field.
Qed.

Lemma C106_rules_pf : forall s q, In (s, q) [(sf_3Triangle, Gauss1Triangle); (sf_3Triangle, Gauss3Triangle); (sf_4Square, Gauss4Square); (sf_4Square, Gauss9Square); (sf_4Tetrahedron, Gauss1Tetrahedron)] ->
  stable_pair s q /\ rule_ok (sf_d s) q /\ forall g, (g < q_n q)%nat -> 0 < wprod (sf_d s) (nth g (q_weights q) []).
Proof.
  intros s q H.
  assert (S3 : 0 < sqrt 3) by (apply sqrt_lt_R0; lra). assert (S35 : 0 < sqrt (3 / 5)) by (apply sqrt_lt_R0; lra).
  cbn [In] in H. destruct H as [E|[E|[E|[E|[E|[]]]]]]; injection E as <- <-; cbn [sf_d sf_3Triangle sf_4Square sf_4Tetrahedron];
    (split; [|split; [unfold rule_ok; cbn [q_n q_points q_weights length Gauss1Triangle Gauss3Triangle Gauss4Square Gauss9Square Gauss1Tetrahedron]; split; [lia|]; split; [lia|]; intros g Hg; do 9 (destruct g as [|g]; [cbn; lia|try lia])
      |intros g Hg; eapply wprod_pos; [|exact Hg]; cbn; tauto]]).
  - left. split; [reflexivity|cbn; lia].
  - left. split; [reflexivity|cbn; lia].
  - right. left. split; [reflexivity|]. exists 0%nat, 1%nat, 2%nat. cbn [q_n Gauss4Square]. split; [lia|]. split; [lia|]. split; [lia|]. unfold pt. cbn [q_points Gauss4Square nth].
    intros Z. assert (K : 0 < 2 / sqrt 3) by (apply Rdiv_lt_0_compat; lra). replace (1 / sqrt 3 - -1 / sqrt 3) with (2 / sqrt 3) in Z by (field; lra). nra.
  - right. left. split; [reflexivity|]. exists 0%nat, 1%nat, 3%nat. cbn [q_n Gauss9Square]. split; [lia|]. split; [lia|]. split; [lia|]. unfold pt. cbn [q_points Gauss9Square nth]. intros Z. nra.
  - right. right. split; [reflexivity|cbn; lia].
Qed.

Lemma C106_runs_pf : forall dou xs d m f P, stiff_routine dou xs d m f -> length dou = m -> (forall p, In p P -> stable_piece d xs p) ->
  exists es, Forall2 (made_by f) P es /\ forall e, In e es -> (forall a, e_f e a = 0) /\
    forall t, (forall p k c, In p P -> In k (p_nodes p) -> In c dou -> in_table t k c) -> elem_fits t e.
Proof. exact stable_runs. Qed.

Lemma C106_definite_pf : forall dou xs d m f P es u0 t0 fx fl,
  stiff_routine dou xs d m f -> length dou = m -> (forall p, In p P -> stable_piece d xs p) -> Forall2 (made_by f) P es ->
  (forall i j, in_table t0 i j -> in_table u0 i j) -> (forall i j v, In (i, j, v) fx -> in_table t0 i j) -> (forall i j v, In (i, j, v) fl -> in_table t0 i j) ->
  (forall e, In e es -> elem_fits t0 e) ->
  (forall i j, last_value fx i j = None -> num t0 i j <> None ->
     In j dou /\ held xs m (map p_nodes P) (fun k => forall c, In c dou -> last_value fx k c <> None \/ num t0 k c = None) i) ->
  exists u1 t1 t2 n K F F' Kc K',
    set_dirichlet (u0, t0) fx = Ok (u1, t1) /\ renumber t1 = (t2, n) /\
    asm_all u1 t2 es (lil_new n n, repeat 0 n) = Ok (K, F) /\ assemble_N F fl t2 = Ok F' /\ csr_of_lil K = Ok (Kc, K') /\ length F' = n /\
    square_csr n Kc /\ symmetric n (entry Kc) /\ pos_def n (entry Kc) /\
    exists x u2, length x = n /\ csr_mulvec 0 Rplus Rmult Kc x = Ok F' /\ disassemble u1 x t2 = Ok u2 /\
      (forall x', length x' = n -> csr_mulvec 0 Rplus Rmult Kc x' = Ok F' -> x' = x) /\
      (forall i j v, last_value fx i j = Some v -> uval u2 i j = v) /\
      (forall i j, last_value fx i j = None -> num t0 i j = None -> uval u2 i j = uval u0 i j) /\
      (forall i j, last_value fx i j = None -> num t0 i j <> None -> internal_force es u2 i j = element_load es i j + nodal_load fl i j).
Proof.
  intros dou xs d m f P es u0 t0 fx fl HR HD HP HF HU HX HL He HH.
  destruct (held_system dou xs d m f P es u0 t0 fx fl HR HD HP HF HU HX HL He HH) as (u1 & t1 & t2 & n & K & F & F' & Kc & K' & E1 & E2 & E3 & E4 & E5 & LF & SQ & SY & PD & HS).
  exists u1, t1, t2, n, K, F, F', Kc, K'. splits; auto.
  destruct (definite_solution n Kc F' SQ LF SY PD) as (x & Lx & Ex & Ux). destruct (HS x Lx) as (u2 & ED & V1 & V2 & _ & IFF).
  exists x, u2. splits; auto. now apply IFF.
Qed.

Lemma C106_solve_pf : forall dou xs d m f P es u0 t0 fx fl,
  stiff_routine dou xs d m f -> length dou = m -> (forall p, In p P -> stable_piece d xs p) -> Forall2 (made_by f) P es ->
  (forall i j, in_table t0 i j -> in_table u0 i j) -> (forall i j v, In (i, j, v) fx -> in_table t0 i j) -> (forall i j v, In (i, j, v) fl -> in_table t0 i j) ->
  (forall e, In e es -> elem_fits t0 e) ->
  (forall i j, last_value fx i j = None -> num t0 i j <> None ->
     In j dou /\ held xs m (map p_nodes P) (fun k => forall c, In c dou -> last_value fx k c <> None \/ num t0 k c = None) i) ->
  (exists u i j, (forall i j v, last_value fx i j = Some v -> uval u i j = v) /\ (forall i j, last_value fx i j = None -> num t0 i j = None -> uval u i j = uval u0 i j) /\
     (forall i j, last_value fx i j = None -> num t0 i j <> None -> uval u i j = 0) /\
     last_value fx i j = None /\ num t0 i j <> None /\ internal_force es u i j <> element_load es i j + nodal_load fl i j) ->
  exists u1 t1 t2 n K F F' Kc K',
    set_dirichlet (u0, t0) fx = Ok (u1, t1) /\ renumber t1 = (t2, n) /\
    asm_all u1 t2 es (lil_new n n, repeat 0 n) = Ok (K, F) /\ assemble_N F fl t2 = Ok F' /\ csr_of_lil K = Ok (Kc, K') /\
    forall solver itrmax eps, In solver [cg; scaling_cg] -> (n <= itrmax)%nat -> 0 < eps ->
      exists x u2, solver Kc F' itrmax eps = Ok (true, x) /\ disassemble u1 x t2 = Ok u2 /\
        (forall i j v, last_value fx i j = Some v -> uval u2 i j = v) /\
        (forall i j, last_value fx i j = None -> num t0 i j = None -> uval u2 i j = uval u0 i j) /\
        (forall i j, last_value fx i j = None -> num t0 i j <> None ->
           Rabs (internal_force es u2 i j - (element_load es i j + nodal_load fl i j)) < eps * norm2 n (ix F')).
Proof.
  intros dou xs d m f P es u0 t0 fx fl HR HD HP HF HU HX HL He HH HN.
  destruct (held_system dou xs d m f P es u0 t0 fx fl HR HD HP HF HU HX HL He HH) as (u1 & t1 & t2 & n & K & F & F' & Kc & K' & E1 & E2 & E3 & E4 & E5 & LF & SQ & SY & PD & HS).
  exists u1, t1, t2, n, K, F, F', Kc, K'. splits; auto. intros solver itrmax eps Hs Hi Heps.
  assert (Hn : nonzero n (ix F')).
  { destruct HN as (u & i & j & W1 & W2 & W3 & Hl & Hm & Hne). destruct (HS (repeat 0 n) (repeat_length _ _)) as (u2 & ED & V1 & V2 & RS & _).
    assert (EU : forall k c, uval u2 k c = uval u k c).
    { intros k c. destruct (last_value fx k c) as [v|] eqn:Ev; [now rewrite (V1 k c v), (W1 k c v)|]. destruct (num t0 k c) as [z|] eqn:Ez; [|now rewrite V2, W2].
      assert (Nz : num t0 k c <> None) by congruence. destruct (RS k c Ev Nz) as (p & Hp & -> & _). rewrite (W3 k c Ev Nz). apply nth_repeat. }
    destruct (RS i j Hl Hm) as (k & Hk & _ & E). exists k. split; [exact Hk|]. intros Z. apply Hne. clear RS.
    rewrite (internal_force_ext es u2 u) in E by exact EU. unfold residual in E. rewrite Z in E. unfold matvec in E.
    rewrite bigsum_zero in E by (intros l _; unfold ix; rewrite nth_repeat; ring). lra. }
  assert (exists x, solver Kc F' itrmax eps = Ok (true, x) /\ accurate n Kc F' eps x) as (x & Es & Lx & Ac).
  { destruct Hs as [<-|[<-|[]]]; [now apply C24_cg_converges_pf|now apply C24_scaling_cg_pf]. }
  destruct (HS x Lx) as (u2 & ED & V1 & V2 & RS & _). exists x, u2. splits; auto.
  intros i j Hl Hnum. destruct (RS i j Hl Hnum) as (k & Hk & _ & ->). rewrite Rabs_Ropp.
  eapply Rle_lt_trans; [|exact Ac]. now apply component_le_norm.
Qed.

Lemma C106_patch_pf : forall dou xs m f P es u0 t0 fx u a A,
  stiff_routine dou xs 2 m f -> plane_routine dou xs m f -> length dou = m -> (forall p, In p P -> stable_piece 2 xs p /\ piece_ok xs p) -> Forall2 (made_by f) P es ->
  (forall i j, in_table t0 i j -> in_table u0 i j) -> (forall i j v, In (i, j, v) fx -> in_table t0 i j) ->
  (forall e, In e es -> elem_fits t0 e /\ forall a, e_f e a = 0) ->
  (forall i j, last_value fx i j = None -> num t0 i j <> None ->
     In j dou /\ held xs m (map p_nodes P) (fun k => forall c, In c dou -> last_value fx k c <> None \/ num t0 k c = None) i /\ inner (map p_nodes P) i) ->
  (forall p, In p P -> affine_on m dou xs u a A (p_nodes p)) ->
  (forall i j w, last_value fx i j = Some w -> uval u i j = w) ->
  (forall i j, last_value fx i j = None -> num t0 i j = None -> uval u i j = uval u0 i j) ->
  exists u1 t1 t2 n K F F' Kc K' x,
    set_dirichlet (u0, t0) fx = Ok (u1, t1) /\ renumber t1 = (t2, n) /\
    asm_all u1 t2 es (lil_new n n, repeat 0 n) = Ok (K, F) /\ assemble_N F [] t2 = Ok F' /\ csr_of_lil K = Ok (Kc, K') /\
    length x = n /\ csr_mulvec 0 Rplus Rmult Kc x = Ok F' /\
    forall x', length x' = n -> csr_mulvec 0 Rplus Rmult Kc x' = Ok F' -> exists u2, disassemble u1 x' t2 = Ok u2 /\ forall i j, uval u2 i j = uval u i j.
Proof.
  intros dou xs m f P es u0 t0 fx u a A HR HR' HD HP HF HU HX He HH HA V1 V2.
  destruct (C105_solution_pf dou xs m f P es u0 t0 fx u a A HR' HD (fun p Hp => proj2 (HP p Hp)) HF He HU HX HA V1 V2 (fun i j H1 H2 => proj2 (proj2 (HH i j H1 H2))))
    as (u1 & t1 & t2 & n & K & F & F' & Kc & K' & E1 & E2 & E3 & E4 & E5 & x & u2 & Lx & Ex & ED & EU).
  destruct (held_system dou xs 2 m f P es u0 t0 fx [] HR HD (fun p Hp => proj1 (HP p Hp)) HF HU HX (fun i j v H => match H with end) (fun e Hin => proj1 (He e Hin)) (fun i j H1 H2 => conj (proj1 (HH i j H1 H2)) (proj1 (proj2 (HH i j H1 H2)))))
    as (u1' & t1' & t2' & n' & K1 & F1 & F1' & Kc' & K1' & G1 & G2 & G3 & G4 & G5 & LF & SQ & SY & PD & HS).
  pose proof (eq_trans (eq_sym E1) G1) as Q1. injection Q1 as <- <-. pose proof (eq_trans (eq_sym E2) G2) as Q2. injection Q2 as <- <-. pose proof (eq_trans (eq_sym E3) G3) as Q3. injection Q3 as <- <-. pose proof (eq_trans (eq_sym E4) G4) as Q4. injection Q4 as <-. pose proof (eq_trans (eq_sym E5) G5) as Q5. injection Q5 as <- <-.
  exists u1, t1, t2, n, K, F, F', Kc, K', x. splits; auto. intros x' Lx' Ex'.
  destruct (definite_solution n Kc F' SQ LF SY PD) as (x0 & L0 & E0 & U0). exists u2. split; [|exact EU]. rewrite (U0 x' Lx' Ex'), <- (U0 x Lx Ex). exact ED.
Qed.

Lemma C106_hourglass_pf : forall q elem dou xs E V t alpha b,
  (forall g, (g < q_n q)%nat -> pt q g 0%nat = 0 /\ pt q g 1%nat = 0) -> element_ok 2 sf_4Square q elem xs ->
  (length dou = 1%nat -> kills 1 4 (HeatTransfer sf_4Square q elem dou xs alpha t) (fun i c => (-1) ^ i * b c)) /\
  (length dou = 2%nat -> (1 - 2 * V) * (1 + V) <> 0 -> kills 2 4 (PlaneStrainStiffness sf_4Square q elem dou xs E V t) (fun i c => (-1) ^ i * b c)) /\
  (length dou = 2%nat -> (1 - V) * (1 + V) <> 0 -> kills 2 4 (PlaneStressStiffness sf_4Square q elem dou xs E V t) (fun i c => (-1) ^ i * b c)).
Proof.
  intros q elem dou xs E V t alpha b Hp He. assert (HL : length elem = 4%nat) by apply He.
  assert (Z : forall l m Y, hooke 2 l m (strain Y) (strain (fun _ _ => 0)) = 0) by (intros; unfold hooke, trace, ddot, strain; cbn [bigsum]; field).
  rewrite <- HL. splits; intros.
  - eapply alternating_kills; eauto; [now apply call_heat|]. intros Y. cbn [bigsum]. ring.
  - eapply alternating_kills; eauto; [now apply call_strain|]. intros Y. cbv beta. rewrite Z. ring.
  - eapply alternating_kills; eauto; [now apply call_stress|]. intros Y. cbv beta. rewrite Z. ring.
Qed.
