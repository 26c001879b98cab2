(** The displacements of the plane strain sample. *)
From Coq Require Import List Arith Lia Bool Reals Lra.
From Verif Require Import Res SumR DenseModel DenseR DenseSpec ShapeModel QuadModel QuadSpec ElemModel ElemSpec LoadSpec SparseModel SparseSpec AssemblyModel AssemblySpec KrylovSpec PatchSpec StableSpec TopModel TopSpec PlaneModel PlaneSpec.
From Verif Require Import DenseProof DenseMain SparseMain AssemblyProof AssemblyProof2 AssemblyProof3 AssemblyMain ElemProof ElemProof2 ElemProof3 ElemMain LoadMain HomMain KrylovProof PatchProof PatchProof2 StableProof StableProof2 StableProof3 StableProof4 ThetaProof ThetaProof3 ThetaProof4 ThetaProof5 TopProof2 TopProof3 TopProof4 PlaneProof PlaneProof2.
Import ListNotations.
Local Open Scope R_scope.

(** ** The tables *)
Definition full {A} (d : plane) (t : list (list A)) : Prop := forall i j, in_table t i j <-> (i < length (pl_x d))%nat /\ (j < 2)%nat.
Record ptables (d : plane) (u1 : list (list R)) (t : table) (n : nat) : Prop := mkPt {
  pt_run : exists t1, set_dirichlet (repeat (vnew R_ops 2) (length (pl_x d)), repeat (repeat (Some 0%nat) 2) (length (pl_x d))) (pl_ufixed d) = Ok (u1, t1) /\ renumber t1 = (t, n);
  pt_num : numbering n t;
  pt_none : forall i j, num t i j = None <-> (exists v, In (i, j, v) (pl_ufixed d)) \/ ~ ((i < length (pl_x d))%nat /\ (j < 2)%nat);
  pt_in : full d t; pt_inu : full d u1; pt_len : length u1 = length (pl_x d);
  pt_val : forall i j v, last_value (pl_ufixed d) i j = Some v -> uval u1 i j = v }.
Lemma ptables_exist d : plane_ok d -> exists u1 t n, ptables d u1 t n.
Proof.
  intros HT. set (N := length (pl_x d)).
  destruct (set_dirichlet_ok (pl_ufixed d) (repeat (vnew R_ops 2) N) (repeat (repeat (Some 0%nat) 2) N)) as (u1 & t1 & E1 & Su & St & Vu & Vt).
  { intros i j v Hin. destruct (pk_fixed d HT i j v Hin) as (A & B). split; apply in_table_repeat; auto. }
  destruct (renumber t1) as [t n] eqn:E2. destruct (renumber_ok _ _ _ E2) as ((L2 & L2' & P2) & _ & _ & NU & _).
  exists u1, t, n. split; fold N; auto.
  - eauto.
  - intros i j. rewrite <- P2, Vt. pose proof (last_value_in (pl_ufixed d) i j) as LV. destruct (last_value (pl_ufixed d) i j) as [v|].
    + split; auto. intros _. left. eauto.
    + rewrite num_repeat. destruct (Nat.ltb_spec i N), (Nat.ltb_spec j 2); cbn [andb]; split; intros X; try discriminate; try (right; lia); auto.
      destruct X as [[v Hv]|X]; [exfalso; exact (LV v Hv)|exfalso; apply X; auto].
  - intros i j. fold N. rewrite <- (in_table_repeat (Some 0%nat) N i j). rewrite <- (same_shape_in t1 _ i j St). unfold in_table. rewrite (L2' i). tauto.
  - intros i j. fold N. rewrite <- (in_table_repeat 0 N i j). apply (same_shape_in u1 _ i j Su).
  - rewrite (proj1 Su). apply repeat_length.
  - intros i j v H. rewrite Vu, H. reflexivity.
Qed.

(** ** The elements fit *)
Lemma elem_in d el k : plane_ok d -> In el (pl_elements d) -> In k el -> (k < length (pl_x d))%nat.
Proof. intros HP Hel Hk. destruct (pk_elem d el HP Hel) as (_ & _ & _ & HN & _). exact (proj1 (HN k Hk)). Qed.
Lemma edge_in d el k : plane_ok d -> In el (pl_edges d) -> In k el -> (k < length (pl_x d))%nat.
Proof. intros HP Hel Hk. destruct (pk_edge d HP el Hel) as (_ & _ & _ & HN & _). exact (proj1 (HN k Hk)). Qed.
Lemma fits {A} (d : plane) (t : list (list A)) el e k : full d t -> e_nodes e = el -> numbered 2 (length el) [0%nat; 1%nat] (e_nte e) -> is_mat (e_K e) (2 * length el) (2 * length el) k -> length (e_F e) = (2 * length el)%nat ->
  (forall k, In k el -> (k < length (pl_x d))%nat) ->
  (length (e_nodes e) <= length (e_nte e))%nat /\ mat_wf (e_K e) /\
  forall a, In a (e_dofs e) -> in_table t (dnode a) (ddof a) /\ (dloc a < mrow (e_K e))%nat /\ (dloc a < mcol (e_K e))%nat /\ (dloc a < length (e_F e))%nat.
Proof.
  intros HT EN HN HK LF HE. split; [rewrite EN, (proj1 HN); lia|]. split; [apply HK|]. assert (HR' : mrow (e_K e) = (2 * length el)%nat /\ mcol (e_K e) = (2 * length el)%nat) by (split; apply HK).
  intros a Ha. unfold e_dofs in Ha. rewrite EN in Ha. destruct (numbered_dofs 2 _ a _ _ HN Ha) as (i & j & Hi & Hj & ->). cbn [dnode ddof dloc]. rewrite LF. destruct HR' as [-> ->].
  split; [|lia]. apply HT. split; [apply HE; now apply nth_In|]. destruct j as [|[|j]]; cbn; lia.
Qed.
Lemma els_fit d t : plane_ok d -> full d t -> forall e, In e (els d) -> elem_fits t e.
Proof.
  intros HP HT e He. apply in_map_iff in He. destruct He as (el & <- & Hel). pose proof (pel_good d el HP Hel) as P. destruct (pe_mat _ _ _ P) as (k & HK & _). destruct (pe_vec _ _ _ P) as (f & Hf & _).
  eapply (fits d t el); eauto; try apply P. { destruct (DenseMain.is_vec_nth _ _ _ 0 Hf); auto. } intros k0. now apply elem_in.
Qed.
Lemma eds_fit d t : plane_ok d -> full d t -> forall e, In e (eds d) -> elem_fits t e.
Proof.
  intros HP HT e He. apply in_map_iff in He. destruct He as (el & <- & Hel). pose proof (ped_good d el HP Hel) as P. destruct (ed_vec _ _ _ P) as (f & Hf & _).
  eapply (fits d t el _ (fun _ _ => 0)); eauto; try apply P. { rewrite (ed_mat _ _ _ P). apply Rmnew. } { destruct (DenseMain.is_vec_nth _ _ _ 0 Hf); auto. } intros k0. now apply edge_in.
Qed.
Lemma add_els d u t acc : plane_ok d -> foldM (pl_add d u t) (pl_elements d) acc = foldM (add_KFe u t) (els d) acc.
Proof.
  intros HP. unfold els. assert (G : forall l, incl l (pl_elements d) -> forall acc, foldM (pl_add d u t) l acc = foldM (add_KFe u t) (map (pel d) l) acc); [|apply G; apply incl_refl].
  induction l as [|el l IH]; intros HI a; [reflexivity|]. cbn [map foldM]. pose proof (pel_good d el HP (HI el (or_introl eq_refl))) as P.
  assert (E : pl_add d u t a el = add_KFe u t a (pel d el)).
  { unfold pl_add, add_KFe. rewrite (pe_call _ _ _ P). cbn [bind]. rewrite (pe_nodes _ _ _ P). destruct (assemble_K_F a u (e_K (pel d el)) t (e_nte (pel d el)) el) as [[K F]|]; cbn [bind]; [|reflexivity]. rewrite (pe_body _ _ _ P). reflexivity. }
  rewrite E. destruct (add_KFe u t a (pel d el)) as [a'|]; cbn [bind]; [|reflexivity]. apply IH. intros x Hx. apply HI. now right.
Qed.
Lemma add_eds d t F : plane_ok d -> foldM (pl_edge d t) (pl_edges d) F = foldM (fun F e => assemble_F F (e_F e) t (e_nte e) (e_nodes e)) (eds d) F.
Proof.
  intros HP. unfold eds. assert (G : forall l, incl l (pl_edges d) -> forall F, foldM (pl_edge d t) l F = foldM (fun F e => assemble_F F (e_F e) t (e_nte e) (e_nodes e)) (map (ped d) l) F); [|apply G; apply incl_refl].
  induction l as [|el l IH]; intros HI a; [reflexivity|]. cbn [map foldM]. pose proof (ped_good d el HP (HI el (or_introl eq_refl))) as P.
  unfold pl_edge at 1. rewrite (ed_call _ _ _ P). cbn [bind]. rewrite (ed_nodes _ _ _ P).
  destruct (assemble_F a (e_F (ped d el)) t (e_nte (ped d el)) el) as [a'|]; cbn [bind]; [|reflexivity]. apply IH. intros x Hx. apply HI. now right.
Qed.

(** ** Definiteness *)
Lemma made d el : plane_ok d -> In el (pl_elements d) -> made_by (fun s q el => PlaneStrainStiffness s q el [0%nat; 1%nat] (pl_x d) (pl_E d) (pl_V d) (pl_t d)) (mkPiece (pl_s d) (pl_q d) el) (pel d el).
Proof. intros HP Hel. pose proof (pel_good d el HP Hel) as P. split; [apply P|exact (pe_call _ _ _ P)]. Qed.
Lemma routine d : plane_ok d -> stiff_routine [0%nat; 1%nat] (pl_x d) 2 2 (fun s q el => PlaneStrainStiffness s q el [0%nat; 1%nat] (pl_x d) (pl_E d) (pl_V d) (pl_t d)).
Proof. intros HP. apply sr_strain; apply HP. Qed.
Lemma lame_ok d : plane_ok d -> 0 < lame_mu (pl_E d) (pl_V d) /\ 0 < lame_lambda (pl_E d) (pl_V d) + lame_mu (pl_E d) (pl_V d).
Proof.
  intros HP. pose proof (pk_modulus d HP) as HE. pose proof (pk_poisson d HP) as HV. unfold lame_lambda, lame_mu. set (E := pl_E d) in *. set (V := pl_V d) in *. split; [apply Rdiv_lt_0_compat; lra|].
  replace (E * V / ((1 + V) * (1 - 2 * V)) + E / (2 * (1 + V))) with (E / (2 * (1 + V) * (1 - 2 * V))) by (field; lra). apply Rdiv_lt_0_compat; [lra|]. apply Rmult_lt_0_compat; lra.
Qed.
Lemma rigid_el d el v : plane_ok d -> In el (pl_elements d) -> denergy (pel d el) v = 0 -> rigid_motion 2 (length el) (nodal el (pl_x d)) (on el v).
Proof.
  intros HP Hel E0. destruct (pk_piece d HP el Hel) as (ST & He & HQ). cbn [p_shape p_rule p_nodes] in *.
  pose proof (gr_slopes d v HP el Hel) as HG. rewrite <- bil_energy, (bil_work d el v v _ _ HP Hel HG HG) in E0. destruct (lame_ok d HP) as [L1 L2]. pose proof (pk_thick d HP) as TT.
  assert (HZ : forall H, 0 <= hooke 2 (lame_lambda (pl_E d) (pl_V d)) (lame_mu (pl_E d) (pl_V d)) (strain H) (strain H)).
  { intros H. unfold hooke, trace, ddot. cbn [bigsum]. set (l := lame_lambda _ _) in *. set (m := lame_mu _ _) in *. set (a := strain H 0%nat 0%nat). set (b := strain H 1%nat 1%nat). set (c := strain H 0%nat 1%nat). set (c' := strain H 1%nat 0%nat).
    replace (l * (0 + a + b) * (0 + a + b) + 2 * m * (0 + (0 + a * a + c * c) + (0 + c' * c' + b * b))) with ((l + m) * ((a + b) * (a + b)) + m * ((a - b) * (a - b)) + 2 * m * (c * c) + 2 * m * (c' * c')) by ring.
    pose proof (Rmult_le_pos (l + m) ((a + b) * (a + b)) ltac:(lra) (Rle_0_sqr (a + b))). pose proof (Rmult_le_pos m ((a - b) * (a - b)) ltac:(lra) (Rle_0_sqr (a - b))). pose proof (Rmult_le_pos (2 * m) (c * c) ltac:(lra) (Rle_0_sqr c)). pose proof (Rmult_le_pos (2 * m) (c' * c') ltac:(lra) (Rle_0_sqr c')). lra. }
  assert (NN : forall g, (g < q_n (pl_q d))%nat -> 0 <= wprod 2 (nth g (q_weights (pl_q d)) []) * (jac (pl_s d) (nodal el (pl_x d)) (pt (pl_q d) g) * dens d (gr d v el (pt (pl_q d) g)) (gr d v el (pt (pl_q d) g)))).
  { intros g Hg. destruct (HQ g Hg) as [HJ Hw]. apply Rmult_le_pos; [lra|]. apply Rmult_le_pos; [lra|]. unfold dens. apply Rmult_le_pos; [lra|]. apply HZ. }
  assert (STL : forall g, (g < q_n (pl_q d))%nat -> still 2 2 (gr d v el (pt (pl_q d) g))).
  { intros g Hg. pose proof (bigsum_nonneg_eq0 _ _ NN E0 g Hg) as Z. cbv beta in Z. destruct (HQ g Hg) as [HJ Hw]. apply Rmult_integral in Z. destruct Z as [Z|Z]; [lra|]. apply Rmult_integral in Z. destruct Z as [Z|Z]; [lra|].
    unfold dens in Z. apply Rmult_integral in Z. destruct Z as [Z|Z]; [lra|]. split; [reflexivity|]. apply strain_zero. apply (hooke2_zero _ _ _ L1 L2 Z). }
  destruct He as (_ & Hsd & HL & _ & _ & HJ). rewrite HL. apply (still_vector (pl_s d) (pl_q d) _ _ _ 2 ST Hsd HG HJ STL).
Qed.
Lemma energy_held d v : plane_ok d -> admissible d v -> sum_over (els d) (fun e => denergy e v) = 0 -> forall i j, (i < length (pl_x d))%nat -> (j < 2)%nat -> v i j = 0.
Proof.
  intros HP HA E0. apply (pk_restrained d HP); auto. intros el Hel. apply rigid_el; auto.
  apply (sum_zero_each (els d) (fun e => denergy e v)); auto; [|now apply in_map]. intros e He. apply in_map_iff in He. destruct He as (el' & <- & Hel').
  apply (element_held _ _ _ _ _ _ _ v (routine d HP) eq_refl (pk_piece d HP el' Hel') (made d el' HP Hel')).
Qed.
Lemma els_nonneg d v : plane_ok d -> forall e, In e (els d) -> 0 <= denergy e v.
Proof.
  intros HP e He. apply in_map_iff in He. destruct He as (el' & <- & Hel'). apply (element_held _ _ _ _ _ _ _ v (routine d HP) eq_refl (pk_piece d HP el' Hel') (made d el' HP Hel')).
Qed.
Lemma definite d n t u1 G : plane_ok d -> ptables d u1 t n -> (forall e, In e (els d) -> elem_ok n t u1 e) -> (forall i j, (i < n)%nat -> G i j = sum_over (els d) (fun e => k_contrib t e i j)) -> symmetric n G /\ pos_def n G.
Proof.
  intros HP TB He HG. destruct (pt_num _ _ _ _ TB) as (B2 & I2 & O2). split.
  - intros i j Hi Hj. rewrite !HG by auto. apply sum_ext. intros e Hin. apply in_map_iff in Hin. destruct Hin as (el & <- & Hel).
    apply k_contrib_sym. apply (element_held _ _ _ _ _ _ _ (fun _ _ => 0) (routine d HP) eq_refl (pk_piece d HP el Hel) (made d el HP Hel)).
  - intros x Hx. set (v := fun k c => match num t k c with Some j => x j | None => 0 end).
    assert (EE : dot n x (matvec n G x) = sum_over (els d) (fun e => denergy e v)).
    { unfold dot, matvec. rewrite (sum_ext (els d) _ (fun e => bigsum n (fun i => bigsum n (fun j => x i * k_contrib t e i j * x j)))).
      2:{ intros e Hin. rewrite (energy n t u1) by auto. reflexivity. }
      rewrite <- bigsum_over. apply bigsum_ext. intros i Hi. rewrite <- bigsum_over, <- bigsum_scal. apply bigsum_ext. intros j Hj.
      rewrite HG by auto. rewrite (Rmult_comm (sum_over _ _)), <- Rmult_assoc, <- sum_over_scal. apply sum_ext. intros; ring. }
    rewrite EE. destruct (Rle_lt_or_eq_dec _ _ (sum_over_nonneg (els d) _ (els_nonneg d v HP))) as [Hlt|H0]; [exact Hlt|]. exfalso. symmetry in H0.
    destruct Hx as (k & Hk & Hne). destruct (O2 k Hk) as (i & j & Eij). apply Hne.
    assert (IJ : (i < length (pl_x d))%nat /\ (j < 2)%nat).
    { destruct (Nat.lt_ge_cases i (length (pl_x d))), (Nat.lt_ge_cases j 2); auto; exfalso; assert (num t i j = None) by (apply (pt_none _ _ _ _ TB); right; lia); congruence. }
    assert (Z : v i j = 0). { apply (energy_held d v HP); try tauto. intros a b w Hw. unfold v. assert (num t a b = None) as -> by (apply (pt_none _ _ _ _ TB); left; eauto). reflexivity. }
    unfold v in Z. now rewrite Eij in Z.
Qed.

(** ** The displacements *)
Definition forces (d : plane) (i j : nat) : R := element_load (els d) i j + nodal_load (pl_qfixed d) i j + element_load (eds d) i j.
Lemma pl_solved solve d u1 t n : spd_solver solve -> plane_ok d -> ptables d u1 t n ->
  exists u, pl_displacement solve d = Ok (u, t) /\ length u = length (pl_x d) /\ full d u /\
    (forall i j v, last_value (pl_ufixed d) i j = Some v -> uval u i j = v) /\ (forall i j, num t i j <> None -> internal_force (els d) u i j = forces d i j).
Proof.
  intros HS HP TB. pose proof (pt_num _ _ _ _ TB) as NU.
  destruct (kfe_system n t u1 (els d) (eds d) (pl_qfixed d) NU) as (K & F & F' & F'' & Kc & K' & E1 & E2 & E2' & E3 & SQ & LF & EN & OK & X).
  { intros i j H. apply (pt_inu _ _ _ _ TB), (pt_in _ _ _ _ TB), H. } { apply els_fit; auto. apply TB. } { apply eds_fit; auto. apply TB. }
  { intros i j v H. apply (pt_in _ _ _ _ TB). exact (pk_loads d HP i j v H). }
  destruct (definite d n t u1 (entry Kc) HP TB OK EN) as [SY PD].
  destruct (HS n Kc F'' SQ LF SY PD) as (x & Ex & Lx & Sx). destruct (X x Lx) as (u & E4 & IU & LU & VU & EQ).
  exists u. split; [|split; [|split; [|split]]].
  - unfold pl_displacement. destruct (pt_run _ _ _ _ TB) as (t1 & R1 & R2). rewrite R1. cbn [bind]. rewrite R2, add_els, E1 by auto. cbn [bind]. rewrite E2. cbn [bind]. rewrite add_eds, E2' by auto. cbn [bind]. rewrite E3. cbn [bind]. rewrite Ex. cbn [bind]. rewrite E4. reflexivity.
  - rewrite LU. apply TB.
  - intros i j. rewrite IU. apply TB.
  - intros i j v Hv. rewrite VU. pose proof (last_value_in (pl_ufixed d) i j) as LV. rewrite Hv in LV. assert (num t i j = None) as -> by (apply (pt_none _ _ _ _ TB); left; eauto). now apply (pt_val _ _ _ _ TB).
  - intros i j Hn. destruct (num t i j) as [k|] eqn:Ek; [|congruence]. pose proof (EQ i j k Ek) as Q. unfold forces.
    assert (residual n Kc F'' x k = 0); [|lra]. unfold residual. pose proof (proj1 (mulvec_rows n Kc x F'' SQ Lx LF) Sx k (proj1 NU _ _ _ Ek)). lra.
Qed.
