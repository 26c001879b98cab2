(** The analysis of a structure in the level set sample. *)
From Coq Require Import List Arith Lia Bool Reals Lra.
From Verif Require Import Res SumR DenseModel DenseR DenseSpec ShapeModel QuadModel QuadSpec ElemModel ElemSpec SparseModel SparseSpec AssemblyModel AssemblySpec KrylovSpec PatchSpec StableSpec GenModel GenSpec TopModel TopSpec LevelModel LevelSpec.
From Verif Require Import DenseProof DenseMain SparseProof AssemblyProof AssemblyProof2 AssemblyProof3 ElemProof ElemProof2 ElemProof3 ElemMain HomMain KrylovProof PatchProof PatchProof2 StableProof StableProof2 StableProof3 ThetaProof ThetaProof4 ThetaProof5 TopProof TopProof2 TopProof3 TopProof4 TopProof5 ThetaProof3 StableProof4.
Import ListNotations.
Local Open Scope R_scope.

(** ** The constants *)
Definition cA1 (l : level) : R := - (15/10) * (1 - lv_nu l) * (1 - 14 * lv_nu l + 15 * lv_nu l ^ 2) * lv_E0 l / ((1 + lv_nu l) * (7 - 5 * lv_nu l) * (1 - 2 * lv_nu l) ^ 2).
Definition cA2 (l : level) : R := 75/10 * (1 - lv_nu l) * lv_E0 l / ((1 + lv_nu l) * (7 - 5 * lv_nu l)).
Definition cc (l : level) : R := cA1 l / (cA1 l + 2 * cA2 l).
Definition cE (l : level) : R := (cA1 l + 2 * cA2 l) * (1 - cc l ^ 2).
Lemma constants_pos l : 0 < lv_E0 l -> -1 < lv_nu l < 1 / 2 ->
  lv_constants l = Ok (cA1 l, cA2 l, cc l) /\ 0 < cA1 l + 2 * cA2 l /\ 0 < cA2 l /\ 0 < cA1 l + cA2 l /\ -1 < cc l < 1 /\ 0 < cE l.
Proof.
  intros HE Hn. set (v := lv_nu l) in *. set (E := lv_E0 l) in *.
  assert (D1 : 0 < (1 + v) * (7 - 5 * v)) by (apply Rmult_lt_0_compat; lra).
  assert (D2 : 0 < (1 - 2 * v) ^ 2) by (apply pow_lt; lra).
  assert (D3 : 0 < (1 + v) * (7 - 5 * v) * (1 - 2 * v) ^ 2) by (apply Rmult_lt_0_compat; auto).
  assert (PE : 0 < (1 - v) * E) by (apply Rmult_lt_0_compat; lra).
  assert (S : cA1 l + 2 * cA2 l = (1 - v) * E * (135/10 - 39 * v + 375/10 * v ^ 2) / ((1 + v) * (7 - 5 * v) * (1 - 2 * v) ^ 2)).
  { unfold cA1, cA2. fold v E. field. splits; lra. }
  assert (S' : cA1 l + cA2 l = (1 - v) * E * (6 - 9 * v + 75/10 * v ^ 2) / ((1 + v) * (7 - 5 * v) * (1 - 2 * v) ^ 2)).
  { unfold cA1, cA2. fold v E. field. splits; lra. }
  assert (P1 : 0 < cA1 l + 2 * cA2 l). { rewrite S. apply Rdiv_lt_0_compat; auto. apply Rmult_lt_0_compat; auto. nra. }
  assert (P2 : 0 < cA1 l + cA2 l). { rewrite S'. apply Rdiv_lt_0_compat; auto. apply Rmult_lt_0_compat; auto. nra. }
  assert (P3 : 0 < cA2 l). { unfold cA2. fold v E. apply Rdiv_lt_0_compat; auto. nra. }
  assert (Pc : -1 < cc l < 1).
  { unfold cc. split; [apply (Rmult_lt_reg_r (cA1 l + 2 * cA2 l)); auto|apply (Rmult_lt_reg_r (cA1 l + 2 * cA2 l)); auto]; unfold Rdiv; rewrite Rmult_assoc, Rinv_l by lra; lra. }
  splits; auto; try lra.
  - unfold lv_constants, Rdiv_res. fold v E. destruct (Req_EM_T _ 0) as [C|_]; [exfalso; lra|]. cbn [bind]. destruct (Req_EM_T _ 0) as [C|_]; [exfalso; lra|]. cbn [bind].
    change (75/10 * (1 - v) * E / ((1 + v) * (7 - 5 * v))) with (cA2 l). change (- (15 / 10) * (1 - v) * (1 - 14 * v + 15 * v ^ 2) * E / ((1 + v) * (7 - 5 * v) * (1 - 2 * v) ^ 2)) with (cA1 l).
    destruct (Req_EM_T _ 0) as [C|_]; [exfalso; lra|]. reflexivity.
  - unfold cE. apply Rmult_lt_0_compat; auto. nra.
Qed.

(** ** The problem seen as one of the density samples *)
Definition level_top (l : level) : top := mkTop (lv_x l) (lv_elements l) (lv_ufixed l) (lv_qfixed l) (lv_s l) (lv_q l) (lv_nu l) 1 (lv_Emin l) (lv_E0 l) 1 1 1 1.
Lemma level_top_ok l : level_ok l -> top_ok (level_top l).
Proof. intros H. split; cbn; try apply H. lra. Qed.

(** ** The elements *)
Definition lelem (l : level) (E V : R) (el : list nat) : elem :=
  match lv_stiffness l E V el with Ok (K, ne) => mkElem el ne K (repeat 0 (2 * length el)) | Fail _ => no_elem end.
Record lelem_ok (l : level) (E V : R) (el : list nat) (e : elem) : Prop := mkLelem {
  le_nodes : e_nodes e = el;
  le_call : lv_stiffness l E V el = Ok (e_K e, e_nte e);
  le_num : numbered 2 (length el) [0%nat; 1%nat] (e_nte e);
  le_mat : exists k, is_mat (e_K e) (2 * length el) (2 * length el) k;
  le_in : forall a, In a (e_dofs e) -> In (dnode a) el /\ (ddof a < 2)%nat;
  le_made : made_by (fun s q el => PlaneStressStiffness s q el [0%nat; 1%nat] (lv_x l) E V 1) (mkPiece (lv_s l) (lv_q l) el) e;
  le_fits : forall t, (forall k c, In k el -> (c < 2)%nat -> in_table t k c) -> elem_fits t e }.
Lemma lelem_is l E V el : level_ok l -> In el (lv_elements l) -> 0 < E -> -1 < V < 1 -> lelem_ok l E V el (lelem l E V el).
Proof.
  intros HL Hel HE HV. destruct (lk_piece l HL el Hel) as (_ & He & _). cbn [p_shape p_rule p_nodes] in He.
  destruct (call_stress _ _ el [0%nat; 1%nat] _ E V 1 He eq_refl ltac:(nra)) as (K & ne & k & E1 & H1 & N1 & _).
  unfold lelem, lv_stiffness. rewrite E1. assert (DF : forall a, In a (dofs el ne) -> In (dnode a) el /\ (ddof a < 2)%nat /\ (dloc a < 2 * length el)%nat).
  { intros a Ha. destruct (numbered_dofs 2 [0%nat; 1%nat] a el ne N1 Ha) as (i & j & Hi & Hj & ->). cbn [dnode ddof dloc]. splits; [now apply nth_In|destruct j as [|[|]]; cbn; lia|lia]. }
  split; unfold e_dofs; cbn [e_nodes e_nte e_K e_F]; auto.
  - eauto.
  - intros a Ha. split; apply DF; auto.
  - unfold made_by. cbn [p_shape p_rule p_nodes e_nodes e_K e_nte]. auto.
  - intros t Ht. unfold elem_fits, e_dofs. cbn [e_nodes e_nte e_K e_F]. split; [rewrite (proj1 N1); lia|]. split; [apply H1|]. assert (MR : mrow K = (2 * length el)%nat /\ mcol K = (2 * length el)%nat) by (split; apply H1).
    intros a Ha. destruct (DF a Ha) as (A & B & C). rewrite repeat_length. splits; [now apply Ht|lia..].
Qed.
Definition lel (l : level) (i : nat) : list nat := nth i (lv_elements l) [].
Definition nle (l : level) : nat := length (lv_elements l).
Definition smod (l : level) (str : list R) (i : nat) : R := lv_Emin l + nth i str 0 * (lv_E0 l - lv_Emin l).
Definition kels (l : level) (str : list R) : list elem := map (fun i => lelem l (smod l str i) (lv_nu l) (lel l i)) (seq 0 (nle l)).
Definition tels (l : level) : list elem := map (fun i => lelem l (cE l) (cc l) (lel l i)) (seq 0 (nle l)).
Lemma lel_in l i : (i < nle l)%nat -> In (lel l i) (lv_elements l).
Proof. intros H. now apply nth_In. Qed.
Lemma smod_pos l str i : level_ok l -> shares l str -> (i < nle l)%nat -> 0 < smod l str i.
Proof. intros HL [_ HS] Hi. destruct (lk_modulus l HL) as [A B]. destruct (HS i Hi) as [C D]. unfold smod. assert (0 <= nth i str 0 * (lv_E0 l - lv_Emin l)) by (apply Rmult_le_pos; lra). lra. Qed.
Lemma kel_ok l str i : level_ok l -> shares l str -> (i < nle l)%nat -> lelem_ok l (smod l str i) (lv_nu l) (lel l i) (lelem l (smod l str i) (lv_nu l) (lel l i)).
Proof. intros HL HS Hi. apply lelem_is; auto. - now apply lel_in. - now apply smod_pos. - pose proof (lk_poisson l HL). lra. Qed.
Lemma cpos l : level_ok l -> lv_constants l = Ok (cA1 l, cA2 l, cc l) /\ 0 < cA1 l + 2 * cA2 l /\ 0 < cA2 l /\ 0 < cA1 l + cA2 l /\ -1 < cc l < 1 /\ 0 < cE l.
Proof. intros HL. apply constants_pos; [pose proof (lk_modulus l HL); lra|apply (lk_poisson l HL)]. Qed.
Lemma tel_ok l i : level_ok l -> (i < nle l)%nat -> lelem_ok l (cE l) (cc l) (lel l i) (lelem l (cE l) (cc l) (lel l i)).
Proof. intros HL Hi. destruct (cpos l HL) as (_ & _ & _ & _ & C1 & C2). apply lelem_is; auto. now apply lel_in. Qed.

Lemma add_structure l str u t acc : level_ok l -> shares l str -> foldM (lv_add l str u t) (seq 0 (nle l)) acc = foldM (add_KF u t) (kels l str) acc.
Proof.
  intros HL HS. apply foldM_map. intros s i Hi. apply in_seq in Hi. pose proof (kel_ok l str i HL HS ltac:(lia)) as HK.
  unfold lv_add, add_KF. rewrite (rd_nth _ i []) by (unfold nle in *; lia). cbn [bind]. rewrite (rd_nth str i 0) by (destruct HS as [-> _]; unfold nle in *; lia). cbn [bind].
  fold (smod l str i). fold (lel l i). rewrite (le_call _ _ _ _ _ HK). cbn [bind]. now rewrite (le_nodes _ _ _ _ _ HK).
Qed.

(** virtual work *)
Lemma es_virtual es f t n u w : numbering n t -> vs t w -> (forall i j, num t i j <> None -> internal_force es u i j = nodal_load f i j) ->
  sum_over es (fun e => bil e (e_dofs e) w (uval u)) = sum_over f (fun q => snd q * w (fst (fst q)) (snd (fst q))).
Proof.
  intros NU Hw HE.
  set (ty := (elem + (nat * nat * R))%type). set (LL := map (fun e => inl e : ty) es ++ map (fun q => inr q : ty) f).
  set (D := fun x : ty => match x with inl e => e_dofs e | inr q => [mkDof (fst (fst q)) (snd (fst q)) 0] end).
  set (g := fun (x : ty) a => match x with inl e => sum_over (e_dofs e) (fun b => e_k e (dloc a) (dloc b) * duval u b) | inr q => - snd q end).
  pose proof (virtual LL D g w n t NU) as VW. assert (V1 : sum_over LL (fun e => sum_over (D e) (fun a => w (dnode a) (ddof a) * g e a)) = 0).
  { apply VW.
    - intros e a _ _ H. now apply Hw.
    - intros i j H. unfold LL. rewrite sum_app, !sum_map. cbn [D g]. specialize (HE i j H). unfold internal_force in HE. rewrite HE. unfold nodal_load.
      rewrite (sum_ext f (fun x => sum_over [mkDof (fst (fst x)) (snd (fst x)) 0] (fun a => ind (at_dof i j a) (- snd x))) (fun x => (-1) * ind ((fst (fst x) =? i) && (snd (fst x) =? j))%nat (snd x))).
      + rewrite sum_over_scal. ring.
      + intros x _. rewrite sum_over_cons, sum_over_nil. unfold at_dof. cbn [dnode ddof]. destruct ((fst (fst x) =? i) && (snd (fst x) =? j))%nat; cbn [ind]; ring. }
  unfold LL in V1. rewrite sum_app, !sum_map in V1. cbn [D g] in V1.
  assert (V2 : sum_over f (fun x => sum_over [mkDof (fst (fst x)) (snd (fst x)) 0] (fun a => w (dnode a) (ddof a) * - snd x)) = (-1) * sum_over f (fun q => snd q * w (fst (fst q)) (snd (fst q)))).
  { rewrite <- sum_over_scal. apply sum_ext. intros x _. rewrite sum_over_cons, sum_over_nil. cbn [dnode ddof]. ring. }
  rewrite V2 in V1. unfold bil. unfold duval in V1. lra.
Qed.

(** fields without energy that vanish at the supports *)
Lemma no_energy l (E : nat -> R) V t n u1 (w : field) : level_ok l -> tables (level_top l) u1 t n -> (forall i, (i < nle l)%nat -> 0 < E i) -> -1 < V < 1 -> vs t w ->
  (forall i, (i < nle l)%nat -> denergy (lelem l (E i) V (lel l i)) w = 0) -> forall i j, w i j = 0.
Proof.
  intros HL TB HE HV Hw H0 i j. destruct (num t i j) as [k|] eqn:Ek; [|now apply Hw].
  assert (Hij : num t i j <> None) by congruence. rewrite (tb_none _ _ _ _ TB) in Hij. cbn [tp_x level_top] in Hij.
  assert (A : (i < length (lv_x l))%nat /\ (j < 2)%nat) by (destruct (Nat.lt_ge_cases i (length (lv_x l))), (Nat.lt_ge_cases j 2); try (split; auto; fail); exfalso; apply Hij; right; lia).
  assert (B : forall v, ~ In (i, j, v) (lv_ufixed l)) by (intros v Hv; apply Hij; left; exists v; auto).
  pose proof (lk_held l HL i j (proj1 A) (proj2 A) B) as HH. destruct A as [A1 A2]. clear Hij B Ek A1.
  revert j A2. induction HH as [k0 Hb|el ks k0 Hel HS Hks _ IH Hin]; intros j Hj.
  - apply Hw. apply (tb_none _ _ _ _ TB). left. now apply Hb.
  - destruct (In_nth _ _ [] Hel) as (e & He & Ee). assert (Ee' : lel l e = el) by exact Ee. clear Ee. subst el.
    pose proof (lelem_is l (E e) V (lel l e) HL Hel (HE e He) HV) as LK.
    destruct (element_held [0%nat; 1%nat] (lv_x l) 2 2 _ _ _ w (sr_stress [0%nat; 1%nat] (lv_x l) (E e) V 1 (HE e He) HV ltac:(lra)) eq_refl (lk_piece l HL _ Hel) (le_made _ _ _ _ _ LK)) as (_ & _ & T).
    apply (T (H0 e He) ks HS Hks); auto.
    + intros k' c Hk' Hc. apply IH; auto. destruct Hc as [<-|[<-|[]]]; lia.
    + destruct j as [|[|]]; cbn; auto; lia.
Qed.
Lemma lenergy l E V el w : level_ok l -> In el (lv_elements l) -> 0 < E -> -1 < V < 1 ->
  0 <= denergy (lelem l E V el) w /\ forall a b, In a (e_dofs (lelem l E V el)) -> In b (e_dofs (lelem l E V el)) -> e_k (lelem l E V el) (dloc a) (dloc b) = e_k (lelem l E V el) (dloc b) (dloc a).
Proof.
  intros HL Hel HE HV. pose proof (lelem_is l E V el HL Hel HE HV) as LK.
  destruct (element_held [0%nat; 1%nat] (lv_x l) 2 2 _ _ _ w (sr_stress [0%nat; 1%nat] (lv_x l) E V 1 HE HV ltac:(lra)) eq_refl (lk_piece l HL _ Hel) (le_made _ _ _ _ _ LK)) as (A & B & _). auto.
Qed.

Lemma kfits l str t : level_ok l -> shares l str -> (forall i j, in_table t i j <-> (i < length (lv_x l))%nat /\ (j < 2)%nat) -> forall e, In e (kels l str) -> elem_fits t e.
Proof.
  intros HL HS Ht e He. unfold kels in He. apply in_map_iff in He. destruct He as (i & <- & Hi). apply in_seq in Hi. apply (le_fits _ _ _ _ _ (kel_ok l str i HL HS ltac:(lia))).
  intros k c Hk Hc. apply Ht. split; auto. apply (lk_nodes l HL (lel l i)); auto. apply lel_in. lia.
Qed.
Lemma ldisplacement solve l str u1 t n : spd_solver solve -> level_ok l -> shares l str -> tables (level_top l) u1 t n ->
  exists u, lv_displacement solve l str = Ok u /\ length u = length (lv_x l) /\ (forall i j, in_table u i j <-> (i < length (lv_x l))%nat /\ (j < 2)%nat) /\
    (forall i j, num t i j = None -> uval u i j = 0) /\ (forall i j, num t i j <> None -> internal_force (kels l str) u i j = nodal_load (lv_qfixed l) i j).
Proof.
  intros HS HT HD TB. pose proof (tb_num _ _ _ _ TB) as NU.
  destruct (kf_system n t u1 (kels l str) (lv_qfixed l) NU) as (K & F & F' & Kc & K' & E1 & E2 & E3 & SQ & LF & EN & OK & X).
  { intros i j H. apply (tb_inu _ _ _ _ TB), (tb_in _ _ _ _ TB), H. }
  { apply kfits; auto. apply TB. }
  { intros i j v H. apply (tb_in _ _ _ _ TB). exact (lk_loads l HT i j v H). }
  assert (SPD : symmetric n (entry Kc) /\ pos_def n (entry Kc)).
  { apply (held_definite2 [0%nat; 1%nat] (lv_x l) 2 2 (map (mkPiece (lv_s l) (lv_q l)) (lv_elements l)) (kels l str) n t u1); auto.
    - intros p Hp. apply in_map_iff in Hp. destruct Hp as (el & <- & Hel). now apply (lk_piece l HT).
    - unfold kels, nle. rewrite <- (map_length (mkPiece (lv_s l) (lv_q l)) (lv_elements l)). apply (Forall2_seq _ _ _ (mkPiece (lv_s l) (lv_q l) [])). intros i Hi. rewrite map_length in Hi.
      rewrite map_nth. fold (lel l i). pose proof (kel_ok l str i HT HD Hi) as RK. pose proof (smod_pos l str i HT HD Hi) as P2.
      eexists. split; [|exact (le_made _ _ _ _ _ RK)]. apply sr_stress; auto; [pose proof (lk_poisson l HT); lra|lra].
    - intros i j Hij. rewrite (tb_none _ _ _ _ TB) in Hij. cbn [tp_x level_top] in Hij.
      assert (A : (i < length (lv_x l))%nat /\ (j < 2)%nat) by (destruct (Nat.lt_ge_cases i (length (lv_x l))), (Nat.lt_ge_cases j 2); try (split; auto; fail); exfalso; apply Hij; right; lia).
      split; [destruct j as [|[|]]; cbn; auto; lia|]. rewrite map_map. cbn [p_nodes]. rewrite map_id.
      assert (B : forall v, ~ In (i, j, v) (lv_ufixed l)) by (intros v Hv; apply Hij; left; exists v; auto).
      pose proof (lk_held l HT i j (proj1 A) (proj2 A) B) as HH. clear - HH TB. induction HH as [k Hb|el ks k Hel HS Hks _ IH Hin]; [apply held_base|eapply held_elem; eauto].
      intros c Hc. apply (tb_none _ _ _ _ TB). left. apply Hb. destruct Hc as [<-|[<-|[]]]; lia. }
  destruct (HS n Kc F' SQ LF (proj1 SPD) (proj2 SPD)) as (x & Ex & Lx & Sx). destruct (X x Lx) as (u & E4 & IU & LU & VU & EQ).
  exists u. splits.
  - unfold lv_displacement. destruct (tb_run _ _ _ _ TB) as (t1 & R1 & R2). cbn [tp_x tp_ufixed level_top] in R1. rewrite R1. cbn [bind]. rewrite R2. fold (nle l). rewrite (add_structure l str u1 t _ HT HD), E1. cbn [bind]. rewrite E2. cbn [bind]. rewrite E3. cbn [bind]. rewrite Ex. cbn [bind]. exact E4.
  - rewrite LU. apply TB.
  - intros i j. rewrite IU. apply TB.
  - intros i j Hn. rewrite VU, Hn. apply TB.
  - intros i j Hn. destruct (num t i j) as [k|] eqn:Ek; [|congruence]. pose proof (EQ i j k Ek) as Q.
    assert (residual n Kc F' x k = 0); [|lra]. unfold residual. pose proof (proj1 (mulvec_rows n Kc x F' SQ Lx LF) Sx k (proj1 NU _ _ _ Ek)). lra.
Qed.
