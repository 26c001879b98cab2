(** The displacements of a design. *)
From Coq Require Import List Arith Lia Bool Reals Lra.
From Verif Require Import Res SumR DenseModel DenseR DenseSpec ShapeModel QuadModel QuadSpec ElemModel ElemSpec SparseModel SparseSpec AssemblyModel AssemblySpec KrylovSpec PatchSpec StableSpec OCModel TopModel TopSpec.
From Verif Require Import DenseProof DenseMain SparseMain AssemblyProof AssemblyProof2 AssemblyProof3 AssemblyMain ElemProof ElemProof2 ElemProof3 ElemMain HomMain PatchProof PatchProof2 StableProof StableProof2 StableProof3 StableProof4 ThetaProof ThetaProof3 ThetaProof4 ThetaProof5 TopProof2.
Import ListNotations.
Local Open Scope R_scope.

Definition add_KF (u : list (list R)) (t : table) (acc : lil R * list R) (e : elem) : res (lil R * list R) :=
  assemble_K_F acc u (e_K e) t (e_nte e) (e_nodes e).
Lemma kf_ok n t u es : forall K F G H, (forall e, In e es -> elem_ok n t u e) -> mat_is n K G -> vec_is n F H ->
  exists K' F', foldM (add_KF u t) es (K, F) = Ok (K', F') /\
    mat_is n K' (fun i j => G i j + sum_over es (fun e => k_contrib t e i j)) /\
    vec_is n F' (fun i => H i + sum_over es (fun e => - d_contrib t u e i)).
Proof.
  induction es as [|e es IH]; intros K F G H He HK HF.
  - exists K, F. splits; auto.
    + revert HK; apply mat_is_ext. intros; rewrite sum_over_nil; lra.
    + revert HF; apply vec_is_ext. intros; rewrite sum_over_nil; lra.
  - cbn [foldM]. destruct (assemble_K_F_ok n t u e (He e (or_introl eq_refl)) K F G H HK HF) as (K1 & F1 & E1 & HK1 & HF1).
    unfold add_KF at 1. rewrite E1. cbn [bind].
    destruct (IH K1 F1 _ _ (fun e' He' => He e' (or_intror He')) HK1 HF1) as (K' & F' & E' & HK' & HF').
    exists K', F'. splits; auto.
    + revert HK'; apply mat_is_ext. intros; rewrite sum_over_cons; lra.
    + revert HF'; apply vec_is_ext. intros; rewrite sum_over_cons; lra.
Qed.
Lemma kf_system n t u1 es f : numbering n t -> (forall i j, in_table t i j -> in_table u1 i j) -> (forall e, In e es -> elem_fits t e) ->
  (forall i j v, In (i, j, v) f -> in_table t i j) ->
  exists K F F' Kc K', foldM (add_KF u1 t) es (lil_new n n, repeat 0 n) = Ok (K, F) /\ assemble_N F f t = Ok F' /\ csr_of_lil K = Ok (Kc, K') /\
    square_csr n Kc /\ length F' = n /\ (forall i j, (i < n)%nat -> entry Kc i j = sum_over es (fun e => k_contrib t e i j)) /\ (forall e, In e es -> elem_ok n t u1 e) /\
    forall x, length x = n -> exists u2, disassemble u1 x t = Ok u2 /\ (forall i j, in_table u2 i j <-> in_table u1 i j) /\ length u2 = length u1 /\
      (forall i j, uval u2 i j = match num t i j with Some k => nth k x 0 | None => uval u1 i j end) /\
      (forall i j k, num t i j = Some k -> internal_force es u2 i j - nodal_load f i j = - residual n Kc F' x k).
Proof.
  intros (B2 & I2 & O2) HU He Hf.
  assert (He' : forall e, In e es -> elem_ok n t u1 e). { intros e Hin. eapply elem_fits_ok; eauto. split; auto. }
  destruct (kf_ok n t u1 es (lil_new n n) (repeat 0 n) _ _ He' (lil_new_is n) (vec_zero_is n)) as (K & F & E3 & HK & HF).
  destruct (assemble_N_ok n t f F _ (fun i j v Hin => conj (Hf i j v Hin) (B2 i j)) HF) as (F' & E4 & HF').
  destruct HK as (HK1 & HK2 & HK3 & HK4 & HK5). destruct HF' as [LF HF'].
  destruct (csr_of_lil_cols K HK1 HK4) as (Kc & K' & E5 & W & C & R1 & C1 & G1).
  assert (EK : forall i j, (i < n)%nat -> entry Kc i j = sum_over es (fun e => k_contrib t e i j)).
  { intros i j Hi. unfold entry, csr_entry. rewrite G1 by lia. rewrite HK5 by auto. apply Rplus_0_l. }
  exists K, F, F', Kc, K'. splits; auto; [unfold square_csr; splits; auto; congruence|]. intros x Hx.
  destruct (disassemble_ok u1 x t HU) as (u2 & E6 & SH & V2). { intros i j k Hk. rewrite Hx. eauto. }
  exists u2. splits; auto; [intros i j; apply (same_shape_in u2 u1); exact SH|apply SH|].
  intros i j gi Eg. pose proof (B2 _ _ _ Eg) as Hgi.
  assert (Hat : forall a, is_eq (dnum t a) gi = at_dof i j a).
  { intros a. unfold at_dof. destruct (dnum t a) as [k|] eqn:Ea; cbn [is_eq].
    - destruct (Nat.eqb_spec k gi).
      + subst k. destruct (I2 _ _ _ _ _ Ea Eg) as [-> ->]. now rewrite !Nat.eqb_refl.
      + destruct (Nat.eqb_spec (dnode a) i); auto. destruct (Nat.eqb_spec (ddof a) j); auto.
        subst. unfold dnum in Ea. congruence.
    - destruct (Nat.eqb_spec (dnode a) i); auto. destruct (Nat.eqb_spec (ddof a) j); auto.
      subst. unfold dnum in Ea. congruence. }
  unfold residual, ix. rewrite HF' by auto. unfold matvec.
  rewrite (bigsum_ext n _ (fun j0 => sum_over es (fun e => k_contrib t e gi j0 * nth j0 x 0))).
  2:{ intros j0 Hj0. rewrite EK by auto. rewrite Rmult_comm, <- sum_over_scal. apply sum_ext. intros; lra. }
  rewrite bigsum_over.
  assert (HN : n_contrib t f gi = nodal_load f i j).
  { apply sum_ext. intros [[a b] v] Hin. cbn [fst snd]. f_equal. specialize (Hat (mkDof a b 0)). exact Hat. }
  assert (HI : internal_force es u2 i j =
    sum_over es (fun e => bigsum n (fun j0 => k_contrib t e gi j0 * nth j0 x 0)) - sum_over es (fun e => - d_contrib t u1 e gi)).
  { rewrite <- sum_over_minus. apply sum_ext. intros e Hin. unfold Rminus. rewrite Ropp_involutive.
    rewrite (equilibrium_row n t u1 e (fun k => nth k x 0) gi (He' e Hin)). apply sum_ext. intros a Ha. rewrite Hat. f_equal.
    apply sum_ext. intros b Hb. f_equal. unfold duval. rewrite V2. reflexivity. }
  rewrite HI, HN. lra.
Qed.

(** ** The elements of a design *)
Definition delem (d : top) (E : R) (el : list nat) : elem :=
  match top_stiffness d E el with Ok (K, ne) => mkElem el ne K (repeat 0 (2 * length el)) | Fail _ => mkElem el [] (mnew R_ops 0 0) [] end.
Definition del (d : top) (i : nat) : list nat := nth i (tp_elements d) [].
Definition unit_el (d : top) (i : nat) : elem := delem d 1 (del d i).
Definition rho_el (d : top) (rho : list R) (i : nat) : elem := delem d (simp d (nth i rho 0)) (del d i).
Definition rho_els (d : top) (rho : list R) : list elem := map (rho_el d rho) (seq 0 (length (tp_elements d))).

Record delem_ok (d : top) (E : R) (el : list nat) (e0 e : elem) : Prop := mkDelem {
  dk_nodes0 : e_nodes e0 = el; dk_nodes : e_nodes e = el; dk_nte : e_nte e0 = e_nte e;
  dk_call0 : top_stiffness d 1 el = Ok (e_K e0, e_nte e); dk_call : top_stiffness d E el = Ok (e_K e, e_nte e);
  dk_num : numbered 2 (length el) [0%nat; 1%nat] (e_nte e);
  dk_dofs : e_dofs e0 = e_dofs e;
  dk_mat0 : exists k, is_mat (e_K e0) (2 * length el) (2 * length el) k;
  dk_mat : exists k, is_mat (e_K e) (2 * length el) (2 * length el) k;
  dk_scale : forall a b, In a (e_dofs e) -> In b (e_dofs e) -> e_k e (dloc a) (dloc b) = E * e_k e0 (dloc a) (dloc b);
  dk_in : forall a, In a (e_dofs e) -> In (dnode a) el /\ (ddof a < 2)%nat;
  dk_made : made_by (fun s q el => PlaneStrainStiffness s q el [0%nat; 1%nat] (tp_x d) E (tp_V d) (tp_t d)) (mkPiece (tp_s d) (tp_q d) el) e;
  dk_fits : forall t, (forall k c, In k el -> (c < 2)%nat -> in_table t k c) -> elem_fits t e }.
Lemma delem_is d E el : top_ok d -> In el (tp_elements d) -> 0 < E -> delem_ok d E el (delem d 1 el) (delem d E el).
Proof.
  intros HT Hel HE. destruct (strain_scales d E el HT Hel HE) as (K1 & K & ne & k1 & k & E1 & E2 & Hn & H1 & H2 & SC).
  unfold delem. rewrite E1, E2. assert (DF : forall a, In a (dofs el ne) -> In (dnode a) el /\ (ddof a < 2)%nat /\ (dloc a < 2 * length el)%nat).
  { intros a Ha. destruct (numbered_dofs 2 [0%nat; 1%nat] a el ne Hn Ha) as (i & j & Hi & Hj & ->). cbn [dnode ddof dloc]. splits; [now apply nth_In|destruct j as [|[|]]; cbn; lia|lia]. }
  split; unfold e_dofs; cbn [e_nodes e_nte e_K e_F]; auto.
  - eauto.
  - eauto.
  - intros a b Ha Hb. unfold e_k. cbn [e_K]. rewrite (mat_entry _ _ _ _ _ _ H1), (mat_entry _ _ _ _ _ _ H2) by (apply DF; auto). apply SC; apply DF; auto.
  - intros a Ha. split; apply DF; auto.
  - unfold made_by. cbn [p_shape p_rule p_nodes e_nodes e_K e_nte]. auto.
  - intros t Ht. unfold elem_fits, e_dofs. cbn [e_nodes e_nte e_K e_F]. split; [rewrite (proj1 Hn); lia|]. split; [apply H2|]. assert (MR : mrow K = (2 * length el)%nat /\ mcol K = (2 * length el)%nat) by (split; apply H2).
    intros a Ha. destruct (DF a Ha) as (A & B & C). rewrite repeat_length. splits; [now apply Ht|lia..].
Qed.

Lemma del_in d i : (i < length (tp_elements d))%nat -> In (del d i) (tp_elements d).
Proof. intros Hi. now apply nth_In. Qed.
Lemma rho_pos d rho i : top_ok d -> design_ok d rho -> (i < length (tp_elements d))%nat -> 0 < nth i rho 0 /\ 0 < simp d (nth i rho 0) /\ rd rho i = Ok (nth i rho 0).
Proof.
  intros HT [L P] Hi. assert (0 < nth i rho 0) by (apply P, nth_In; lia). splits; auto; [now apply simp_pos|]. apply rd_nth. lia.
Qed.
Lemma rho_el_ok d rho i : top_ok d -> design_ok d rho -> (i < length (tp_elements d))%nat -> delem_ok d (simp d (nth i rho 0)) (del d i) (unit_el d i) (rho_el d rho i).
Proof. intros HT HD Hi. apply delem_is; auto; [now apply del_in|apply (rho_pos d rho i HT HD Hi)]. Qed.
Lemma unit_el_ok d i : top_ok d -> (i < length (tp_elements d))%nat -> delem_ok d 1 (del d i) (unit_el d i) (unit_el d i).
Proof. intros HT Hi. apply delem_is; auto; [now apply del_in|lra]. Qed.
Lemma foldM_map {S A B} (f : S -> A -> res S) (g : S -> B -> res S) (h : A -> B) l : (forall s a, In a l -> f s a = g s (h a)) -> forall s, foldM f l s = foldM g (map h l) s.
Proof.
  induction l as [|a l IH]; intros H s; [reflexivity|]. cbn [foldM map]. rewrite H by (now left). destruct (g s (h a)); cbn [bind]; auto. apply IH. intros; apply H. now right.
Qed.
Lemma add_design d rho u t acc : top_ok d -> design_ok d rho ->
  foldM (top_add d rho u t) (seq 0 (length (tp_elements d))) acc = foldM (add_KF u t) (rho_els d rho) acc.
Proof.
  intros HT HD. apply foldM_map. intros s i Hi. apply in_seq in Hi. pose proof (rho_el_ok d rho i HT HD ltac:(lia)) as HK. destruct (rho_pos d rho i HT HD ltac:(lia)) as (P1 & P2 & P3).
  unfold top_add, add_KF. rewrite P3. cbn [bind]. rewrite simp_ok by auto. cbn [bind]. rewrite (rd_nth _ i []) by lia. cbn [bind]. fold (del d i). rewrite (dk_call _ _ _ _ _ HK). cbn [bind]. now rewrite (dk_nodes _ _ _ _ _ HK).
Qed.
