(** Elements, edges and the assembled system of the plane strain sample. *)
From Coq Require Import List Arith Lia Bool Reals Lra.
From Verif Require Import Res SumR DenseModel DenseR DenseSpec ShapeModel QuadModel QuadSpec ElemModel ElemSpec LoadSpec SparseModel SparseSpec AssemblyModel AssemblySpec KrylovSpec PatchSpec StableSpec TopModel TopSpec PlaneModel PlaneSpec.
From Verif Require Import DenseProof DenseMain SparseMain AssemblyProof AssemblyProof2 AssemblyProof3 AssemblyMain ElemProof ElemProof2 ElemProof3 ElemMain LoadMain HomMain KrylovProof PatchProof PatchProof2 StableProof StableProof2 StableProof3 StableProof4 ThetaProof ThetaProof3 ThetaProof4 ThetaProof5 TopProof2 TopProof3 TopProof4.
Import ListNotations.
Local Open Scope R_scope.

(** ** Systems with element loads *)
Definition add_KFe (u : list (list R)) (t : table) (acc : lil R * list R) (e : elem) : res (lil R * list R) :=
  ' (K, F) <- assemble_K_F acc u (e_K e) t (e_nte e) (e_nodes e) ;;
  F <- assemble_F F (e_F e) t (e_nte e) (e_nodes e) ;; Ok (K, F).
Lemma kfe_ok n t u es : forall K F G H, (forall e, In e es -> elem_ok n t u e) -> mat_is n K G -> vec_is n F H ->
  exists K' F', foldM (add_KFe u t) es (K, F) = Ok (K', F') /\
    mat_is n K' (fun i j => G i j + sum_over es (fun e => k_contrib t e i j)) /\
    vec_is n F' (fun i => H i + sum_over es (fun e => f_contrib t e i - d_contrib t u e i)).
Proof.
  induction es as [|e es IH]; intros K F G H He HK HF.
  - exists K, F. split; [reflexivity|]. split.
    + destruct HK as (A & B & C & D & E'). unfold mat_is. splits; auto. intros i j Hi. rewrite sum_over_nil, Rplus_0_r. auto.
    + revert HF; apply vec_is_ext. intros; rewrite sum_over_nil; lra.
  - cbn [foldM]. unfold add_KFe at 1. destruct (assemble_K_F_ok n t u e (He e (or_introl eq_refl)) K F G H HK HF) as (K1 & F1 & E1 & HK1 & HF1). rewrite E1. cbn [bind].
    destruct (assemble_F_ok n t u e (He e (or_introl eq_refl)) F1 _ HF1) as (F2 & E2 & HF2). rewrite E2. cbn [bind].
    destruct (IH K1 F2 _ _ (fun e' H' => He e' (or_intror H')) HK1 HF2) as (K' & F' & E' & HK' & HF'). exists K', F'. split; auto. split.
    + destruct HK' as (A & B & C & D & E''). unfold mat_is. splits; auto. intros i j Hi. rewrite E'' by auto. f_equal. rewrite sum_over_cons. lra.
    + revert HF'; apply vec_is_ext. intros; rewrite sum_over_cons; lra.
Qed.
Lemma kfe_system n t u1 es eds f : numbering n t -> (forall i j, in_table t i j -> in_table u1 i j) -> (forall e, In e es -> elem_fits t e) -> (forall e, In e eds -> elem_fits t e) ->
  (forall i j v, In (i, j, v) f -> in_table t i j) ->
  exists K F F' F'' Kc K', foldM (add_KFe u1 t) es (lil_new n n, repeat 0 n) = Ok (K, F) /\ assemble_N F f t = Ok F' /\
    foldM (fun F e => assemble_F F (e_F e) t (e_nte e) (e_nodes e)) eds F' = Ok F'' /\ csr_of_lil K = Ok (Kc, K') /\
    square_csr n Kc /\ length F'' = n /\ (forall i j, (i < n)%nat -> entry Kc i j = sum_over es (fun e => k_contrib t e i j)) /\ (forall e, In e es -> elem_ok n t u1 e) /\
    forall x, length x = n -> exists u2, disassemble u1 x t = Ok u2 /\ (forall i j, in_table u2 i j <-> in_table u1 i j) /\ length u2 = length u1 /\
      (forall i j, uval u2 i j = match num t i j with Some k => nth k x 0 | None => uval u1 i j end) /\
      (forall i j k, num t i j = Some k -> internal_force es u2 i j - (element_load es i j + nodal_load f i j + element_load eds i j) = - residual n Kc F'' x k).
Proof.
  intros (B2 & I2 & O2) HU He Hd Hf.
  assert (He' : forall e, In e es -> elem_ok n t u1 e). { intros e Hin. eapply elem_fits_ok; eauto. split; auto. }
  assert (Hd' : forall e, In e eds -> elem_ok n t u1 e). { intros e Hin. eapply elem_fits_ok; eauto. split; auto. }
  destruct (kfe_ok n t u1 es (lil_new n n) (repeat 0 n) _ _ He' (lil_new_is n) (vec_zero_is n)) as (K & F & E3 & HK & HF).
  destruct (assemble_N_ok n t f F _ (fun i j v Hin => conj (Hf i j v Hin) (B2 i j)) HF) as (F' & E4 & HF').
  destruct (loads_ok n t u1 eds F' _ Hd' HF') as (F'' & E4' & HF'').
  destruct HK as (HK1 & HK2 & HK3 & HK4 & HK5). destruct HF'' as [LF HF''].
  destruct (csr_of_lil_cols K HK1 HK4) as (Kc & K' & E5 & W & C & R1 & C1 & G1).
  assert (EK : forall i j, (i < n)%nat -> entry Kc i j = sum_over es (fun e => k_contrib t e i j)).
  { intros i j Hi. unfold entry, csr_entry. rewrite G1 by lia. rewrite HK5 by auto. apply Rplus_0_l. }
  exists K, F, F', F'', Kc, K'. splits; auto; [unfold square_csr; splits; auto; congruence|]. intros x Hx.
  destruct (disassemble_ok u1 x t HU) as (u2 & E6 & SH & V2). { intros i j k Hk. rewrite Hx. eauto. }
  exists u2. splits; auto; [intros i j; apply (same_shape_in u2 u1); exact SH|apply SH|].
  intros i j gi Eg. pose proof (B2 _ _ _ Eg) as Hgi.
  assert (Hat : forall a, is_eq (dnum t a) gi = at_dof i j a).
  { intros a. unfold at_dof. destruct (dnum t a) as [k|] eqn:Ea; cbn [is_eq].
    - destruct (Nat.eqb_spec k gi).
      + subst k. destruct (I2 _ _ _ _ _ Ea Eg) as [-> ->]. now rewrite !Nat.eqb_refl.
      + destruct (Nat.eqb_spec (dnode a) i); auto. destruct (Nat.eqb_spec (ddof a) j); auto.
        subst. unfold dnum in Ea. congruence.
    - destruct (Nat.eqb_spec (dnode a) i); auto. destruct (Nat.eqb_spec (ddof a) j); auto.
      subst. unfold dnum in Ea. congruence. }
  unfold residual, ix. rewrite HF'' by auto. unfold matvec.
  rewrite (bigsum_ext n _ (fun j0 => sum_over es (fun e => k_contrib t e gi j0 * nth j0 x 0))).
  2:{ intros j0 Hj0. rewrite EK by auto. rewrite Rmult_comm, <- sum_over_scal. apply sum_ext. intros; lra. }
  rewrite bigsum_over.
  assert (HN : n_contrib t f gi = nodal_load f i j).
  { apply sum_ext. intros [[a b] v] Hin. cbn [fst snd]. f_equal. specialize (Hat (mkDof a b 0)). exact Hat. }
  assert (HL : forall l, sum_over l (fun e => f_contrib t e gi) = element_load l i j).
  { intros l. unfold element_load. apply sum_ext. intros e _. unfold f_contrib. apply sum_ext. intros a _. now rewrite Hat. }
  assert (HI : internal_force es u2 i j =
    sum_over es (fun e => bigsum n (fun j0 => k_contrib t e gi j0 * nth j0 x 0)) - sum_over es (fun e => - d_contrib t u1 e gi)).
  { rewrite <- sum_over_minus. apply sum_ext. intros e Hin. unfold Rminus. rewrite Ropp_involutive.
    rewrite (equilibrium_row n t u1 e (fun k => nth k x 0) gi (He' e Hin)). apply sum_ext. intros a Ha. rewrite Hat. f_equal.
    apply sum_ext. intros b Hb. f_equal. unfold duval. rewrite V2. reflexivity. }
  assert (HS : sum_over es (fun e => f_contrib t e gi - d_contrib t u1 e gi) = element_load es i j + sum_over es (fun e => - d_contrib t u1 e gi)).
  { rewrite <- HL, <- sum_over_plus. apply sum_ext. intros; ring. }
  rewrite HI, HN, HS, HL. lra.
Qed.
