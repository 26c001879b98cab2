(** A time step: its system has exactly one solution; what a step does to the
    capacity norm and to the heat content. *)
From Coq Require Import List Arith Lia Bool Reals Lra.
From Verif Require Import Res SumR DenseModel DenseR DenseSpec ShapeModel QuadModel QuadSpec ElemModel ElemSpec SparseModel SparseSpec AssemblyModel AssemblySpec KrylovSpec PatchSpec StableSpec ThetaModel ThetaSpec.
From Verif Require Import DenseProof SparseMain AssemblyProof AssemblyProof2 AssemblyProof3 AssemblyMain PatchProof3 StableProof3 StableProof4 ThetaProof ThetaProof2 ThetaProof3.
Import ListNotations.
Local Open Scope R_scope.

Lemma pattern_in t t' i j : same_pattern t t' -> (in_table t' i j <-> in_table t i j) /\ (num t i j = None <-> num t' i j = None).
Proof. intros (L & L' & P). split; [|apply P]. unfold in_table. rewrite (L' i). tauto. Qed.

Lemma theta_solve dou xs fC fK load s q elements dt theta t0 t n T esC esK :
  theta_pair dou xs fC fK -> theta_mesh dou xs s q elements t0 -> 0 < dt -> 0 < theta -> renumber t0 = (t, n) ->
  (forall i j, in_table t0 i j -> in_table T i j) ->
  Forall2 (made_by fC) (map (mkPiece s q) elements) esC -> Forall2 (made_by fK) (map (mkPiece s q) elements) esK -> Forall2 (carries load T) elements esC ->
  exists A F, theta_system fC fK load s q elements dt theta t n T = Ok (A, F) /\ square_csr n A /\ length F = n /\ symmetric n (entry A) /\ pos_def n (entry A) /\
    forall x, length x = n -> exists T1, disassemble T x t = Ok T1 /\ (forall i j, in_table T1 i j <-> in_table T i j) /\
      (forall i j, uval T1 i j = match num t i j with Some k => nth k x 0 | None => uval T i j end) /\
      (forall i j k, num t i j = Some k -> 
         internal_force esC T1 i j - internal_force esC T i j - dt * (element_load esC i j - theta * internal_force esK T1 i j - (1 - theta) * internal_force esK T i j) = - (dt * residual n A F x k)) /\
      (csr_mulvec 0 Rplus Rmult A x = Ok F <-> forall i j, num t0 i j <> None -> theta_balance esC esK dt theta T T1 i j).
Proof.
  intros HP [HD HS HB HF] Hdt Hth ER HU HC HK HL.
  destruct (renumber_ok _ _ _ ER) as (SP & _ & _ & NU & _).
  assert (IN : forall i j, in_table t i j <-> in_table t0 i j) by (intros; now apply pattern_in).
  assert (NN : forall i j, num t0 i j = None <-> num t i j = None) by (intros; now apply pattern_in).
  destruct (tris dou xs fC fK load s q elements dt theta T t esC esK HP HD HS Hdt) as (ts & HT & EC & EK); auto.
  { intros el k c H1 H2 H3. apply HU. eauto. } { intros el k c H1 H2 H3. apply IN. eauto. }
  destruct (split_system n t T (map snd ts) NU) as (K & F & A & K' & E1 & E2 & SQ & LF & EA & EO & HX).
  { intros i j H. apply HU, IN, H. }
  { intros e He. apply in_map_iff in He. destruct He as (c & <- & Hc). destruct (Forall2_In_r _ _ _ HT c Hc) as (el & _ & H1). apply (tri_fit _ _ _ _ _ _ _ _ _ _ _ _ H1). }
  assert (FORM : forall c el v, In el elements -> tri dou dt theta T t fC fK load s q el c -> 
    (forall a b, In a (e_dofs (snd c)) -> In b (e_dofs (snd c)) -> e_k (snd c) (dloc a) (dloc b) = e_k (snd c) (dloc b) (dloc a)) /\
    0 <= denergy (snd c) v /\ (denergy (snd c) v = 0 -> forall k c, In k el -> In c dou -> v k c = 0)).
  { intros c el v Hel H1. destruct (theta_energy dou xs fC fK s q el (fst (fst c)) (snd (fst c)) v HP HD (HS el Hel) (tri_C _ _ _ _ _ _ _ _ _ _ _ _ H1) (tri_K _ _ _ _ _ _ _ _ _ _ _ _ H1)) as (SC & SK & PC & PK & PZ & _).
    rewrite (tri_dC _ _ _ _ _ _ _ _ _ _ _ _ H1) in SC. rewrite (tri_dK _ _ _ _ _ _ _ _ _ _ _ _ H1) in SK.
    assert (DE : denergy (snd c) v = denergy (fst (fst c)) v / dt + theta * denergy (snd (fst c)) v).
    { unfold denergy. rewrite (tri_dC _ _ _ _ _ _ _ _ _ _ _ _ H1), (tri_dK _ _ _ _ _ _ _ _ _ _ _ _ H1). set (D := e_dofs (snd c)) in *. unfold Rdiv. rewrite (Rmult_comm _ (/ dt)), <- !sum_over_scal, <- sum_over_plus. apply sum_ext. intros a Ha.
      rewrite <- !sum_over_scal, <- sum_over_plus. apply sum_ext. intros b Hb. rewrite (tri_k _ _ _ _ _ _ _ _ _ _ _ _ H1 a b Ha Hb). field. lra. }
    assert (0 < / dt) by now apply Rinv_0_lt_compat. unfold Rdiv in DE. splits.
    - intros a b Ha Hb. rewrite !(tri_k _ _ _ _ _ _ _ _ _ _ _ _ H1) by auto. now rewrite (SC a b), (SK a b).
    - rewrite DE. nra.
    - intros Z. rewrite DE in Z. apply PZ; nra. }
  exists A, F. split; [|split; [exact SQ|split; [exact LF|split; [|split]]]].
  - unfold theta_system. rewrite (fold_tri _ _ _ _ _ _ _ _ _ _ _ _ _ HT), E1. cbn [bind]. rewrite E2. reflexivity.
  - intros i j Hi Hj. rewrite !EA by auto. apply sum_ext. intros e He. apply in_map_iff in He. destruct He as (c & <- & Hc). destruct (Forall2_In_r _ _ _ HT c Hc) as (el & Hel & H1).
    apply k_contrib_sym. apply (FORM c el (fun _ _ => 0) Hel H1).
  - destruct NU as (B2 & I2 & O2). intros x Hx. set (v := fun k c => match num t k c with Some j => x j | None => 0 end).
    assert (EE : dot n x (matvec n (entry A) x) = sum_over (map snd ts) (fun e => denergy e v)).
    { unfold dot, matvec. rewrite (sum_ext (map snd ts) _ (fun e => bigsum n (fun i => bigsum n (fun j => x i * k_contrib t e i j * x j)))).
      2:{ intros e Hin. rewrite (energy n t T) by auto. reflexivity. }
      rewrite <- bigsum_over. apply bigsum_ext. intros i Hi. rewrite <- bigsum_over, <- bigsum_scal. apply bigsum_ext. intros j Hj.
      rewrite EA by auto. rewrite (Rmult_comm (sum_over _ _)), <- Rmult_assoc, <- sum_over_scal. apply sum_ext. intros; ring. }
    assert (PN : forall e, In e (map snd ts) -> 0 <= denergy e v).
    { intros e He. apply in_map_iff in He. destruct He as (c & <- & Hc). destruct (Forall2_In_r _ _ _ HT c Hc) as (el & Hel & H1). apply (FORM c el v Hel H1). }
    rewrite EE. destruct (Rle_lt_or_eq_dec _ _ (sum_over_nonneg _ _ PN)) as [Hlt|H0]; [exact Hlt|]. exfalso. symmetry in H0.
    destruct Hx as (k & Hk & Hne). destruct (O2 k Hk) as (i & j & Eij). destruct (HF i j) as (Hj & el & Hel & Hi). { intros X. apply NN in X. congruence. }
    destruct (Forall2_In_l _ _ _ HT el Hel) as (c & Hc & H1). destruct (FORM c el v Hel H1) as (_ & _ & Z).
    specialize (Z (sum_zero_each _ _ PN H0 (snd c) (in_map snd _ _ Hc)) i j Hi Hj). unfold v in Z. rewrite Eij in Z. auto.
  - intros x Lx. destruct (HX x Lx) as (T1 & ED & SH & VU & HR). exists T1. split; [exact ED|]. split; [exact SH|]. split; [exact VU|].
    assert (ROW : forall i j k, num t i j = Some k -> 
         internal_force esC T1 i j - internal_force esC T i j - dt * (element_load esC i j - theta * internal_force esK T1 i j - (1 - theta) * internal_force esK T i j) = - (dt * residual n A F x k)).
    { intros i j k E. rewrite EC, EK. rewrite <- (tri_row dou dt theta T t fC fK load s q elements ts T1 i j Hdt HT). rewrite (HR i j k E). ring. }
    split; [exact ROW|]. rewrite (mulvec_rows n A x F SQ Lx LF). destruct NU as (B2 & I2 & O2). split.
    + intros E i j H. destruct (num t i j) as [k|] eqn:Ek; [|apply NN in Ek; contradiction]. specialize (ROW i j k Ek). unfold residual, theta_balance in *. rewrite (E k (B2 _ _ _ Ek)) in ROW. nra.
    + intros E k Hk. destruct (O2 k Hk) as (i & j & Eij). specialize (ROW i j k Eij). assert (H : num t0 i j <> None) by (intros X; apply NN in X; congruence). specialize (E i j H). unfold theta_balance in E.
      assert (dt * residual n A F x k = 0) by lra. unfold residual in *. apply Rmult_integral in H0. destruct H0; lra.
Qed.

(** ** Virtual work *)
Lemma virtual {E} (L : list E) (D : E -> list ldof) (g : E -> ldof -> R) (w : nat -> nat -> R) n t : numbering n t ->
  (forall e a, In e L -> In a (D e) -> num t (dnode a) (ddof a) = None -> w (dnode a) (ddof a) = 0) ->
  (forall i j, num t i j <> None -> sum_over L (fun e => sum_over (D e) (fun a => ind (at_dof i j a) (g e a))) = 0) ->
  sum_over L (fun e => sum_over (D e) (fun a => w (dnode a) (ddof a) * g e a)) = 0.
Proof.
  intros (B2 & I2 & O2) HW HG.
  rewrite (sum_ext L _ (fun e => bigsum n (fun k => sum_over (D e) (fun a => ind (is_eq (dnum t a) k) (w (dnode a) (ddof a) * g e a))))).
  - rewrite <- bigsum_over. apply bigsum_zero. intros k Hk. destruct (O2 k Hk) as (i & j & Eij).
    assert (Hat : forall a, is_eq (dnum t a) k = at_dof i j a).
    { intros a. unfold at_dof. destruct (dnum t a) as [k'|] eqn:Ea; cbn [is_eq].
      - destruct (Nat.eqb_spec k' k).
        + subst k'. destruct (I2 _ _ _ _ _ Ea Eij) as [-> ->]. now rewrite !Nat.eqb_refl.
        + destruct (Nat.eqb_spec (dnode a) i); auto. destruct (Nat.eqb_spec (ddof a) j); auto. subst. unfold dnum in Ea. congruence.
      - destruct (Nat.eqb_spec (dnode a) i); auto. destruct (Nat.eqb_spec (ddof a) j); auto. subst. unfold dnum in Ea. congruence. }
    specialize (HG i j ltac:(congruence)).
    rewrite (sum_ext L _ (fun e => w i j * sum_over (D e) (fun a => ind (at_dof i j a) (g e a)))); [rewrite sum_over_scal, HG; ring|].
    intros e He. rewrite <- sum_over_scal. apply sum_ext. intros a Ha. rewrite Hat. unfold at_dof. destruct (Nat.eqb_spec (dnode a) i) as [->|]; cbn [andb ind]; [|ring]. destruct (Nat.eqb_spec (ddof a) j) as [->|]; cbn [ind]; ring.
  - intros e He. rewrite bigsum_over. apply sum_ext. intros a Ha. destruct (dnum t a) as [k|] eqn:Ek.
    + rewrite (bigsum_single n k); [cbn [is_eq]; now rewrite Nat.eqb_refl|eapply B2; exact Ek|]. intros k' Hk' Hne. cbn [is_eq]. destruct (Nat.eqb_spec k k'); [congruence|reflexivity].
    + rewrite (HW e a He Ha Ek). rewrite bigsum_zero; [ring|]. intros; reflexivity.
Qed.
