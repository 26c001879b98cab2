(** The patch test: the assembled system. *)
From Coq Require Import List Arith Lia Bool Reals Lra Permutation.
From Verif Require Import Res SumR SparseModel SparseSpec SparseMain DenseModel DenseSpec ShapeModel QuadModel QuadSpec ElemModel ElemSpec AssemblyModel AssemblySpec PatchSpec.
From Verif Require Import DenseProof AssemblyProof AssemblyProof2 AssemblyProof3 AssemblyMain PatchProof PatchProof2.
Import ListNotations.
Local Open Scope R_scope.

(** the equations say that the field is in equilibrium *)
Lemma system_iff : forall (u0 : list (list R)) (t0 : table) (fx f : list (nat * nat * R)) (es : list elem),
  (forall i j, in_table t0 i j -> in_table u0 i j) ->
  (forall i j v, In (i, j, v) fx -> in_table t0 i j) ->
  (forall i j v, In (i, j, v) f -> in_table t0 i j) ->
  (forall e, In e es -> elem_fits t0 e) ->
  exists u1 t1 t2 n K F F' Kc K',
    set_dirichlet (u0, t0) fx = Ok (u1, t1) /\ renumber t1 = (t2, n) /\
    asm_all u1 t2 es (lil_new n n, repeat 0 n) = Ok (K, F) /\
    assemble_N F f t2 = Ok F' /\ csr_of_lil K = Ok (Kc, K') /\ numbering n t2 /\
    (forall i j, num t2 i j = None <-> (last_value fx i j <> None \/ num t0 i j = None)) /\
    csr_wf Kc /\ csr_cols_ok Kc /\ crows Kc = n /\ ccols Kc = n /\ length F' = n /\
    (forall i j, (i < n)%nat -> csr_entry 0 Kc i j = sum_over es (fun e => k_contrib t2 e i j)) /\ (forall e, In e es -> elem_ok n t2 u1 e) /\
    forall x, length x = n -> exists u2, disassemble u1 x t2 = Ok u2 /\
      (forall i j, uval u2 i j = match last_value fx i j with Some v => v | None => match num t2 i j with Some k => nth k x 0 | None => uval u0 i j end end) /\
      (exists y, csr_mulvec 0 Rplus Rmult Kc x = Ok y /\ forall gi i j, num t2 i j = Some gi ->
         nth gi y 0 - nth gi F' 0 = internal_force es u2 i j - element_load es i j - nodal_load f i j) /\
      (csr_mulvec 0 Rplus Rmult Kc x = Ok F' <->
       forall i j, last_value fx i j = None -> num t0 i j <> None -> internal_force es u2 i j = element_load es i j + nodal_load f i j).
Proof.
  intros u0 t0 fx f es HU HFx Hf He.
  destruct (set_dirichlet_ok fx u0 t0) as (u1 & t1 & E1 & Su & St & Vu & Vt). { intros i j v Hin. split; eauto. }
  destruct (renumber t1) as [t2 n] eqn:E2.
  destruct (renumber_ok _ _ _ E2) as ((L2 & L2' & P2) & _ & _ & (B2 & I2 & O2) & _).
  assert (S2 : same_shape t2 t0). { eapply same_shape_trans; [|exact St]. apply same_shape_sym. split; auto. }
  assert (HU1 : forall i j, in_table t0 i j -> in_table u1 i j). { intros i j H. apply (same_shape_in u1 u0); auto. }
  assert (He' : forall e, In e es -> elem_ok n t2 u1 e). { intros e Hin. eapply elem_fits_ok; eauto. }
  destruct (asm_all_ok n t2 u1 es (lil_new n n) (repeat 0 n) _ _ He' (lil_new_is n) (vec_zero_is n)) as (K & F & E3 & HK & HF).
  destruct (assemble_N_ok n t2 f F _ (fun i j v Hin => conj (proj2 (same_shape_in t2 t0 i j S2) (Hf i j v Hin)) (B2 i j)) HF) as (F' & E4 & HF').
  destruct HK as (HK1 & HK2 & HK3 & HK4 & HK5).
  destruct (csr_of_lil_cols K HK1 HK4) as (Kc & K' & E5 & W & C & R1 & C1 & G1).
  assert (EN : forall i j, num t2 i j = None <-> (last_value fx i j <> None \/ num t0 i j = None)).
  { intros i j. rewrite <- P2, Vt. destruct (last_value fx i j); split; intros H; auto; [left; discriminate|destruct H; auto; congruence]. }
  assert (EK : forall i j, (i < n)%nat -> csr_entry 0 Kc i j = sum_over es (fun e => k_contrib t2 e i j)).
  { intros i j Hi. unfold csr_entry. rewrite G1 by lia. rewrite HK5 by auto. apply Rplus_0_l. }
  destruct HF' as [LF HF'].
  exists u1, t1, t2, n, K, F, F', Kc, K'. splits; auto; [split; auto|congruence|congruence|]. intros x Hx.
  destruct (disassemble_ok u1 x t2) as (u2 & E6 & _ & V2).
  { intros i j H. apply HU1. apply (same_shape_in t2 t0); auto. } { intros i j k Hk. rewrite Hx. eauto. }
  exists u2. split; [exact E6|]. split.
  { intros i j. rewrite V2. unfold dis_val. destruct (num t2 i j) as [k|] eqn:Ek.
    - destruct (last_value fx i j) as [v|] eqn:Ev; auto. assert (num t2 i j = None) by (apply EN; left; congruence). congruence.
    - rewrite Vu. reflexivity. }
  destruct (C06_spmv_csr_pf Kc x W C) as (y & Ey & Ly & Hy); [congruence|].
  assert (ROW : forall gi i j, (gi < n)%nat -> num t2 i j = Some gi ->
     nth gi y 0 - nth gi F' 0 = internal_force es u2 i j - element_load es i j - nodal_load f i j).
  { intros gi i j Hgi Eg.
    assert (Hat : forall a, is_eq (dnum t2 a) gi = at_dof i j a).
    { intros a. unfold at_dof. destruct (dnum t2 a) as [k|] eqn:Ea; cbn [is_eq].
      - destruct (Nat.eqb_spec k gi).
        + subst k. destruct (I2 _ _ _ _ _ Ea Eg) as [-> ->]. now rewrite !Nat.eqb_refl.
        + destruct (Nat.eqb_spec (dnode a) i); auto. destruct (Nat.eqb_spec (ddof a) j); auto.
          subst. unfold dnum in Ea. congruence.
      - destruct (Nat.eqb_spec (dnode a) i); auto. destruct (Nat.eqb_spec (ddof a) j); auto.
        subst. unfold dnum in Ea. congruence. }
    rewrite (Hy gi) by lia. rewrite HF' by auto. unfold matvec. rewrite C1, HK3.
    rewrite (bigsum_ext n _ (fun j0 => sum_over es (fun e => k_contrib t2 e gi j0 * nth j0 x 0))).
    2:{ intros j0 Hj0. rewrite EK by auto. rewrite Rmult_comm, <- sum_over_scal. apply sum_ext. intros; lra. }
    rewrite bigsum_over. rewrite sum_over_minus.
    assert (HN : n_contrib t2 f gi = nodal_load f i j).
    { apply sum_ext. intros [[a b] v] Hin. cbn [fst snd]. f_equal. specialize (Hat (mkDof a b 0)). exact Hat. }
    assert (HFe : sum_over es (fun e => f_contrib t2 e gi) = element_load es i j).
    { apply sum_ext. intros e Hin. apply sum_ext. intros a Ha. now rewrite Hat. }
    assert (HI : internal_force es u2 i j =
      sum_over es (fun e => bigsum n (fun j0 => k_contrib t2 e gi j0 * nth j0 x 0)) + sum_over es (fun e => d_contrib t2 u1 e gi)).
    { rewrite <- sum_over_plus. apply sum_ext. intros e Hin.
      rewrite (equilibrium_row n t2 u1 e (fun k => nth k x 0) gi (He' e Hin)). apply sum_ext. intros a Ha. rewrite Hat. f_equal.
      apply sum_ext. intros b Hb. f_equal. unfold duval. rewrite V2. reflexivity. }
    rewrite HI, HN, HFe. lra. }
  split; [exists y; split; [exact Ey|]; intros gi i j Eg; apply ROW; eauto|]. split.
  - intros Hsol i j Hn H0. rewrite Hsol in Ey. injection Ey as <-.
    destruct (num t2 i j) as [gi|] eqn:Eg. 2:{ apply EN in Eg. destruct Eg; congruence. }
    pose proof (ROW gi i j (B2 _ _ _ Eg) Eg). lra.
  - intros EQ. rewrite Ey. f_equal. apply (nth_ext _ _ 0 0); [congruence|]. intros gi Hgi. rewrite Ly, R1, HK2 in Hgi.
    destruct (O2 gi Hgi) as (i & j & Eg). pose proof (ROW gi i j Hgi Eg).
    assert (num t2 i j <> None) by congruence.
    rewrite EQ in H; [lra| |].
    + destruct (last_value fx i j) eqn:Ev; auto. exfalso. apply H0. apply EN. left. congruence.
    + intros Hc. apply H0. apply EN. now right.
Qed.
Lemma finite_choice (P : nat -> R -> Prop) n : (forall k, (k < n)%nat -> exists v, P k v) -> exists x, length x = n /\ forall k, (k < n)%nat -> P k (nth k x 0).
Proof.
  induction n as [|n IH]; intros H; [exists []; split; auto; lia|].
  destruct IH as (x & Lx & Hx); [intros; apply H; lia|]. destruct (H n ltac:(lia)) as (v & Hv).
  exists (x ++ [v]). split; [rewrite app_length; cbn; lia|]. intros k Hk. destruct (Nat.eq_dec k n) as [->|].
  - rewrite app_nth2, Lx, Nat.sub_diag by lia. exact Hv.
  - rewrite app_nth1 by lia. apply Hx. lia.
Qed.
(** every equilibrium with the prescribed values is a solution *)
Lemma field_solution u0 t0 fx f es (v : nat -> nat -> R) :
  (forall i j, in_table t0 i j -> in_table u0 i j) ->
  (forall i j w, In (i, j, w) fx -> in_table t0 i j) ->
  (forall i j w, In (i, j, w) f -> in_table t0 i j) ->
  (forall e, In e es -> elem_fits t0 e) ->
  (forall i j w, last_value fx i j = Some w -> v i j = w) -> (forall i j, last_value fx i j = None -> num t0 i j = None -> v i j = uval u0 i j) ->
  (forall i j u, (forall i j, uval u i j = v i j) -> last_value fx i j = None -> num t0 i j <> None -> internal_force es u i j = element_load es i j + nodal_load f i j) ->
  exists u1 t1 t2 n K F F' Kc K',
    set_dirichlet (u0, t0) fx = Ok (u1, t1) /\ renumber t1 = (t2, n) /\
    asm_all u1 t2 es (lil_new n n, repeat 0 n) = Ok (K, F) /\
    assemble_N F f t2 = Ok F' /\ csr_of_lil K = Ok (Kc, K') /\
    exists x u2, length x = n /\ csr_mulvec 0 Rplus Rmult Kc x = Ok F' /\ disassemble u1 x t2 = Ok u2 /\ forall i j, uval u2 i j = v i j.
Proof.
  intros HU HFx Hf He V1 V2 EQ.
  destruct (system_iff u0 t0 fx f es HU HFx Hf He) as (u1 & t1 & t2 & n & K & F & F' & Kc & K' & E1 & E2 & E3 & E4 & E5 & (B2 & I2 & O2) & EN & _ & _ & _ & _ & _ & _ & _ & H).
  exists u1, t1, t2, n, K, F, F', Kc, K'. splits; auto.
  destruct (finite_choice (fun k w => forall i j, num t2 i j = Some k -> w = v i j) n) as (x & Lx & Hx).
  { intros k Hk. destruct (O2 k Hk) as (i & j & Eij). exists (v i j). intros i' j' E'. destruct (I2 _ _ _ _ _ Eij E') as [-> ->]. reflexivity. }
  destruct (H x Lx) as (u2 & ED & VU & _ & IFF). exists x, u2.
  assert (EV : forall i j, uval u2 i j = v i j).
  { intros i j. rewrite VU. destruct (last_value fx i j) as [w|] eqn:Ew; [symmetry; auto|]. destruct (num t2 i j) as [k|] eqn:Ek.
    - apply Hx; eauto.
    - symmetry. apply V2; auto. apply EN in Ek. destruct Ek; congruence. }
  splits; auto. apply IFF. intros i j Hl Hn. now apply EQ.
Qed.
