(** Properties C09-C16: numbering, boundary conditions, assembly: the proofs. *)
From Coq Require Import List Arith Lia Bool Reals Lra Permutation.
From Verif Require Import Res SumR SparseModel SparseSpec SparseProof SparseProof2 SparseMain DenseModel DenseSpec DenseProof DenseR DenseMain AssemblyModel AssemblySpec AssemblyProof AssemblyProof2 AssemblyProof3.
Import ListNotations.
Local Open Scope R_scope.
Lemma csr_of_lil_cols (a : lil R) : lil_wf a -> lil_cols_ok a ->
  exists m a', csr_of_lil a = Ok (m, a') /\ csr_wf m /\ csr_cols_ok m /\ crows m = lrows a /\ ccols m = lcols a /\
    (forall i j, (i < lrows a)%nat -> csr_get 0 m i j = lil_get 0 a i j).
Proof.
  intros W C. destruct (C03_lil_to_csr_pf R 0 a W) as (m & a' & E & Wm & R1 & R2 & _ & G & _).
  destruct (csr_of_lil_repr a W) as (m' & E' & _ & C' & Hr). rewrite E in E'. injection E' as <- _.
  exists m, a'. splits; auto. eapply repr_cols; eauto. intros row k Hr1 Hk. apply in_map_iff in Hr1.
  destruct Hr1 as (row0 & <- & Hin). rewrite C'. apply (C row0 k Hin).
  eapply Permutation_in; [apply Permutation_map, sort_row_perm|auto].
Qed.

Lemma elem_fits_ok n t t' u e : elem_fits t e -> same_shape t' t ->
  (forall i j, in_table t i j -> in_table u i j) -> (forall i j k, num t' i j = Some k -> (k < n)%nat) -> elem_ok n t' u e.
Proof.
  intros (A & B & C) HS HU HN. unfold elem_ok. splits; auto. intros a Ha. destruct (C a Ha) as (C1 & C2 & C3 & C4).
  splits; auto.
  - apply (same_shape_in t' t); auto.
  - intros k. apply HN.
Qed.


Lemma C09_renumbering_pf : forall (t t' : table) (n : nat), renumber t = (t', n) ->
  same_pattern t t' /\ numbers t' = seq 0 n /\ n = length (numbers t) /\ numbering n t' /\ renumber t' = (t', n).
Proof. apply renumber_ok. Qed.

Lemma C10_dirichlet_pf : forall (u : list (list R)) (t : table) (fx : list (nat * nat * R)),
  (forall i j, in_table t i j -> in_table u i j) ->
  (forall i j v, In (i, j, v) fx -> in_table t i j) ->
  exists u1 t1, set_dirichlet (u, t) fx = Ok (u1, t1) /\ set_dirichlet_table t fx = Ok t1 /\
    (forall i j, uval u1 i j = match last_value fx i j with Some v => v | None => uval u i j end) /\
    (forall i j, num t1 i j = match last_value fx i j with Some _ => None | None => num t i j end) /\
    (forall i j, in_table t1 i j <-> in_table t i j) /\ (forall i j, in_table u1 i j <-> in_table u i j) /\
    let (t2, n) := renumber t1 in
    forall x, length x = n -> exists u2, disassemble u1 x t2 = Ok u2 /\
      forall i j v, last_value fx i j = Some v -> uval u2 i j = v.
Proof.
  intros u t fx HU HF.
  destruct (set_dirichlet_ok fx u t) as (u1 & t1 & E & Su & St & Vu & Vt).
  { intros i j v Hin. pose proof (HF i j v Hin). auto. }
  destruct (set_dirichlet_table_ok fx t HF) as (t1' & E' & St' & Vt').
  assert (t1' = t1) as ->.
  { apply (nth_ext _ _ [] []); [destruct St', St; congruence|]. intros i Hi.
    apply (nth_ext _ _ None None); [destruct St' as [_ ->], St as [_ ->]; auto|].
    intros j Hj. change (num t1' i j = num t1 i j). rewrite Vt, Vt'. auto. }
  exists u1, t1. splits; auto.
  { intros i j. apply same_shape_in; auto. } { intros i j. apply same_shape_in; auto. }
  destruct (renumber t1) as [t2 n] eqn:E2. destruct (renumber_ok _ _ _ E2) as ((L2 & L2' & P2) & _ & _ & (B2 & _) & _).
  intros x Hx. destruct (disassemble_ok u1 x t2) as (u2 & E3 & _ & V2).
  - intros i j H. apply (same_shape_in u1 u); auto. apply HU. apply (same_shape_in t1 t); auto. unfold in_table in *. now rewrite L2'.
  - intros i j k Hk. rewrite Hx. eauto.
  - exists u2. split; auto. intros i j v Hv. rewrite V2. unfold dis_val.
    assert (num t2 i j = None) as ->. { apply P2. rewrite Vt, Hv. auto. }
    now rewrite Vu, Hv.
Qed.

Lemma C11_periodic_pf : forall (t : table) (pairs : list (nat * nat)),
  (forall m s, In (m, s) pairs -> (s < length t /\ length (nth s t []) <= length (nth m t []))%nat) ->
  exists t' n, set_periodic t pairs = Ok (t', n) /\
    (forall i, length (nth i t' []) = length (nth i t [])) /\
    (forall i j, ~ In i (map snd pairs) -> (num t' i j = None <-> num t i j = None)) /\
    (forall i j k, num t' i j = Some k -> (k < n)%nat) /\
    (forall i j i' j' k, ~ In i (map snd pairs) -> ~ In i' (map snd pairs) ->
       num t' i j = Some k -> num t' i' j' = Some k -> i = i' /\ j = j') /\
    (forall k, (k < n)%nat -> exists i j, ~ In i (map snd pairs) /\ num t' i j = Some k) /\
    (forall l1 m s l2, pairs = l1 ++ (m, s) :: l2 -> ~ In s (map snd l2) -> ~ In m (map snd l2) ->
       forall j, (j < length (nth s t []))%nat -> num t' s j = num t' m j) /\
    (NoDup (map snd pairs) -> (forall m, In m (map fst pairs) -> ~ In m (map snd pairs)) ->
       forall m s j, In (m, s) pairs -> (j < length (nth s t []))%nat -> num t' s j = num t' m j).
Proof.
  intros t pairs H. destruct (set_periodic_ok t pairs H) as (t' & n & E & (_ & SL) & P1 & P2 & P3 & P4 & P5).
  exists t', n. splits; auto.
  intros HN HM m s j Hin Hj. destruct (in_split _ _ Hin) as (l1 & l2 & El). subst pairs. eapply P5; eauto.
  - rewrite map_app in HN. cbn [map snd] in HN. apply NoDup_remove_2 in HN. intros Hs. apply HN, in_or_app; auto.
  - intros Hm. apply (HM m); rewrite map_app; apply in_or_app; right; cbn; auto.
Qed.

Lemma C11_chain_refuted_pf : exists (t : table) (pairs : list (nat * nat)) t' n m s j,
  set_periodic t pairs = Ok (t', n) /\ In (m, s) pairs /\ NoDup (map snd pairs) /\
  num t s j <> None /\ num t' s j = None /\ num t' m j <> None.
Proof.
  exists [[Some 0]; [Some 0]; [Some 0]]%nat, [(1, 2); (0, 1)]%nat, [[Some 0]; [Some 0]; [None]]%nat, 1%nat, 1%nat, 2%nat, 0%nat.
  splits; try (cbn; congruence); try reflexivity; [left; auto|].
  repeat constructor; cbn; intuition congruence.
Qed.

Lemma C12_assembly_sums_pf : forall (n : nat) (t : table) (u : list (list R)) (es : list elem) K F G H,
  (forall e, In e es -> elem_ok n t u e) -> mat_is n K G -> vec_is n F H ->
  exists K' F', asm_all u t es (K, F) = Ok (K', F') /\
    mat_is n K' (fun i j => G i j + sum_over es (fun e => k_contrib t e i j)) /\
    vec_is n F' (fun i => H i + sum_over es (fun e => f_contrib t e i - d_contrib t u e i)) /\
    forall es', Permutation es es' -> exists K'', asm_all u t es' (K, F) = Ok (K'', F') /\
      forall i j, (i < n)%nat -> lil_get 0 K'' i j = lil_get 0 K' i j.
Proof.
  intros n t u es K F G H He HK HF. destruct (asm_all_ok n t u es K F G H He HK HF) as (K' & F' & E & HK' & HF').
  exists K', F'. splits; auto. intros es' HP.
  destruct (asm_all_ok n t u es' K F G H) as (K'' & F'' & E'' & HK'' & HF''); auto.
  { intros e Hin. apply He. eapply Permutation_in; [apply Permutation_sym|]; eauto. }
  exists K''. assert (F'' = F') as <-.
  { eapply vec_is_eq; [exact HF''|]. revert HF'; apply vec_is_ext. intros. f_equal. now apply sum_over_perm. }
  split; auto. intros i j Hi. destruct HK' as (_ & _ & _ & _ & Ga), HK'' as (_ & _ & _ & _ & Gb).
  rewrite Ga, Gb by auto. do 2 f_equal. symmetry. now apply sum_over_perm.
Qed.

Lemma C12_overloads_pf : forall (n : nat) (t : table) (u : list (list R)) (e : elem) K F G H f,
  elem_ok n t u e -> mat_is n K G -> vec_is n F H ->
  (forall i j v, In (i, j, v) f -> in_table t i j /\ forall k, num t i j = Some k -> (k < n)%nat) ->
  exists K1 F1 K2 F2 K3 F4 F5 F6,
    assemble_KFe (K, F) u (e_K e) (e_F e) t (e_nte e) (e_nodes e) = Ok (K1, F1) /\
      mat_is n K1 (fun i j => G i j + k_contrib t e i j) /\
      vec_is n F1 (fun i => H i - d_contrib t u e i + f_contrib t e i) /\
    assemble_K_F (K, F) u (e_K e) t (e_nte e) (e_nodes e) = Ok (K2, F2) /\
      mat_is n K2 (fun i j => G i j + k_contrib t e i j) /\ vec_is n F2 (fun i => H i - d_contrib t u e i) /\
    assemble_K K (e_K e) t (e_nte e) (e_nodes e) = Ok K3 /\ mat_is n K3 (fun i j => G i j + k_contrib t e i j) /\
    assemble_F F (e_F e) t (e_nte e) (e_nodes e) = Ok F4 /\ vec_is n F4 (fun i => H i + f_contrib t e i) /\
    assemble_D F u (e_K e) t (e_nte e) (e_nodes e) = Ok F5 /\ vec_is n F5 (fun i => H i - d_contrib t u e i) /\
    assemble_N F f t = Ok F6 /\ vec_is n F6 (fun i => H i + n_contrib t f i) /\
    (F7 <- assemble_D F u (e_K e) t (e_nte e) (e_nodes e) ;; assemble_F F7 (e_F e) t (e_nte e) (e_nodes e)) = Ok F1.
Proof.
  intros n t u e K F G H f He HK HF Hf.
  destruct (assemble_KFe_ok n t u e He K F G H HK HF) as (K1 & F1 & E1 & A1 & B1).
  destruct (assemble_K_F_ok n t u e He K F G H HK HF) as (K2 & F2 & E2 & A2 & B2).
  destruct (assemble_K_ok n t u e He K G HK) as (K3 & E3 & A3).
  destruct (assemble_F_ok n t u e He F H HF) as (F4 & E4 & A4).
  destruct (assemble_D_ok n t u e He F H HF) as (F5 & E5 & A5).
  destruct (assemble_N_ok n t f F H Hf HF) as (F6 & E6 & A6).
  destruct (assemble_F_ok n t u e He F5 _ A5) as (F7 & E7 & A7).
  exists K1, F1, K2, F2, K3, F4, F5, F6. rewrite E5. cbn [bind]. rewrite E7. splits; auto.
  f_equal. eapply vec_is_eq; eauto.
Qed.

Lemma C13_equilibrium_pf : forall (u0 : list (list R)) (t0 : table) (fx f : list (nat * nat * R)) (es : list elem),
  (forall i j, in_table t0 i j -> in_table u0 i j) ->
  (forall i j v, In (i, j, v) fx -> in_table t0 i j) ->
  (forall i j v, In (i, j, v) f -> in_table t0 i j) ->
  (forall e, In e es -> elem_fits t0 e) ->
  exists u1 t1 t2 n K F F' Kc K',
    set_dirichlet (u0, t0) fx = Ok (u1, t1) /\ renumber t1 = (t2, n) /\
    asm_all u1 t2 es (lil_new n n, repeat 0 n) = Ok (K, F) /\
    assemble_N F f t2 = Ok F' /\ csr_of_lil K = Ok (Kc, K') /\
    forall x, length x = n -> csr_mulvec 0 Rplus Rmult Kc x = Ok F' ->
    exists u2, disassemble u1 x t2 = Ok u2 /\
      (forall i j v, last_value fx i j = Some v -> uval u2 i j = v) /\
      (forall i j, last_value fx i j = None -> num t0 i j = None -> uval u2 i j = uval u0 i j) /\
      (forall i j, last_value fx i j = None -> num t0 i j <> None ->
         internal_force es u2 i j = element_load es i j + nodal_load f i j).
Proof.
  intros u0 t0 fx f es HU HFx Hf He.
  destruct (set_dirichlet_ok fx u0 t0) as (u1 & t1 & E1 & Su & St & Vu & Vt). { intros i j v Hin. split; eauto. }
  destruct (renumber t1) as [t2 n] eqn:E2.
  destruct (renumber_ok _ _ _ E2) as ((L2 & L2' & P2) & _ & _ & (B2 & I2 & _) & _).
  assert (S2 : same_shape t2 t0). { eapply same_shape_trans; [|exact St]. apply same_shape_sym. split; auto. }
  assert (HU1 : forall i j, in_table t0 i j -> in_table u1 i j). { intros i j H. apply (same_shape_in u1 u0); auto. }
  assert (He' : forall e, In e es -> elem_ok n t2 u1 e). { intros e Hin. eapply elem_fits_ok; eauto. }
  destruct (asm_all_ok n t2 u1 es (lil_new n n) (repeat 0 n) _ _ He' (lil_new_is n) (vec_zero_is n)) as (K & F & E3 & HK & HF).
  destruct (assemble_N_ok n t2 f F _ (fun i j v Hin => conj (proj2 (same_shape_in t2 t0 i j S2) (Hf i j v Hin)) (B2 i j)) HF) as (F' & E4 & HF').
  destruct HK as (HK1 & HK2 & HK3 & HK4 & HK5).
  destruct (csr_of_lil_cols K HK1 HK4) as (Kc & K' & E5 & W & C & R1 & C1 & G1).
  exists u1, t1, t2, n, K, F, F', Kc, K'. splits; auto. intros x Hx Hsol.
  destruct (disassemble_ok u1 x t2) as (u2 & E6 & _ & V2).
  { intros i j H. apply HU1. apply (same_shape_in t2 t0); auto. } { intros i j k Hk. rewrite Hx. eauto. }
  exists u2. splits; auto.
  - intros i j v Hv. rewrite V2. unfold dis_val. assert (num t2 i j = None) as ->. { apply P2. now rewrite Vt, Hv. } now rewrite Vu, Hv.
  - intros i j Hn H0. rewrite V2. unfold dis_val. assert (num t2 i j = None) as ->. { apply P2. now rewrite Vt, Hn. } now rewrite Vu, Hn.
  - intros i j Hn H0.
    destruct (num t2 i j) as [gi|] eqn:Eg. 2:{ apply P2 in Eg. rewrite Vt, Hn in Eg. tauto. }
    assert (Hgi : (gi < n)%nat) by eauto.
    assert (Hat : forall a, is_eq (dnum t2 a) gi = at_dof i j a).
    { intros a. unfold at_dof. destruct (dnum t2 a) as [k|] eqn:Ea; cbn [is_eq].
      - destruct (Nat.eqb_spec k gi).
        + subst k. destruct (I2 _ _ _ _ _ Ea Eg) as [-> ->]. now rewrite !Nat.eqb_refl.
        + destruct (Nat.eqb_spec (dnode a) i); auto. destruct (Nat.eqb_spec (ddof a) j); auto.
          subst. unfold dnum in Ea. congruence.
      - destruct (Nat.eqb_spec (dnode a) i); auto. destruct (Nat.eqb_spec (ddof a) j); auto.
        subst. unfold dnum in Ea. congruence. }
    destruct (C06_spmv_csr_pf Kc x W C) as (y & Ey & Ly & Hy); [congruence|]. rewrite Hsol in Ey. injection Ey as <-.
    specialize (Hy gi ltac:(lia)). destruct HF' as [LF HF']. rewrite HF' in Hy by auto. unfold matvec in Hy.
    rewrite C1, HK3 in Hy.
    rewrite (bigsum_ext n _ (fun j0 => sum_over es (fun e => k_contrib t2 e gi j0 * nth j0 x 0))) in Hy.
    2:{ intros j0 Hj0. unfold csr_entry. rewrite G1 by lia. rewrite HK5 by auto.
        rewrite Rplus_0_l, Rmult_comm, <- sum_over_scal. apply sum_ext. intros; lra. }
    rewrite bigsum_over in Hy.
    rewrite sum_over_minus in Hy.
    assert (HN : n_contrib t2 f gi = nodal_load f i j).
    { apply sum_ext. intros [[a b] v] Hin. cbn [fst snd]. f_equal.
      specialize (Hat (mkDof a b 0)). exact Hat. }
    assert (HFe : sum_over es (fun e => f_contrib t2 e gi) = element_load es i j).
    { apply sum_ext. intros e Hin. apply sum_ext. intros a Ha. now rewrite Hat. }
    assert (HI : internal_force es u2 i j =
      sum_over es (fun e => bigsum n (fun j0 => k_contrib t2 e gi j0 * nth j0 x 0)) + sum_over es (fun e => d_contrib t2 u1 e gi)).
    { rewrite <- sum_over_plus. apply sum_ext. intros e Hin.
      rewrite (equilibrium_row n t2 u1 e (fun k => nth k x 0) gi (He' e Hin)). apply sum_ext. intros a Ha. rewrite Hat. f_equal.
      apply sum_ext. intros b Hb. f_equal. unfold duval. rewrite V2. reflexivity. }
    rewrite HI, <- HN, <- HFe. lra.
Qed.

Lemma C14_symmetry_psd_pf : forall (n : nat) (t : table) (u : list (list R)) (es : list elem),
  (forall e, In e es -> elem_ok n t u e) ->
  exists K F, asm_all u t es (lil_new n n, repeat 0 n) = Ok (K, F) /\
    ((forall e a b, In e es -> (a < mrow (e_K e))%nat -> (b < mrow (e_K e))%nat -> e_k e a b = e_k e b a) ->
       forall i j, (i < n)%nat -> (j < n)%nat -> lil_get 0 K i j = lil_get 0 K j i) /\
    (forall x : nat -> R,
       bigsum n (fun i => bigsum n (fun j => x i * lil_entry 0 K i j * x j)) =
       sum_over es (fun e => sum_over (e_dofs e) (fun a => sum_over (e_dofs e) (fun b =>
         xval t x a * e_k e (dloc a) (dloc b) * xval t x b)))) /\
    ((forall e z, In e es -> 0 <= bigsum (mrow (e_K e)) (fun a => bigsum (mrow (e_K e)) (fun b => z a * e_k e a b * z b))) ->
       forall x : nat -> R, 0 <= bigsum n (fun i => bigsum n (fun j => x i * lil_entry 0 K i j * x j))).
Proof.
  intros n t u es He.
  destruct (asm_all_ok n t u es (lil_new n n) (repeat 0 n) _ _ He (lil_new_is n) (vec_zero_is n)) as (K & F & E & HK & HF).
  exists K, F. destruct HK as (_ & _ & _ & _ & HG).
  assert (HQ : forall x : nat -> R,
       bigsum n (fun i => bigsum n (fun j => x i * lil_entry 0 K i j * x j)) =
       sum_over es (fun e => sum_over (e_dofs e) (fun a => sum_over (e_dofs e) (fun b =>
         xval t x a * e_k e (dloc a) (dloc b) * xval t x b)))).
  { intros x. rewrite (sum_ext es _ (fun e => bigsum n (fun i => bigsum n (fun j => x i * k_contrib t e i j * x j)))).
    2:{ intros e Hin. symmetry. apply (energy n t u). auto. }
    rewrite <- bigsum_over. apply bigsum_ext. intros i Hi. rewrite <- bigsum_over. apply bigsum_ext. intros j Hj.
    unfold lil_entry. rewrite HG by auto. rewrite Rplus_0_l.
    rewrite (Rmult_comm (x i)), Rmult_assoc, (Rmult_comm (sum_over _ _)), <- sum_over_scal. apply sum_ext. intros; lra. }
  splits; auto.
  - intros Hs i j Hi Hj. rewrite !HG by auto. do 2 f_equal. apply sum_ext. intros e Hin. apply k_contrib_sym.
    intros a b Ha Hb. destruct (He e Hin) as (_ & _ & X). apply Hs; auto.
    + now destruct (X a Ha) as (_ & _ & _ & ? & _). + now destruct (X b Hb) as (_ & _ & _ & ? & _).
  - intros HP x. rewrite HQ. apply sum_over_nonneg. intros e Hin.
    rewrite (energy_loc (e_dofs e) (mrow (e_K e)) (e_k e) (xval t x)).
    + apply HP; auto.
    + intros a Ha. destruct (He e Hin) as (_ & _ & X). now destruct (X a Ha) as (_ & _ & _ & ? & _).
Qed.

Lemma C15_round_trip_pf : forall (u : list (list R)) (t : table) (n : nat) (x : list R),
  (forall i j, in_table t i j -> in_table u i j) -> numbering n t -> length x = n ->
  exists u', disassemble u x t = Ok u' /\
    (forall i j, in_table u' i j <-> in_table u i j) /\
    (forall i j k, num t i j = Some k -> uval u' i j = nth k x 0) /\
    (forall i j, num t i j = None -> uval u' i j = uval u i j) /\
    (forall k, (k < n)%nat -> exists i j, num t i j = Some k /\ uval u' i j = nth k x 0) /\
    forall element nte, (length nte <= length element)%nat ->
      (forall a, In a (dofs element nte) -> in_table u (dnode a) (ddof a) /\ (dloc a < length (concat nte))%nat) ->
      NoDup (map snd (concat nte)) ->
      exists v, element_vector u' nte element = Ok v /\ length v = length (concat nte) /\
        forall a, In a (dofs element nte) ->
          nth (dloc a) v 0 = match num t (dnode a) (ddof a) with Some k => nth k x 0 | None => uval u (dnode a) (ddof a) end.
Proof.
  intros u t n x HU (B & J & O) Hx. destruct (disassemble_ok u x t HU) as (u' & E & S' & V).
  { intros i j k Hk. rewrite Hx. eauto. }
  exists u'. splits; auto.
  - intros i j. now apply same_shape_in.
  - intros i j k Hk. rewrite V. unfold dis_val. now rewrite Hk.
  - intros i j Hk. rewrite V. unfold dis_val. now rewrite Hk.
  - intros k Hk. destruct (O k Hk) as (i & j & Hij). exists i, j. split; auto. rewrite V. unfold dis_val. now rewrite Hij.
  - intros element nte HL HD HN. destruct (element_vector_ok u' element nte HL) as (v & Ev & Lv & Vv).
    + intros a Ha. rewrite dofs_length by auto. destruct (HD a Ha). split; auto. apply (same_shape_in u' u); auto.
    + now rewrite map_dloc_dofs.
    + exists v. rewrite dofs_length in Lv by auto. splits; auto. intros a Ha. rewrite Vv by auto. unfold duval. rewrite V. reflexivity.
Qed.

Lemma C16_groups_pf : forall (s : lil R * list R) (u : list (list R)) (Ke : mat R) (t : table)
  (ntes : list (list (list (nat * nat)))) (elements : list (list nat)),
  length elements = length ntes ->
  (forall k, length (nth k elements []) = length (nth k ntes [])) ->
  assemble_groups s u Ke t ntes elements = assemble_K_F s u Ke t (concat ntes) (concat elements) /\
  element_vector_groups u ntes elements = element_vector u (concat ntes) (concat elements).
Proof.
  intros s u Ke t ntes elements HL HK.
  assert (HF : Forall2 (fun el nte => length el = length nte) elements ntes).
  { revert ntes HL HK. induction elements as [|el els IH]; intros [|nte ntes] HL HK; cbn in HL; try lia; constructor.
    - apply (HK 0%nat). - apply IH; [lia|]. intros k. apply (HK (S k)). }
  split; [now apply assemble_groups_eq|now apply element_vector_groups_eq].
Qed.
