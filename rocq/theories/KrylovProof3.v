(** Breakdowns of the Krylov solvers, factorisations without fill-in, ILU0CG on symmetric matrices. *)
From Coq Require Import List Arith Lia Bool Reals Lra Sorted.
From Verif Require Import Res SumR SparseModel SparseSpec SparseProof DenseModel DenseR LUModel LUProof KrylovModel KrylovSpec KrylovProof CGMath KrylovProof2 IluProof IluProof2 SorProof SorProof2.
Import ListNotations.
Local Open Scope R_scope.

Lemma ix_eq n u v : length u = n -> length v = n -> agree n (ix u) (ix v) -> u = v.
Proof. intros Hu Hv H. apply (nth_ext _ _ 0 0); [lia|]. intros i Hi. apply H. lia. Qed.
Lemma tab_self n v : length v = n -> tab n (ix v) = v.
Proof. intros Hv. apply (ix_eq n); auto using tab_length. intros i Hi. now apply tab_ix. Qed.

(** all solvers start with r = b *)
Lemma start_ok n A b : square_csr n A -> length b = n ->
  exists Ax, Amul A (repeat 0 (length b)) = Ok Ax /\ subtract b Ax = Ok b.
Proof.
  intros HA Hb. destruct (Amul_ok n A (repeat 0 (length b)) HA) as (Ax & E & L & V); [now rewrite repeat_length|].
  exists Ax. split; auto. unfold subtract.
  destruct (walk2_ok (fun bi ai => ai - bi) Ax b ltac:(lia)) as (r & Er & Lr & Vr). rewrite Er. f_equal.
  apply (ix_eq n); try lia. intros i Hi. rewrite Vr by lia. rewrite V by auto.
  rewrite (matvec_ext n _ _ (fun _ => 0)), matvec_0 by (intros; apply ix_repeat). ring.
Qed.

Definition zero_vec (n : nat) (v : list R) : Prop := length v = n /\ forall i, (i < n)%nat -> ix v i = 0.
Lemma zero_Amul n A v : square_csr n A -> zero_vec n v -> exists w, Amul A v = Ok w /\ zero_vec n w.
Proof.
  intros HA [L Z]. destruct (Amul_ok n A v HA L) as (w & E & Lw & V). exists w. splits; auto. split; auto.
  intros i Hi. rewrite V by auto. rewrite (matvec_ext n _ _ (fun _ => 0)) by auto. apply matvec_0.
Qed.
Lemma zero_inner_l n u v : zero_vec n u -> length v = n -> inner u v = Ok 0.
Proof.
  intros [L Z] Lv. rewrite (inner_ok n) by auto. f_equal. unfold dot. apply bigsum_zero. intros i Hi. rewrite Z by auto. ring.
Qed.
Lemma zero_inner_r n u v : zero_vec n v -> length u = n -> inner u v = Ok 0.
Proof.
  intros [L Z] Lv. rewrite (inner_ok n) by auto. f_equal. unfold dot. apply bigsum_zero. intros i Hi. rewrite Z by auto. ring.
Qed.

Lemma cg_zero n A b itr eps : square_csr n A -> zero_vec n b -> cg A b (S itr) eps = Fail DivByZero.
Proof.
  intros HA Hb. pose proof Hb as [L _]. unfold cg, cg_init. destruct (start_ok n A b HA L) as (Ax & E1 & E2).
  rewrite E1. cbn [bind]. rewrite E2. cbn [bind]. rewrite (zero_inner_l n) by auto. cbn [bind iterate].
  unfold cg_step; cbn [cg_p cg_rr]. cbn [bind]. destruct (zero_Amul n A b HA Hb) as (w & E & Hw). rewrite E. cbn [bind].
  rewrite (zero_inner_l n) by (auto; apply Hw). cbn [bind]. now rewrite Rdiv_res_0.
Qed.

Lemma pcg_zero n A pre b itr eps : square_csr n A -> zero_vec n b ->
  (exists z, pre b = Ok z /\ length z = n /\ dot n (ix z) (matvec n (entry A) (ix z)) = 0) ->
  pcg A pre b (S itr) eps = Fail DivByZero.
Proof.
  intros HA Hb (z & Ez & Lz & Hz). pose proof Hb as [L _]. unfold pcg, pcg_init. destruct (start_ok n A b HA L) as (Ax & E1 & E2).
  rewrite E1. cbn [bind]. rewrite E2. cbn [bind]. rewrite Ez. cbn [bind]. rewrite (zero_inner_r n) by auto. cbn [bind iterate].
  unfold pcg_step; cbn [pc_p pc_mrr]. cbn [bind]. destruct (Amul_ok n A z HA Lz) as (w & E & Lw & Vw). rewrite E. cbn [bind].
  rewrite (inner_ok n) by auto. cbn [bind]. rewrite (dot_ext n _ (ix z) _ (matvec n (entry A) (ix z))) by auto. rewrite Hz.
  now rewrite Rdiv_res_0.
Qed.
Lemma scaling_zero n D b : length D = n -> zero_vec n b ->
  scaling D b = Fail DivByZero \/ exists z, scaling D b = Ok z /\ zero_vec n z.
Proof.
  intros LD [L Z]. unfold scaling. rewrite LD.
  assert (G : forall l, (forall k, In k l -> (k < n)%nat) ->
      mapM (fun i => x <- rd b i ;; d <- rd D i ;; Rdiv_res x d) l = Fail DivByZero \/
      exists z, mapM (fun i => x <- rd b i ;; d <- rd D i ;; Rdiv_res x d) l = Ok z /\ zero_vec (length l) z).
  { induction l as [|k l IH]; intros Hl.
    - right. exists []. splits; auto. split; auto. intros; cbn in *; lia.
    - specialize (Hl k (or_introl eq_refl)) as Hk. cbn [mapM]. rewrite (rd_nth D k 0), (rd_nth b k 0) by lia. cbn [bind].
      unfold Rdiv_res at 1 3. destruct (Req_EM_T (nth k D 0) 0) as [|Hne]; [now left|]. cbn [bind].
      destruct IH as [IH|(z & E & Lz & Hz)]; [intros; apply Hl; now right| |].
      + left. now rewrite IH.
      + right. rewrite E. cbn [bind]. eexists. split; [reflexivity|]. split; [cbn; lia|].
        intros [|i] Hi; unfold ix; cbn [nth].
        * fold (ix b k). rewrite Z by auto. field. auto.
        * apply Hz. cbn in Hi. lia. }
  specialize (G (seq 0 n)). rewrite seq_length in G. apply G. intros k Hk. apply in_seq in Hk. lia.
Qed.
Lemma dot_0_any n u v : (forall i, (i < n)%nat -> u i = 0) -> dot n u v = 0.
Proof. intros H. apply bigsum_zero. intros i Hi. rewrite H by auto. ring. Qed.

Lemma scaling_cg_zero n A b itr eps : square_csr n A -> zero_vec n b -> scaling_cg A b (S itr) eps = Fail DivByZero.
Proof.
  intros HA Hb. pose proof Hb as [L Z]. unfold scaling_cg. destruct (get_diagonal_ok n A HA) as (D & ED & LD & VD).
  rewrite ED. cbn [bind]. destruct (scaling_zero n D b LD Hb) as [E|(z & E & Lz & Hz)].
  - unfold pcg, pcg_init. destruct (start_ok n A b HA L) as (Ax & E1 & E2). rewrite E1. cbn [bind]. rewrite E2. cbn [bind].
    now rewrite E.
  - apply (pcg_zero n); auto. exists z. splits; auto. now apply dot_0_any.
Qed.

Lemma bicgstab_zero n A b itr eps : square_csr n A -> zero_vec n b -> bicgstab A b (S itr) eps = Fail DivByZero.
Proof.
  intros HA Hb. pose proof Hb as [L _]. unfold bicgstab, bcg. destruct (start_ok n A b HA L) as (Ax & E1 & E2).
  rewrite E1. cbn [bind]. rewrite E2. cbn [bind]. rewrite (zero_inner_l n) by auto. cbn [bind iterate].
  unfold bcg_step; cbn [bs_p bs_rr]. cbn [bind]. destruct (zero_Amul n A b HA Hb) as (w & E & Hw). rewrite E. cbn [bind].
  rewrite (zero_inner_l n) by (auto; apply Hw). cbn [bind]. now rewrite Rdiv_res_0.
Qed.

Lemma bicgstab2_zero n A b itr eps : square_csr n A -> zero_vec n b -> bicgstab2 A b (S itr) eps = Fail DivByZero.
Proof.
  intros HA Hb. pose proof Hb as [L Z]. unfold bicgstab2. destruct (start_ok n A b HA L) as (Ax & E1 & E2).
  rewrite E1. cbn [bind]. rewrite E2. cbn [bind]. rewrite (zero_inner_l n) by auto. cbn [bind iterate].
  unfold b2_step at 1; cbn [b2_beta b2_w b2_p b2_r b2_u b2_rr]. cbn [bind]. unfold xeaxpbypcz at 1.
  destruct (walk3_ok (fun xi yi zi => 0 * xi + 1 * yi + - (0) * zi) (repeat 0 (length b)) b (repeat 0 (length b)))
    as (p & Ep & Lp & Vp); try (rewrite repeat_length; lia). rewrite repeat_length in Lp, Vp.
  rewrite Ep. cbn [bind].
  assert (Hp : zero_vec n p).
  { split; [lia|]. intros i Hi. rewrite Vp by lia. rewrite Z by auto. ring. }
  destruct (zero_Amul n A p HA Hp) as (w & E & Hw). rewrite E. cbn [bind].
  rewrite (zero_inner_l n) by (auto; apply Hw). cbn [bind]. now rewrite Rdiv_res_0.
Qed.

(** *** the "lucky" breakdown of BiCGSTAB: the half step already solves the system *)
Lemma bicgstab_identity n A b itr eps : square_csr n A -> length b = n ->
  (forall i j, (i < n)%nat -> (j < n)%nat -> entry A i j = delta i j) ->
  bicgstab A b (S itr) eps = Fail DivByZero.
Proof.
  intros HA L HI.
  assert (Hid : forall v, length v = n -> Amul A v = Ok v).
  { intros v Lv. destruct (Amul_ok n A v HA Lv) as (w & E & Lw & V). rewrite E. f_equal. apply (ix_eq n); auto.
    intros i Hi. rewrite V by auto. unfold matvec. rewrite (bigsum_ext n _ (fun j => delta j i * ix v j)).
    - now apply bigsum_delta.
    - intros j Hj. rewrite HI by auto. now rewrite delta_sym. }
  unfold bicgstab, bcg. destruct (start_ok n A b HA L) as (Ax & E1 & E2).
  rewrite E1. cbn [bind]. rewrite E2. cbn [bind]. rewrite (inner_ok n) by auto. cbn [bind iterate].
  unfold bcg_step; cbn [bs_p bs_rr bs_r]. cbn [bind]. rewrite Hid by auto. cbn [bind]. rewrite (inner_ok n) by auto. cbn [bind].
  destruct (Req_EM_T (dot n (ix b) (ix b)) 0) as [Z|Nz].
  - rewrite Z. now rewrite Rdiv_res_0.
  - rewrite Rdiv_res_ok by auto. cbn [bind]. unfold zeaxpby at 1.
    destruct (walk2_ok (fun xi yi => 1 * xi + - (dot n (ix b) (ix b) / dot n (ix b) (ix b)) * yi) b b ltac:(lia)) as (s & Es & Ls & Vs).
    rewrite Es. cbn [bind]. rewrite Hid by lia. cbn [bind].
    assert (Hs : zero_vec n s).
    { split; [lia|]. intros i Hi. rewrite Vs by lia. field. auto. }
    rewrite (zero_inner_l n) by (auto; apply Hs). cbn [bind]. now rewrite Rdiv_res_0.
Qed.

(** *** factorisation without fill-in *)
Lemma ilu0_exact n A m : square_csr n A -> ilu0 A = Ok m ->
  (forall i j k, (i < n)%nat -> (j < n)%nat -> (k < i)%nat -> (k < j)%nat -> stored A i k -> stored A k j -> stored A i j) ->
  forall i j, (i < n)%nat -> (j < n)%nat ->
    matmul n (lower_part (entry m)) (upper_part (entry m)) i j = entry A i j.
Proof.
  intros HA E Hcl i j Hi Hj. destruct (ilu0_main n A HA) as [_ H]. destruct (H m E) as (Hm & Hp & HL).
  pose proof HA as (Hw & _). apply wf_repr in Hw. destruct Hw as [rows Hrep].
  assert (Hdec : forall i j, (i < n)%nat -> stored A i j \/ ~ stored A i j).
  { intros a c Ha. destruct (has rows a c) eqn:Eh.
    - left. apply (stored_has n A HA rows); auto.
    - right. intros Hs. apply (stored_has n A HA rows) in Hs; auto. congruence. }
  destruct (Hdec i j Hi) as [Hs|Hns]; [now apply HL|].
  rewrite (entry_unstored n A HA i j) by auto. rewrite lu_entry by auto.
  assert (Hz : forall a c, (a < n)%nat -> ~ stored A a c -> entry m a c = 0).
  { intros a c Ha Hn. apply (entry_unstored n m Hm); auto. intros Hs. apply Hn. now apply Hp. }
  rewrite (Hz i j) by auto. unfold ksum. rewrite bigsum_zero; [ring|]. intros k Hk. cbn [Nat.leb andb].
  destruct (Nat.ltb_spec k (Nat.min i j)); auto.
  destruct (Hdec i k Hi) as [H1|H1]; [|rewrite (Hz i k) by auto; ring].
  destruct (Hdec k j Hk) as [H2|H2]; [|rewrite (Hz k j) by auto; ring].
  exfalso. apply Hns. apply (Hcl i j k); auto; lia.
Qed.

Lemma pre_ilu0_inv n M b x : square_csr n M -> length b = n -> pre_ilu0 M b = Ok x ->
  length x = n /\ (forall i, (i < n)%nat -> entry M i i <> 0) /\
  forall i, (i < n)%nat -> matvec n (matmul n (lower_part (entry M)) (upper_part (entry M))) (ix x) i = ix b i.
Proof.
  intros HM Lb E. pose proof HM as (Hw & _). apply wf_repr in Hw. destruct Hw as [rows Hrep].
  assert (Hd : forall i, (i < n)%nat -> entry M i i <> 0).
  { intros i Hi Hz. rewrite (pre_ilu0_zero n M rows HM Hrep b i) in E by auto. discriminate. }
  destruct (pre_ilu0_ok n M rows HM Hrep b Lb Hd) as (x' & E' & L & V). rewrite E in E'. injection E' as <-. auto.
Qed.

(** *** a preconditioner that solves with a symmetric positive definite matrix *)
Section Solve.
Variables (n : nat) (A : csr R) (pre : list R -> res (list R)) (N : nat -> nat -> R) (b : list R).
Hypothesis HA : square_csr n A.
Hypothesis Hb : length b = n.
Hypothesis HAs : symmetric n (entry A).
Hypothesis HAp : pos_def n (entry A).
Hypothesis HNs : symmetric n N.
Hypothesis HNp : pos_def n N.
Hypothesis Hpre : forall v, length v = n -> exists x, pre v = Ok x /\ length x = n /\
  forall i, (i < n)%nat -> matvec n N (ix x) i = ix v i.

Definition solveop (u : nat -> R) : nat -> R := ix (match pre (tab n u) with Ok x => x | Fail _ => [] end).
Lemma solveop_ok u i : (i < n)%nat -> matvec n N (solveop u) i = u i.
Proof.
  intros Hi. unfold solveop. destruct (Hpre (tab n u) (tab_length n u)) as (x & E & L & V). rewrite E.
  rewrite V by auto. now apply tab_ix.
Qed.
Lemma solve_converges eps itrmax : 0 < eps -> nonzero n (ix b) -> (n <= itrmax)%nat ->
  exists x, pcg A pre b itrmax eps = Ok (true, x).
Proof.
  apply (pcg_converges n A pre solveop b HA Hb HAs (fun k => HAp _)).
  - intros v Lv. destruct (Hpre v Lv) as (x & E & L & V). exists x. splits; auto. intros i Hi. unfold solveop.
    rewrite tab_self by auto. now rewrite E.
  - intros u v. rewrite (dot_ext n (solveop u) (solveop u) v (matvec n N (solveop v))); auto.
    + rewrite matvec_sym by auto. apply dot_ext; auto. intros; now apply solveop_ok.
    + intros i Hi. symmetry. now apply solveop_ok.
  - intros u Hu.
    assert (Hx : nonzero n (solveop u)).
    { destruct (nonzero_dec n (solveop u)) as [H|H]; auto. exfalso. destruct Hu as (i & Hi & Hne). apply Hne.
      rewrite <- (solveop_ok u i Hi). rewrite (matvec_ext n _ _ (fun _ => 0)) by auto. apply matvec_0. }
    rewrite (dot_ext n (solveop u) (solveop u) u (matvec n N (solveop u))); auto.
    intros i Hi. symmetry. now apply solveop_ok.
Qed.
End Solve.

(** *** symmetric incomplete factors *)
Section SymLU.
Variables (n : nat) (q : nat -> nat -> R).
Hypothesis Hd : forall i, (i < n)%nat -> 0 < q i i.
Hypothesis Hsym : forall i j, (i < j)%nat -> (j < n)%nat -> q i j = q i i * q j i.
Notation L := (lower_part q).
Notation U := (upper_part q).

Lemma U_is_DLt k j : (k < n)%nat -> (j < n)%nat -> U k j = q k k * L j k.
Proof.
  intros Hk Hj. unfold upper_part, lower_part. destruct (Nat.leb_spec k j), (Nat.eqb_spec j k) as [E|]; try subst; try lia; try ring.
  - destruct (Nat.ltb_spec k j); [|lia]. apply Hsym; lia.
  - destruct (Nat.ltb_spec k j); [lia|]. ring.
Qed.
Lemma symLU_sym : symmetric n (matmul n L U).
Proof.
  intros i j Hi Hj. unfold matmul. apply bigsum_ext. intros k Hk. rewrite !U_is_DLt by auto. ring.
Qed.
Lemma symLU_quad u : dot n u (matvec n (matmul n L U) u) = bigsum n (fun k => q k k * bigsum n (fun j => L j k * u j) ^ 2).
Proof.
  unfold dot. rewrite (bigsum_ext n _ (fun i => bigsum n (fun k => q k k * bigsum n (fun j => L j k * u j) * (L i k * u i)))).
  - rewrite bigsum_swap. apply bigsum_ext. intros k Hk. rewrite bigsum_scal. ring.
  - intros i Hi. rewrite matmul_matvec. unfold matvec at 1. rewrite <- bigsum_scal. apply bigsum_ext. intros k Hk.
    assert (E : matvec n U u k = q k k * bigsum n (fun j => L j k * u j)).
    { unfold matvec. rewrite <- bigsum_scal. apply bigsum_ext. intros j Hj. rewrite U_is_DLt by auto. ring. }
    rewrite E. ring.
Qed.
Lemma Lt_injective u : (forall k, (k < n)%nat -> bigsum n (fun j => L j k * u j) = 0) -> forall j, (j < n)%nat -> u j = 0.
Proof.
  intros H. assert (G : forall m j, (j < n)%nat -> (n - m <= j)%nat -> u j = 0).
  { induction m as [|m IH]; intros j Hj Hm; [lia|].
    specialize (H j Hj). rewrite (bigsum_ext n _ (fun i => delta i j * u i)) in H.
    - now rewrite bigsum_delta in H.
    - intros i Hi. unfold lower_part. destruct (Nat.eqb_spec i j) as [E|Hne]; [subst; now rewrite delta_refl|].
      rewrite delta_ne by auto. destruct (Nat.ltb_spec j i); [|ring]. rewrite (IH i) by lia. ring. }
  intros j Hj. apply (G n); lia.
Qed.
Lemma symLU_pos : pos_def n (matmul n L U).
Proof.
  intros u Hu. rewrite symLU_quad.
  assert (H0 : 0 <= bigsum n (fun k => q k k * bigsum n (fun j => L j k * u j) ^ 2)).
  { apply bigsum_nonneg. intros k Hk. specialize (Hd k Hk). pose proof (pow2_ge_0 (bigsum n (fun j => L j k * u j))). nra. }
  destruct H0 as [H0|H0]; auto. exfalso. symmetry in H0.
  destruct Hu as (i & Hi & Hne). apply Hne. apply Lt_injective; auto. intros k Hk.
  apply (bigsum_nonneg_eq0 n (fun k => q k k * bigsum n (fun j => L j k * u j) ^ 2)) with (i := k) in H0; auto.
  - cbv beta in H0. specialize (Hd k Hk). apply Rmult_integral in H0. destruct H0; [lra|]. nra.
  - intros l Hl. specialize (Hd l Hl). pose proof (pow2_ge_0 (bigsum n (fun j => L j l * u j))). nra.
Qed.
End SymLU.

Lemma ilu0_sym n A m : square_csr n A -> ilu0 A = Ok m -> symmetric n (entry A) ->
  (forall i j, (i < n)%nat -> (j < n)%nat -> stored A i j -> stored A j i) ->
  (forall i, (i < n)%nat -> entry m i i <> 0) ->
  forall i j, (i < j)%nat -> (j < n)%nat -> entry m i j = entry m i i * entry m j i.
Proof.
  intros HA E Hs Hps Hd. destruct (ilu0_main n A HA) as [_ H]. destruct (H m E) as (Hm & Hp & HL).
  pose proof HA as (Hw & _). apply wf_repr in Hw. destruct Hw as [rows Hrep].
  assert (Hdec : forall i j, (i < n)%nat -> stored A i j \/ ~ stored A i j).
  { intros a c Ha. destruct (has rows a c) eqn:Eh.
    - left. apply (stored_has n A HA rows); auto.
    - right. intros Hst. apply (stored_has n A HA rows) in Hst; auto. congruence. }
  assert (Hz : forall a c, (a < n)%nat -> ~ stored A a c -> entry m a c = 0).
  { intros a c Ha Hn. apply (entry_unstored n m Hm); auto. intros Hst. apply Hn. now apply Hp. }
  induction i as [i IH] using (well_founded_induction lt_wf). intros j Hij Hj.
  destruct (Hdec i j ltac:(lia)) as [Hst|Hns].
  - pose proof (HL i j ltac:(lia) Hj Hst) as E1. pose proof (HL j i Hj ltac:(lia) (Hps i j ltac:(lia) Hj Hst)) as E2.
    rewrite lu_entry in E1, E2 by lia.
    destruct (Nat.ltb_spec j i); [lia|]. destruct (Nat.ltb_spec i j); [|lia].
    rewrite (Hs j i Hj ltac:(lia)) in E2.
    assert (Ek : ksum n (entry m) i j 0 = ksum n (entry m) j i 0).
    { unfold ksum. rewrite (Nat.min_comm j i). apply bigsum_ext. intros k Hk. cbn [Nat.leb andb].
      destruct (Nat.ltb_spec k (Nat.min i j)); auto. rewrite (IH k) by lia. rewrite (IH k ltac:(lia) i) by lia. ring. }
    lra.
  - rewrite (Hz i j) by (auto; lia). rewrite (Hz j i); [ring|auto|]. intros Hst. apply Hns. apply Hps; auto; lia.
Qed.
