(** Properties C22-C28, C56-C58: iterative solvers: the proofs. *)
From Coq Require Import List Arith Lia Bool Reals Lra Sorted.
From Verif Require Import Res SumR SparseModel SparseSpec SparseProof SparseProof2 DenseModel DenseR LUModel LUProof KrylovModel KrylovSpec KrylovProof CGMath KrylovProof2 IluProof IluProof2 SorProof SorProof2 KrylovProof3.
Import ListNotations.
Local Open Scope R_scope.
(** example matrices *)
Definition exA : csr R := mkCsr 2 2 [0; 2; 4]%nat [0; 1; 0; 1]%nat [2; 1; 1; 2].
Definition exU : csr R := mkCsr 2 2 [0; 2; 3]%nat [0; 1; 1]%nat [1; 1; 1].
Definition exI : csr R := mkCsr 2 2 [0; 1; 2]%nat [0; 1]%nat [1; 1].
Definition exM : csr R := mkCsr 2 2 [0; 2; 4]%nat [0; 1; 0; 1]%nat [2; 1; /2; 3/2].
Ltac ex_square rows :=
  match goal with |- square_csr _ ?A =>
  unfold square_csr;
  let H := fresh in assert (H : repr A rows) by (unfold repr; splits; [reflexivity..|]; unfold srow; cbn; repeat first [apply Forall_nil | apply Forall_cons | apply SSorted_nil | apply SSorted_cons | progress cbn | lia]);
  splits; [exact (repr_wf _ _ H)|eapply repr_cols; [exact H|]; cbn; intros row k Hr Hk;
    repeat (destruct Hr as [<-|Hr]; [cbn in Hk; repeat (destruct Hk as [<-|Hk]; [lia|]); destruct Hk|]); destruct Hr|reflexivity|reflexivity] end.
Lemma exA_square : square_csr 2 exA.
Proof. ex_square [[(0%nat, 2); (1%nat, 1)]; [(0%nat, 1); (1%nat, 2)]]. Qed.
Lemma exU_square : square_csr 2 exU.
Proof. ex_square [[(0%nat, 1); (1%nat, 1)]; [(1%nat, 1)]]. Qed.
Lemma exI_square : square_csr 2 exI.
Proof. ex_square [[(0%nat, 1)]; [(1%nat, 1)]]. Qed.
Lemma exM_square : square_csr 2 exM.
Proof. ex_square [[(0%nat, 2); (1%nat, 1)]; [(0%nat, /2); (1%nat, 3/2)]]. Qed.
Lemma exA_entry i j : (i < 2)%nat -> (j < 2)%nat -> entry exA i j = if (i =? j)%nat then 2 else 1.
Proof. intros Hi Hj. destruct i as [|[|]], j as [|[|]]; try lia; reflexivity. Qed.
Lemma exA_sym : symmetric 2 (entry exA).
Proof. intros i j Hi Hj. rewrite !exA_entry, Nat.eqb_sym by auto. reflexivity. Qed.
Lemma exA_pos : pos_def 2 (entry exA).
Proof.
  intros u (i & Hi & Hne). unfold dot, matvec. cbn [bigsum]. rewrite !exA_entry by lia. cbn [Nat.eqb].
  assert (0 < u 0%nat * u 0%nat \/ 0 < u 1%nat * u 1%nat).
  { destruct i as [|[|]]; [left|right|lia]; nra. }
  nra.
Qed.
Lemma exI_entry i j : (i < 2)%nat -> (j < 2)%nat -> entry exI i j = delta i j.
Proof. intros Hi Hj. unfold delta. destruct i as [|[|]], j as [|[|]]; try lia; reflexivity. Qed.

Lemma C22_cg_family_pf : forall (n : nat) (A M : csr R) (b : list R) (itrmax : nat) (eps : R) (x : list R),
  square_csr n A -> length b = n ->
  (cg A b itrmax eps = Ok (true, x) -> accurate n A b eps x) /\
  (scaling_cg A b itrmax eps = Ok (true, x) -> accurate n A b eps x) /\
  (ilu0_cg A M b itrmax eps = Ok (true, x) -> accurate n A b eps x) /\
  (forall w soritr soreps, sor_cg A b itrmax eps w soritr soreps = Ok (true, x) -> accurate n A b eps x).
Proof.
  intros n A M b itrmax eps x HA Hb. splits.
  - now apply cg_accurate.
  - unfold scaling_cg. intros E. inv_bind E. apply (pcg_accurate n A b HA Hb (scaling x0) itrmax eps x); auto.
    apply scaling_length. apply get_diagonal_length in Hx. destruct HA as (_ & _ & <- & _). auto.
  - apply pcg_accurate; auto. apply pre_ilu0_length.
  - intros w si se. apply pcg_accurate; auto. intros v z Lv E. inv_bind E. destruct x0 as [c z']. injection E as <-.
    apply (sor_length n) in Hx; auto. apply HA.
Qed.

Lemma C23_bicgstab_family_pf : forall (n : nat) (A M : csr R) (b : list R) (itrmax : nat) (eps : R) (x : list R),
  square_csr n A -> length b = n ->
  (bicgstab A b itrmax eps = Ok (true, x) -> accurate n A b eps x) /\
  (scaling_bicgstab A b itrmax eps = Ok (true, x) -> accurate n A b eps x) /\
  (ilu0_bicgstab A M b itrmax eps = Ok (true, x) -> accurate n A b eps x) /\
  (bicgstab2 A b itrmax eps = Ok (true, x) -> accurate n A b eps x).
Proof.
  intros n A M b itrmax eps x HA Hb.
  assert (Hid : keeps_length n (fun v => Ok v)) by (intros v w Lv E; injection E as <-; auto).
  splits.
  - unfold bicgstab. apply (bcg_accurate n A b HA Hb); auto.
  - unfold scaling_bicgstab. intros E. inv_bind E.
    assert (Hs : keeps_length n (scaling x0)).
    { apply scaling_length. apply get_diagonal_length in Hx. destruct HA as (_ & _ & <- & _). auto. }
    apply (bcg_accurate n A b HA Hb (scaling x0) (scaling x0) itrmax eps x); auto.
  - unfold ilu0_bicgstab. apply (bcg_accurate n A b HA Hb); auto. apply pre_ilu0_length.
  - now apply b2_accurate.
Qed.

Lemma C24_cg_converges_pf : forall (n : nat) (A : csr R) (b : list R) (itrmax : nat) (eps : R),
  square_csr n A -> length b = n -> symmetric n (entry A) -> pos_def n (entry A) ->
  nonzero n (ix b) -> 0 < eps -> (n <= itrmax)%nat ->
  exists x, cg A b itrmax eps = Ok (true, x) /\ accurate n A b eps x.
Proof.
  intros n A b itrmax eps HA Hb Hs Hp Hnb He Hn.
  destruct (pcg_converges n A id_pre (fun u => u) b HA Hb Hs (fun k => Hp _) (id_computes n)
     (fun u v => eq_refl) (fun u H => dot_pos n u H) eps itrmax He Hnb Hn) as [x E].
  rewrite (cg_is_pcg n) in E by auto. exists x. split; auto. eapply cg_accurate; eauto.
Qed.

Lemma C24_cg_trace_pf : forall (n : nat) (A : csr R) (b : list R),
  square_csr n A -> length b = n -> symmetric n (entry A) -> pos_def n (entry A) ->
  exists (m : nat) (tr : nat -> cg_state), (m <= n)%nat /\ cg_init A b = Ok (tr 0%nat) /\
    (forall k, (k < m)%nat -> cg_step A (tr k) = Ok (tr (S k))) /\
    (forall k, (k < m)%nat -> nonzero n (ix (cg_r (tr k)))) /\
    (forall i, (i < n)%nat -> ix (cg_r (tr m)) i = 0) /\
    (forall i, (i < n)%nat -> matvec n (entry A) (ix (cg_x (tr m))) i = ix b i) /\
    (forall k i, (k <= m)%nat -> (i < n)%nat -> ix (cg_r (tr k)) i = residual n A b (cg_x (tr k)) i) /\
    (forall i j, (i <= m)%nat -> (j <= m)%nat -> i <> j ->
       dot n (ix (cg_r (tr i))) (ix (cg_r (tr j))) = 0 /\
       exists p q, cg_p (tr i) = Ok p /\ cg_p (tr j) = Ok q /\
         dot n (ix p) (matvec n (entry A) (ix q)) = 0).
Proof.
  intros n A b HA Hb Hs Hp.
  destruct (pcg_trace n A id_pre (fun u => u) b HA Hb Hs (fun k => Hp _) (id_computes n)
     (fun u v => eq_refl) (fun u H => dot_pos n u H)) as (m & tr & Hm & E0 & Es & Hn & Hz & Hr & Ho).
  exists m, (fun k => of_p (tr k)). splits; auto.
  - rewrite cg_init_p in E0. destruct (cg_init A b) as [s|]; [|discriminate]. injection E0 as E0. rewrite <- E0. now destruct s.
  - intros k Hk. specialize (Es k Hk). rewrite cg_step_p in Es.
    destruct (cg_step A (of_p (tr k))) as [s|]; [|discriminate]. injection Es as Es. rewrite <- Es. now destruct s.
  - intros i Hi. specialize (Hr m ltac:(lia) i Hi). rewrite Hz in Hr by auto. unfold residual in Hr. unfold of_p; cbn [cg_x]. lra.
  - intros k i Hk Hi. now apply Hr.
Qed.

Lemma C24_scaling_cg_pf : forall (n : nat) (A : csr R) (b : list R) (itrmax : nat) (eps : R),
  square_csr n A -> length b = n -> symmetric n (entry A) -> pos_def n (entry A) ->
  nonzero n (ix b) -> 0 < eps -> (n <= itrmax)%nat ->
  exists x, scaling_cg A b itrmax eps = Ok (true, x) /\ accurate n A b eps x.
Proof.
  intros n A b itrmax eps HA Hb Hs Hp Hnb He Hn. unfold scaling_cg.
  destruct (get_diagonal_ok n A HA) as (D & ED & LD & VD). rewrite ED. cbn [bind].
  assert (HD : forall i, (i < n)%nat -> 0 < ix D i) by (intros; rewrite VD by auto; now apply (pos_def_diag n)).
  destruct (pcg_converges n A (scaling D) (fun u i => u i / ix D i) b HA Hb Hs (fun k => Hp _)) with (eps := eps) (itrmax := itrmax) as [x E]; auto.
  - apply scaling_computes; auto. intros i Hi. specialize (HD i Hi). lra.
  - intros u v. unfold dot. apply bigsum_ext. intros i Hi. specialize (HD i Hi). field. lra.
  - intros u (i & Hi & Hne). unfold dot. apply (bigsum_pos n _ i); auto.
    + intros j Hj. specialize (HD j Hj). replace (u j / ix D j * u j) with (u j * u j * / ix D j) by (field; lra).
      apply Rmult_le_pos; [nra|]. left. now apply Rinv_0_lt_compat.
    + specialize (HD i Hi). replace (u i / ix D i * u i) with (u i * u i * / ix D i) by (field; lra).
      apply Rmult_lt_0_compat; [nra|]. now apply Rinv_0_lt_compat.
  - exists x. split; auto. apply (pcg_accurate n A b HA Hb (scaling D) itrmax); auto. now apply scaling_length.
Qed.

Lemma C24_ilu0_cg_pf : forall (n : nat) (A M : csr R) (b : list R) (itrmax : nat) (eps : R),
  square_csr n A -> length b = n -> symmetric n (entry A) -> pos_def n (entry A) ->
  (forall i j, (i < n)%nat -> (j < n)%nat -> stored A i j -> stored A j i) ->
  ilu0 A = Ok M -> (forall i, (i < n)%nat -> 0 < entry M i i) ->
  nonzero n (ix b) -> 0 < eps -> (n <= itrmax)%nat ->
  (symmetric n (matmul n (lower_part (entry M)) (upper_part (entry M))) /\
   pos_def n (matmul n (lower_part (entry M)) (upper_part (entry M)))) /\
  exists x, ilu0_cg A M b itrmax eps = Ok (true, x) /\ accurate n A b eps x.
Proof.
  intros n A M b itrmax eps HA Hb Hs Hp Hps EM Hd Hnb He Hn.
  destruct (ilu0_main n A HA) as [_ HM]. destruct (HM M EM) as (HMs & _ & _). clear HM.
  assert (Hd' : forall i, (i < n)%nat -> entry M i i <> 0) by (intros i Hi; specialize (Hd i Hi); lra).
  assert (Hsym := ilu0_sym n A M HA EM Hs Hps Hd').
  assert (H1 := symLU_sym n (entry M) Hsym). assert (H2 := symLU_pos n (entry M) Hd Hsym).
  split; [split; auto|].
  destruct (solve_converges n A (pre_ilu0 M) _ b HA Hb Hs Hp H1 H2) with (eps := eps) (itrmax := itrmax) as [x E]; auto.
  - intros v Lv. pose proof HMs as (Hw & _). apply wf_repr in Hw. destruct Hw as [rows Hrep].
    apply (pre_ilu0_ok n M rows HMs Hrep v Lv Hd').
  - exists x. split; auto. apply (pcg_accurate n A b HA Hb (pre_ilu0 M) itrmax); auto. apply pre_ilu0_length.
Qed.

Lemma C25_zero_rhs_pf : forall (n : nat) (A : csr R) (b : list R) (itr : nat) (eps : R),
  square_csr n A -> length b = n -> (forall i, (i < n)%nat -> ix b i = 0) ->
  cg A b (S itr) eps = Fail DivByZero /\
  scaling_cg A b (S itr) eps = Fail DivByZero /\
  bicgstab A b (S itr) eps = Fail DivByZero /\
  bicgstab2 A b (S itr) eps = Fail DivByZero.
Proof.
  intros n A b itr eps HA L Z. assert (Hb : zero_vec n b) by (split; auto). splits.
  - now apply (cg_zero n). - now apply (scaling_cg_zero n). - now apply (bicgstab_zero n). - now apply (bicgstab2_zero n).
Qed.

Lemma C25_zero_rhs_refuted_pf : exists (n : nat) (A : csr R) (b x : list R),
  square_csr n A /\ length b = n /\ symmetric n (entry A) /\ pos_def n (entry A) /\
  length x = n /\ (forall i, (i < n)%nat -> residual n A b x i = 0) /\
  forall itr eps, ~ exists c y, cg A b (S itr) eps = Ok (c, y).
Proof.
  exists 2%nat, exA, [0; 0], [0; 0]. splits; auto using exA_square, exA_sym, exA_pos.
  - intros i Hi. unfold residual, matvec, ix. cbn [bigsum nth]. destruct i as [|[|]]; cbn [nth]; try lia; ring.
  - intros itr eps (c & y & E).
    destruct (C25_zero_rhs_pf 2 exA [0; 0] itr eps exA_square eq_refl) as [H _]; [|congruence].
    intros i Hi. unfold ix. destruct i as [|[|]]; cbn; auto; lia.
Qed.

Lemma C26_ilu0_pf : forall (n : nat) (A : csr R), square_csr n A ->
  (ilu0 A = Fail DivByZero \/ exists m, ilu0 A = Ok m) /\
  forall m, ilu0 A = Ok m -> square_csr n m /\
    (forall i j, (i < n)%nat -> stored m i j <-> stored A i j) /\
    (forall i j, (i < n)%nat -> (j < n)%nat -> stored A i j ->
       matmul n (lower_part (entry m)) (upper_part (entry m)) i j = entry A i j).
Proof. intros n A HA. now apply ilu0_main. Qed.

Lemma C26_complete_pf : forall (n : nat) (A : csr R) (F : nat -> nat -> R), square_csr n A ->
  (forall i j, (i < n)%nat -> ~ stored A i j -> F i j = 0) ->
  (forall i, (i < n)%nat -> F i i <> 0) ->
  (forall i j, (i < n)%nat -> (j < n)%nat -> stored A i j ->
     matmul n (lower_part F) (upper_part F) i j = entry A i j) ->
  exists m, ilu0 A = Ok m /\ forall i j, (i < n)%nat -> (j < n)%nat -> entry m i j = F i j.
Proof. intros n A F HA. now apply ilu0_complete. Qed.

Lemma C26_no_fill_in_pf : forall (n : nat) (A m : csr R) (b x : list R), square_csr n A ->
  (forall i j k, (i < n)%nat -> (j < n)%nat -> (k < i)%nat -> (k < j)%nat ->
     stored A i k -> stored A k j -> stored A i j) ->
  ilu0 A = Ok m ->
  (forall i j, (i < n)%nat -> (j < n)%nat ->
     matmul n (lower_part (entry m)) (upper_part (entry m)) i j = entry A i j) /\
  (length b = n -> pre_ilu0 m b = Ok x ->
   forall i, (i < n)%nat -> matvec n (entry A) (ix x) i = ix b i).
Proof.
  intros n A m b x HA Hcl E. pose proof (ilu0_exact n A m HA E Hcl) as H. split; auto.
  intros Lb Ex i Hi. destruct (ilu0_main n A HA) as [_ HM]. destruct (HM m E) as (Hm & _).
  destruct (pre_ilu0_inv n m b x Hm Lb Ex) as (_ & _ & V). rewrite <- V by auto.
  unfold matvec. apply bigsum_ext. intros j Hj. now rewrite H.
Qed.

Lemma C27_pre_ilu0_pf : forall (n : nat) (M : csr R) (b : list R), square_csr n M -> length b = n ->
  ((forall i, (i < n)%nat -> entry M i i <> 0) ->
   exists x, pre_ilu0 M b = Ok x /\ length x = n /\
     forall i, (i < n)%nat ->
       matvec n (matmul n (lower_part (entry M)) (upper_part (entry M))) (ix x) i = ix b i) /\
  ((exists i, (i < n)%nat /\ entry M i i = 0) -> pre_ilu0 M b = Fail DivByZero).
Proof.
  intros n M b HM Lb. pose proof HM as (Hw & _). apply wf_repr in Hw. destruct Hw as [rows Hrep]. split.
  - now apply (pre_ilu0_ok n M rows).
  - intros (i & Hi & Hz). now apply (pre_ilu0_zero n M rows HM Hrep b i).
Qed.

Lemma C28_sweep_pf : forall (n : nat) (A : csr R) (b x : list R) (w : R),
  square_csr n A -> length b = n -> length x = n ->
  ((forall i, (i < n)%nat -> entry A i i <> 0) ->
   exists x' er, sor_sweep A b w x = Ok (x', er) /\ length x' = n /\
     (forall i, (i < n)%nat -> ix x' i =
        ix x i + w * ((ix b i - bigsum n (fun j => if (j <? i)%nat then entry A i j * ix x' j else
                                                  if (j =? i)%nat then 0 else entry A i j * ix x j))
                      / entry A i i - ix x i)) /\
     match er with
     | Some v => (forall i, (i < n)%nat -> ix x i <> 0) /\ v = bigsum n (fun i => Rabs ((ix x i - ix x' i) / ix x i))
     | None => exists i, (i < n)%nat /\ ix x i = 0
     end) /\
  ((exists i, (i < n)%nat /\ entry A i i = 0) -> sor_sweep A b w x = Fail DivByZero).
Proof.
  intros n A b x w HA Hb Hx. split.
  - intros Hd. destruct (sweep_ok n A b w HA Hb x Hx Hd) as (x' & er & E & L & H & He). exists x', er. splits; auto.
    intros i Hi. rewrite H at 1 by auto. unfold sor_update. destruct (Nat.ltb_spec i i); [lia|]. do 5 f_equal.
    apply bigsum_ext. intros j Hj. destruct (Nat.eqb_spec j i) as [Ej|]; destruct (Nat.ltb_spec j i); auto; lia.
  - intros (i & Hi & Hz). now apply (sweep_zero_diag n A b w HA Hb x i).
Qed.

Lemma C28_fixed_point_pf : forall (n : nat) (A : csr R) (b x : list R) (w : R),
  square_csr n A -> length b = n -> length x = n -> w <> 0 ->
  (forall i, (i < n)%nat -> entry A i i <> 0) ->
  (exists er, sor_sweep A b w x = Ok (x, er)) <->
  (forall i, (i < n)%nat -> matvec n (entry A) (ix x) i = ix b i).
Proof.
  intros n A b x w HA Hb Hx Hw Hd. destruct (sweep_ok n A b w HA Hb x Hx Hd) as (x' & er & E & L & H & _). split.
  - intros (er' & E'). assert (x' = x) by congruence. subst x'. intros i Hi.
    pose proof (residual_sweep n A b w Hb (ix x) (ix x) i Hd Hw H Hi) as Hr.
    rewrite (bigsum_zero n) in Hr by (intros j Hj; destruct (j <? i)%nat; ring).
    replace (entry A i i * (ix x i - ix x i) / w) with 0 in Hr by (field; auto). lra.
  - intros Hsol. exists er. rewrite E. do 2 f_equal. apply (ix_eq n); auto.
    assert (G : forall m i, (i < n)%nat -> (i < m)%nat -> ix x' i = ix x i).
    { induction m as [|m IH]; intros i Hi Him; [lia|]. destruct (Nat.eq_dec i m) as [->|]; [|apply IH; lia].
      rewrite H, (update_residual n A b w) by auto. destruct (Nat.ltb_spec m m); [lia|].
      rewrite (matvec_ext n _ _ (ix x)).
      - rewrite Hsol by auto. unfold Rdiv. ring.
      - intros j Hj. cbv beta. destruct (Nat.ltb_spec j m); auto. }
    intros i Hi. apply (G n); auto.
Qed.

Lemma C28_energy_pf : forall (n : nat) (A : csr R) (b x x' : list R) (w : R) (er : option R),
  square_csr n A -> length b = n -> length x = n -> 0 < w < 2 ->
  symmetric n (entry A) -> (forall i, (i < n)%nat -> 0 < entry A i i) ->
  sor_sweep A b w x = Ok (x', er) ->
  let energy := fun y : list R => dot n (ix y) (matvec n (entry A) (ix y)) / 2 - dot n (ix b) (ix y) in
  energy x' <= energy x /\
  (energy x' = energy x -> forall i, (i < n)%nat -> matvec n (entry A) (ix x) i = ix b i).
Proof.
  intros n A b x x' w er HA Hb Hx Hw Hs Hd E energy.
  assert (Hd' : forall i, (i < n)%nat -> entry A i i <> 0) by (intros i Hi; specialize (Hd i Hi); lra).
  destruct (sweep_ok n A b w HA Hb x Hx Hd') as (x1 & er1 & E1 & L & H & _).
  assert (x1 = x') by congruence. subst x1.
  assert (He := energy_sweep n A b w Hb (ix x) (ix x') Hs Hd' ltac:(lra) H).
  assert (Hc : 0 < / w - / 2) by (pose proof (Rinv_lt_contravar w 2 ltac:(nra) ltac:(lra)); lra).
  assert (Hpos : forall i, (i < n)%nat -> 0 <= entry A i i * (ix x' i - ix x i) ^ 2).
  { intros i Hi. specialize (Hd i Hi). pose proof (pow2_ge_0 (ix x' i - ix x i)). nra. }
  assert (H0 := bigsum_nonneg n _ Hpos). unfold energy2 in He. unfold energy. split; [nra|].
  intros Heq. assert (Hz : bigsum n (fun i => entry A i i * (ix x' i - ix x i) ^ 2) = 0) by nra.
  apply (C28_fixed_point_pf n A b x w HA Hb Hx ltac:(lra) Hd'). exists er.
  replace x with x' at 2; auto. apply (ix_eq n); auto. intros i Hi.
  apply (bigsum_nonneg_eq0 n _ Hpos) with (i := i) in Hz; auto. cbv beta in Hz. specialize (Hd i Hi).
  apply Rmult_integral in Hz. destruct Hz as [Hz|Hz]; [lra|]. apply Rmult_integral in Hz. destruct Hz as [Hz|Hz]; lra.
Qed.

Lemma C28_stop_test_pf : forall (n : nat) (A : csr R) (b x : list R) (w : R) (itrmax : nat) (eps : R),
  square_csr n A -> length b = n -> w <> 0 ->
  sor A b w itrmax eps = Ok (true, x) ->
  length x = n /\ exists y, length y = n /\ (forall i, (i < n)%nat -> ix y i <> 0) /\
    bigsum n (fun i => Rabs ((ix y i - ix x i) / ix y i)) < eps /\
    forall i, (i < n)%nat -> residual n A b x i =
      entry A i i * (ix x i - ix y i) / w -
      bigsum n (fun j => if (j <? i)%nat then 0 else entry A i j * (ix x j - ix y j)).
Proof.
  intros n A b x w itrmax eps HA Hb Hw E. split; [eapply sor_length; eauto; apply HA|].
  unfold sor in E. inv_bind E. destruct x0 as [c s]. injection E as -> <-.
  assert (G : forall left k s0 s', length (fst s0) = n ->
    iterate (fun _ s => sor_sweep A b w (fst s)) (fun s => Ok match snd s with Some e => Rltb e eps | None => false end) left k s0 = Ok (true, s') ->
    exists y e, length y = n /\ sor_sweep A b w y = Ok (fst s', Some e) /\ e < eps).
  { induction left as [|left IH]; intros k s0 s' Ls0 Ei; cbn [iterate] in Ei; [discriminate|].
    destruct (sor_sweep A b w (fst s0)) as [[x1 er1]|] eqn:Hx0; cbn [bind snd] in Ei; [|discriminate].
    destruct er1 as [e|].
    - unfold Rltb in Ei. destruct (Rlt_dec e eps).
      + injection Ei as <-. exists (fst s0), e. splits; auto.
      + apply IH in Ei; auto. cbn. apply sor_sweep_length in Hx0. lia.
    - apply IH in Ei; auto. cbn. apply sor_sweep_length in Hx0. lia. }
  apply G in Hx; [|cbn; rewrite repeat_length; apply HA].
  destruct Hx as (y & e & Ly & Es & He).
  assert (Hd : forall i, (i < n)%nat -> entry A i i <> 0).
  { intros i Hi Hz. rewrite (sweep_zero_diag n A b w HA Hb y i) in Es by auto. discriminate. }
  destruct (sweep_ok n A b w HA Hb y Ly Hd) as (x' & er & E' & L & H & Her).
  rewrite Es in E'. injection E' as <- <-. destruct Her as [Hnz Hv]. exists y. splits; auto.
  - now rewrite <- Hv.
  - intros i Hi. now apply (residual_sweep n A b w Hb (ix y) (ix (fst s)) i Hd Hw H Hi).
Qed.

Lemma C56_lucky_breakdown_pf : forall (n : nat) (A : csr R) (b : list R) (itr : nat) (eps : R),
  square_csr n A -> length b = n ->
  (forall i j, (i < n)%nat -> (j < n)%nat -> entry A i j = if (i =? j)%nat then 1 else 0) ->
  bicgstab A b (S itr) eps = Fail DivByZero.
Proof.
  intros n A b itr eps HA Hb HI. apply (bicgstab_identity n); auto.
Qed.

Lemma C56_lucky_breakdown_refuted_pf : exists (n : nat) (A : csr R) (b x : list R) (eps : R),
  square_csr n A /\ length b = n /\ nonzero n (ix b) /\ symmetric n (entry A) /\ pos_def n (entry A) /\
  (exists c, cg A b n eps = Ok (true, c)) /\
  forall itr, bicgstab A b (S itr) eps = Fail DivByZero.
Proof.
  assert (Hs : symmetric 2 (entry exI)) by (intros i j Hi Hj; rewrite !exI_entry by auto; apply delta_sym).
  assert (Hp : pos_def 2 (entry exI)).
  { intros u (i & Hi & Hne). unfold dot, matvec. cbn [bigsum]. rewrite !exI_entry by lia. unfold delta; cbn [Nat.eqb].
    assert (0 < u 0%nat * u 0%nat \/ 0 < u 1%nat * u 1%nat) by (destruct i as [|[|]]; [left|right|lia]; nra). nra. }
  exists 2%nat, exI, [1; 1], [1; 1], 1. splits; auto using exI_square.
  - exists 0%nat. split; [lia|]. unfold ix; cbn. lra.
  - destruct (C24_cg_converges_pf 2 exI [1; 1] 2 1 exI_square eq_refl Hs Hp) as (x & E & _); [|lra|lia|eauto].
    exists 0%nat. split; [lia|]. unfold ix; cbn. lra.
  - intros itr. apply (bicgstab_identity 2); auto using exI_square, exI_entry.
Qed.

Lemma C57_sor_converges_pf : forall (n : nat) (A : csr R) (b x0 : list R) (w : R),
  square_csr n A -> length b = n -> length x0 = n ->
  symmetric n (entry A) -> pos_def n (entry A) -> 0 < w < 2 ->
  exists xs : nat -> list R, xs 0%nat = x0 /\
    (forall k, exists er, sor_sweep A b w (xs k) = Ok (xs (S k), er)) /\
    exists sol : nat -> R, (forall i, (i < n)%nat -> matvec n (entry A) sol i = ix b i) /\
      forall eps, 0 < eps -> exists K, forall k i, (K <= k)%nat -> (i < n)%nat -> Rabs (ix (xs k) i - sol i) < eps.
Proof.
  intros n A b x0 w HA Hb Hx0 Hs Hp Hw.
  assert (Hd : forall i, (i < n)%nat -> entry A i i <> 0) by (intros i Hi; pose proof (pos_def_diag n _ i Hp Hi); lra).
  set (next := fun x => match sor_sweep A b w x with Ok (y, _) => y | Fail _ => x end).
  set (xs := fun k => Nat.iter k next x0).
  assert (Hl : forall k, length (xs k) = n /\ exists er, sor_sweep A b w (xs k) = Ok (xs (S k), er)).
  { induction k as [|k (IH & er & IH2)].
    - split; [exact Hx0|]. destruct (sweep_ok n A b w HA Hb x0 Hx0 Hd) as (y & er & E & L & _).
      exists er. change (xs 1%nat) with (next x0). unfold next. change (xs 0%nat) with x0. now rewrite E.
    - assert (L : length (xs (S k)) = n).
      { destruct (sweep_ok n A b w HA Hb (xs k) IH Hd) as (y & er' & E & L & _). congruence. }
      split; auto. destruct (sweep_ok n A b w HA Hb (xs (S k)) L Hd) as (y & er' & E & _ & _).
      exists er'. change (xs (S (S k))) with (next (xs (S k))). unfold next. now rewrite E. }
  exists xs. splits; auto.
  - intros k. apply Hl.
  - destruct (sor_limit n A b w HA Hb Hs Hp Hw xs Hx0 (fun k => proj2 (Hl k))) as (sol & H1 & H2).
    exists sol. split; auto. intros eps He.
    assert (G : forall m, (m <= n)%nat -> exists K, forall k i, (K <= k)%nat -> (i < m)%nat -> Rabs (ix (xs k) i - sol i) < eps).
    { induction m as [|m IH]; intros Hm; [exists 0%nat; intros; lia|].
      destruct (IH ltac:(lia)) as [K1 HK1]. destruct (H2 m ltac:(lia) eps He) as [K2 HK2]. exists (Nat.max K1 K2).
      intros k i Hk Hi. destruct (Nat.eq_dec i m) as [->|]; [apply HK2; lia|apply HK1; lia]. }
    apply (G n). lia.
Qed.

Lemma C58_sor_stops_refuted_pf : exists (n : nat) (A : csr R) (b : list R),
  square_csr n A /\ length b = n /\ symmetric n (entry A) /\ pos_def n (entry A) /\
  forall itrmax eps, exists x, sor A b 1 itrmax eps = Ok (false, x) /\
    forall i, (i < n)%nat -> residual n A b x i = 0.
Proof.
  exists 1%nat, (mkCsr 1 1 [0; 1]%nat [0]%nat [1]), [0]. splits; auto.
  - ex_square [[(0%nat, 1)]].
  - intros i j Hi Hj. destruct i, j; try lia. reflexivity.
  - intros u (i & Hi & Hne). destruct i; [|lia]. unfold dot, matvec. cbn. nra.
  - intros itrmax eps.
    assert (G : forall k x, x = 0 -> forall o, exists y, y = 0 /\ exists o',
      iterate (fun _ s => sor_sweep (mkCsr 1 1 [0; 1]%nat [0]%nat [1]) [0] 1 (fst s))
        (fun s => Ok match snd s with Some e => Rltb e eps | None => false end) itrmax k ([x], o) = Ok (false, ([y], o'))).
    { induction itrmax as [|m IH]; intros k x Hx o; cbn [iterate].
      - exists x. split; auto. eexists. reflexivity.
      - unfold sor_sweep at 1. cbn. unfold sor_row; cbn. rewrite Rdiv_res_ok by lra. cbn.
        destruct (Req_EM_T x 0); [|contradiction]. cbn.
        apply IH. subst x. field. }
    destruct (G 0%nat 0 eq_refl (Some 0)) as (y & Hy & o' & E). subst y. exists [0]. split.
    + unfold sor. cbn [crows repeat]. rewrite E. reflexivity.
    + intros i Hi. destruct i; [|lia]. unfold residual, matvec, ix. cbn. ring.
Qed.
