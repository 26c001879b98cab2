(** Properties C78 and C79: BiCGSTAB and BiCGSTAB2: the proofs. *)
From Coq Require Import List Arith Lia Bool Reals Lra.
From Verif Require Import Res SumR SparseModel SparseSpec DenseModel DenseR LUModel KrylovModel KrylovSpec KrylovMain.
Import ListNotations.
Local Open Scope R_scope.
From Coq Require Import FunctionalExtensionality.
From Verif Require Import SparseProof LUProof KrylovProof CGMath KrylovProof2 IluProof IluProof2 SorProof SorProof2 KrylovProof3 BicgMath BicgProof.

Lemma min2 n u v w y ze et : dot n w v = 0 -> dot n y v = 0 ->
  agree n v (fun i => u i - et * y i - ze * w i) ->
  forall e c, norm2 n v <= norm2 n (fun i => u i - e * y i - c * w i).
Proof.
  intros H1 H2 Hv e c. unfold norm2. apply sqrt_le_1_alt.
  assert (Z : dot n v (fun i => (et - e) * y i + (ze - c) * w i) = 0).
  { rewrite dot_lin_r, (dot_sym n v y), (dot_sym n v w), H1, H2. ring. }
  remember (fun i => (et - e) * y i + (ze - c) * w i) as d eqn:Ed.
  rewrite (dot_ext n (fun i => u i - e * y i - c * w i) (fun i => 1 * v i + 1 * d i)
    (fun i => u i - e * y i - c * w i) (fun i => 1 * v i + 1 * d i)) by (intros; rewrite Ed, Hv by auto; ring).
  rewrite dot_lin_l, !dot_lin_r.
  rewrite (dot_sym n d v), Z. assert (P := dot_nonneg n d). lra.
Qed.

(** the operator of a diagonal or triangular preconditioner *)
Lemma LU_injective n (q : nat -> nat -> R) x : (forall i, (i < n)%nat -> q i i <> 0) ->
  (forall i, (i < n)%nat -> matvec n (matmul n (lower_part q) (upper_part q)) x i = 0) ->
  forall i, (i < n)%nat -> x i = 0.
Proof.
  intros Hd Hz.
  assert (E : forall i, (i < n)%nat -> matvec n (lower_part q) (matvec n (upper_part q) x) i = 0).
  { intros i Hi. rewrite <- (Hz i Hi). unfold matvec, matmul.
    rewrite (bigsum_ext n _ (fun j => bigsum n (fun k => lower_part q i j * upper_part q j k * x k))).
    - rewrite bigsum_swap. apply bigsum_ext. intros j Hj. now rewrite bigsum_scal_r.
    - intros j Hj. rewrite <- bigsum_scal. apply bigsum_ext. intros; ring. }
  assert (Y : forall i, (i < n)%nat -> matvec n (upper_part q) x i = 0).
  { intros i. induction i as [i IH] using lt_wf_ind. intros Hi. specialize (E i Hi). unfold matvec at 1 in E.
    rewrite (bigsum_single n i) in E; auto.
    - unfold lower_part in E. rewrite Nat.eqb_refl in E. lra.
    - intros j Hj Hne. unfold lower_part. destruct (Nat.eqb_spec i j); [congruence|].
      destruct (Nat.ltb_spec j i); [rewrite IH by auto; ring|ring]. }
  assert (X : forall d i, (n - i <= d)%nat -> (i < n)%nat -> x i = 0).
  { induction d as [|d IH]; intros i Hd' Hi; [lia|]. specialize (Y i Hi). unfold matvec in Y.
    rewrite (bigsum_single n i) in Y; auto.
    - unfold upper_part in Y. destruct (Nat.leb_spec i i); [|lia]. apply Rmult_integral in Y. destruct Y as [Y|Y]; auto. now apply Hd in Y.
    - intros j Hj Hne. unfold upper_part. destruct (Nat.leb_spec i j); [|ring]. rewrite (IH j) by lia. ring. }
  intros i Hi. apply (X n i); lia.
Qed.

Definition of_pre (n : nat) (pre : list R -> res (list R)) (u : nat -> R) : nat -> R :=
  ix (match pre (tab n u) with Ok x => x | Fail _ => [] end).
Lemma of_pre_computes n pre : (forall v, length v = n -> exists w, pre v = Ok w /\ length w = n) -> computes n pre (of_pre n pre).
Proof.
  intros H v Lv. destruct (H v Lv) as (w & E & L). exists w. splits; auto. intros i Hi. unfold of_pre. rewrite tab_self by auto. now rewrite E.
Qed.
Lemma of_pre_ext n pre u v : agree n u v -> of_pre n pre u = of_pre n pre v.
Proof.
  intros H. unfold of_pre. replace (tab n v) with (tab n u); auto. unfold tab. apply map_ext_in. intros i Hi. apply in_seq in Hi. apply H. lia.
Qed.

Lemma ilu_lin n M : square_csr n M -> (forall i, (i < n)%nat -> entry M i i <> 0) ->
  computes n (pre_ilu0 M) (of_pre n (pre_ilu0 M)) /\
  forall x u y v i, (i < n)%nat -> of_pre n (pre_ilu0 M) (lc x u y v) i = lc x (of_pre n (pre_ilu0 M) u) y (of_pre n (pre_ilu0 M) v) i.
Proof.
  intros HM Hd. pose proof HM as (Hw & _). apply wf_repr in Hw. destruct Hw as [rows Hrep].
  assert (P : forall v, length v = n -> exists w, pre_ilu0 M v = Ok w /\ length w = n /\
    forall i, (i < n)%nat -> matvec n (matmul n (lower_part (entry M)) (upper_part (entry M))) (ix w) i = ix v i).
  { intros v Lv. apply (pre_ilu0_ok n M rows HM Hrep v Lv Hd). }
  split; [apply of_pre_computes; intros v Lv; destruct (P v Lv) as (w & E & L & _); eauto|].
  assert (S : forall u i, (i < n)%nat -> matvec n (matmul n (lower_part (entry M)) (upper_part (entry M))) (of_pre n (pre_ilu0 M) u) i = u i).
  { intros u i Hi. unfold of_pre. destruct (P (tab n u) (tab_length n u)) as (w & E & L & V). rewrite E, V by auto. now apply tab_ix. }
  intros x u y v i Hi. set (K := of_pre n (pre_ilu0 M)) in *.
  assert (Z : (fun j => 1 * K (lc x u y v) j + (-1) * lc x (K u) y (K v) j) i = 0).
  { apply (LU_injective n (entry M) (fun j => 1 * K (lc x u y v) j + (-1) * lc x (K u) y (K v) j)); auto. intros j Hj. rewrite matvec_lin, S by auto. unfold lc at 2.
    rewrite matvec_lin, !S by auto. unfold lc. ring. }
  cbn in Z. lra.
Qed.

Lemma scaling_bad n D v i : length D = n -> length v = n -> (i < n)%nat -> ix D i = 0 -> scaling D v = Fail DivByZero.
Proof.
  intros LD Lv Hi Hz. unfold scaling. rewrite LD.
  assert (G : forall l, (forall k, In k l -> (k < n)%nat) -> In i l ->
    mapM (fun i => x <- rd v i ;; d <- rd D i ;; Rdiv_res x d) l = Fail DivByZero).
  { induction l as [|k l IH]; intros Hl Hin; [destruct Hin|]. cbn [mapM].
    assert (Hk : (k < n)%nat) by (apply Hl; now left).
    rewrite (rd_nth v k 0), (rd_nth D k 0) by lia. cbn [bind]. fold (ix D k).
    destruct (Req_EM_T (ix D k) 0) as [E|E]; [rewrite E, Rdiv_res_0; reflexivity|].
    rewrite Rdiv_res_ok by auto. cbn [bind]. rewrite IH; auto; [intros; apply Hl; now right|].
    destruct Hin as [->|]; auto. contradiction. }
  apply G; [intros k Hk; apply in_seq in Hk; lia|apply in_seq; lia].
Qed.
Lemma scaling_lin (D : list R) x u y v i : (fun w : nat -> R => fun j => w j / ix D j) (lc x u y v) i =
  lc x (fun j => u j / ix D j) y (fun j => v j / ix D j) i.
Proof. unfold lc, Rdiv. ring. Qed.

Lemma diag_dec n (D : list R) : (forall i, (i < n)%nat -> ix D i <> 0) \/ exists i, (i < n)%nat /\ ix D i = 0.
Proof.
  induction n as [|n IH]; [left; intros; lia|]. destruct IH as [H|(i & Hi & E)]; [|right; exists i; split; auto; lia].
  destruct (Req_EM_T (ix D n) 0); [right; exists n; auto|left]. intros i Hi. destruct (Nat.eq_dec i n) as [->|]; auto. apply H. lia.
Qed.
Lemma mdiag_dec n (D : nat -> R) : (forall i, (i < n)%nat -> D i <> 0) \/ exists i, (i < n)%nat /\ D i = 0.
Proof.
  induction n as [|n IH]; [left; intros; lia|]. destruct IH as [H|(i & Hi & E)]; [|right; exists i; split; auto; lia].
  destruct (Req_EM_T (D n) 0); [right; exists n; auto|left]. intros i Hi. destruct (Nat.eq_dec i n) as [->|]; auto. apply H. lia.
Qed.
Lemma okd_cases n A b eps (q : res (bool * list R)) :
  okd (fun cx => fst cx = true) q -> (forall x, q = Ok (true, x) -> accurate n A b eps x) ->
  (exists x, q = Ok (true, x) /\ accurate n A b eps x) \/ q = Fail DivByZero.
Proof.
  intros H Ha. destruct q as [[c x]|e]; cbn in H; subst; auto. left. exists x. auto.
Qed.
Lemma bcg_bad n A pre p0 p b itr eps : square_csr n A -> length b = n -> (p0 b = Fail DivByZero \/ p0 b = Ok p /\ pre p = Fail DivByZero) ->
  bcg A pre p0 b (S itr) eps = Fail DivByZero.
Proof.
  intros HA Hb H. unfold bcg. destruct (start_ok n A b HA Hb) as (Ax & E1 & E2).
  rewrite E1. cbn [bind]. rewrite E2. cbn [bind]. destruct H as [-> | [-> E]]; auto. cbn [bind].
  rewrite (inner_ok n) by auto. cbn [bind iterate]. unfold bcg_step at 1; cbn [bs_p bind]. now rewrite E.
Qed.
Definition exS : csr R := mkCsr 2 2 [0; 1; 2]%nat [1; 0]%nat [1; -1].
Lemma exS_square : square_csr 2 exS.
Proof. ex_square [[(1%nat, 1)]; [(0%nat, -1)]]. Qed.

Lemma C78_bicgstab_step_pf : forall (n : nat) (A : csr R) (pre : list R -> res (list R)) (K : (nat -> R) -> nat -> R) (rd p : list R) (s s' : bcg_state),
  square_csr n A -> computes n pre K ->
  (forall u v, (forall i, (i < n)%nat -> u i = v i) -> forall i, (i < n)%nat -> K u i = K v i) ->
  length rd = n -> length (bs_x s) = n -> length (bs_r s) = n -> length p = n ->
  bs_p s = Ok p -> bs_rr s = dot n (ix rd) (ix (bs_r s)) ->
  bcg_step A pre rd s = Ok s' ->
  let AK u := matvec n (entry A) (K u) in
  exists alpha omega : R,
  let t i := ix (bs_r s) i - alpha * AK (ix p) i in
  dot n (ix rd) t = 0 /\
  (forall i, (i < n)%nat -> ix (bs_r s') i = t i - omega * AK t i) /\
  (forall c, norm2 n (ix (bs_r s')) <= norm2 n (fun i => t i - c * AK t i)) /\
  bs_rr s' = dot n (ix rd) (ix (bs_r s')) /\
  (forall p', bs_p s' = Ok p' -> exists beta,
     dot n (ix rd) (AK t) + beta * dot n (ix rd) (AK (ix p)) = 0 /\
     forall i, (i < n)%nat -> ix p' i = ix (bs_r s') i + beta * (ix p i - omega * AK (ix p) i)).
Proof.
  intros n A pre K rd p s s' HA HK Kext Lrd Lx Lr Lp Ep Hrr E AK.
  destruct (bcg_step_facts n A rd HA Lrd pre K HK Kext rd s s' Lrd) as ((_ & _ & _ & Hrr') & (al & om) & p' & Ep' & _ & Fa & Fr & Fm & Fb); auto.
  { unfold stab_ok. rewrite Ep. splits; auto. }
  rewrite Ep in Ep'. injection Ep' as <-. exists al, om. intros t.
  assert (Et : t = lc 1 (ix (bs_r s)) (- al) (Bo n A K (ix p))).
  { apply functional_extensionality. intros i. unfold t, lc, AK, Bo. ring. }
  rewrite <- Et in Fr, Fm. clearbody t. subst t.
  assert (R1 : forall i, (i < n)%nat -> ix (bs_r s') i = lc 1 (ix (bs_r s)) (- al) (Bo n A K (ix p)) i - om * AK (lc 1 (ix (bs_r s)) (- al) (Bo n A K (ix p))) i).
  { intros i Hi. rewrite Fr by auto. unfold lc at 1. unfold AK, Bo. ring. }
  assert (R0 : dot n (ix rd) (lc 1 (ix (bs_r s)) (- al) (Bo n A K (ix p))) = 0).
  { unfold lc. rewrite dot_lin_r. unfold Bo at 1. unfold Bo in Fa. lra. }
  split; auto. split; auto. split; [|split; auto].
  - intros c. specialize (Fm c). replace (fun i => lc 1 (ix (bs_r s)) (- al) (Bo n A K (ix p)) i - c * AK (lc 1 (ix (bs_r s)) (- al) (Bo n A K (ix p))) i)
      with (lc 1 (lc 1 (ix (bs_r s)) (- al) (Bo n A K (ix p))) (- c) (Bo n A K (lc 1 (ix (bs_r s)) (- al) (Bo n A K (ix p))))); auto.
    apply functional_extensionality. intros i. unfold lc at 1. unfold AK, Bo. ring.
  - intros p' Hp. destruct (Fb p' Hp) as (Nz & Nr & be & Ebe & V). exists be. split.
    + set (t := lc 1 (ix (bs_r s)) (- al) (Bo n A K (ix p))) in *.
      rewrite Hrr', (dot_ext n (ix rd) (ix rd) (ix (bs_r s')) (fun i => 1 * t i + - om * AK t i)) in Ebe by (auto; intros; rewrite R1 by auto; ring).
      rewrite dot_lin_r, R0 in Ebe. unfold Bo in Fa. fold (AK (ix p)) in Fa. rewrite <- Fa in Ebe, Nr.
      assert (Na : al <> 0) by (intros Z; apply Nr; rewrite Z; ring).
      apply (Rmult_eq_reg_l (al * om)); [|now apply Rmult_integral_contrapositive_currified]. nra.
    + intros i Hi. rewrite V by auto. unfold lc. unfold AK, Bo. ring.
Qed.

Lemma C78_bicgstab2_step_pf : forall (n : nat) (A : csr R) (b : list R) (st : nat -> b2_state) (N : nat),
  square_csr n A -> length b = n ->
  st 0%nat = mkB2 (repeat 0 n) b (repeat 0 n) (repeat 0 n) (repeat 0 n) (Ok (repeat 0 n)) (repeat 0 n) (Ok 0) (dot n (ix b) (ix b)) ->
  (forall j, (j < N)%nat -> b2_step A b j (st j) = Ok (st (S j))) ->
  forall k, (k < N)%nat ->
  let Am := matvec n (entry A) in
  let r := ix (b2_r (st k)) in let r' := ix (b2_r (st (S k))) in
  let p := ix (b2_p (st (S k))) in let t := ix (b2_t (st (S k))) in
  exists alpha beta : R, b2_beta (st k) = Ok beta /\
  let y i := ix (b2_t (st k)) i - r i - alpha * (Am (ix (b2_t (st k))) i + beta * Am (ix (b2_p (st k))) i - Am p i) in
  (forall i, (i < n)%nat -> t i = r i - alpha * Am p i) /\
  dot n (ix b) t = 0 /\
  (Nat.even k = true -> forall c, norm2 n r' <= norm2 n (fun i => t i - c * Am t i)) /\
  (Nat.even k = false -> forall e c, norm2 n r' <= norm2 n (fun i => t i - e * y i - c * Am t i)) /\
  b2_rr (st (S k)) = dot n (ix b) r'.
Proof.
  intros n A b st N HA Hb E0 Hst k Hk Am r r' p t.
  destruct (b2_run n A b HA Hb st N) as [O [c Hc]]; auto.
  { rewrite E0. unfold b2_start. now rewrite Hb. }
  destruct (O (S k) ltac:(lia)) as (_ & _ & _ & Hrr'). destruct (O k ltac:(lia)) as (_ & _ & _ & Hrr).
  specialize (Hc k Hk). destruct (c k) as [[al ze] et]. destruct Hc as (bk & Ebk & Fp & Fa & Ft & (Fr & F1 & F2) & Fu & Fe & _).
  exists al, bk. split; auto. intros y.
  assert (Ey : b2_y n A (st k) (st (S k)) bk al = y).
  { apply functional_extensionality. intros i. unfold b2_y, y, Am, r, p. ring. }
  rewrite Ey in Fr, F2. clearbody y. fold r r' p t Am in Fr, F1, F2, Ft, Fa, Hrr, Hrr'.
  assert (T : forall i, (i < n)%nat -> t i = r i - al * Am p i) by (intros i Hi; rewrite Ft by auto; unfold lc; ring).
  split; auto. split; [|split; [|split; auto]].
  - rewrite (dot_ext n (ix b) (ix b) t (fun i => 1 * r i + - al * Am p i)) by (auto; intros; rewrite T by auto; ring).
    rewrite dot_lin_r. lra.
  - intros Hev c'. rewrite (Fe Hev) in Fr.
    assert (M := min2 n t r' (Am t) (fun _ => 0) ze 0 F1 (dot_0_l n r')). specialize (M ltac:(intros; rewrite Fr by auto; ring) 0 c').
    replace (fun i => t i - c' * Am t i) with (fun i => t i - 0 * 0 - c' * Am t i); auto. apply functional_extensionality. intros; ring.
  - intros Hod e c'. apply (min2 n t r' (Am t) y ze et F1 (F2 Hod) Fr).
Qed.

Lemma C79_bicgstab_terminates_pf : forall (n : nat) (A M : csr R) (b : list R) (itrmax : nat) (eps : R),
  square_csr n A -> square_csr n M -> length b = n -> nonzero n (ix b) -> 0 < eps -> (n < itrmax)%nat ->
  ((exists x, bicgstab A b itrmax eps = Ok (true, x) /\ accurate n A b eps x) \/ bicgstab A b itrmax eps = Fail DivByZero) /\
  ((exists x, scaling_bicgstab A b itrmax eps = Ok (true, x) /\ accurate n A b eps x) \/ scaling_bicgstab A b itrmax eps = Fail DivByZero) /\
  ((exists x, ilu0_bicgstab A M b itrmax eps = Ok (true, x) /\ accurate n A b eps x) \/ ilu0_bicgstab A M b itrmax eps = Fail DivByZero) /\
  ((exists x, bicgstab2 A b itrmax eps = Ok (true, x) /\ accurate n A b eps x) \/ bicgstab2 A b itrmax eps = Fail DivByZero).
Proof.
  intros n A M b itrmax eps HA HM Hb Hnb He Hn. splits.
  - apply okd_cases with (n := n) (A := A) (b := b) (eps := eps); [|intros x E; destruct (C23_bicgstab_family_pf n A M b itrmax eps x HA Hb) as (H1 & H2 & H3 & H4); auto].
    apply (bcg_terminates n A b HA Hb Hnb (fun v => Ok v) (fun u => u)) with (p0 := b); auto.
    apply id_computes.
  - apply okd_cases with (n := n) (A := A) (b := b) (eps := eps); [|intros x E; destruct (C23_bicgstab_family_pf n A M b itrmax eps x HA Hb) as (H1 & H2 & H3 & H4); auto].
    unfold scaling_bicgstab. destruct (get_diagonal_ok n A HA) as (D & ED & LD & VD). rewrite ED. cbn [bind].
    destruct (diag_dec n D) as [Hd|(i & Hi & Hz)].
    + destruct (scaling_computes n D LD Hd b Hb) as (p0 & Ep & Lp & _).
      apply (bcg_terminates n A b HA Hb Hnb (scaling D) (fun u j => u j / ix D j)) with (p0 := p0); auto.
      * now apply scaling_computes.
      * intros u v H i Hi. now rewrite H.
      * intros. apply scaling_lin.
    + destruct itrmax as [|itr]; [lia|]. rewrite (bcg_bad n A _ _ []); auto; [reflexivity|]. left. now apply (scaling_bad n D b i).
  - apply okd_cases with (n := n) (A := A) (b := b) (eps := eps); [|intros x E; destruct (C23_bicgstab_family_pf n A M b itrmax eps x HA Hb) as (H1 & H2 & H3 & H4); auto].
    unfold ilu0_bicgstab. destruct (mdiag_dec n (fun i => entry M i i)) as [Hd|(i & Hi & Hz)].
    + destruct (ilu_lin n M HM Hd) as [HK HL].
      apply (bcg_terminates n A b HA Hb Hnb (pre_ilu0 M) (of_pre n (pre_ilu0 M))) with (p0 := b); auto.
      intros u v H i Hi. now rewrite (of_pre_ext n _ u v).
    + destruct itrmax as [|itr]; [lia|]. rewrite (bcg_bad n A _ _ b); auto; [reflexivity|]. right. split; auto.
      pose proof HM as (Hw & _). apply wf_repr in Hw. destruct Hw as [rows Hrep]. now apply (pre_ilu0_zero n M rows HM Hrep b i).
  - apply okd_cases with (n := n) (A := A) (b := b) (eps := eps); [|intros x E; destruct (C23_bicgstab_family_pf n A M b itrmax eps x HA Hb) as (H1 & H2 & H3 & H4); auto].
    now apply (bicgstab2_terminates n).
Qed.

Lemma C79_breakdown_pf : exists (A : csr R) (b : list R), square_csr 2 A /\ length b = 2%nat /\ nonzero 2 (ix b) /\
  (forall u, (forall i, (i < 2)%nat -> matvec 2 (entry A) u i = 0) -> forall i, (i < 2)%nat -> u i = 0) /\
  forall itr eps, bicgstab A b (S itr) eps = Fail DivByZero /\ bicgstab2 A b (S itr) eps = Fail DivByZero.
Proof.
  exists exS, [1; 0]. split; [exact exS_square|]. split; [reflexivity|]. split; [exists 0%nat; split; [lia|]; unfold ix; cbn; lra|]. split.
  - intros u H i Hi. assert (H0 := H 0%nat ltac:(lia)). assert (H1 := H 1%nat ltac:(lia)).
    unfold matvec, entry, csr_entry in H0, H1. cbn in H0, H1. destruct i as [|[|]]; [lra|lra|lia].
  - intros itr eps. split.
    + unfold bicgstab, bcg, exS, csr_mulvec; cbn. unfold bcg_step at 1; cbn. unfold csr_mulvec; cbn. unfold inner; cbn.
      match goal with |- context [Rdiv_res ?a ?b] => replace b with 0 by lra end. now rewrite Rdiv_res_0.
    + unfold bicgstab2, exS, csr_mulvec; cbn. unfold b2_step at 1; cbn. unfold csr_mulvec; cbn. unfold inner; cbn.
      match goal with |- context [Rdiv_res ?a ?b] => replace b with 0 by lra end. now rewrite Rdiv_res_0.
Qed.
