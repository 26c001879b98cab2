(** CG and preconditioned CG follow the sequences of CGMath. *)
From Coq Require Import List Arith Lia Bool Reals Lra.
From Verif Require Import Res SumR SparseModel SparseSpec SparseMain DenseModel DenseR LUModel KrylovModel KrylovSpec KrylovProof CGMath.
Import ListNotations.
Local Open Scope R_scope.

Section Run.
Variables (n : nat) (A : csr R) (pre : list R -> res (list R)) (M : (nat -> R) -> nat -> R) (b : list R).
Hypothesis HA : square_csr n A.
Hypothesis Hb : length b = n.
Hypothesis HAs : symmetric n (entry A).
Hypothesis HAp : forall k, nonzero n (pp n (entry A) M (ix b) k) -> 0 < dot n (pp n (entry A) M (ix b) k) (matvec n (entry A) (pp n (entry A) M (ix b) k)).
Hypothesis Hpre : computes n pre M.
Hypothesis HMs : forall u v, dot n (M u) v = dot n u (M v).
Hypothesis HMp : forall u, nonzero n u -> 0 < dot n (M u) u.
Notation rq := (rq n (entry A) M (ix b)).
Notation pp := (pp n (entry A) M (ix b)).
Notation mv := (matvec n (entry A)).

Lemma M_ext u u' : agree n u u' -> agree n (M u) (M u').
Proof.
  intros H i Hi.
  assert (E : forall w, dot n (M u) w = dot n (M u') w).
  { intros w. rewrite !HMs. apply dot_ext; auto. }
  specialize (E (fun j => delta j i)). unfold dot in E. rewrite !bigsum_delta_r in E by auto. exact E.
Qed.

Definition match_k (k : nat) (s : pcg_state) : Prop :=
  length (pc_x s) = n /\ length (pc_r s) = n /\ agree n (ix (pc_r s)) (rq k) /\
  agree n (ix (pc_r s)) (residual n A b (pc_x s)) /\
  (exists p, pc_p s = Ok p /\ length p = n /\ agree n (ix p) (pp k)) /\
  pc_mrr s = dot n (M (rq k)) (rq k).

Lemma pcg_init_match : exists s, pcg_init A pre b = Ok s /\ match_k 0 s.
Proof.
  unfold pcg_init.
  destruct (Amul_ok n A (repeat 0 (length b)) HA) as (w & E & L & V); [now rewrite repeat_length|].
  rewrite E. cbn [bind]. unfold subtract.
  destruct (walk2_ok (fun bi ai => ai - bi) w b ltac:(lia)) as (r & E2 & L2 & V2). rewrite E2. cbn [bind].
  destruct (Hpre r ltac:(lia)) as (p & E3 & L3 & V3). rewrite E3. cbn [bind].
  rewrite (inner_ok n) by lia. cbn [bind]. eexists. split; [reflexivity|].
  destruct (residual_0 n A b w r HA Hb E E2) as [_ HR].
  assert (Hr : agree n (ix r) (ix b)).
  { intros i Hi. rewrite HR by auto. rewrite Hb. apply residual_0_b. }
  assert (HM : agree n (ix p) (M (ix b))).
  { intros i Hi. rewrite V3 by auto. now apply M_ext. }
  unfold match_k; cbn. splits; auto; try lia. - now rewrite repeat_length.
  - exists p. splits; auto.
  - apply dot_ext; auto.
Qed.

Lemma pcg_step_match k s : match_k k s -> (forall i, (i <= k)%nat -> nonzero n (rq i)) ->
  exists s', pcg_step A pre s = Ok s' /\ match_k (S k) s'.
Proof.
  intros (Lx & Lr & Vr & HR & (p & Ep & Lp & Vp) & Em) Hnz.
  destruct (pcg_divs n (entry A) M (ix b) HAs HMs HMp HAp k Hnz) as [P1 P2].
  unfold pcg_step. rewrite Ep. cbn [bind].
  destruct (Amul_ok n A p HA Lp) as (Ap & E & L & V). rewrite E. cbn [bind].
  assert (VA : agree n (ix Ap) (mv (pp k))).
  { intros i Hi. rewrite V by auto. now apply matvec_ext. }
  rewrite (inner_ok n) by lia. cbn [bind].
  rewrite (dot_ext n (ix p) (pp k) (ix Ap) (mv (pp k))) by auto.
  rewrite Em, Rdiv_res_ok by lra. cbn [bind].
  remember (dot n (M (rq k)) (rq k) / dot n (pp k) (mv (pp k))) as al eqn:Eal.
  destruct (walk2_ok (fun xi yi => xi + al * yi) (pc_x s) p ltac:(lia)) as (x & E1 & L1 & V1).
  unfold xexpay. rewrite E1. cbn [bind].
  destruct (walk2_ok (fun xi yi => xi + - al * yi) (pc_r s) Ap ltac:(lia)) as (r & E2 & L2 & V2).
  rewrite E2. cbn [bind]. rewrite Lx in V1, L1. rewrite Lr in V2, L2.
  destruct (Hpre r ltac:(lia)) as (z & E3 & L3 & V3). rewrite E3. cbn [bind].
  rewrite (inner_ok n) by lia. cbn [bind]. rewrite Rdiv_res_ok by lra. cbn [bind].
  unfold xeaxpy.
  assert (Hr : agree n (ix r) (rq (S k))).
  { intros i Hi. rewrite V2, Vr, VA by auto. rewrite rq_S. unfold alq. now rewrite <- Eal. }
  assert (Hz : agree n (ix z) (M (rq (S k)))).
  { intros i Hi. rewrite V3 by auto. now apply M_ext. }
  rewrite (dot_ext n (ix z) (M (rq (S k))) (ix r) (rq (S k))) by auto.
  remember (dot n (M (rq (S k))) (rq (S k)) / dot n (M (rq k)) (rq k)) as be eqn:Ebe.
  destruct (walk2_ok (fun xi yi => be * xi + yi) p z ltac:(lia)) as (p' & E4 & L4 & V4).
  rewrite Lp in V4, L4.
  eexists. split; [reflexivity|]. unfold match_k; cbn [pc_x pc_r pc_p pc_mrr]. splits; auto.
  - eapply residual_step; eauto.
  - exists p'. splits; auto. intros i Hi. rewrite V4, Vp, Hz by auto. rewrite pp_S. unfold beq. now rewrite <- Ebe.
Qed.

Lemma not_converged_nonzero eps r : 0 < eps -> nonzero n (ix b) -> length r = n ->
  converged eps b r = Ok false -> nonzero n (ix r).
Proof.
  intros He Hnb Lr E. destruct (nonzero_dec n (ix r)) as [|Z]; auto. exfalso.
  unfold converged in E. rewrite !(inner_ok n) in E by auto. cbn [bind] in E. injection E as E.
  unfold Rltb in E. destruct (Rlt_dec _ _) as [|H]; [discriminate|]. apply H.
  rewrite (dot_ext n (ix r) (fun _ => 0) (ix r) (fun _ => 0)) by auto. rewrite dot_0_l, sqrt_0.
  apply Rmult_lt_0_compat; auto. apply sqrt_lt_R0. now apply dot_pos.
Qed.

Lemma pcg_loop eps : 0 < eps -> nonzero n (ix b) -> forall left k s, match_k k s ->
  (forall i, (i <= k)%nat -> nonzero n (rq i)) -> (n <= left + k)%nat ->
  exists s', iterate (fun _ => pcg_step A pre) (fun s => converged eps b (pc_r s)) left k s = Ok (true, s').
Proof.
  intros He Hnb. induction left as [|left IH]; intros k s Hm Hnz Hn.
  - pose proof (pcg_terminates n (entry A) M (ix b) HAs HMs HMp HAp k Hnz). lia.
  - destruct (pcg_step_match k s Hm Hnz) as (s' & E & Hm'). cbn [iterate]. rewrite E. cbn [bind].
    assert (Lr : length (pc_r s') = n) by apply Hm'.
    assert (D : exists d, converged eps b (pc_r s') = Ok d).
    { unfold converged. rewrite !(inner_ok n) by auto. cbn [bind]. eauto. }
    destruct D as [[|] D]; rewrite D; cbn [bind]; [eauto|].
    apply IH; auto; [|lia].
    intros i Hi. destruct (Nat.eq_dec i (S k)) as [->|]; [|apply Hnz; lia].
    apply not_converged_nonzero in D; auto. destruct D as (j & Hj & Hr). exists j. split; auto.
    destruct Hm' as (_ & _ & Vr & _). now rewrite <- Vr.
Qed.

Lemma rq_0_nonzero : nonzero n (ix b) -> forall i, (i <= 0)%nat -> nonzero n (rq i).
Proof. intros H i Hi. assert (i = 0)%nat as -> by lia. exact H. Qed.

Lemma pcg_converges eps itrmax : 0 < eps -> nonzero n (ix b) -> (n <= itrmax)%nat ->
  exists x, pcg A pre b itrmax eps = Ok (true, x).
Proof.
  intros He Hnb Hn. unfold pcg. destruct pcg_init_match as (s & E & Hm). rewrite E. cbn [bind].
  destruct (pcg_loop eps He Hnb itrmax 0 s Hm (rq_0_nonzero Hnb) ltac:(lia)) as (s' & E').
  rewrite E'. cbn [bind]. eauto.
Qed.

(** first index with vanishing residual *)
Lemma first_zero : exists m, (m <= n)%nat /\ (forall k, (k < m)%nat -> nonzero n (rq k)) /\ agree n (rq m) (fun _ => 0).
Proof.
  assert (D : forall k, (forall i, (i < k)%nat -> nonzero n (rq i)) \/
     exists m, (m < k)%nat /\ (forall i, (i < m)%nat -> nonzero n (rq i)) /\ agree n (rq m) (fun _ => 0)).
  { induction k as [|k IH]; [left; intros; lia|]. destruct IH as [H|(m & Hm & H)].
    - destruct (nonzero_dec n (rq k)) as [N|Z].
      + left. intros i Hi. destruct (Nat.eq_dec i k) as [->|]; auto. apply H. lia.
      + right. exists k. splits; auto.
    - right. exists m. split; auto. }
  destruct (D (S n)) as [H|(m & Hm & H1 & H2)].
  - exfalso. pose proof (pcg_terminates n (entry A) M (ix b) HAs HMs HMp HAp n ltac:(intros; apply H; lia)). lia.
  - exists m. splits; auto. lia.
Qed.

Fixpoint runk (k : nat) : res pcg_state :=
  match k with 0%nat => pcg_init A pre b | S k => bind (runk k) (pcg_step A pre) end.
Definition trk (k : nat) : pcg_state := match runk k with Ok s => s | Fail _ => mkPcg [] [] (Ok []) 0 end.

Lemma runk_match k : (forall i, (i < k)%nat -> nonzero n (rq i)) -> runk k = Ok (trk k) /\ match_k k (trk k).
Proof.
  induction k as [|k IH]; intros H; unfold trk.
  - cbn [runk]. destruct pcg_init_match as (s & E & Hm). rewrite E. auto.
  - destruct (IH ltac:(intros; apply H; lia)) as [E Hm]. cbn [runk]. rewrite E. cbn [bind].
    destruct (pcg_step_match k (trk k) Hm ltac:(intros; apply H; lia)) as (s' & E' & Hm'). rewrite E'. auto.
Qed.

Lemma pcg_trace : exists m tr, (m <= n)%nat /\ pcg_init A pre b = Ok (tr 0%nat) /\
  (forall k, (k < m)%nat -> pcg_step A pre (tr k) = Ok (tr (S k))) /\
  (forall k, (k < m)%nat -> nonzero n (ix (pc_r (tr k)))) /\
  (forall i, (i < n)%nat -> ix (pc_r (tr m)) i = 0) /\
  (forall k, (k <= m)%nat -> agree n (ix (pc_r (tr k))) (residual n A b (pc_x (tr k)))) /\
  (forall i j, (i <= m)%nat -> (j <= m)%nat -> i <> j ->
     dot n (ix (pc_r (tr i))) (M (ix (pc_r (tr j)))) = 0 /\
     exists p q, pc_p (tr i) = Ok p /\ pc_p (tr j) = Ok q /\ dot n (ix p) (mv (ix q)) = 0).
Proof.
  destruct first_zero as (m & Hm & H1 & H2). exists m, trk.
  assert (G : forall k, (k <= m)%nat -> runk k = Ok (trk k) /\ match_k k (trk k)).
  { intros k Hk. apply runk_match. intros; apply H1; lia. }
  splits; auto.
  - apply (G 0%nat). lia.
  - intros k Hk. destruct (G k ltac:(lia)) as [E _]. destruct (G (S k) ltac:(lia)) as [E' _].
    cbn [runk] in E'. rewrite E in E'. exact E'.
  - intros k Hk. destruct (G k ltac:(lia)) as (_ & _ & _ & V & _). destruct (H1 k Hk) as (i & Hi & Hr).
    exists i. split; auto. now rewrite V.
  - intros i Hi. destruct (G m ltac:(lia)) as (_ & _ & _ & V & _). rewrite V by auto. now apply H2.
  - intros k Hk. destruct (G k Hk) as (_ & _ & _ & _ & HR & _). auto.
  - intros i j Hi Hj Hne.
    destruct (G i Hi) as (_ & _ & _ & Vi & _ & (p & Ep & Lp & Vp) & _).
    destruct (G j Hj) as (_ & _ & _ & Vj & _ & (q & Eq & Lq & Vq) & _).
    destruct (pcg_orth n (entry A) M (ix b) HAs HMs HMp HAp i j ltac:(intros; apply H1; lia) Hne) as [O1 O2].
    split.
    + rewrite <- O1. apply dot_ext; auto. now apply M_ext.
    + exists p, q. splits; auto. rewrite <- O2. apply dot_ext; auto. intros; now apply matvec_ext.
Qed.
End Run.

(** *** CG is the instance with the identity *)
Definition to_p (s : cg_state) : pcg_state := mkPcg (cg_x s) (cg_r s) (cg_p s) (cg_rr s).
Definition of_p (s : pcg_state) : cg_state := mkCg (pc_x s) (pc_r s) (pc_p s) (pc_mrr s).
Definition id_pre (v : list R) : res (list R) := Ok v.

Lemma cg_step_p A s : pcg_step A id_pre s = bind (cg_step A (of_p s)) (fun s' => Ok (to_p s')).
Proof.
  unfold pcg_step, cg_step, of_p, id_pre; cbn [cg_p cg_x cg_r cg_rr].
  destruct (pc_p s) as [p|]; cbn [bind]; [|reflexivity].
  destruct (Amul A p) as [Ap|]; cbn [bind]; [|reflexivity].
  destruct (inner p _); cbn [bind]; [|reflexivity].
  destruct (Rdiv_res _ _); cbn [bind]; [|reflexivity].
  destruct (xexpay _ _ _); cbn [bind]; [|reflexivity].
  destruct (xexpay _ _ _); cbn [bind]; [|reflexivity].
  destruct (inner _ _); cbn [bind]; reflexivity.
Qed.
Lemma cg_init_p A b : pcg_init A id_pre b = bind (cg_init A b) (fun s => Ok (to_p s)).
Proof.
  unfold pcg_init, cg_init, id_pre.
  destruct (Amul A _); cbn [bind]; [|reflexivity].
  destruct (subtract _ _); cbn [bind]; [|reflexivity].
  destruct (inner _ _); cbn [bind]; reflexivity.
Qed.
Lemma to_of s : to_p (of_p s) = s. Proof. now destruct s. Qed.
Lemma of_to s : of_p (to_p s) = s. Proof. now destruct s. Qed.

Lemma cg_iterate n A b eps : square_csr n A -> length b = n -> forall left k s, cg_inv n A b s ->
  iterate (fun _ => pcg_step A id_pre) (fun s => converged eps b (pc_r s)) left k (to_p s) =
  bind (iterate (fun _ => cg_step A) (cg_done eps b) left k s) (fun '(c, s) => Ok (c, to_p s)).
Proof.
  intros HA Hb. induction left as [|left IH]; intros k s HI; [reflexivity|].
  cbn [iterate]. rewrite cg_step_p, of_to. destruct (cg_step A s) as [s'|f] eqn:E; cbn [bind]; [|reflexivity].
  pose proof (cg_step_inv n A b HA s s' HI E) as HI'.
  assert (D : converged eps b (pc_r (to_p s')) = cg_done eps b s').
  { destruct HI' as (Lx & Lr & _ & Err & _). unfold converged, cg_done, to_p; cbn [pc_r].
    rewrite (inner_ok n b b), (inner_ok n (cg_r s') (cg_r s')) by auto. cbn [bind]. now rewrite Err. }
  rewrite D. destruct (cg_done eps b s') as [[|]|]; cbn [bind]; auto.
Qed.
Lemma cg_is_pcg n A b itrmax eps : square_csr n A -> length b = n ->
  pcg A id_pre b itrmax eps = cg A b itrmax eps.
Proof.
  intros HA Hb. unfold pcg, cg. rewrite cg_init_p. destruct (cg_init A b) as [s|f] eqn:E; cbn [bind]; [|reflexivity].
  rewrite (cg_iterate n) by (auto; eapply cg_init_inv; eauto).
  destruct (iterate _ _ _ _ _) as [[c s']|]; reflexivity.
Qed.

Lemma id_computes n : computes n id_pre (fun u => u).
Proof. intros v Hv. exists v. unfold id_pre. splits; auto. Qed.

(** *** the diagonal preconditioner *)
Lemma csr_get_total n A i j : square_csr n A -> (i < n)%nat -> csr_get 0 A i j = Ok (entry A i j).
Proof.
  intros (Hw & _ & Hr & _) Hi. unfold entry, csr_entry.
  apply SparseProof.wf_repr in Hw. destruct Hw as [rows Hrep]. pose proof Hrep as (Hl & _).
  destruct (rd_lt rows i ltac:(lia)) as [row Hrow]. apply rd_Ok in Hrow.
  now rewrite (SparseProof.csr_get_repr 0 A rows i row j Hrep Hrow).
Qed.
Lemma mapM_seq_ok {B} (f : nat -> res B) (g : nat -> B) n : (forall i, (i < n)%nat -> f i = Ok (g i)) ->
  mapM f (seq 0 n) = Ok (map g (seq 0 n)).
Proof.
  intros H. assert (G : forall l, (forall i, In i l -> (i < n)%nat) -> mapM f l = Ok (map g l)).
  { induction l as [|i l IH]; intros Hl; cbn; auto. rewrite H by (apply Hl; now left). cbn [bind].
    rewrite IH by (intros; apply Hl; now right). reflexivity. }
  apply G. intros i Hi. apply in_seq in Hi. lia.
Qed.
Lemma get_diagonal_ok n A : square_csr n A ->
  exists D, get_diagonal A = Ok D /\ length D = n /\ forall i, (i < n)%nat -> ix D i = entry A i i.
Proof.
  intros HA. pose proof HA as (_ & _ & Hr & _). unfold get_diagonal. rewrite Hr.
  rewrite (mapM_seq_ok _ (fun i => entry A i i)) by (intros; eapply csr_get_total; eauto).
  eexists. split; [reflexivity|]. rewrite map_length, seq_length. split; auto.
  intros i Hi. unfold ix. rewrite (nth_indep _ 0 (entry A 0%nat 0%nat)) by now rewrite map_length, seq_length.
  change (entry A 0%nat 0%nat) with ((fun i => entry A i i) 0%nat). rewrite map_nth, seq_nth by auto. reflexivity.
Qed.
Lemma scaling_computes n D : length D = n -> (forall i, (i < n)%nat -> ix D i <> 0) ->
  computes n (scaling D) (fun u i => u i / ix D i).
Proof.
  intros HD Hnz v Hv. unfold scaling. rewrite HD.
  rewrite (mapM_seq_ok _ (fun i => ix v i / ix D i)).
  - eexists. split; [reflexivity|]. rewrite map_length, seq_length. split; auto.
    intros i Hi. unfold ix at 1. rewrite (nth_indep _ 0 (ix v 0%nat / ix D 0%nat)) by now rewrite map_length, seq_length.
    change (ix v 0%nat / ix D 0%nat) with ((fun i => ix v i / ix D i) 0%nat). rewrite map_nth, seq_nth by auto. reflexivity.
  - intros i Hi. rewrite (rd_nth v i 0) by lia. cbn [bind]. rewrite (rd_nth D i 0) by lia. cbn [bind].
    apply Rdiv_res_ok. now apply Hnz.
Qed.
Lemma pos_def_diag n M i : pos_def n M -> (i < n)%nat -> 0 < M i i.
Proof.
  intros H Hi. specialize (H (fun j => delta j i)).
  assert (N : nonzero n (fun j => delta j i)) by (exists i; rewrite delta_refl; split; auto; lra).
  specialize (H N). unfold dot, matvec in H.
  rewrite (bigsum_ext n _ (fun k => delta k i * M k i)) in H.
  2:{ intros k Hk. f_equal. rewrite (bigsum_delta_r n i (fun j => M k j)) by auto. reflexivity. }
  rewrite (bigsum_delta n i (fun k => M k i)) in H by auto. exact H.
Qed.
