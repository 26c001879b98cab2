(** Lemmas on the vector helpers, and the residual invariants of all solvers. *)
From Coq Require Import List Arith Lia Bool Reals Lra.
From Verif Require Import Res SumR SparseModel SparseSpec SparseMain DenseModel DenseR LUModel KrylovModel KrylovSpec.
Import ListNotations.
Local Open Scope R_scope.

Notation agree n u v := (forall i, (i < n)%nat -> u i = v i).

Lemma walk2_ok f : forall x y, (length x <= length y)%nat ->
  exists r, walk2 f x y = Ok r /\ length r = length x /\ agree (length x) (ix r) (fun i => f (ix x i) (ix y i)).
Proof.
  induction x as [|a x IH]; intros [|b y] H; cbn [length] in *; try lia.
  - exists []. splits; auto. intros; lia.
  - exists []. splits; auto. intros; lia.
  - destruct (IH y ltac:(lia)) as (r & E & L & V). exists (f a b :: r). cbn [walk2 bind]. rewrite E. splits; auto.
    + cbn. lia.
    + intros [|i] Hi; cbn; auto. apply V. lia.
Qed.
Lemma walk3_ok f : forall x y z, (length x <= length y)%nat -> (length x <= length z)%nat ->
  exists r, walk3 f x y z = Ok r /\ length r = length x /\
    agree (length x) (ix r) (fun i => f (ix x i) (ix y i) (ix z i)).
Proof.
  induction x as [|a x IH]; intros y z H1 H2.
  - exists []. splits; auto. intros; cbn in *; lia.
  - destruct y as [|b y]; cbn [length] in *; [lia|]. destruct z as [|c z]; cbn [length] in *; [lia|].
    destruct (IH y z ltac:(lia) ltac:(lia)) as (r & E & L & V). exists (f a b c :: r). cbn [walk3 bind]. rewrite E. splits; auto.
    + cbn. lia.
    + intros [|i] Hi; cbn; auto. apply V. lia.
Qed.
Lemma walk4_ok f : forall w x y z, (length w <= length x)%nat -> (length w <= length y)%nat -> (length w <= length z)%nat ->
  exists r, walk4 f w x y z = Ok r /\ length r = length w /\
    agree (length w) (ix r) (fun i => f (ix w i) (ix x i) (ix y i) (ix z i)).
Proof.
  induction w as [|a w IH]; intros x y z H1 H2 H3.
  - exists []. splits; auto. intros; cbn in *; lia.
  - destruct x as [|b x]; cbn [length] in *; [lia|]. destruct y as [|c y]; cbn [length] in *; [lia|].
    destruct z as [|d z]; cbn [length] in *; [lia|].
    destruct (IH x y z ltac:(lia) ltac:(lia) ltac:(lia)) as (r & E & L & V).
    exists (f a b c d :: r). cbn [walk4 bind]. rewrite E. splits; auto.
    + cbn. lia.
    + intros [|i] Hi; cbn; auto. apply V. lia.
Qed.

Lemma inner_from_ok : forall x y acc, (length x <= length y)%nat ->
  inner_from acc x y = Ok (acc + dot (length x) (ix x) (ix y)).
Proof.
  induction x as [|a x IH]; intros [|b y] acc H; cbn [length] in *; try lia; try (cbn; f_equal; unfold dot; cbn; ring).
  cbn [inner_from]. rewrite IH by lia. f_equal. unfold dot. rewrite bigsum_S_l. unfold ix. cbn. ring.
Qed.
Lemma inner_ok n x y : length x = n -> length y = n -> inner x y = Ok (dot n (ix x) (ix y)).
Proof. intros Hx Hy. unfold inner. rewrite inner_from_ok by lia. rewrite Hx. f_equal. ring. Qed.

Lemma Amul_ok n A v : square_csr n A -> length v = n ->
  exists w, Amul A v = Ok w /\ length w = n /\ agree n (ix w) (matvec n (entry A) (ix v)).
Proof.
  intros (Hw & Hc & Hr & Hcc) Hv. destruct (C06_spmv_csr_pf A v Hw Hc ltac:(lia)) as (y & E & L & V).
  exists y. splits; auto; try lia. intros i Hi. unfold ix at 1. rewrite V by lia. rewrite Hcc. reflexivity.
Qed.

Lemma ix_repeat n i : ix (repeat 0 n) i = 0.
Proof. unfold ix. rewrite nth_repeat. reflexivity. Qed.

Lemma matvec_ext n A u v i : agree n u v -> matvec n A u i = matvec n A v i.
Proof. intros H. apply bigsum_ext. intros j Hj. now rewrite H. Qed.
Lemma matvec_lin n A a u b v i : matvec n A (fun j => a * u j + b * v j) i = a * matvec n A u i + b * matvec n A v i.
Proof. unfold matvec. rewrite <- !bigsum_scal, <- bigsum_plus. apply bigsum_ext; intros; ring. Qed.
Lemma matvec_0 n A i : matvec n A (fun _ => 0) i = 0.
Proof. apply bigsum_zero. intros; ring. Qed.
Lemma matvec_lin3 n A a u b v c w i :
  matvec n A (fun j => a * u j + b * v j + c * w j) i = a * matvec n A u i + b * matvec n A v i + c * matvec n A w i.
Proof. unfold matvec. rewrite <- !bigsum_scal, <- !bigsum_plus. apply bigsum_ext; intros; ring. Qed.
Lemma dot_ext n u u' v v' : agree n u u' -> agree n v v' -> dot n u v = dot n u' v'.
Proof. intros H1 H2. apply bigsum_ext. intros i Hi. now rewrite H1, H2. Qed.

(** inversion forms *)
Lemma walk2_inv n f x y r : length x = n -> length y = n -> walk2 f x y = Ok r ->
  length r = n /\ agree n (ix r) (fun i => f (ix x i) (ix y i)).
Proof.
  intros Hx Hy E. destruct (walk2_ok f x y ltac:(lia)) as (r' & E' & L & V).
  rewrite E in E'. injection E' as <-. rewrite Hx in *. auto.
Qed.
Lemma walk3_inv n f x y z r : length x = n -> length y = n -> length z = n -> walk3 f x y z = Ok r ->
  length r = n /\ agree n (ix r) (fun i => f (ix x i) (ix y i) (ix z i)).
Proof.
  intros Hx Hy Hz E. destruct (walk3_ok f x y z ltac:(lia) ltac:(lia)) as (r' & E' & L & V).
  rewrite E in E'. injection E' as <-. rewrite Hx in *. auto.
Qed.
Lemma walk4_inv n f w x y z r : length w = n -> length x = n -> length y = n -> length z = n -> walk4 f w x y z = Ok r ->
  length r = n /\ agree n (ix r) (fun i => f (ix w i) (ix x i) (ix y i) (ix z i)).
Proof.
  intros Hw Hx Hy Hz E. destruct (walk4_ok f w x y z ltac:(lia) ltac:(lia) ltac:(lia)) as (r' & E' & L & V).
  rewrite E in E'. injection E' as <-. rewrite Hw in *. auto.
Qed.
Lemma Amul_inv n A v w : square_csr n A -> length v = n -> Amul A v = Ok w ->
  length w = n /\ agree n (ix w) (matvec n (entry A) (ix v)).
Proof. intros HA Hv E. destruct (Amul_ok n A v HA Hv) as (w' & E' & L & V). rewrite E in E'. injection E' as <-. auto. Qed.

(** split a successful monadic computation *)
Ltac inv_bind H :=
  repeat match type of H with
  | bind _ _ = Ok _ => apply bind_Ok in H; let x := fresh "x" in let Hx := fresh "Hx" in
      destruct H as (x & Hx & H)
  end.

Lemma iterate_inv {S} (step : nat -> S -> res S) (done : S -> res bool) (Inv : nat -> S -> Prop) :
  (forall k s s', Inv k s -> step k s = Ok s' -> Inv (Datatypes.S k) s') ->
  forall left k s c s', Inv k s -> iterate step done left k s = Ok (c, s') ->
  (exists k', Inv k' s') /\ (c = true -> done s' = Ok true).
Proof.
  intros Hstep. induction left as [|left IH]; intros k s c s' HI E; cbn [iterate] in E.
  - injection E as <- <-. split; [eauto|discriminate].
  - inv_bind E. destruct x0.
    + injection E as <- <-. split; eauto.
    + eapply IH; [|exact E]. eauto.
Qed.

(** the convergence test *)
Lemma converged_true n eps b r A x : square_csr n A -> length b = n -> length r = n -> length x = n ->
  agree n (ix r) (residual n A b x) -> converged eps b r = Ok true -> accurate n A b eps x.
Proof.
  intros HA Hb Hr Hx HR E. unfold converged in E.
  rewrite (inner_ok n b b), (inner_ok n r r) in E by auto. cbn [bind] in E. injection E as E.
  unfold Rltb in E. destruct (Rlt_dec _ _) as [H|]; [|discriminate]. split; auto. unfold norm2.
  rewrite (dot_ext n (residual n A b x) (ix r) (residual n A b x) (ix r)); auto; intros; symmetry; auto.
Qed.

Lemma residual_0 n A b Ax r : square_csr n A -> length b = n ->
  Amul A (repeat 0 (length b)) = Ok Ax -> subtract b Ax = Ok r ->
  length r = n /\ agree n (ix r) (residual n A b (repeat 0 (length b))).
Proof.
  intros HA Hb E1 E2. rewrite Hb in *. apply (Amul_inv n) in E1; auto using repeat_length. destruct E1 as [L V].
  apply (walk2_inv n) in E2; auto. destruct E2 as [L2 V2]. split; auto.
  intros i Hi. rewrite V2, V by auto. reflexivity.
Qed.
Lemma residual_0_b n A b i : residual n A b (repeat 0 n) i = ix b i.
Proof. unfold residual. rewrite (matvec_ext n _ _ (fun _ => 0)), matvec_0 by (intros; apply ix_repeat). ring. Qed.

Section Residuals.
Variables (n : nat) (A : csr R) (b : list R).
Hypothesis HA : square_csr n A.
Hypothesis Hb : length b = n.

Definition lenres (p : res (list R)) : Prop := forall v, p = Ok v -> length v = n.
Definition keeps_length (pre : list R -> res (list R)) : Prop :=
  forall v w, length v = n -> pre v = Ok w -> length w = n.

(** x' = x + a p, r' = r - a A p keep r = b - A x *)
Lemma residual_step (x r p Ap x' r' : list R) a :
  agree n (ix r) (residual n A b x) -> agree n (ix Ap) (matvec n (entry A) (ix p)) ->
  agree n (ix x') (fun i => ix x i + a * ix p i) -> agree n (ix r') (fun i => ix r i + - a * ix Ap i) ->
  agree n (ix r') (residual n A b x').
Proof.
  intros Hr HAp Hx' Hr' i Hi. rewrite Hr', Hr, HAp by auto. unfold residual.
  rewrite (matvec_ext n _ (ix x') (fun j => 1 * ix x j + a * ix p j)) by (intros; rewrite Hx' by auto; ring).
  rewrite matvec_lin. ring.
Qed.

(** *** CG *)
Definition cg_inv (s : cg_state) : Prop :=
  length (cg_x s) = n /\ length (cg_r s) = n /\ lenres (cg_p s) /\
  cg_rr s = dot n (ix (cg_r s)) (ix (cg_r s)) /\ agree n (ix (cg_r s)) (residual n A b (cg_x s)).

Lemma cg_step_inv s s' : cg_inv s -> cg_step A s = Ok s' -> cg_inv s'.
Proof.
  intros (Lx & Lr & Lp & Err & HR) E. unfold cg_step in E. inv_bind E. injection E as <-.
  specialize (Lp x Hx). destruct (Amul_inv n A x x0 HA Lp Hx0) as [LA VA].
  apply (walk2_inv n) in Hx3; auto. destruct Hx3 as [L3 V3].
  apply (walk2_inv n) in Hx4; auto. destruct Hx4 as [L4 V4].
  rewrite (inner_ok n) in Hx5 by auto. injection Hx5 as <-.
  unfold cg_inv; cbn [cg_x cg_r cg_p cg_rr]. splits; auto.
  - intros v Hv. inv_bind Hv. eapply (walk2_inv n) in Hv; tauto.
  - eapply residual_step; eauto.
Qed.

Lemma cg_init_inv s : cg_init A b = Ok s -> cg_inv s.
Proof.
  intros E. unfold cg_init in E. inv_bind E. injection E as <-.
  destruct (residual_0 n A b x x0 HA Hb Hx Hx0) as [L V].
  rewrite (inner_ok n) in Hx1 by auto. injection Hx1 as <-.
  unfold cg_inv; cbn. splits; auto. - now rewrite repeat_length.
  - intros v Ev. injection Ev as <-. auto.
Qed.

Lemma cg_accurate itrmax eps x : cg A b itrmax eps = Ok (true, x) -> accurate n A b eps x.
Proof.
  intros E. unfold cg in E. inv_bind E. destruct x1 as [c s]. injection E as -> <-.
  apply (iterate_inv _ _ (fun _ => cg_inv)) in Hx0; [|intros; eapply cg_step_inv; eauto|eapply cg_init_inv; eauto].
  destruct Hx0 as ((k & Lx & Lr & Lp & Err & HR) & Hd). specialize (Hd eq_refl).
  eapply (converged_true n eps b (cg_r s)); eauto.
  unfold converged. unfold cg_done in Hd. rewrite (inner_ok n b b), (inner_ok n (cg_r s) (cg_r s)) in * by auto.
  cbn [bind] in *. now rewrite <- Err.
Qed.

(** *** preconditioned CG *)
Definition pcg_inv (s : pcg_state) : Prop :=
  length (pc_x s) = n /\ length (pc_r s) = n /\ lenres (pc_p s) /\ agree n (ix (pc_r s)) (residual n A b (pc_x s)).

Lemma pcg_step_inv pre s s' : keeps_length pre -> pcg_inv s -> pcg_step A pre s = Ok s' -> pcg_inv s'.
Proof.
  intros Hpre (Lx & Lr & Lp & HR) E. unfold pcg_step in E. inv_bind E. injection E as <-.
  specialize (Lp x Hx). destruct (Amul_inv n A x x0 HA Lp Hx0) as [LA VA].
  apply (walk2_inv n) in Hx3; auto. destruct Hx3 as [L3 V3].
  apply (walk2_inv n) in Hx4; auto. destruct Hx4 as [L4 V4].
  pose proof (Hpre _ _ L4 Hx5) as L5.
  unfold pcg_inv; cbn [pc_x pc_r pc_p]. splits; auto.
  - intros v Hv. inv_bind Hv. eapply (walk2_inv n) in Hv; tauto.
  - eapply residual_step; eauto.
Qed.

Lemma pcg_init_inv pre s : keeps_length pre -> pcg_init A pre b = Ok s -> pcg_inv s.
Proof.
  intros Hpre E. unfold pcg_init in E. inv_bind E. injection E as <-.
  destruct (residual_0 n A b x x0 HA Hb Hx Hx0) as [L V].
  unfold pcg_inv; cbn. splits; auto. - now rewrite repeat_length.
  - intros v Ev. injection Ev as <-. eauto.
Qed.

Lemma pcg_accurate pre itrmax eps x : keeps_length pre -> pcg A pre b itrmax eps = Ok (true, x) -> accurate n A b eps x.
Proof.
  intros Hpre E. unfold pcg in E. inv_bind E. destruct x1 as [c s]. injection E as -> <-.
  apply (iterate_inv _ _ (fun _ => pcg_inv)) in Hx0; [|intros; eapply pcg_step_inv; eauto|eapply pcg_init_inv; eauto].
  destruct Hx0 as ((k & Lx & Lr & Lp & HR) & Hd). specialize (Hd eq_refl).
  eapply (converged_true n eps b (pc_r s)); eauto.
Qed.

(** *** BiCGSTAB *)
Definition bcg_inv (s : bcg_state) : Prop :=
  length (bs_x s) = n /\ length (bs_r s) = n /\ lenres (bs_p s) /\ agree n (ix (bs_r s)) (residual n A b (bs_x s)).

Lemma bcg_step_inv pre rd s s' : length rd = n -> keeps_length pre -> bcg_inv s -> bcg_step A pre rd s = Ok s' -> bcg_inv s'.
Proof.
  intros Lrd Hpre (Lx & Lr & Lp & HR) E. unfold bcg_step in E. inv_bind E. injection E as <-.
  specialize (Lp x Hx). pose proof (Hpre _ _ Lp Hx0) as L0. destruct (Amul_inv n A _ _ HA L0 Hx1) as [L1 V1].
  apply (walk2_inv n) in Hx4; auto. destruct Hx4 as [L4 V4].
  pose proof (Hpre _ _ L4 Hx5) as L5. destruct (Amul_inv n A _ _ HA L5 Hx6) as [L6 V6].
  apply (walk3_inv n) in Hx10; auto. destruct Hx10 as [L10 V10].
  apply (walk2_inv n) in Hx11; auto. destruct Hx11 as [L11 V11].
  unfold bcg_inv; cbn [bs_x bs_r bs_p]. splits; auto.
  - intros v Hv. inv_bind Hv. eapply (walk3_inv n) in Hv; tauto.
  - intros i Hi. rewrite V11, V4, V6, V1, HR by auto. unfold residual.
    rewrite (matvec_ext n _ _ _ i V10).
    rewrite matvec_lin3. ring.
Qed.

Lemma bcg_accurate pre p0 itrmax eps x : keeps_length pre -> keeps_length p0 ->
  bcg A pre p0 b itrmax eps = Ok (true, x) -> accurate n A b eps x.
Proof.
  intros Hpre Hp0 E. unfold bcg in E. inv_bind E. destruct x4 as [c s]. injection E as -> <-.
  destruct (residual_0 n A b _ _ HA Hb Hx Hx0) as [L V].
  apply (iterate_inv _ _ (fun _ => bcg_inv)) in Hx3; [|intros; eapply (bcg_step_inv pre x1); eauto|].
  - destruct Hx3 as ((k & Lx & Lr & Lp & HR) & Hd). specialize (Hd eq_refl).
    eapply (converged_true n eps b (bs_r s)); eauto.
  - unfold bcg_inv; cbn. splits; auto.
    + now rewrite repeat_length.
    + intros v Ev; injection Ev as <-; eauto.
Qed.

(** *** BiCGSTAB2.  Besides r = b - A x the invariant relates the stored
    vectors: t_{k-1} - r_k = A z_{k-1} (after the first step) and
    w_{k-1} = A t_{k-1} + beta A p_{k-1}. *)
Definition b2_inv (k : nat) (s : b2_state) : Prop :=
  length (b2_x s) = n /\ length (b2_r s) = n /\ length (b2_p s) = n /\ length (b2_u s) = n /\
  length (b2_t s) = n /\ length (b2_z s) = n /\ lenres (b2_w s) /\
  agree n (ix (b2_r s)) (residual n A b (b2_x s)) /\
  (k = 0%nat \/ agree n (matvec n (entry A) (ix (b2_z s))) (fun i => ix (b2_t s) i - ix (b2_r s) i)) /\
  (forall bk wk, b2_beta s = Ok bk -> b2_w s = Ok wk ->
     agree n (ix wk) (fun i => matvec n (entry A) (ix (b2_t s)) i + bk * matvec n (entry A) (ix (b2_p s)) i)).

Lemma b2_coef_even k y t At z e : Nat.even k = true -> b2_coef k y t At = Ok (z, e) -> e = 0.
Proof. intros Hk E. unfold b2_coef in E. rewrite Hk in E. inv_bind E. now injection E. Qed.

Lemma b2_step_inv rd k s s' : length rd = n -> b2_inv k s -> b2_step A rd k s = Ok s' -> b2_inv (S k) s'.
Proof.
  intros Lrd (Lx & Lr & Lp & Lu & Lt & Lz & Lw & HR & Hz & Hw) E. unfold b2_step in E. inv_bind E.
  rename x into bk. rename x0 into wk. specialize (Hw bk wk Hx Hx0). specialize (Lw wk Hx0).
  rename x1 into p. apply (walk3_inv n) in Hx1; auto. destruct Hx1 as [L1 V1].
  rename x2 into Ap. destruct (Amul_inv n A _ _ HA L1 Hx2) as [L2 V2].
  rename x4 into alpha.
  rename x5 into y. apply (walk4_inv n) in Hx5; auto. destruct Hx5 as [L5 V5].
  rename x6 into t. apply (walk2_inv n) in Hx6; auto. destruct Hx6 as [L6 V6].
  rename x7 into At. destruct (Amul_inv n A _ _ HA L6 Hx7) as [L7 V7].
  destruct x8 as [zeta ita]. inv_bind E. injection E as <-.
  match goal with H : zeawpbxmypcz _ _ _ _ _ _ _ = Ok ?v |- _ => rename v into u, H into Hu end.
  apply (walk4_inv n) in Hu; auto. destruct Hu as [L9 V9].
  match goal with H : xeaxpbypcz ita _ _ _ _ _ = Ok ?v |- _ => rename v into z, H into Hzz end.
  apply (walk3_inv n) in Hzz; auto. destruct Hzz as [L10 V10].
  match goal with H : xeaxpbypcz 1 _ _ _ _ _ = Ok ?v |- _ => rename v into x', H into Hxx end.
  apply (walk3_inv n) in Hxx; auto. destruct Hxx as [L11 V11].
  match goal with H : zeawpbxpcy _ _ _ _ _ _ = Ok ?v |- _ => rename v into r, H into Hrr end.
  apply (walk3_inv n) in Hrr; auto. destruct Hrr as [L12 V12].
  set (M := matvec n (entry A)) in *.
  (* A u *)
  assert (Mp : forall i, M (ix p) i = bk * M (ix (b2_p s)) i + M (ix (b2_r s)) i - bk * M (ix (b2_u s)) i).
  { intros i. unfold M. rewrite (matvec_ext n _ _ _ i V1). rewrite matvec_lin3. ring. }
  assert (Mt : forall i, M (ix t) i = M (ix (b2_r s)) i - alpha * M (ix Ap) i).
  { intros i. unfold M. rewrite (matvec_ext n _ _ _ i V6). rewrite matvec_lin. ring. }
  assert (Mu : forall i, M (ix u) i = zeta * M (ix Ap) i + ita * (M (ix (b2_t s)) i - M (ix (b2_r s)) i + bk * M (ix (b2_u s)) i)).
  { intros i. unfold M. rewrite (matvec_ext n _ _ (fun j => zeta * ix Ap j +
        ita * (1 * ix (b2_t s) j + (-1) * ix (b2_r s) j + bk * ix (b2_u s) j)) i) by (intros; rewrite V9 by auto; ring).
    rewrite matvec_lin, matvec_lin3. ring. }
  assert (Mz : forall i, (i < n)%nat -> M (ix z) i = ita * ix y i + zeta * ix At i).
  { intros i Hi. unfold M at 1. rewrite (matvec_ext n _ _ _ i V10). rewrite matvec_lin3. fold M.
    rewrite Mu, V5, V7, Mt, Hw, V2, Mp by auto.
    destruct Hz as [->|Hz].
    - assert (ita = 0) as -> by (eapply (b2_coef_even 0); eauto). ring.
    - rewrite Hz by auto. ring. }
  unfold b2_inv; cbn [b2_x b2_r b2_p b2_u b2_t b2_z b2_w b2_beta]. splits; auto.
  - intros v Hv. inv_bind Hv. eapply (walk2_inv n) in Hv; tauto.
  - intros i Hi. unfold residual. rewrite (matvec_ext n _ _ _ i V11). rewrite matvec_lin3. fold M.
    rewrite V12, V6, HR by auto. unfold residual. fold M. rewrite Mz, V2 by auto. ring.
  - right. intros i Hi. fold M. rewrite Mz, V12 by auto. ring.
  - intros b0 w0 E1 E2 i Hi. rewrite E1 in E2. cbn [bind] in E2. apply (walk2_inv n) in E2; auto.
    destruct E2 as [_ V]. rewrite V, V7, V2 by auto. fold M. ring.
Qed.

Lemma b2_accurate itrmax eps x : bicgstab2 A b itrmax eps = Ok (true, x) -> accurate n A b eps x.
Proof.
  intros E. unfold bicgstab2 in E. inv_bind E. destruct x3 as [c s]. injection E as -> <-.
  destruct (residual_0 n A b _ _ HA Hb Hx Hx0) as [L V].
  apply (iterate_inv _ _ b2_inv) in Hx2; [|intros; eapply b2_step_inv; eauto|].
  - destruct Hx2 as ((k & Lx & Lr & _ & _ & _ & _ & _ & HR & _) & Hd). specialize (Hd eq_refl).
    eapply (converged_true n eps b (b2_r s)); eauto.
  - unfold b2_inv; cbn. rewrite Hb in *. splits; auto using repeat_length.
    + intros v Ev. injection Ev as <-. apply repeat_length.
    + intros bk wk E1 E2. injection E1 as <-. injection E2 as <-. intros i Hi. rewrite ix_repeat.
      rewrite (matvec_ext n _ _ (fun _ => 0)), matvec_0 by (intros; apply ix_repeat). ring.
Qed.
End Residuals.

(** the preconditioners keep the length *)
Lemma foldM_length {X} (f : list R -> X -> res (list R)) n l v w :
  (forall v x w, length v = n -> f v x = Ok w -> length w = n) ->
  length v = n -> foldM f l v = Ok w -> length w = n.
Proof.
  intros H. revert v. induction l as [|x l IH]; intros v Hv E; cbn in E.
  - now injection E as <-.
  - inv_bind E. eauto.
Qed.
Lemma wr_length {T} (v : list T) i x w : wr v i x = Ok w -> length w = length v.
Proof. intros E. apply wr_inv in E. destruct E as [_ ->]. apply upd_length. Qed.

Lemma pre_lower_length A i : forall left k v w, pre_lower A i left k v = Ok w -> length w = length v.
Proof.
  induction left as [|left IH]; intros k v w E; cbn [pre_lower] in E; [now injection E as <-|].
  inv_bind E. destruct (x <? i)%nat; [|now injection E as <-]. inv_bind E. apply IH in E. apply wr_length in Hx3. lia.
Qed.
Lemma pre_upper_length A i lo : forall left v w, pre_upper A i lo left v = Ok w -> length w = length v.
Proof.
  induction left as [|left IH]; intros v w E; cbn [pre_upper] in E; [now injection E as <-|].
  inv_bind E. destruct (i <? x)%nat; [|now injection E as <-]. inv_bind E. apply IH in E. apply wr_length in Hx3. lia.
Qed.
Lemma pre_ilu0_length n M : keeps_length n (pre_ilu0 M).
Proof.
  intros v w Hv E. unfold pre_ilu0 in E. inv_bind E.
  eapply (foldM_length _ n) in Hx; eauto.
  2:{ intros v0 i w0 Hv0 E0. cbn in E0. inv_bind E0. apply pre_lower_length in E0. lia. }
  eapply (foldM_length _ n) in E; eauto.
  intros v0 i w0 Hv0 E0. cbn in E0. inv_bind E0. apply pre_upper_length in Hx2. apply wr_length in E0. lia.
Qed.
Lemma scaling_length n D : length D = n -> keeps_length n (scaling D).
Proof. intros HD v w Hv E. unfold scaling in E. apply mapM_length in E. rewrite seq_length in E. lia. Qed.
Lemma get_diagonal_length A D : get_diagonal A = Ok D -> length D = crows A.
Proof. intros E. unfold get_diagonal in E. apply mapM_length in E. rewrite seq_length in E. lia. Qed.

Lemma sor_entry_length A i : forall l x a y a', foldM (sor_entry A i) l (x, a) = Ok (y, a') -> length y = length x.
Proof.
  induction l as [|k l IH]; intros x a y a' E; cbn in E; [injection E as <- <-; auto|].
  inv_bind E. inv_bind Hx. destruct (negb (i =? x1)%nat); inv_bind Hx; injection Hx as <-; apply IH in E; auto.
  match goal with H : wr _ _ _ = Ok _ |- _ => apply wr_length in H end. lia.
Qed.
Lemma sor_row_length A b w x i y t : sor_row A b w x i = Ok (y, t) -> length y = length x.
Proof.
  intros E. unfold sor_row in E. inv_bind E. destruct x5 as [x5 a]. inv_bind E. injection E as <- <-.
  apply sor_entry_length in Hx4. apply wr_length in Hx1, Hx7. lia.
Qed.
Lemma sor_sweep_length A b w x y e : sor_sweep A b w x = Ok (y, e) -> length y = length x.
Proof.
  unfold sor_sweep. generalize (Some 0). generalize (seq 0 (crows A)). intros l. revert x.
  induction l as [|i l IH]; intros x e0 E; cbn in E; [injection E as <- <-; auto|].
  inv_bind E. destruct x0 as [x0 e1]. apply IH in E. inv_bind Hx. destruct x1 as [x1 o]. inv_bind Hx. injection Hx as <- <-.
  apply sor_row_length in Hx0. lia.
Qed.
Lemma sor_length n A b w itr eps c x : crows A = n -> sor A b w itr eps = Ok (c, x) -> length x = n.
Proof.
  intros Hn E. unfold sor in E. inv_bind E. destruct x0 as [c' s]. injection E as <- <-.
  apply (iterate_inv _ _ (fun _ s => length (fst s) = n)) in Hx.
  - destruct Hx as ((k & H) & _). auto.
  - intros k [y e] [y' e'] H E. cbn in E. apply sor_sweep_length in E. cbn in *. lia.
  - cbn. now rewrite repeat_length.
Qed.
