(** Mathematics of the conjugate gradient method on functions: linear
    dependence of n+1 vectors of length n, and the orthogonality relations. *)
From Coq Require Import List Arith Lia Bool Reals Lra.
From Verif Require Import Res SumR SparseSpec KrylovSpec.
Local Open Scope R_scope.

Notation agree n u v := (forall i, (i < n)%nat -> u i = v i).

(** *** dependence *)
Definition skip (k j : nat) : nat := if (j <? k)%nat then j else S j.

Lemma bigsum_skip : forall n k f, (k <= n)%nat -> bigsum (S n) f = f k + bigsum n (fun j => f (skip k j)).
Proof.
  induction n as [|n IH]; intros k f Hk.
  - assert (k = 0)%nat as -> by lia. cbn. ring.
  - destruct (Nat.eq_dec k (S n)) as [->|Hne].
    + change (bigsum (S (S n)) f) with (bigsum (S n) f + f (S n)). rewrite Rplus_comm. f_equal.
      apply bigsum_ext. intros i Hi. unfold skip. destruct (Nat.ltb_spec i (S n)); [auto|lia].
    + change (bigsum (S (S n)) f) with (bigsum (S n) f + f (S n)). rewrite (IH k) by lia.
      change (bigsum (S n) (fun j => f (skip k j))) with (bigsum n (fun j => f (skip k j)) + f (skip k n)).
      unfold skip at 3. destruct (Nat.ltb_spec n k); [lia|]. ring.
Qed.

Lemma dependent : forall n (V : nat -> nat -> R), exists c,
  (exists j, (j <= n)%nat /\ c j <> 0) /\
  forall i, (i < n)%nat -> bigsum (S n) (fun j => c j * V j i) = 0.
Proof.
  induction n as [|n IH]; intros V.
  - exists (fun _ => 1). split; [|intros; lia]. exists 0%nat. split; [lia|lra].
  - assert (D : (exists k, (k <= S n)%nat /\ V k n <> 0) \/ forall k, (k <= S n)%nat -> V k n = 0).
    { generalize (S n). intros m. induction m as [|m IHm].
      - destruct (Req_EM_T (V 0%nat n) 0) as [E|E]; [right|left].
        + intros k Hk. now assert (k = 0)%nat as -> by lia.
        + exists 0%nat. auto.
      - destruct IHm as [(k & Hk & Hv)|H]; [left; exists k; split; auto; lia|].
        destruct (Req_EM_T (V (S m) n) 0) as [E|E]; [right|left; exists (S m); auto].
        intros k Hk. destruct (Nat.eq_dec k (S m)) as [->|]; [auto|apply H; lia]. }
    destruct D as [(k & Hk & Hv)|H0].
    + (* pivot k *)
      destruct (IH (fun j i => V (skip k j) i - V (skip k j) n / V k n * V k i)) as (c & (j0 & Hj0 & Hc0) & Hc).
      set (s := bigsum (S n) (fun j => c j * (V (skip k j) n / V k n))).
      exists (fun j => if (j =? k)%nat then - s else if (j <? k)%nat then c j else c (j - 1)%nat).
      assert (Hsk : forall j, (if (skip k j =? k)%nat then - s else if (skip k j <? k)%nat then c (skip k j)
                 else c (skip k j - 1)%nat) = c j).
      { intros j. unfold skip. destruct (Nat.ltb_spec j k).
        - destruct (Nat.eqb_spec j k); [lia|]. destruct (Nat.ltb_spec j k); [auto|lia].
        - destruct (Nat.eqb_spec (S j) k); [lia|]. destruct (Nat.ltb_spec (S j) k); [lia|]. f_equal. lia. }
      split.
      * exists (skip k j0). rewrite Hsk. split; auto. unfold skip. destruct (j0 <? k)%nat; lia.
      * intros i Hi. rewrite (bigsum_skip (S n) k) by lia. rewrite Nat.eqb_refl.
        rewrite (bigsum_ext _ _ (fun j => c j * V (skip k j) i)) by (intros; rewrite Hsk; ring).
        assert (E : bigsum (S n) (fun j => c j * V (skip k j) i) =
                    bigsum (S n) (fun j => c j * (V (skip k j) i - V (skip k j) n / V k n * V k i)) + s * V k i).
        { unfold s. rewrite <- bigsum_scal_r, <- bigsum_plus. apply bigsum_ext. intros; ring. }
        rewrite E. destruct (Nat.eq_dec i n) as [->|].
        -- assert (Z : bigsum (S n) (fun j => c j * (V (skip k j) n - V (skip k j) n / V k n * V k n)) = 0)
             by (apply bigsum_zero; intros; field; auto).
           rewrite Z. ring.
        -- rewrite Hc by lia. ring.
    + destruct (IH V) as (c & (j0 & Hj0 & Hc0) & Hc).
      exists (fun j => if (j <=? n)%nat then c j else 0). split.
      * exists j0. destruct (Nat.leb_spec j0 n); [auto|lia].
      * intros i Hi. change (bigsum (S (S n)) ?f) with (bigsum (S n) f + f (S n)). cbv beta.
        destruct (Nat.leb_spec (S n) n); [lia|].
        rewrite (bigsum_ext _ _ (fun j => c j * V j i)).
        2:{ intros j Hj. destruct (Nat.leb_spec j n); [auto|lia]. }
        destruct (Nat.eq_dec i n) as [->|]; [|rewrite Hc by lia; ring].
        rewrite bigsum_zero; [ring|]. intros j Hj. rewrite H0 by lia. ring.
Qed.

(** *** the bilinear form *)
Section Dot.
Variable n : nat.
Lemma dot_ext' u u' v v' : agree n u u' -> agree n v v' -> dot n u v = dot n u' v'.
Proof. intros H1 H2. apply bigsum_ext. intros i Hi. now rewrite H1, H2. Qed.
Lemma dot_sym u v : dot n u v = dot n v u.
Proof. apply bigsum_ext. intros; ring. Qed.
Lemma dot_lin_l a u b v w : dot n (fun i => a * u i + b * v i) w = a * dot n u w + b * dot n v w.
Proof. unfold dot. rewrite <- !bigsum_scal, <- bigsum_plus. apply bigsum_ext; intros; ring. Qed.
Lemma dot_lin_r a u b v w : dot n w (fun i => a * u i + b * v i) = a * dot n w u + b * dot n w v.
Proof. rewrite dot_sym, dot_lin_l, !(dot_sym w). ring. Qed.
Lemma dot_0_l v : dot n (fun _ => 0) v = 0.
Proof. apply bigsum_zero. intros; ring. Qed.
Lemma dot_pos u : nonzero n u -> 0 < dot n u u.
Proof.
  intros (i & Hi & Hu). apply (bigsum_pos n _ i); auto. - intros; nra. - nra.
Qed.
Lemma dot_nonneg u : 0 <= dot n u u.
Proof. apply bigsum_sqr_nonneg. Qed.
Lemma nonzero_dec u : nonzero n u \/ agree n u (fun _ => 0).
Proof.
  unfold nonzero. induction n as [|m IH].
  - right. intros; lia.
  - destruct IH as [(i & Hi & H)|H].
    + left. exists i. split; auto; lia.
    + destruct (Req_EM_T (u m) 0) as [E|E].
      * right. intros i Hi. destruct (Nat.eq_dec i m) as [->|]; auto. apply H. lia.
      * left. exists m. split; auto.
Qed.
Lemma dot_pos_inv u v : dot n u v <> 0 -> nonzero n v.
Proof.
  intros H. destruct (nonzero_dec v) as [N|Z]; auto. exfalso. apply H.
  apply bigsum_zero. intros i Hi. rewrite Z by auto. ring.
Qed.
Lemma matvec_sym (M : nat -> nat -> R) u v : symmetric n M -> dot n u (matvec n M v) = dot n (matvec n M u) v.
Proof.
  intros HM. unfold dot, matvec.
  rewrite (bigsum_ext n _ (fun i => bigsum n (fun j => u i * M i j * v j))).
  2:{ intros. rewrite <- bigsum_scal. apply bigsum_ext; intros; ring. }
  rewrite bigsum_swap.
  apply bigsum_ext. intros i Hi. rewrite <- bigsum_scal_r. apply bigsum_ext. intros j Hj. rewrite (HM j i) by auto. ring.
Qed.
(** mutually M-orthogonal vectors number at most n *)
Lemma too_many (r : nat -> nat -> R) (z : nat -> nat -> R) m :
  (forall i j, (i <= m)%nat -> (j <= m)%nat -> i <> j -> dot n (r i) (z j) = 0) ->
  (forall i, (i <= m)%nat -> dot n (r i) (z i) <> 0) -> (m < n)%nat.
Proof.
  intros Ho Hn. destruct (Nat.lt_ge_cases m n) as [|Hge]; auto. exfalso.
  destruct (dependent n r) as (c & (j0 & Hj0 & Hc0) & Hc).
  assert (E : dot n (fun i => bigsum (S n) (fun j => c j * r j i)) (z j0) = 0).
  { apply bigsum_zero. intros i Hi. rewrite Hc by auto. ring. }
  apply Hc0. apply (Rmult_eq_reg_r (dot n (r j0) (z j0))); [|apply Hn; lia]. rewrite Rmult_0_l, <- E. clear E.
  unfold dot at 2.
  rewrite (bigsum_ext n _ (fun i => bigsum (S n) (fun j => c j * (r j i * z j0 i)))).
  2:{ intros. rewrite <- bigsum_scal_r. apply bigsum_ext; intros; ring. }
  rewrite bigsum_swap.
  rewrite (bigsum_ext (S n) _ (fun j => c j * dot n (r j) (z j0))).
  2:{ intros. unfold dot. rewrite <- bigsum_scal. auto. }
  rewrite (bigsum_single (S n) j0); auto; try lia.
  intros j Hj Hne. rewrite Ho by lia. ring.
Qed.
End Dot.

(** *** the sequences of preconditioned CG, as functions *)
Section PCG.
Variables (n : nat) (A : nat -> nat -> R) (M : (nat -> R) -> nat -> R) (b : nat -> R).
Hypothesis HAs : symmetric n A.
Hypothesis HMs : forall u v, dot n (M u) v = dot n u (M v).
Hypothesis HMp : forall u, nonzero n u -> 0 < dot n (M u) u.
Notation mv := (matvec n A).

Fixpoint pq (k : nat) : (nat -> R) * (nat -> R) :=   (* r_k, p_k *)
  match k with
  | 0%nat => (b, M b)
  | S k => let (r, p) := pq k in
           let alpha := dot n (M r) r / dot n p (mv p) in
           let r' := fun i => r i + - alpha * mv p i in
           let beta := dot n (M r') r' / dot n (M r) r in
           (r', fun i => beta * p i + M r' i)
  end.
Definition rq k := fst (pq k).
Definition pp k := snd (pq k).
Definition alq k := dot n (M (rq k)) (rq k) / dot n (pp k) (mv (pp k)).
Definition beq k := dot n (M (rq (S k))) (rq (S k)) / dot n (M (rq k)) (rq k).

Lemma rq_S k : rq (S k) = fun i => rq k i + - alq k * mv (pp k) i.
Proof. unfold rq, alq, pp, rq. cbn [pq]. destruct (pq k); reflexivity. Qed.
Lemma pp_S k : pp (S k) = fun i => beq k * pp k i + M (rq (S k)) i.
Proof. unfold pp, beq, rq. cbn [pq]. destruct (pq k); reflexivity. Qed.

(** the matrix is positive on the search directions *)
Hypothesis HAp : forall k, nonzero n (pp k) -> 0 < dot n (pp k) (mv (pp k)).

Definition good (k : nat) : Prop :=
  (forall i, (i < k)%nat -> dot n (rq k) (M (rq i)) = 0) /\
  (forall i, (i < k)%nat -> dot n (rq k) (pp i) = 0) /\
  (forall i, (i < k)%nat -> dot n (pp k) (mv (pp i)) = 0) /\
  dot n (rq k) (pp k) = dot n (M (rq k)) (rq k).

Lemma pcg_good : forall k, (forall i, (i < k)%nat -> nonzero n (rq i)) -> good k.
Proof.
  intros k. induction k as [k IH] using lt_wf_ind. intros Hnz.
  destruct k as [|k].
  { unfold good. splits; try (intros; lia). unfold rq, pp; cbn. apply dot_sym. }
  assert (G : forall j, (j <= k)%nat -> good j) by (intros; apply IH; [lia|]; intros; apply Hnz; lia).
  pose proof (Hnz k ltac:(lia)) as Hk.
  assert (Hpos : forall j, (j <= k)%nat -> 0 < dot n (M (rq j)) (rq j)) by (intros; apply HMp, Hnz; lia).
  assert (HpAp : forall j, (j <= k)%nat -> 0 < dot n (pp j) (mv (pp j))).
  { intros j Hj. apply HAp. apply (dot_pos_inv n (rq j)). destruct (G j Hj) as (_ & _ & _ & ->).
    specialize (Hpos j Hj). lra. }
  assert (Hal : forall j, (j <= k)%nat -> alq j <> 0).
  { intros j Hj. unfold alq. apply Rmult_integral_contrapositive. split; [specialize (Hpos j Hj); lra|].
    apply Rinv_neq_0_compat. specialize (HpAp j Hj). lra. }
  destruct (G k ltac:(lia)) as (G1 & G2 & G3 & G4).
  (* r_{k+1} . p_i *)
  assert (R2 : forall i, (i <= k)%nat -> dot n (rq (S k)) (pp i) = 0).
  { intros i Hi. rewrite rq_S.
    rewrite (dot_ext' n _ (fun i => 1 * rq k i + - alq k * mv (pp k) i) _ (pp i)) by (intros; ring).
    rewrite dot_lin_l. rewrite <- matvec_sym by auto.
    destruct (Nat.eq_dec i k) as [->|].
    - rewrite G4. unfold alq. specialize (HpAp k ltac:(lia)). field. lra.
    - rewrite G2, G3 by lia. ring. }
  assert (R1 : forall i, (i <= k)%nat -> dot n (rq (S k)) (M (rq i)) = 0).
  { intros [|i] Hi.
    - apply (R2 0%nat). lia.
    - assert (E : dot n (rq (S k)) (M (rq (S i))) = 1 * dot n (rq (S k)) (pp (S i)) + - beq i * dot n (rq (S k)) (pp i)).
      { rewrite <- dot_lin_r. apply dot_ext'; auto. intros j Hj. rewrite pp_S. ring. }
      rewrite E, !R2 by lia. ring. }
  assert (R4 : dot n (rq (S k)) (pp (S k)) = dot n (M (rq (S k))) (rq (S k))).
  { rewrite pp_S. rewrite (dot_ext' n _ (rq (S k)) _ (fun i => beq k * pp k i + 1 * M (rq (S k)) i)) by (intros; ring).
    rewrite dot_lin_r, R2 by lia. rewrite (dot_sym n (rq (S k)) (M _)). ring. }
  (* A p_i in terms of residuals *)
  assert (AP : forall v i, (i <= k)%nat -> dot n v (mv (pp i)) = / alq i * (dot n v (rq i) - dot n v (rq (S i)))).
  { intros v i Hi. specialize (Hal i Hi).
    assert (E : dot n v (rq (S i)) = 1 * dot n v (rq i) + - alq i * dot n v (mv (pp i))).
    { rewrite <- dot_lin_r. apply dot_ext'; auto. intros j Hj. rewrite rq_S. ring. }
    rewrite E. field. auto. }
  assert (R3 : forall i, (i <= k)%nat -> dot n (pp (S k)) (mv (pp i)) = 0).
  { intros i Hi. rewrite pp_S.
    rewrite (dot_ext' n _ (fun i => beq k * pp k i + 1 * M (rq (S k)) i) _ (mv (pp i))) by (intros; ring).
    rewrite dot_lin_l. rewrite (AP (M (rq (S k)))) by lia. rewrite !HMs.
    destruct (Nat.eq_dec i k) as [->|].
    - rewrite R1 by lia. rewrite <- (HMs (rq (S k)) (rq (S k))). unfold beq, alq.
      specialize (HpAp k ltac:(lia)). specialize (Hpos k ltac:(lia)). field. split; lra.
    - rewrite G3, !R1 by lia. ring. }
  unfold good. splits; auto; intros i Hi; [apply R1|apply R2|apply R3]; lia.
Qed.

(** no division by zero as long as the residual has not vanished *)
Lemma pcg_divs k : (forall i, (i <= k)%nat -> nonzero n (rq i)) ->
  0 < dot n (M (rq k)) (rq k) /\ 0 < dot n (pp k) (mv (pp k)).
Proof.
  intros H. destruct (pcg_good k) as (_ & _ & _ & G4); [intros; apply H; lia|].
  assert (P : 0 < dot n (M (rq k)) (rq k)) by (apply HMp, H; lia). split; auto.
  apply HAp. apply (dot_pos_inv n (rq k)). lra.
Qed.

Lemma pcg_orth i j : (forall l, (l < Nat.max i j)%nat -> nonzero n (rq l)) -> i <> j ->
  dot n (rq i) (M (rq j)) = 0 /\ dot n (pp i) (mv (pp j)) = 0.
Proof.
  intros H Hne. destruct (Nat.lt_ge_cases i j) as [Hlt|Hge].
  - destruct (pcg_good j) as (G1 & G2 & G3 & G4); [intros; apply H; lia|]. split.
    + rewrite <- HMs, dot_sym. apply G1; lia.
    + rewrite matvec_sym by auto. rewrite dot_sym. apply G3; lia.
  - destruct (pcg_good i) as (G1 & G2 & G3 & G4); [intros; apply H; lia|]. split; [apply G1|apply G3]; lia.
Qed.

Lemma pcg_terminates k : (forall i, (i <= k)%nat -> nonzero n (rq i)) -> (k < n)%nat.
Proof.
  intros H. apply (too_many n rq (fun i => M (rq i))).
  - intros i j Hi Hj Hne. apply pcg_orth; auto. intros; apply H; lia.
  - intros i Hi. rewrite dot_sym. specialize (HMp (rq i) (H i Hi)). lra.
Qed.
End PCG.

(** *** a singular matrix: the search directions stay away from the kernel *)
Section Semidefinite.
Variables (n : nat) (A : nat -> nat -> R) (M : (nat -> R) -> nat -> R) (b w0 : nat -> R).
Hypothesis HAs : symmetric n A.
Hypothesis HAn : forall u, 0 <= dot n u (matvec n A u).
Hypothesis HMs : forall u v, dot n (M u) v = dot n u (M v).
Hypothesis HMp : forall u, nonzero n u -> 0 < dot n (M u) u.
Hypothesis Hb : forall i, (i < n)%nat -> matvec n A w0 i = b i.
Notation mv := (matvec n A).

Lemma psd_kernel p v : dot n p (mv p) = 0 -> dot n v (mv p) = 0.
Proof.
  intros Hp. set (a := dot n v (mv p)). set (c := dot n v (mv v)).
  assert (Q : forall t, 0 <= 2 * t * a + t * t * c).
  { intros t. pose proof (HAn (fun i => 1 * p i + t * v i)) as H. rewrite dot_lin_l in H.
    assert (L : forall z, dot n z (mv (fun i => 1 * p i + t * v i)) = dot n z (mv p) + t * dot n z (mv v)).
    { intros z. rewrite (dot_ext' n z z _ (fun i => 1 * mv p i + t * mv v i)); auto.
      - rewrite dot_lin_r. ring.
      - intros i Hi. unfold matvec. rewrite <- !bigsum_scal, <- bigsum_plus. apply bigsum_ext. intros; ring. }
    rewrite !L, Hp in H. rewrite (matvec_sym n A p v), (dot_sym n (mv p)) in H by auto. fold a c in H. lra. }
  assert (C : 0 <= c) by apply HAn. destruct (Req_dec a 0) as [|Ha]; auto. exfalso.
  specialize (Q (- a / (c + 1))). replace (2 * (- a / (c + 1)) * a + - a / (c + 1) * (- a / (c + 1)) * c) with (- (a * a * (c + 2)) * / ((c + 1) * (c + 1))) in Q by (field; lra).
  assert (P : 0 < a * a * (c + 2)) by (apply Rmult_lt_0_compat; nra). assert (0 < / ((c + 1) * (c + 1))) by (apply Rinv_0_lt_compat; nra). nra.
Qed.
Lemma pp_range k : (exists w, forall v, dot n v (rq n A M b k) = dot n v (mv w)) /\ (exists w, forall v, dot n v (pp n A M b k) = dot n (M v) (mv w)).
Proof.
  induction k as [|k [(w1 & H1) (w2 & H2)]].
  - split; exists w0; intros v; [|unfold pp; cbn; rewrite <- HMs]; apply dot_ext'; auto; intros i Hi; symmetry; now apply Hb.
  - assert (L : forall (c d : R) x y v, dot n v (mv (fun i => c * x i + d * y i)) = c * dot n v (mv x) + d * dot n v (mv y)).
    { intros c d x y v. rewrite <- dot_lin_r. apply dot_ext'; auto. intros i Hi. unfold matvec. rewrite <- !bigsum_scal, <- bigsum_plus. apply bigsum_ext. intros; ring. }
    assert (Q : forall v, dot n v (rq n A M b (S k)) = dot n v (mv (fun i => 1 * w1 i + - alq n A M b k * pp n A M b k i))).
    { intros v. rewrite L, <- H1, rq_S. rewrite (dot_ext' n v v _ (fun i => 1 * rq n A M b k i + - alq n A M b k * mv (pp n A M b k) i)) by (auto; intros; ring). now rewrite dot_lin_r. }
    split; [eexists; exact Q|]. exists (fun i => beq n A M b k * w2 i + 1 * (1 * w1 i + - alq n A M b k * pp n A M b k i)). intros v.
    rewrite (L _ _ w2 (fun i => 1 * w1 i + - alq n A M b k * pp n A M b k i) (M v)), <- H2, <- Q, pp_S.
    rewrite (dot_ext' n v v _ (fun i => beq n A M b k * pp n A M b k i + 1 * M (rq n A M b (S k)) i)) by (auto; intros; ring). now rewrite dot_lin_r, HMs.
Qed.
Lemma psd_directions k : nonzero n (pp n A M b k) -> 0 < dot n (pp n A M b k) (mv (pp n A M b k)).
Proof.
  intros Hp. set (p := pp n A M b k) in *. destruct (HAn p) as [|E]; auto. exfalso. symmetry in E. destruct (pp_range k) as [_ (w & Hw)]. fold p in Hw.
  assert (Z : dot n (M (mv w)) (mv w) = 0). { rewrite <- Hw, <- matvec_sym by auto. now apply psd_kernel. }
  destruct (nonzero_dec n (mv w)) as [N|N]; [pose proof (HMp _ N); lra|].
  pose proof (dot_pos n p Hp) as P. rewrite Hw in P. rewrite (dot_ext' n _ (M p) _ (fun _ => 0)) in P by auto. rewrite dot_sym, dot_0_l in P. lra.
Qed.
End Semidefinite.
