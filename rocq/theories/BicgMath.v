(** Abstract product-type bi-conjugate gradient recurrences.

    [B] is a linear operator on vectors of length n, [rd] the shadow residual.
    g, h are the bi-conjugate gradient residuals and directions; H, G the
    stabilising polynomials in B.  The vectors held by BiCGSTAB and BiCGSTAB2
    are H k (g k), H k (h k) and so on; see BicgProof. *)
From Coq Require Import List Arith Lia Bool Reals Lra FunctionalExtensionality.
From Verif Require Import Res SumR KrylovSpec CGMath.
Local Open Scope R_scope.

Notation vec := (nat -> R).
Definition lc (a : R) (u : vec) (b : R) (v : vec) : vec := fun i => a * u i + b * v i.

Section Bicg.
Variable n : nat.
Variable B : vec -> vec.
Hypothesis Blin : forall a u b v, B (lc a u b v) = lc a (B u) b (B v).
Hypothesis Bext : forall u v, (forall i, (i < n)%nat -> u i = v i) -> B u = B v.
Variable rd : vec.
Variables (al be ze et : nat -> R).
Variables (g0 h0 : vec).

Fixpoint gh (k : nat) : vec * vec :=
  match k with
  | O => (g0, h0)
  | S k => let g := lc 1 (fst (gh k)) (- al k) (B (snd (gh k))) in
           (g, lc 1 g (be k) (snd (gh k)))
  end.
Definition g k := fst (gh k).
Definition h k := snd (gh k).
Lemma g_S k : g (S k) = lc 1 (g k) (- al k) (B (h k)). Proof. reflexivity. Qed.
Lemma h_S k : h (S k) = lc 1 (g (S k)) (be k) (h k). Proof. reflexivity. Qed.

Fixpoint HG (k : nat) (u : vec) : vec * vec :=
  match k with
  | O => (u, lc (ze 0%nat) u 0 u)
  | S k => let H := lc 1 (fst (HG k u)) (-1) (B (snd (HG k u))) in
           (H, lc (ze (S k)) H (et (S k)) (snd (HG k u)))
  end.
Definition H k u := fst (HG k u).
Definition G k u := snd (HG k u).
Lemma H_S k u : H (S k) u = lc 1 (H k u) (-1) (B (G k u)). Proof. reflexivity. Qed.
Lemma G_S k u : G (S k) u = lc (ze (S k)) (H (S k) u) (et (S k)) (G k u). Proof. reflexivity. Qed.

Fixpoint pow (k : nat) (u : vec) : vec := match k with O => u | S k => B (pow k u) end.

Lemma HG_lin k a u b v : H k (lc a u b v) = lc a (H k u) b (H k v) /\ G k (lc a u b v) = lc a (G k u) b (G k v).
Proof.
  induction k as [|k [IH1 IH2]].
  - split; [reflexivity|]. unfold G; cbn; unfold lc. apply functional_extensionality; intros i. ring.
  - assert (E : H (S k) (lc a u b v) = lc a (H (S k) u) b (H (S k) v)).
    { rewrite !H_S, IH1, IH2, Blin. unfold lc. apply functional_extensionality; intros i. ring. }
    split; auto. rewrite !G_S, E, IH2. unfold lc. apply functional_extensionality; intros i. ring.
Qed.
Lemma H_lin k a u b v : H k (lc a u b v) = lc a (H k u) b (H k v). Proof. apply HG_lin. Qed.
Lemma G_lin k a u b v : G k (lc a u b v) = lc a (G k u) b (G k v). Proof. apply HG_lin. Qed.
Lemma HG_B k u : H k (B u) = B (H k u) /\ G k (B u) = B (G k u).
Proof.
  induction k as [|k [IH1 IH2]].
  - split; [reflexivity|]. unfold G; cbn. now rewrite Blin.
  - assert (E : H (S k) (B u) = B (H (S k) u)) by (rewrite !H_S, IH1, IH2, Blin; reflexivity).
    split; auto. rewrite !G_S, E, IH2, Blin. reflexivity.
Qed.
Lemma H_B k u : H k (B u) = B (H k u). Proof. apply HG_B. Qed.
Lemma G_B k u : G k (B u) = B (G k u). Proof. apply HG_B. Qed.
Lemma pow_lin k a u b v : pow k (lc a u b v) = lc a (pow k u) b (pow k v).
Proof. induction k as [|k IH]; cbn; auto. now rewrite IH, Blin. Qed.
Lemma pow_B k u : pow k (B u) = pow (S k) u.
Proof. induction k as [|k IH]; cbn; auto. rewrite IH. reflexivity. Qed.

Definition l (u : vec) : R := dot n rd u.
Lemma l_lc a u b v : l (lc a u b v) = a * l u + b * l v.
Proof. unfold l, lc. apply dot_lin_r. Qed.

Fixpoint lead (k : nat) : R := match k with O => 1 | S k => - (ze k * lead k) end.

Lemma lead_ok k u : forall m, (forall j, (j < k)%nat -> l (pow (m + j) u) = 0) ->
  l (pow m (H k u)) = lead k * l (pow (m + k) u) /\
  l (pow m (G k u)) = ze k * lead k * l (pow (m + k) u).
Proof.
  induction k as [|k IH]; intros m Hz.
  - rewrite Nat.add_0_r. split; [cbn; unfold H; cbn; ring|]. unfold G; cbn. rewrite pow_lin, l_lc. ring.
  - assert (E1 : l (pow m (H k u)) = 0 /\ l (pow m (G k u)) = 0).
    { destruct (IH m) as [E1 E2]; [intros; apply Hz; lia|]. rewrite E1, E2, Hz by lia. split; ring. }
    destruct (IH (S m)) as [_ E3]. { intros j Hj. replace (S m + j)%nat with (m + S j)%nat by lia. apply Hz; lia. }
    assert (E : l (pow m (H (S k) u)) = lead (S k) * l (pow (m + S k) u)).
    { rewrite H_S, pow_lin, l_lc, pow_B, E3. destruct E1 as [-> _]. cbn [lead].
      replace (S m + k)%nat with (m + S k)%nat by lia. ring. }
    split; auto. rewrite G_S, pow_lin, l_lc, E. destruct E1 as [_ ->]. ring.
Qed.
Lemma l_H k u : (forall j, (j < k)%nat -> l (pow j u) = 0) -> l (H k u) = lead k * l (pow k u).
Proof. intros Hz. exact (proj1 (lead_ok k u 0 Hz)). Qed.
Lemma l_BH k u : (forall j, (j < k)%nat -> l (pow (S j) u) = 0) -> l (B (H k u)) = lead k * l (pow (S k) u).
Proof. intros Hz. exact (proj1 (lead_ok k u 1 Hz)). Qed.
Lemma l_BG k u : (forall j, (j < k)%nat -> l (pow (S j) u) = 0) -> l (B (G k u)) = ze k * lead k * l (pow (S k) u).
Proof. intros Hz. exact (proj2 (lead_ok k u 1 Hz)). Qed.

Variable m : nat.
(** the coefficients of the algorithm, all divisions carried out *)
Hypothesis Hal : forall k, (k < m)%nat -> al k * l (B (H k (h k))) = l (H k (g k)).
Hypothesis Hbe : forall k, (k < m)%nat -> be k * (ze k * l (H k (g k))) = al k * l (H (S k) (g (S k))).
Hypothesis Hze : forall k, (k < m)%nat -> ze k <> 0.
Hypothesis Hrr : forall k, (k < m)%nat -> l (H k (g k)) <> 0.

Lemma lead_nz k : (k <= m)%nat -> lead k <> 0.
Proof.
  induction k as [|k IH]; intros Hk; cbn [lead]; [lra|]. apply Ropp_neq_0_compat, Rmult_integral_contrapositive_currified.
  - apply Hze. lia.
  - apply IH. lia.
Qed.

Lemma biorth k : (k <= m)%nat ->
  (forall j, (j < k)%nat -> l (pow j (g k)) = 0) /\ (forall j, (j < k)%nat -> l (pow (S j) (h k)) = 0).
Proof.
  induction k as [|k IH]; intros Hk; [split; intros; lia|].
  destruct IH as [Ia Ib]; [lia|]. assert (Ln := lead_nz k ltac:(lia)).
  assert (E1 := l_H k (g k) Ia). assert (E2 := l_BH k (h k) Ib).
  assert (Ha := Hal k ltac:(lia)). assert (Hr := Hrr k ltac:(lia)). assert (Hz := Hze k ltac:(lia)).
  assert (Na : al k <> 0). { intros E. rewrite E in Ha. lra. }
  assert (Oa : forall j, (j < S k)%nat -> l (pow j (g (S k))) = 0).
  { intros j Hj. rewrite g_S, pow_lin, l_lc, pow_B. destruct (Nat.eq_dec j k) as [->|].
    - rewrite E1, E2 in Ha. apply (Rmult_eq_reg_l (lead k)); auto. lra.
    - rewrite Ia, Ib by lia. ring. }
  split; auto. intros j Hj. rewrite h_S, pow_lin, l_lc. destruct (Nat.eq_dec j k) as [->|].
  - assert (E3 := Hbe k ltac:(lia)).
    rewrite H_S, l_lc, (l_H k (g (S k))), (l_BG k (g (S k))) in E3 by (intros; apply Oa; lia).
    rewrite (Oa k) in E3 by lia. rewrite <- Ha, E2 in E3.
    apply (Rmult_eq_reg_l (ze k * al k * lead k)).
    + nra.
    + repeat apply Rmult_integral_contrapositive_currified; auto.
  - rewrite (Oa (S j)) by lia. rewrite Ib by lia. ring.
Qed.

(** the shadow residual is orthogonal to every half step and to y *)
Lemma l_half k : (k < m)%nat -> l (H k (g (S k))) = 0.
Proof.
  intros Hk. destruct (biorth (S k) ltac:(lia)) as [Oa _]. rewrite l_H by (intros; apply Oa; lia). rewrite Oa by lia. ring.
Qed.
Lemma l_conj k : (k < m)%nat -> l (B (H k (h (S k)))) = 0.
Proof.
  intros Hk. destruct (biorth (S k) ltac:(lia)) as [_ Ob]. rewrite l_BH by (intros; apply Ob; lia). rewrite Ob by lia. ring.
Qed.

(** zero vectors *)
Lemma pow_zero j u : (forall i, (i < n)%nat -> u i = 0) -> forall i, (i < n)%nat -> pow j u i = 0.
Proof.
  intros Hu. assert (B0 : forall v, (forall i, (i < n)%nat -> v i = 0) -> forall i, B v i = 0).
  { intros v Hv i. rewrite (Bext v (lc 0 v 0 v)).
    - rewrite Blin. unfold lc. ring.
    - intros i' Hi'. unfold lc. rewrite Hv by auto. ring. }
  induction j as [|j IH]; cbn [pow]; auto.
Qed.
Lemma HG_zero k u : (forall i, (i < n)%nat -> u i = 0) ->
  (forall i, (i < n)%nat -> H k u i = 0) /\ (forall i, (i < n)%nat -> G k u i = 0).
Proof.
  intros Hu. induction k as [|k [IH1 IH2]].
  - split; auto. intros i Hi. unfold G; cbn. unfold lc. rewrite Hu by auto. ring.
  - assert (E : forall i, (i < n)%nat -> H (S k) u i = 0).
    { intros i Hi. rewrite H_S. unfold lc. rewrite IH1 by auto.
      change (B (G k u) i) with (pow 1 (G k u) i). rewrite (pow_zero 1 _ IH2) by auto. ring. }
    split; auto. intros i Hi. rewrite G_S. unfold lc. rewrite E, IH2 by auto. ring.
Qed.

(** finite combinations *)
Definition comb (N : nat) (c : nat -> R) (V : nat -> vec) : vec := fun i => bigsum N (fun k => c k * V k i).
Lemma comb_S N c V : comb (S N) c V = lc 1 (comb N c V) (c N) (V N).
Proof. apply functional_extensionality; intros i. unfold comb, lc. cbn. ring. Qed.
Lemma pow_comb j c V : forall N, l (pow j (comb N c V)) = bigsum N (fun k => c k * l (pow j (V k))).
Proof.
  induction N as [|N IH].
  - cbn [bigsum]. unfold comb, l. cbn. unfold dot. apply bigsum_zero. intros i Hi.
    rewrite pow_zero by auto. ring.
  - rewrite comb_S, pow_lin, l_lc, IH. cbn. ring.
Qed.

Hypothesis Hm : m = n.
Lemma bicg_terminates : forall i, (i < n)%nat -> H n (g n) i = 0.
Proof.
  destruct (dependent n g) as (c & (j0 & Hj0 & Hc0) & Hc).
  assert (D : forall k, (k < n)%nat -> l (pow k (g k)) <> 0).
  { intros k Hk E. apply (Hrr k); [lia|]. rewrite l_H by (apply biorth; lia). rewrite E. ring. }
  assert (Z : forall j, (j < n)%nat -> c j = 0).
  { intros j. induction j as [j IH] using lt_wf_ind. intros Hj.
    assert (E : l (pow j (comb (S n) c g)) = 0).
    { unfold l, dot. apply bigsum_zero. intros i Hi. rewrite pow_zero; auto; ring. }
    rewrite pow_comb, (bigsum_single _ j) in E; [|lia|].
    - apply Rmult_integral in E. destruct E as [E|E]; auto. now apply D in E.
    - intros k Hk Hne. destruct (Nat.lt_ge_cases k j).
      + rewrite IH by lia. ring.
      + destruct (biorth k ltac:(lia)) as [Oa _]. rewrite Oa by lia. ring. }
  assert (Gz : forall i, (i < n)%nat -> g n i = 0).
  { intros i Hi. specialize (Hc i Hi). cbn [bigsum] in Hc. rewrite bigsum_zero in Hc by (intros; rewrite Z by auto; ring).
    assert (j0 = n) by (destruct (Nat.eq_dec j0 n); auto; exfalso; apply Hc0, Z; lia). subst j0.
    assert (E : c n * g n i = 0) by lra. apply Rmult_integral in E. destruct E; [contradiction|auto]. }
  apply (HG_zero n (g n) Gz).
Qed.
End Bicg.
