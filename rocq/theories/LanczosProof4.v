(** Symmetric matrices: orthogonality, the projected matrix and the residual. *)
From Coq Require Import List Arith Lia Bool Reals Lra.
From Verif Require Import Res SumR SparseModel SparseSpec DenseModel DenseR LUModel LUProof KrylovModel KrylovSpec KrylovProof CGMath LanczosSpec LanczosModel SturmMath SturmMath2 LanczosProof LanczosProof2 LanczosProof3.
Import ListNotations.
Local Open Scope R_scope.

Section Sym.
Variables (n m : nat) (M : nat -> nat -> R) (a b : nat -> R) (q : nat -> nat -> R) (P : nat -> nat -> R).
Hypothesis HM : symmetric n M.
Hypothesis U0 : dot n (q 0%nat) (q 0%nat) = 1.

Definition rec (k : nat) : Prop := (forall j, (j < k)%nat -> agree n (P j) (matvec n M (q j))) /\ recurrence n m k P a b q.
Lemma rec_less k k' : (k' <= k)%nat -> rec k -> rec k'.
Proof. intros H (H1 & H2). split; intros j Hj; [apply H1; lia|apply H2; lia]. Qed.
Definition wk (j i : nat) : R := P j i - prev b q j i - a j * q j i.
Lemma dot_prev u k : dot n u (prev b q k) = match k with O => 0 | S k' => b k' * dot n u (q k') end.
Proof.
  destruct k as [|k]; [rewrite dot_sym; apply dot_0_l|]. change (prev b q (S k)) with (fun i => b k * q k i). rewrite (dot_ext n u u (fun i => b k * q k i) (fun i => b k * q k i + 0 * q k i)) by (intros; auto; ring). rewrite dot_lin_r. ring.
Qed.
Lemma dot_wk u j : dot n u (wk j) = dot n u (P j) - dot n u (prev b q j) - a j * dot n u (q j).
Proof.
  unfold wk. rewrite (dot_ext n u u _ (fun i => 1 * (fun i => 1 * P j i + (-1) * prev b q j i) i + (- a j) * q j i)) by (intros; auto; ring). rewrite !dot_lin_r. ring.
Qed.
Lemma three_term k j : rec k -> (j < k)%nat -> (S j < m)%nat -> agree n (matvec n M (q j)) (fun i => prev b q j i + a j * q j i + b j * q (S j) i).
Proof.
  intros (H1 & H2) Hj HS i Hi. destruct (H2 j Hj) as (_ & _ & H3). destruct (H3 HS) as (N & V). rewrite V by auto. rewrite <- H1 by auto. field. auto.
Qed.
Lemma norm_sq u : norm2 n u * norm2 n u = dot n u u.
Proof. unfold norm2. apply sqrt_sqrt, dot_nonneg. Qed.
Lemma norm_nonneg u : 0 <= norm2 n u.
Proof. apply sqrt_pos. Qed.

Lemma wk_orth k : rec (S k) -> (k < m)%nat -> orthonormal n (S k) q -> forall j, (j <= k)%nat -> dot n (q j) (wk k) = 0.
Proof.
  intros HR Hk HO j Hj. rewrite dot_wk. pose proof HR as (H1 & H2). destruct (H2 k ltac:(lia)) as (A1 & A2 & A3). 
  destruct (Nat.eq_dec j k) as [->|N].
  - rewrite A1 at 1. rewrite (HO k k ltac:(lia) ltac:(lia)), delta_refl.
    rewrite (dot_ext n (q k) (q k) (fun i => P k i - prev b q k i) (fun i => 1 * P k i + (-1) * prev b q k i)) by (intros; auto; ring). rewrite dot_lin_r. ring.
  - rewrite (dot_ext n (q j) (q j) (P k) (matvec n M (q k))); auto. rewrite matvec_sym by auto.
    rewrite (dot_ext n (matvec n M (q j)) (fun i => 1 * (fun i => 1 * prev b q j i + a j * q j i) i + b j * q (S j) i) (q k) (q k)); auto.
    2:{ intros i Hi. rewrite (three_term (S k) j) by (auto; lia). ring. }
    rewrite !dot_lin_l, dot_prev, (dot_sym n (prev b q j)), dot_prev. rewrite (HO j k), (HO (S j) k) by lia. rewrite (delta_ne j k) by auto.
    replace (match j with O => 0 | S k' => b k' * dot n (q k) (q k') end) with 0.
    2:{ destruct j as [|j]; auto. rewrite (HO k j) by lia. rewrite delta_ne by lia. ring. }
    destruct k as [|k]; [lia|]. rewrite (HO j k) by lia. destruct (Nat.eq_dec j k) as [->|N2].
    + rewrite !delta_refl. ring.
    + rewrite !delta_ne by lia. ring.
Qed.
Lemma orth k : (k < m)%nat -> rec k -> orthonormal n (S k) q.
Proof.
  induction k as [|k IH]; intros Hk HR.
  - intros i j Hi Hj. assert (i = 0)%nat as -> by lia. assert (j = 0)%nat as -> by lia. now rewrite delta_refl.
  - pose proof (IH ltac:(lia) (rec_less (S k) k ltac:(lia) HR)) as HO. pose proof (wk_orth k HR ltac:(lia) HO) as W.
    destruct HR as (H1 & H2). destruct (H2 k ltac:(lia)) as (_ & B & Q). destruct (Q Hk) as (N & V). fold (wk k) in B.
    assert (V' : agree n (q (S k)) (fun i => / b k * wk k i + 0 * wk k i)). { intros i Hi. rewrite V by auto. unfold wk, Rdiv. ring. }
    assert (Z : forall j, (j <= k)%nat -> dot n (q j) (q (S k)) = 0).
    { intros j Hj. rewrite (dot_ext n (q j) (q j) _ _ (fun i _ => eq_refl) V'). rewrite dot_lin_r, W by auto. ring. }
    assert (O : dot n (q (S k)) (q (S k)) = 1).
    { rewrite (dot_ext n _ _ _ _ V' V'), dot_lin_l, dot_lin_r, <- norm_sq. rewrite <- B. field. auto. }
    intros i j Hi Hj. destruct (Nat.eq_dec i (S k)) as [->|Ni], (Nat.eq_dec j (S k)) as [->|Nj].
    + now rewrite delta_refl, O. + rewrite dot_sym, Z, delta_ne by lia. reflexivity. + rewrite Z, delta_ne by lia. reflexivity. + apply HO; lia.
Qed.

(** the complete process *)
Hypothesis Hm : (0 < m)%nat.
Hypothesis HR : rec m.
Lemma orth_m : orthonormal n m q.
Proof. replace m with (S (m - 1)) by lia. apply orth; [lia|]. apply (rec_less m); auto. lia. Qed.
Lemma last_orth j : (j < m)%nat -> dot n (q j) (wk (m - 1)) = 0.
Proof. intros H. apply wk_orth; try lia; replace (S (m - 1)) with m by lia; auto. apply orth_m. Qed.
Lemma last_norm : b (m - 1)%nat = norm2 n (wk (m - 1)).
Proof. destruct HR as (_ & H2). destruct (H2 (m - 1)%nat ltac:(lia)) as (_ & B & _). exact B. Qed.
Lemma beta_nz k : (S k < m)%nat -> b k <> 0.
Proof. intros H. destruct HR as (_ & H2). destruct (H2 k ltac:(lia)) as (_ & _ & B). apply B, H. Qed.
Lemma beta_nonneg k : (k < m)%nat -> 0 <= b k.
Proof. intros H. destruct HR as (_ & H2). destruct (H2 k H) as (_ & B & _). rewrite B. apply norm_nonneg. Qed.
Lemma le_n : (m <= n)%nat.
Proof.
  destruct (le_lt_dec m n) as [|L]; auto. exfalso. pose proof orth_m as HO. assert (C : (n < n)%nat); [|lia]. apply (too_many n q q n).
  - intros i j Hi Hj N. rewrite HO by lia. now apply delta_ne.
  - intros i Hi. rewrite HO, delta_refl by lia. lra.
Qed.

Definition comb (y : nat -> R) (i : nat) : R := bigsum m (fun k => y k * q k i).
Lemma comb_lin u y v z : forall i, comb (fun k => u * y k + v * z k) i = u * comb y i + v * comb z i.
Proof. intros i. unfold comb. rewrite <- !bigsum_scal, <- bigsum_plus. apply bigsum_ext. intros. ring. Qed.
Lemma comb_dot y z : dot n (comb y) (comb z) = dot m y z.
Proof.
  unfold comb. rewrite dot_sum_l. apply bigsum_ext. intros i Hi. f_equal. rewrite dot_sum_r. pose proof orth_m as HO. rewrite (bigsum_single m i); auto.
  - rewrite HO, delta_refl by auto. ring.
  - intros j Hj N. rewrite HO, delta_ne by auto. ring.
Qed.
Lemma comb_ext y z : agree m y z -> forall i, comb y i = comb z i.
Proof. intros H i. apply bigsum_ext. intros k Hk. now rewrite H. Qed.
Lemma A_comb y : agree n (matvec n M (comb y)) (fun i => comb (matvec m (tri a b) y) i + y (m - 1)%nat * wk (m - 1) i).
Proof.
  intros i Hi. 
  assert (E1 : matvec n M (comb y) i = bigsum m (fun k => y k * matvec n M (q k) i)).
  { unfold matvec, comb. rewrite (bigsum_ext n _ (fun j => bigsum m (fun k => y k * (M i j * q k j)))) by (intros; rewrite <- bigsum_scal; apply bigsum_ext; intros; ring).
    rewrite bigsum_swap. apply bigsum_ext. intros. now rewrite bigsum_scal. }
  assert (E2 : forall k, (k < m)%nat -> matvec n M (q k) i = prev b q k i + a k * q k i + (if (S k <? m)%nat then b k * q (S k) i else wk (m - 1) i)).
  { intros k Hk. destruct (Nat.ltb_spec (S k) m) as [L|L].
    - apply (three_term m); auto.
    - assert (k = m - 1)%nat as -> by lia. unfold wk. destruct HR as (H1 & _). rewrite H1 by (auto; lia). ring. }
  rewrite E1, (bigsum_ext m _ (fun k => y k * prev b q k i + (y k * a k * q k i + (y k * (if (S k <? m)%nat then b k * q (S k) i else 0) + y k * (if (S k <? m)%nat then 0 else wk (m - 1) i))))).
  2:{ intros k Hk. rewrite E2 by auto. destruct (S k <? m)%nat; ring. }
  unfold comb. rewrite (bigsum_ext m (fun k => matvec m (tri a b) y k * q k i) (fun k => (match k with O => 0 | S k' => b k' * y k' end) * q k i + (a k * y k * q k i + (if (S k <? m)%nat then b k * y (S k) else 0) * q k i))).
  2:{ intros k Hk. rewrite tri_row by auto. ring. }
  rewrite !bigsum_plus.
  assert (ML : exists l, m = S l) by (exists (m - 1)%nat; lia). destruct ML as (l & ML). rewrite ML. replace (S l - 1)%nat with l by lia.
  assert (Sh : forall (f g : nat -> R), bigsum (S l) (fun k => match k with O => 0 | S k' => f k' end * g k) = bigsum (S l) (fun k => (if (S k <? S l)%nat then f k * g (S k) else 0))).
  { intros f g. rewrite bigsum_S_l. cbn [bigsum]. rewrite Nat.ltb_irrefl, Rmult_0_l, Rplus_0_l, Rplus_0_r. apply bigsum_ext. intros k Hk. assert (Y : (S k <? S l)%nat = true) by (apply Nat.ltb_lt; lia). now rewrite Y. }
  pose proof (Sh (fun j => b j * y j) (fun k => q k i)) as S1. cbv beta in S1. rewrite S1.
  pose proof (Sh (fun j => b j * q j i) y) as S2. cbv beta in S2. rewrite (bigsum_ext (S l) (fun k => y k * prev b q k i) (fun k => match k with O => 0 | S k' => b k' * q k' i end * y k)) by (intros [|k] Hk; cbn [prev]; ring). rewrite S2.
  assert (La : bigsum (S l) (fun k => y k * (if (S k <? S l)%nat then 0 else wk l i)) = y l * wk l i).
  { cbn [bigsum]. rewrite Nat.ltb_irrefl, bigsum_zero; [ring|]. intros k Hk. assert (Y : (S k <? S l)%nat = true) by (apply Nat.ltb_lt; lia). rewrite Y. ring. }
  rewrite La. 
  rewrite (bigsum_ext (S l) (fun k => if (S k <? S l)%nat then b k * q k i * y (S k) else 0) (fun k => (if (S k <? S l)%nat then b k * y (S k) else 0) * q k i)) by (intros k Hk; destruct (S k <? S l)%nat; ring).
  rewrite (bigsum_ext (S l) (fun k => if (S k <? S l)%nat then b k * y k * q (S k) i else 0) (fun k => y k * (if (S k <? S l)%nat then b k * q (S k) i else 0))) by (intros k Hk; destruct (S k <? S l)%nat; ring).
  rewrite (bigsum_ext (S l) (fun k => a k * y k * q k i) (fun k => y k * a k * q k i)) by (intros; ring). ring.
Qed.
(** the residual of a Ritz pair *)
Lemma ritz_residual y t : dot n (fun i => matvec n M (comb y) i - t * comb y i) (fun i => matvec n M (comb y) i - t * comb y i) =
  dot m (fun k => matvec m (tri a b) y k - t * y k) (fun k => matvec m (tri a b) y k - t * y k) + (b (m - 1)%nat * y (m - 1)%nat) ^ 2.
Proof.
  set (d := fun k => matvec m (tri a b) y k - t * y k). set (w := wk (m - 1)). set (yl := y (m - 1)%nat).
  assert (E : agree n (fun i => matvec n M (comb y) i - t * comb y i) (fun i => 1 * comb d i + yl * w i)).
  { intros i Hi. rewrite A_comb by auto. rewrite (comb_ext d (fun k => 1 * matvec m (tri a b) y k + (- t) * y k)) by (intros; unfold d; ring). rewrite comb_lin. unfold w, yl. ring. }
  rewrite (dot_ext n _ _ _ _ E E), dot_lin_l, !dot_lin_r, comb_dot.
  assert (Z : dot n (comb d) w = 0). { unfold comb. rewrite dot_sum_l. apply bigsum_zero. intros k Hk. unfold w. rewrite last_orth by auto. ring. }
  rewrite (dot_sym n w), Z. unfold w. rewrite <- norm_sq, <- last_norm. fold yl. ring.
Qed.

(** with as many steps as rows *)
Hypothesis Hmn : m = n.
Lemma beta_last : b (m - 1)%nat = 0.
Proof.
  rewrite last_norm. unfold norm2. replace (dot n (wk (m - 1)) (wk (m - 1))) with 0; [apply sqrt_0|]. symmetry. apply bigsum_zero. intros i Hi.
  pose proof orth_m as HO. rewrite Hmn in HO. rewrite (expansion n q HO (wk (m - 1)) i Hi). rewrite bigsum_zero; [ring|]. intros k Hk. rewrite dot_sym, last_orth by lia. ring.
Qed.
Lemma A_comb_n y : agree n (matvec n M (comb y)) (comb (matvec m (tri a b) y)).
Proof.
  intros i Hi. rewrite A_comb by auto. enough (E : wk (m - 1) i = 0) by (rewrite E; ring).
  pose proof beta_last as B. rewrite last_norm in B. apply sqrt_eq_0 in B; [|apply dot_nonneg]. assert (Q : wk (m - 1) i * wk (m - 1) i = 0).
  { apply (bigsum_nonneg_eq0 n (fun i => wk (m - 1) i * wk (m - 1) i)); auto. intros; nra. } nra.
Qed.
Lemma comb_of v : agree n v (comb (fun k => dot n v (q k))).
Proof. intros i Hi. pose proof orth_m as HO. unfold comb. rewrite Hmn in *. now apply expansion. Qed.
Lemma comb_inj y : agree n (comb y) (fun _ => 0) -> agree m y (fun _ => 0).
Proof.
  intros H k Hk. pose proof (comb_dot y y) as E. rewrite (dot_ext n (comb y) (fun _ => 0) (comb y) (fun _ => 0) H H), dot_0_l in E. symmetry in E.
  assert (Q : y k * y k = 0) by (apply (bigsum_nonneg_eq0 m (fun i => y i * y i)); auto; intros; nra). nra.
Qed.
(** eigenvectors correspond *)
Lemma eig_down t v : (forall i, (i < n)%nat -> matvec n M v i = t * v i) -> forall k, (k < m)%nat -> matvec m (tri a b) (fun k => dot n v (q k)) k = t * dot n v (q k).
Proof.
  intros HV. set (y := fun k => dot n v (q k)). assert (Z : agree m (fun k => 1 * matvec m (tri a b) y k + (- t) * y k) (fun _ => 0)).
  { apply comb_inj. intros i Hi. rewrite comb_lin, <- A_comb_n by auto. unfold y. rewrite <- comb_of by auto. rewrite (matvec_ext n M _ v i) by (intros l Hl; symmetry; now apply comb_of). rewrite HV by auto. ring. }
  intros k Hk. specialize (Z k Hk). unfold y in *. lra.
Qed.
Lemma eig_iff t : eigenvalue m (tri a b) t <-> eigenvalue n M t.
Proof.
  split.
  - intros (y & (k & Hk & N) & HY). exists (comb y). split.
    + destruct (nonzero_dec n (comb y)) as [Z|Z]; auto. exfalso. apply N. now apply comb_inj.
    + intros i Hi. rewrite A_comb_n by auto. rewrite (comb_ext _ (fun k => t * y k + 0 * y k)) by (intros l Hl; rewrite HY by auto; ring). rewrite comb_lin. ring.
  - intros (v & N & HV). exists (fun k => dot n v (q k)). split; [|now apply eig_down].
    destruct (nonzero_dec m (fun k => dot n v (q k))) as [Z|Z]; auto. exfalso. destruct N as (i & Hi & N). apply N. rewrite (comb_of v i Hi). rewrite (comb_ext _ (fun _ => 0)) by exact Z. unfold comb. apply bigsum_zero. intros. ring.
Qed.
End Sym.
