(** Eigenvectors of symmetric tridiagonal matrices and the expansion in an
    orthonormal basis. *)
From Coq Require Import List Arith Lia Bool Reals Lra.
From Verif Require Import Res SumR SparseModel SparseSpec KrylovSpec KrylovProof CGMath LanczosSpec SturmMath.
Local Open Scope R_scope.

(** ** orthonormal bases *)
Definition orthonormal (n k : nat) (u : nat -> nat -> R) : Prop := forall i j, (i < k)%nat -> (j < k)%nat -> dot n (u i) (u j) = delta i j.

Lemma dot_sum_l n k c (u : nat -> nat -> R) v : dot n (fun l => bigsum k (fun i => c i * u i l)) v = bigsum k (fun i => c i * dot n (u i) v).
Proof.
  unfold dot. rewrite (bigsum_ext n _ (fun l => bigsum k (fun i => c i * (u i l * v l)))) by (intros; rewrite <- bigsum_scal_r; apply bigsum_ext; intros; ring).
  rewrite bigsum_swap. apply bigsum_ext. intros i Hi. now rewrite bigsum_scal.
Qed.
Lemma dot_sum_r n k c (u : nat -> nat -> R) v : dot n v (fun l => bigsum k (fun i => c i * u i l)) = bigsum k (fun i => c i * dot n v (u i)).
Proof. rewrite dot_sym, dot_sum_l. apply bigsum_ext. intros. now rewrite dot_sym. Qed.
Lemma expansion n u : orthonormal n n u -> forall w l, (l < n)%nat -> w l = bigsum n (fun i => dot n w (u i) * u i l).
Proof.
  intros HU w l Hl. set (e := fun l => 1 * w l + -1 * bigsum n (fun i => dot n w (u i) * u i l)).
  assert (HE : forall j, (j < n)%nat -> dot n e (u j) = 0).
  { intros j Hj. unfold e. rewrite (dot_lin_l n 1 w (-1) (fun l => bigsum n (fun i => dot n w (u i) * u i l))). rewrite dot_sum_l.
    rewrite (bigsum_single n j); auto.
    - rewrite (HU j j Hj Hj), delta_refl. ring.
    - intros i Hi N. rewrite (HU i j Hi Hj), delta_ne by auto. ring. }
  destruct (nonzero_dec n e) as [N|Z].
  - exfalso. set (r := fun i => if (i <? n)%nat then u i else e).
    assert (C : (n < n)%nat); [|lia]. apply (too_many n r r n).
    + intros i j Hi Hj D. unfold r. destruct (Nat.ltb_spec i n), (Nat.ltb_spec j n); try lia.
      * rewrite HU by auto. now apply delta_ne. * rewrite dot_sym. now apply HE. * now apply HE.
    + intros i Hi. unfold r. destruct (Nat.ltb_spec i n).
      * rewrite HU, delta_refl by auto. lra. * pose proof (dot_pos n e N). lra.
  - specialize (Z l Hl). unfold e in Z. lra.
Qed.
Lemma parseval n u : orthonormal n n u -> forall w v, dot n w v = bigsum n (fun i => dot n w (u i) * dot n v (u i)).
Proof.
  intros HU w v. rewrite (dot_ext n w (fun l => bigsum n (fun i => dot n w (u i) * u i l)) v v).
  - rewrite dot_sum_l. apply bigsum_ext. intros i _. now rewrite (dot_sym n v).
  - intros l Hl. now apply expansion.
  - intros l Hl. reflexivity.
Qed.
Lemma Cauchy_Schwarz n u v : dot n u v ^ 2 <= dot n u u * dot n v v.
Proof.
  destruct (Req_dec (dot n v v) 0) as [Z|Z].
  - assert (E : dot n u v = 0). { apply bigsum_zero. intros i Hi. assert (V : v i * v i = 0) by (apply (bigsum_nonneg_eq0 n (fun i => v i * v i)); auto; intros; nra). assert (v i = 0) by nra. rewrite H. ring. }
    rewrite E, Z. lra.
  - pose proof (dot_nonneg n v) as P. pose proof (dot_nonneg n (fun i => dot n v v * u i + (- dot n u v) * v i)) as Q.
    rewrite dot_lin_l, !dot_lin_r in Q. rewrite (dot_sym n v u) in Q.
    replace (dot n v v * (dot n v v * dot n u u + - dot n u v * dot n u v) + - dot n u v * (dot n v v * dot n u v + - dot n u v * dot n v v))
      with (dot n v v * (dot n u u * dot n v v - dot n u v ^ 2)) in Q by ring.
    assert (0 < dot n v v) by lra. apply Rnot_lt_le. intros C. assert (dot n v v * (dot n u u * dot n v v - dot n u v ^ 2) < 0) by nra. lra.
Qed.

Lemma tri_symmetric n a b : symmetric n (tri a b).
Proof.
  intros i j _ _. unfold tri. destruct (Nat.eqb_spec i j) as [->|N]; [now rewrite Nat.eqb_refl|].
  destruct (Nat.eqb_spec j i) as [->|N']; [easy|]. destruct (Nat.eqb_spec j (S i)) as [->|N1].
  - destruct (Nat.eqb_spec i (S (S i))); [lia|]. reflexivity.
  - destruct (Nat.eqb_spec i (S j)); auto.
Qed.

Section Eigen.
Variables (a b : nat -> R) (m : nat).
Hypothesis Hm : (0 < m)%nat.
Hypothesis NZ : forall k, (S k < m)%nat -> b k <> 0.

Fixpoint pb (k : nat) : R := match k with O => 1 | S k => pb k * b k end.
Lemma pb_nz k : (k < m)%nat -> pb k <> 0.
Proof. induction k as [|k IH]; intros H; cbn [pb]; [lra|]. apply Rmult_integral_contrapositive_currified; [apply IH; lia|now apply NZ]. Qed.
(** the vector determined by the first m-1 rows of (T - x) w = 0 and w_0 = 1 *)
Definition wv (x : R) (k : nat) : R := (-1) ^ k * chp a b k x / pb k.
Lemma wv_0 x : wv x 0 = 1.
Proof. unfold wv. rewrite chp_0. cbn. field. Qed.
Lemma b_wv x k : (S k < m)%nat -> b k * wv x (S k) = (-1) ^ S k * chp a b (S k) x / pb k.
Proof. intros H. unfold wv. cbn [pb]. field. split; [apply pb_nz; lia|now apply NZ]. Qed.
Lemma wv_row x i : (S i < m)%nat -> matvec m (tri a b) (wv x) i = x * wv x i.
Proof.
  intros Hi. rewrite tri_row by lia. assert (Y : (S i <? m)%nat = true) by now apply Nat.ltb_lt. rewrite Y, b_wv by auto.
  destruct i as [|i].
  - rewrite wv_0, chp_1. cbn [pow pb]. field.
  - rewrite chp_SS. unfold wv. cbn [pow pb]. field. split; [apply NZ; lia|apply pb_nz; lia].
Qed.
Lemma wv_last x i : S i = m -> matvec m (tri a b) (wv x) i = x * wv x i + (-1) ^ i * chp a b m x / pb i.
Proof.
  intros Hi. rewrite tri_row by lia. assert (Y : (S i <? m)%nat = false) by (apply Nat.ltb_ge; lia). rewrite Y, <- Hi.
  destruct i as [|i].
  - rewrite wv_0, chp_1. cbn [pow pb]. field.
  - rewrite chp_SS. unfold wv. cbn [pow pb]. field. split; [apply NZ; lia|apply pb_nz; lia].
Qed.
Lemma eigen_wv x v : (forall i, (S i < m)%nat -> matvec m (tri a b) v i = x * v i) -> forall k, (k < m)%nat -> v k = wv x k * v 0%nat.
Proof.
  intros HV k. induction k as [k IH] using lt_wf_ind. intros Hk. destruct k as [|k]; [rewrite wv_0; ring|].
  pose proof (HV k Hk) as E1. pose proof (wv_row x k Hk) as E2. rewrite tri_row in E1, E2 by lia.
  assert (Y : (S k <? m)%nat = true) by now apply Nat.ltb_lt. rewrite Y in E1, E2. pose proof (NZ k Hk) as Nb.
  apply (Rmult_eq_reg_l (b k)); auto. rewrite (IH k ltac:(lia) ltac:(lia)) in E1.
  replace (b k * (wv x (S k) * v 0%nat)) with (b k * wv x (S k) * v 0%nat) by ring.
  destruct k as [|k].
  - rewrite wv_0 in *. assert (E3 : b 0%nat * wv x 1 = (x - a 0%nat)) by lra. rewrite E3. lra.
  - rewrite (IH k ltac:(lia) ltac:(lia)) in E1. assert (E3 : b (S k) * wv x (S (S k)) = x * wv x (S k) - b k * wv x k - a (S k) * wv x (S k)) by lra. rewrite E3. lra.
Qed.
Lemma eigen_chp x : eigenvalue m (tri a b) x <-> chp a b m x = 0.
Proof.
  split.
  - intros (v & (i0 & Hi0 & N) & HV). pose proof (eigen_wv x v (fun i Hi => HV i (Nat.lt_trans _ _ _ (Nat.lt_succ_diag_r i) Hi))) as E.
    assert (N0 : v 0%nat <> 0). { intros C. apply N. rewrite (E i0 Hi0), C. ring. }
    assert (ML : exists l, S l = m) by (exists (m - 1)%nat; lia). destruct ML as (l & ML). pose proof (HV l ltac:(lia)) as HL. rewrite (matvec_ext m _ v (fun k => v 0%nat * wv x k + 0 * wv x k)) in HL.
    2:{ intros k Hk. rewrite (E k Hk). ring. }
    rewrite matvec_lin, (wv_last x l ML), (E l ltac:(lia)) in HL. pose proof (pb_nz l ltac:(lia)) as NP.
    assert (Z : v 0%nat * ((-1) ^ l * chp a b m x / pb l) = 0) by lra. apply Rmult_integral in Z as [Z|Z]; [easy|].
    assert (Z2 : (-1) ^ l * chp a b m x = 0) by (apply (Rmult_eq_reg_r (/ pb l)); [unfold Rdiv in Z; lra|now apply Rinv_neq_0_compat]).
    assert (PW : (-1) ^ l <> 0) by (apply pow_nonzero; lra). apply Rmult_integral in Z2 as [Z2|Z2]; easy.
  - intros Z. exists (wv x). split; [exists 0%nat; split; auto; rewrite wv_0; lra|]. intros i Hi. destruct (Nat.eq_dec (S i) m) as [E|E].
    + rewrite wv_last by auto. rewrite Z. unfold Rdiv. ring.
    + apply wv_row. lia.
Qed.

(** the whole spectrum *)
Variables (B : R).
Hypothesis RB : row_bound m a b B.
Lemma spectrum_ex : exists r s, roots a b B (m - 1) r s /\ ordered_spectrum m (tri a b) r.
Proof.
  destruct (roots_ex a b m B RB NZ (m - 1) ltac:(lia)) as (r & s & HR). exists r, s. split; auto.
  pose proof (roots_mono _ _ _ _ _ _ HR) as (Mr & _). destruct HR as (R1 & _). replace (S (m - 1)) with m in * by lia. split; auto.
  intros x. rewrite eigen_chp, R1. apply prodr_zero.
Qed.
(** orthonormal eigenvectors *)
Variable r : nat -> R.
Hypothesis HS : ordered_spectrum m (tri a b) r.
Definition uv (i k : nat) : R := wv (r i) k / norm2 m (wv (r i)).
Lemma r_chp i : (i < m)%nat -> chp a b m (r i) = 0.
Proof. intros Hi. apply eigen_chp, HS. eauto. Qed.
Lemma wv_pos x : 0 < dot m (wv x) (wv x).
Proof. apply dot_pos. exists 0%nat. split; [exact Hm|rewrite wv_0; lra]. Qed.
Lemma norm_pos x : 0 < norm2 m (wv x).
Proof. unfold norm2. apply sqrt_lt_R0, wv_pos. Qed.
Lemma wv_eig i k : (i < m)%nat -> (k < m)%nat -> matvec m (tri a b) (wv (r i)) k = r i * wv (r i) k.
Proof.
  intros Hi Hk. destruct (Nat.eq_dec (S k) m) as [E|E]; [|apply wv_row; lia]. rewrite wv_last, r_chp by auto. unfold Rdiv. ring.
Qed.
Lemma uv_eig i k : (i < m)%nat -> (k < m)%nat -> matvec m (tri a b) (uv i) k = r i * uv i k.
Proof.
  intros Hi Hk. rewrite (matvec_ext m _ (uv i) (fun l => / norm2 m (wv (r i)) * wv (r i) l + 0 * wv (r i) l)).
  - rewrite matvec_lin, wv_eig by auto. unfold uv, Rdiv. ring.
  - intros l _. unfold uv, Rdiv. ring.
Qed.
Lemma uv_orth : orthonormal m m uv.
Proof.
  intros i j Hi Hj. destruct (Nat.eq_dec i j) as [->|N].
  - rewrite delta_refl. unfold uv. unfold dot. rewrite (bigsum_ext m _ (fun k => (/ norm2 m (wv (r j)) * / norm2 m (wv (r j))) * (wv (r j) k * wv (r j) k))) by (intros; unfold Rdiv; ring).
    rewrite bigsum_scal. fold (dot m (wv (r j)) (wv (r j))). pose proof (norm_pos (r j)) as P. assert (Q : norm2 m (wv (r j)) * norm2 m (wv (r j)) = dot m (wv (r j)) (wv (r j))) by (unfold norm2; apply sqrt_sqrt; left; apply wv_pos).
    rewrite <- Q. field. lra.
  - rewrite delta_ne by auto. pose proof (matvec_sym m (tri a b) (uv i) (uv j) (tri_symmetric m a b)) as E.
    rewrite (dot_ext m (uv i) (uv i) (matvec m (tri a b) (uv j)) (fun k => r j * uv j k + 0 * uv j k)) in E.
    2:{ intros k Hk. reflexivity. } 2:{ intros k Hk. rewrite uv_eig by auto. ring. }
    rewrite (dot_ext m (matvec m (tri a b) (uv i)) (fun k => r i * uv i k + 0 * uv i k) (uv j) (uv j)) in E.
    2:{ intros k Hk. rewrite uv_eig by auto. ring. } 2:{ intros k Hk. reflexivity. }
    rewrite dot_lin_l, dot_lin_r in E. assert (D : r i <> r j). { destruct HS as (M & _). destruct (lt_eq_lt_dec i j) as [[C|C]|C]; [pose proof (M i j C Hj); lra|lia|pose proof (M j i C Hi); lra]. }
    assert (Z : (r i - r j) * dot m (uv i) (uv j) = 0) by lra. apply Rmult_integral in Z as [Z|Z]; auto. lra.
Qed.
Lemma uv_first i : (i < m)%nat -> 0 < uv i 0.
Proof. intros _. unfold uv. rewrite wv_0. apply Rdiv_lt_0_compat; [lra|apply norm_pos]. Qed.
End Eigen.
