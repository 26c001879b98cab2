(** The shifted matrix and the inverted iteration. *)
From Coq Require Import List Arith Lia Bool Reals Lra.
From Verif Require Import Res SumR SparseModel SparseSpec SparseProof SparseProof2 SparseMain AssemblyMain DenseModel DenseR LUModel KrylovModel KrylovSpec KrylovProof KrylovProof2 KrylovMain CGMath.
From Verif Require Import LanczosSpec LanczosModel SturmMath SturmMath2 LanczosProof LanczosProof2 LanczosProof3 LanczosProof4 LanczosProof5.
Import ListNotations.
Local Open Scope R_scope.

Lemma insert_at_in {T} (x : T) k l l' y : insert_at l k x = Ok l' -> In y l' -> y = x \/ In y l.
Proof.
  unfold insert_at. destruct (k <=? length l)%nat; [|discriminate]. intros [= <-] H. apply in_app_or in H as [H|H]; [right; rewrite <- (firstn_skipn k l); apply in_or_app; auto|].
  destruct H as [H|H]; auto. right. rewrite <- (firstn_skipn k l). apply in_or_app; auto.
Qed.
Lemma csr_set_indices (m : csr R) i c v p : csr_set m i c v = Ok p -> ccols (snd p) = ccols m /\ forall j, In j (indices (snd p)) -> j = c \/ In j (indices m).
Proof.
  unfold csr_set. intros H. apply bind_Ok in H as ([lo hi] & _ & H). apply bind_Ok in H as (k & _ & H).
  assert (G : forall q, (m' <- csr_insert m i k c v ;; Ok (false, m')) = Ok q -> ccols (snd q) = ccols m /\ forall j, In j (indices (snd q)) -> j = c \/ In j (indices m)).
  { intros q Hq. apply bind_Ok in Hq as (m' & E & Hq). injection Hq as <-. unfold csr_insert in E. apply bind_Ok in E as (d & _ & E). apply bind_Ok in E as (x & Ex & E). injection E as <-. cbn. split; auto.
    intros j. now apply (insert_at_in c k (indices m) x j). }
  destruct (k =? hi)%nat; auto. apply bind_Ok in H as (x & _ & H). destruct (x =? c)%nat; auto. apply bind_Ok in H as (d & _ & H). injection H as <-. cbn. auto.
Qed.
Lemma csr_zip_cols op (a b m : csr R) : csr_cols_ok a -> csr_cols_ok b -> csr_zip 0 op a b = Ok m -> csr_cols_ok m.
Proof.
  intros Ha Hb E. unfold csr_zip in E. apply bind_Ok in E as (u & Ea & E).
  assert (Hc : ccols a = ccols b). { unfold assert_ in Ea. destruct (_ && _) eqn:X; [|discriminate]. apply andb_prop in X as (_ & X). now apply Nat.eqb_eq. }
  assert (G : csr_cols_ok m /\ ccols m = ccols b); [|apply G].
  apply (foldM_range_inv _ (fun _ m => csr_cols_ok m /\ ccols m = ccols b)) in E; auto.
  intros i t t' _ Ht Et. apply bind_Ok in Et as (lo & _ & Et). apply bind_Ok in Et as (hi & _ & Et).
  apply (foldM_range_inv _ (fun _ m => csr_cols_ok m /\ ccols m = ccols b)) in Et; auto.
  intros k s s' _ (H1 & H2) Es. apply bind_Ok in Es as (j & Ej & Es). apply bind_Ok in Es as (d & _ & Es). apply bind_Ok in Es as (g & _ & Es). apply bind_Ok in Es as ([fl s2] & Es & E2). injection E2 as <-.
  apply csr_set_indices in Es as (E1 & E2). cbn [snd] in *. rewrite E1. split; auto. intros c Hcc. rewrite E1. destruct (E2 c Hcc) as [->|F]; auto. rewrite H2. apply Hb. apply rd_Ok in Ej. now apply nth_error_In in Ej.
Qed.

Lemma shift_identity_ok n A sigma : square_csr n A -> exists B, shift_identity A sigma = Ok B /\ square_csr n B /\ forall i j, (i < n)%nat -> (j < n)%nat -> entry B i j = entry A i j - sigma * delta i j.
Proof.
  intros (W & C & Hr & Hc). unfold shift_identity. rewrite Hr, Hc.
  match goal with |- context[foldM ?f ?ls ?s0] => destruct (foldM_range f (fun k (l : lil R) => lrows l = n /\ lcols l = n /\ length (ldata l) = n /\ forall i, (i < n)%nat -> nth i (ldata l) [] = if (i <? k)%nat then [(i, sigma)] else []) n 0%nat s0) as (l & E & (L1 & L2 & L3 & L4)) end.
  - cbn. rewrite repeat_length. splits; auto. intros i Hi. rewrite nth_repeat. reflexivity.
  - intros k l Hk (L1 & L2 & L3 & L4). unfold lil_set. rewrite (rd_nth (ldata l) k []) by lia. cbn [bind]. rewrite L4 by lia. rewrite Nat.ltb_irrefl. cbn [row_set bind]. eexists. split; [reflexivity|]. cbn [lrows lcols ldata].
    rewrite upd_length. splits; auto. intros i Hi. rewrite nth_upd. destruct (Nat.eqb_spec k i) as [->|N].
    + assert (Y : (i <? length (ldata l))%nat = true) by (apply Nat.ltb_lt; lia). rewrite Y. cbn [andb]. assert (Y2 : (i <? S i)%nat = true) by (apply Nat.ltb_lt; lia). now rewrite Y2.
    + cbn [andb]. rewrite L4 by auto. assert (Y : (i <? S k)%nat = (i <? k)%nat) by (destruct (Nat.ltb_spec i (S k)), (Nat.ltb_spec i k); lia || reflexivity). now rewrite Y.
  - rewrite E. cbn [bind]. assert (L5 : forall i, (i < n)%nat -> nth i (ldata l) [] = [(i, sigma)]). { intros i Hi. rewrite L4 by auto. assert (Y : (i <? 0 + n)%nat = true) by (apply Nat.ltb_lt; lia). now rewrite Y. }
    assert (WL : lil_wf l). { split; [lia|]. intros row Hrow. apply (In_nth _ _ []) in Hrow as (i & Hi & <-). rewrite L5 by lia. cbn. repeat constructor. intros []. }
    assert (CL : lil_cols_ok l). { intros row c Hrow Hcc. apply (In_nth _ _ []) in Hrow as (i & Hi & <-). rewrite L5 in Hcc by lia. cbn in Hcc. destruct Hcc as [<-|[]]. lia. }
    destruct (csr_of_lil_cols l WL CL) as (D & l' & ED & WD & CD & RD & KD & GD). rewrite ED. cbn [bind].
    destruct (proj1 (C08_csr_add_sub_pf Rminus A D (or_intror eq_refl) W WD) ltac:(lia)) as (B & EB & WB & RB & KB & GB). exists B. split; [exact EB|]. split.
    + split; [exact WB|]. split; [apply (csr_zip_cols Rminus A D); auto|]. split; lia.
    + intros i j Hi Hj. unfold entry. rewrite GB by lia. f_equal. unfold csr_entry. rewrite GD by lia. unfold lil_get. rewrite (rd_nth (ldata l) i []) by lia. cbn [bind]. rewrite L5 by auto. cbn [row_get fst snd].
      unfold delta. destruct (i =? j)%nat; ring.
Qed.

(** ** norms of sums *)
Lemma norm_triangle n u v : norm2 n (fun i => u i + v i) <= norm2 n u + norm2 n v.
Proof.
  pose proof (norm_nonneg n u). pose proof (norm_nonneg n v). pose proof (norm_nonneg n (fun i => u i + v i)).
  assert (E : norm2 n (fun i => u i + v i) ^ 2 <= (norm2 n u + norm2 n v) ^ 2).
  { replace (norm2 n (fun i => u i + v i) ^ 2) with (dot n u u + 2 * dot n u v + dot n v v).
    - pose proof (abs_dot n u v _ _ (Rle_refl _) (Rle_refl _)) as A. pose proof (Rle_abs (dot n u v)). pose proof (norm_sq n u). pose proof (norm_sq n v). nra.
    - cbn [pow]. rewrite Rmult_1_r, norm_sq. rewrite (dot_ext n (fun i => u i + v i) (fun i => 1 * u i + 1 * v i) (fun i => u i + v i) (fun i => 1 * u i + 1 * v i)) by (intros; ring). rewrite dot_lin_l, !dot_lin_r, (dot_sym n v u). ring. }
  nra.
Qed.
Lemma norm_scal n c u : norm2 n (fun i => c * u i) = Rabs c * norm2 n u.
Proof.
  unfold norm2. rewrite (dot_ext n (fun i => c * u i) (fun i => c * u i + 0 * u i) (fun i => c * u i) (fun i => c * u i + 0 * u i)) by (intros; ring). rewrite dot_lin_l, !dot_lin_r.
  replace (c * (c * dot n u u + 0 * dot n u u) + 0 * (c * dot n u u + 0 * dot n u u)) with ((c * c) * dot n u u) by ring.
  rewrite sqrt_mult_alt by nra. f_equal. apply sqrt_Rsqr_abs.
Qed.
Lemma norm_ext n u v : agree n u v -> norm2 n u = norm2 n v.
Proof. intros H. unfold norm2. f_equal. now apply dot_ext. Qed.
Lemma norm_0 n : norm2 n (fun _ => 0) = 0.
Proof. unfold norm2. rewrite dot_0_l. apply sqrt_0. Qed.
Lemma norm_sum n m (y : nat -> R) (E : nat -> nat -> R) d : (forall j, (j < m)%nat -> norm2 n (E j) <= d) -> norm2 n (fun i => bigsum m (fun j => y j * E j i)) <= d * bigsum m (fun j => Rabs (y j)).
Proof.
  intros H. induction m as [|m IH]; cbn [bigsum].
  - rewrite norm_0. lra.
  - eapply Rle_trans; [apply norm_triangle|]. rewrite norm_scal. specialize (IH ltac:(intros; apply H; lia)). specialize (H m ltac:(lia)). pose proof (Rabs_pos (y m)). nra.
Qed.
Lemma matvec_bigsum n M m (y : nat -> R) (z : nat -> nat -> R) i : matvec n M (fun i => bigsum m (fun j => y j * z j i)) i = bigsum m (fun j => y j * matvec n M (z j) i).
Proof.
  induction m as [|m IH]; cbn [bigsum]; [apply matvec_0|]. rewrite (matvec_ext n M _ (fun i => 1 * bigsum m (fun j => y j * z j i) + y m * z m i)) by (intros k Hk; ring). rewrite matvec_lin, IH. ring.
Qed.

(** ** the process with an operator that solves up to a relative residual *)
Section Inverse.
Variables (n m : nat) (A : csr R) (op : list R -> res (list R)) (eps : R).
Hypothesis Hn : (0 < n)%nat.
Hypothesis Hr : crows A = n.
Hypothesis Hop : forall v w, length v = n -> op v = Ok w -> length w = n.
Hypothesis Hacc : forall v w, length v = n -> norm2 n (ix v) = 1 -> op v = Ok w -> norm2 n (fun i => matvec n (entry A) (ix w) i - ix v i) < eps.
Lemma inverse_process alpha beta q : process op false A m = Ok (alpha, beta, q) ->
  (0 < m)%nat /\ shape n m (alpha, beta, q) /\
  (exists d, get_diagonal A = Ok d /\ norm2 n (ix d) <> 0 /\ forall i, (i < n)%nat -> qr q 0 i = ix d i / norm2 n (ix d)) /\
  (forall j, (j < m)%nat -> norm2 n (qr q j) = 1) /\
  (forall j, (S j < m)%nat -> 0 < ix beta j /\ dot n (qr q j) (qr q (S j)) = 0) /\
  exists w, ix beta (m - 1) = norm2 n w /\ dot n (qr q (m - 1)) w = 0 /\
    forall j, (j < m)%nat -> norm2 n (fun i => matvec n (entry A) (fun i => bigsum m (fun k => tri (ix alpha) (ix beta) j k * qr q k i) + (if (S j =? m)%nat then w i else 0)) i - qr q j i) < eps.
Proof.
  intros E. apply (process_inv n m Hn op Hop A _ Hr) in E as (Hm & (Sh & U & P & HP & HR) & D). cbn [snd] in D. split; [exact Hm|]. split; [exact Sh|]. split; [exact D|]. destruct Sh as (L1 & L2 & L3 & L4).
  set (a := ix alpha) in *. set (b := ix beta) in *. set (Q := qr q) in *. set (W := fun j i => P j i - prev b Q j i - a j * Q j i).
  assert (Un : forall j, (j < m)%nat -> norm2 n (Q j) = 1).
  { intros [|j] Hj; [unfold norm2; rewrite U; apply sqrt_1|]. destruct (HR j ltac:(lia)) as (_ & B & V). destruct (V Hj) as (NB & V2). rewrite (norm_ext n (Q (S j)) (fun i => / b j * W j i)) by (intros i Hi; rewrite V2 by auto; unfold W; field; auto).
    rewrite norm_scal. change (norm2 n (W j)) with (norm2 n (fun i => P j i - prev b Q j i - a j * Q j i)). rewrite <- B. pose proof (norm_nonneg n (fun i => P j i - prev b Q j i - a j * Q j i)) as NN. rewrite <- B in NN.
    rewrite Rabs_right; [field; auto|]. apply Rle_ge. apply Rlt_le, Rinv_0_lt_compat. lra. }
  assert (Ow : forall j, (j < m)%nat -> dot n (Q j) (W j) = 0).
  { intros j Hj. destruct (HR j Hj) as (EA & _). unfold W. rewrite (dot_ext n (Q j) (Q j) _ (fun i => 1 * (fun i => P j i - prev b Q j i) i + (- a j) * Q j i)) by (intros; auto; ring). rewrite dot_lin_r, <- EA, <- (norm_sq n (Q j)), (Un j Hj). ring. }
  split; [exact Un|]. split.
  - intros j Hj. destruct (HR j ltac:(lia)) as (_ & B & V). destruct (V Hj) as (NB & V2). pose proof (norm_nonneg n (W j)) as NN. change (norm2 n (W j)) with (norm2 n (fun i => P j i - prev b Q j i - a j * Q j i)) in NN. rewrite <- B in NN. split; [lra|].
    rewrite (dot_ext n (Q j) (Q j) (Q (S j)) (fun i => / b j * W j i + 0 * W j i)) by (intros i Hi; auto; rewrite V2 by auto; unfold W; field; auto). rewrite dot_lin_r, (Ow j) by lia. ring.
  - exists (W (m - 1)%nat). splits.
    + destruct (HR (m - 1)%nat ltac:(lia)) as (_ & B & _). exact B.
    + apply Ow. lia.
    + intros j Hj. destruct (HP j Hj) as (w & Ew & Vw). pose proof (Hacc (nth j q []) w (L4 j Hj) (Un j Hj) Ew) as AC.
      rewrite (norm_ext n _ (fun i => matvec n (entry A) (ix w) i - ix (nth j q []) i)); [exact AC|]. intros i Hi. cbv beta. change (ix (nth j q [])) with (Q j). f_equal. apply matvec_ext. clear i Hi. intros i Hi. rewrite <- Vw by auto.
      (* prev + a q + w *)
      assert (ST : bigsum m (fun k => tri a b j k * Q k i) = prev b Q j i + a j * Q j i + (if (S j =? m)%nat then 0 else b j * Q (S j) i)).
      { rewrite (bigsum_ext m _ (fun k => delta k j * (a j * Q k i) + (match j with O => 0 | S j' => delta k j' * (b j' * Q k i) end + (if (S j =? m)%nat then 0 else delta k (S j) * (b j * Q k i))))).
        - rewrite !bigsum_plus. rewrite (bigsum_single m j); auto; [|intros k Hk N; rewrite delta_ne by auto; ring]. rewrite delta_refl.
          assert (Z1 : bigsum m (fun k => match j with O => 0 | S j' => delta k j' * (b j' * Q k i) end) = prev b Q j i).
          { destruct j as [|j]; [apply bigsum_0|]. rewrite (bigsum_single m j); [|lia|intros k Hk N; rewrite delta_ne by auto; ring]. rewrite delta_refl. cbn [prev]. ring. }
          assert (Z2 : bigsum m (fun k => if (S j =? m)%nat then 0 else delta k (S j) * (b j * Q k i)) = if (S j =? m)%nat then 0 else b j * Q (S j) i).
          { destruct (Nat.eqb_spec (S j) m) as [e|ne]; [apply bigsum_0|]. rewrite (bigsum_single m (S j)); [|lia|intros k Hk N; rewrite delta_ne by auto; ring]. rewrite delta_refl. ring. }
          rewrite Z1, Z2. ring.
        - intros k Hk. unfold tri, delta. destruct (Nat.eqb_spec j k) as [<-|N1].
          + rewrite Nat.eqb_refl. assert (Y : (j =? S j)%nat = false) by (apply Nat.eqb_neq; lia). rewrite Y. replace (match j with O => 0 | S j' => (if (j =? j')%nat then 1 else 0) * (b j' * Q j i) end) with 0 by (destruct j as [|j]; auto; assert (Y2 : (S j =? j)%nat = false) by (apply Nat.eqb_neq; lia); rewrite Y2; ring). destruct (S j =? m)%nat; ring.
          + assert (Y : (k =? j)%nat = false) by (apply Nat.eqb_neq; lia). rewrite Y. destruct (Nat.eqb_spec k (S j)) as [->|N2].
            * assert (Y3 : (S j =? m)%nat = false) by (apply Nat.eqb_neq; lia). rewrite Y3. replace (match j with O => 0 | S j' => (if (S j =? j')%nat then 1 else 0) * (b j' * Q (S j) i) end) with 0 by (destruct j as [|j]; auto; assert (Y2 : (S (S j) =? j)%nat = false) by (apply Nat.eqb_neq; lia); rewrite Y2; ring). ring.
            * destruct (Nat.eqb_spec j (S k)) as [->|N3].
              -- rewrite Nat.eqb_refl. destruct (S (S k) =? m)%nat; ring.
              -- replace (match j with O => 0 | S j' => (if (k =? j')%nat then 1 else 0) * (b j' * Q k i) end) with 0 by (destruct j as [|j]; auto; assert (Y2 : (k =? j)%nat = false) by (apply Nat.eqb_neq; lia); rewrite Y2; ring). destruct (S j =? m)%nat; ring. }
      rewrite ST. destruct (Nat.eqb_spec (S j) m) as [e|ne].
      * replace (m - 1)%nat with j by lia. unfold W. ring.
      * destruct (HR j Hj) as (_ & _ & V). destruct (V ltac:(lia)) as (NB & V2). rewrite V2 by auto. field. auto.
Qed.
End Inverse.

Lemma solve_len n A itrmax v w : square_csr n A -> length v = n -> solve A itrmax v = Ok w -> length w = n.
Proof.
  intros SQ L E. unfold solve, scaling_cg in E. apply bind_Ok in E as ([c x] & E & E2). injection E2 as <-. apply bind_Ok in E as (D & ED & E).
  destruct (get_diagonal_ok n A SQ) as (D' & ED' & LD & _). rewrite ED in ED'. injection ED' as <-.
  unfold pcg in E. apply bind_Ok in E as (s0 & E0 & E). apply bind_Ok in E as ([c' s1] & E1 & E). injection E as <- <-.
  assert (KL : keeps_length n (scaling D)) by (apply scaling_length; auto).
  apply (iterate_inv _ _ (fun _ => pcg_inv n A v)) in E1; [|intros; eapply pcg_step_inv; eauto|eapply pcg_init_inv; eauto]. destruct E1 as ((k & E1) & _). exact (proj1 E1).
Unshelve. all: exact 0%nat.
Qed.
(** ScalingCG on a symmetric positive definite matrix *)
Lemma solve_acc n A itrmax v w : square_csr n A -> symmetric n (entry A) -> pos_def n (entry A) -> (n <= itrmax)%nat -> length v = n -> norm2 n (ix v) = 1 -> solve A itrmax v = Ok w ->
  length w = n /\ norm2 n (fun i => matvec n (entry A) (ix w) i - ix v i) < 1 / 10 ^ 10.
Proof.
  intros SQ SY PD Hi L U E. assert (NZ : nonzero n (ix v)). { apply (dot_pos_inv n (ix v) (ix v)). rewrite <- norm_sq, U. lra. }
  destruct (C24_scaling_cg_pf n A v itrmax (1 / 10 ^ 10) SQ L SY PD NZ ltac:(apply Rdiv_lt_0_compat; [lra|apply pow_lt; lra]) Hi) as (x & Ex & (Lx & Ax)). unfold solve in E. rewrite Ex in E. cbn [bind] in E. injection E as <-.
  split; auto. rewrite U, Rmult_1_r in Ax. eapply Rle_lt_trans; [|exact Ax]. apply Req_le. rewrite (norm_ext n (residual n A v x) (fun i => (-1) * (fun i => matvec n (entry A) (ix x) i - ix v i) i)) by (intros i Hi'; unfold residual; ring).
  rewrite norm_scal, Rabs_left by lra. ring.
Qed.

(** ** one run of ShiftedInvertLanczos *)
Definition inverted_facts (fuel n m : nat) (M : nat -> nat -> R) (sigma eps : R) (alpha beta : list R) (q : list (list R)) (l : list (R * list R)) (w : nat -> R) : Prop :=
  (0 < m)%nat /\ shape n m (alpha, beta, q) /\ length l = m /\
  (forall j, (j < m)%nat -> norm2 n (qr q j) = 1) /\
  (forall j, (S j < m)%nat -> 0 < ix beta j /\ dot n (qr q j) (qr q (S j)) = 0) /\
  (forall i, (i < n)%nat -> qr q 0 i * norm2 n (fun i => M i i) = M i i) /\
  ix beta (m - 1) = norm2 n w /\ dot n (qr q (m - 1)) w = 0 /\
  (forall j, (j < m)%nat -> norm2 n (fun i => matvec n M (fun i => bigsum m (fun k => tri (ix alpha) (ix beta) j k * qr q k i) + (if (S j =? m)%nat then w i else 0)) i - qr q j i) < eps) /\
  forall k, (k < m)%nat -> exists theta y, bisection_method fuel alpha beta (m - k - 1) = Ok theta /\ theta <> 0 /\ fst (nth k l (0, [])) = sigma + 1 / theta /\
    inverse_power alpha beta theta = Ok y /\ reconvert y q = Ok (snd (nth k l (0, []))).
Lemma shifted_run fuel n A m sigma l : square_csr n A -> (0 < n)%nat -> symmetric n (entry A) -> pos_def n (fun i j => entry A i j - sigma * delta i j) -> shifted_invert fuel A m sigma = Ok l ->
  exists alpha beta q w, inverted_facts fuel n m (fun i j => entry A i j - sigma * delta i j) sigma (1 / 10 ^ 10) alpha beta q l w.
Proof.
  intros SQ Hn SY PD E. unfold shifted_invert in E. destruct (shift_identity_ok n A sigma SQ) as (B & EB & SB & VB). rewrite EB in E. cbn [bind] in E. apply bind_Ok in E as ([[alpha beta] q] & EP & E).
  set (M := fun i j => entry A i j - sigma * delta i j) in *. assert (MV : forall v, agree n (matvec n (entry B) v) (matvec n M v)) by (intros v i Hi; unfold matvec; apply bigsum_ext; intros j Hj; rewrite VB by auto; reflexivity).
  assert (SYB : symmetric n (entry B)) by (intros i j Hi Hj; rewrite !VB by auto; rewrite (SY i j), (delta_sym i j) by auto; reflexivity).
  assert (PDB : pos_def n (entry B)). { intros u Hu. rewrite (dot_ext n u u (matvec n (entry B) u) (matvec n M u)) by (auto; apply MV). now apply PD. }
  destruct SQ as (W & C & Hr & Hc). assert (Hit : (n <= Nat.max (crows A) 1000)%nat) by lia. remember (Nat.max (crows A) 1000) as itr eqn:Hitr. clear Hitr.
  destruct (inverse_process n m B (solve B itr) (1 / 10 ^ 10) Hn (proj1 (proj2 (proj2 SB)))) with (alpha := alpha) (beta := beta) (q := q) as (Hm & Sh & (d & Ed & Nd & Vd) & Un & Nb & w & H1 & H2 & H3).
  - intros v x L Ex. now apply (solve_len n B itr v x SB L).
  - intros v x L Uv Ex. now apply (solve_acc n B itr v x SB SYB PDB Hit L Uv Ex).
  - exact EP.
  - exists alpha, beta, q, w. unfold inverted_facts. split; [exact Hm|]. split; [exact Sh|]. split; [unfold inverted_ritz in E; apply mapM_length in E; rewrite seq_length in E; exact E|].
    split; [exact Un|]. split; [exact Nb|]. split.
    { destruct (get_diagonal_ok n B SB) as (D & ED & LD & VD). rewrite Ed in ED. injection ED as <-. intros i Hi. assert (EN : norm2 n (fun i => M i i) = norm2 n (ix d)) by (apply norm_ext; intros j Hj; rewrite VD, VB by auto; reflexivity).
      rewrite EN, Vd by auto. rewrite VD, VB by auto. unfold M. field. exact Nd. }
    split; [exact H1|]. split; [exact H2|]. split.
    { intros j Hj. eapply Rle_lt_trans; [|apply (H3 j Hj)]. apply Req_le, norm_ext. intros i Hi. cbv beta. f_equal. symmetry. now apply MV. }
    intros k Hk. unfold inverted_ritz in E.
    set (f := fun k => e <- bisection_method fuel alpha beta (m - k - 1) ;; ie <- Rdiv_res 1 e ;; y <- inverse_power alpha beta e ;; x <- reconvert y q ;; Ok (sigma + ie, x)) in E.
    assert (Ek : f k = Ok (nth k l (0, []))).
    { apply mapM_Forall2 in E. assert (G : forall (f : nat -> res (R * list R)) lo len l, Forall2 (fun x y => f x = Ok y) (seq lo len) l -> forall k, (k < len)%nat -> f (lo + k)%nat = Ok (nth k l (0, []))).
      { intros f' lo len. revert lo. induction len as [|len IH]; intros lo l' F j Hj; [lia|]. cbn [seq] in F. inversion F; subst. destruct j as [|j]; [rewrite Nat.add_0_r; auto|]. cbn [nth]. rewrite Nat.add_succ_r. apply (IH (S lo)); auto. lia. }
      apply (G _ 0%nat m l E k Hk). }
    unfold f in Ek. apply bind_Ok in Ek as (e & E1 & Ek). apply bind_Ok in Ek as (ie & E2 & Ek). apply bind_Ok in Ek as (y & E3 & Ek). apply bind_Ok in Ek as (x & E4 & Ek). injection Ek as Ek. rewrite <- Ek. cbn [fst snd].
    apply Rdiv_res_inv in E2 as (N0 & ->). exists e, y. splits; auto.
Qed.
