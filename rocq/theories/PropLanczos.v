(** Properties C88-C93: the eigenvalue solvers. *)
From Coq Require Import List Arith Lia Bool Reals Lra.
From Verif Require Import Res SumR SparseModel SparseSpec DenseR LUModel KrylovModel KrylovSpec LanczosSpec LanczosModel LanczosExample LanczosExample2 LanczosMain.
Import ListNotations.
Local Open Scope R_scope.

(** C88: for a symmetric tridiagonal matrix with nonzero off-diagonal entries the sign changes counted by BisectionMethod at a point are the number of eigenvalues below that point *)
Theorem C88_sign_count : forall alpha beta x r, (0 < length alpha <= length beta)%nat -> (forall k, (S k < length alpha)%nat -> ix beta k <> 0) ->
  ordered_spectrum (length alpha) (tri (ix alpha) (ix beta)) r ->
  exists N, sign_count alpha beta x = Ok N /\ (N <= length alpha)%nat /\ (forall i, (i < length alpha)%nat -> (r i < x <-> (i < N)%nat)).
Proof. exact C88_sign_count_pf. Qed.
Print Assumptions C88_sign_count.

(** the matrix [[-1,1],[1,1]] has the eigenvalues -sqrt 2 and sqrt 2: one of them is below 0 *)
Example C88_sign_count_example : ordered_spectrum 2 (tri (ix [-1; 1]) (ix [1; 0])) (fun i => match i with O => - sqrt 2 | _ => sqrt 2 end) /\ exists N, sign_count [-1; 1] [1; 0] 0 = Ok N /\ N = 1%nat.
Proof.
  assert (NZ : forall k, (S k < 2)%nat -> ix [1; 0] k <> 0) by (intros [|k] Hk; [cbn; lra|lia]).
  assert (S2 : sqrt 2 * sqrt 2 = 2) by (apply sqrt_sqrt; lra). assert (P2 : 0 < sqrt 2) by (apply sqrt_lt_R0; lra).
  assert (HS : ordered_spectrum 2 (tri (ix [-1; 1]) (ix [1; 0])) (fun i => match i with O => - sqrt 2 | _ => sqrt 2 end)).
  { split.
    - intros [|[|i]] [|[|j]] H1 H2; try lia. lra.
    - intros x. rewrite (SturmMath2.eigen_chp (ix [-1; 1]) (ix [1; 0]) 2 ltac:(lia) NZ). rewrite SturmMath.chp_SS, SturmMath.chp_1, SturmMath.chp_0. unfold ix. cbn [nth]. split.
      + intros H. assert (Z : (x - sqrt 2) * (x + sqrt 2) = 0) by nra. apply Rmult_integral in Z as [Z|Z]; [exists 1%nat|exists 0%nat]; split; auto; lra.
      + intros (i & Hi & ->). destruct i as [|i]; nra. }
  split; [exact HS|]. destruct (C88_sign_count [-1; 1] [1; 0] 0 _ (conj (Nat.lt_0_succ 1) (le_n 2)) NZ HS) as (N & E & L & C). exists N. split; [exact E|].
  cbn [length] in *. pose proof (proj1 (C 0%nat ltac:(lia)) ltac:(lra)) as G. assert (G2 : ~ (1 < N)%nat) by (intros K; apply (proj2 (C 1%nat ltac:(lia))) in K; lra). lia.
Qed.

(** C88: BisectionMethod returns the eigenvalue number [mode] (counted from the smallest) up to 1e-13 times the largest absolute row sum; 45 passes of its loop are enough *)
Theorem C88_bisection : forall fuel alpha beta mode, (mode < length alpha <= length beta)%nat -> (forall k, (S k < length alpha)%nat -> ix beta k <> 0) ->
  (exists i, (i < length alpha)%nat /\ (ix alpha i <> 0 \/ ix beta i <> 0)) -> (45 <= fuel)%nat ->
  exists r lambda, ordered_spectrum (length alpha) (tri (ix alpha) (ix beta)) r /\ bisection_method fuel alpha beta mode = Ok lambda /\
    forall B, row_bound (length alpha) (ix alpha) (ix beta) B -> Rabs (lambda - r mode) <= 1 / 10 ^ 13 * B.
Proof. exact C88_bisection_pf. Qed.
Print Assumptions C88_bisection.

Example C88_bisection_example : exists lambda, bisection_method 45 [-1; 1] [1; 0] 1 = Ok lambda /\ Rabs (lambda - sqrt 2) <= 2 / 10 ^ 13.
Proof.
  assert (NZ : forall k, (S k < 2)%nat -> ix [1; 0] k <> 0) by (intros [|k] Hk; [cbn; lra|lia]).
  destruct (C88_bisection 45 [-1; 1] [1; 0] 1 (conj (le_n 2) (le_n 2)) NZ) as (r & lambda & HS & E & HB); [exists 0%nat; split; [cbn; lia|left; cbn; lra]|lia|].
  exists lambda. split; [exact E|]. destruct C88_sign_count_example as (HS' & _). rewrite (LanczosProof.ordered_unique _ _ _ _ HS HS') in HB by (cbn; lia).
  assert (A1 : Rabs (-1) = 1) by (rewrite Rabs_left; lra). specialize (HB 2). eapply Rle_trans; [apply HB|cbn [pow]; lra]. intros [|[|i]] Hi; unfold ix; cbn [nth]; rewrite ?A1, ?Rabs_R0, ?Rabs_R1; try lra. cbn in Hi. lia.
Qed.

(** C88, a refuted claim: when all entries are zero the loop never runs and the function returns an uninitialised variable (the eigenvalue is 0) *)
Theorem C88_bisection_zero_refuted : exists alpha beta, length alpha = 1%nat /\ length beta = 1%nat /\ eigenvalue 1 (tri (ix alpha) (ix beta)) 0 /\
  forall fuel, bisection_method fuel alpha beta 0 = Fail Uninit.
Proof. exact C88_bisection_zero_refuted_pf. Qed.
Print Assumptions C88_bisection_zero_refuted.

(** C88, a refuted claim: with a zero off-diagonal entry the counting can miss eigenvalues; for the diagonal matrix (0, -1) the function returns a number in [0, 1] for the smallest eigenvalue, which is -1 *)
Theorem C88_bisection_decoupled_refuted : exists alpha beta lambda, length alpha = 2%nat /\ length beta = 2%nat /\ bisection_method 45 alpha beta 0 = Ok lambda /\ 0 <= lambda /\
  ordered_spectrum 2 (tri (ix alpha) (ix beta)) (fun i => match i with O => -1 | _ => 0 end).
Proof. exact C88_bisection_decoupled_refuted_pf. Qed.
Print Assumptions C88_bisection_decoupled_refuted.

(** C89: where no leading block of T - lambda is singular, InversePowerMethod runs and returns a unit vector y. For every unit eigenvector u of T with eigenvalue t: the residual satisfies |(T - lambda) y|^10000 |u_0| <= |t - lambda|^10000, and if the other eigenvalues have at least the distance g from lambda, then (1 - (y.u)^2) u_0^2 <= (|t - lambda|/g)^20000 *)
Theorem C89_inverse_power : forall alpha beta lambda, (0 < length alpha <= length beta)%nat -> (forall k, (S k < length alpha)%nat -> ix beta k <> 0) ->
  (forall k, (1 <= k <= length alpha)%nat -> ~ eigenvalue k (tri (ix alpha) (ix beta)) lambda) ->
  exists y, inverse_power alpha beta lambda = Ok y /\ length y = length alpha /\ norm2 (length alpha) (ix y) = 1 /\
    forall u t, (forall i, (i < length alpha)%nat -> matvec (length alpha) (tri (ix alpha) (ix beta)) u i = t * u i) -> norm2 (length alpha) u = 1 ->
      norm2 (length alpha) (fun i => matvec (length alpha) (tri (ix alpha) (ix beta)) (ix y) i - lambda * ix y i) ^ (100 * 100) * Rabs (u 0%nat) <= Rabs (t - lambda) ^ (100 * 100) /\
      forall g, 0 < g -> (forall t', eigenvalue (length alpha) (tri (ix alpha) (ix beta)) t' -> t' <> t -> g <= Rabs (t' - lambda)) ->
        (1 - dot (length alpha) (ix y) u ^ 2) * u 0%nat ^ 2 <= (Rabs (t - lambda) / g) ^ (2 * (100 * 100)).
Proof. exact C89_inverse_power_pf. Qed.
Print Assumptions C89_inverse_power.

(** one row: T = (2), lambda = 1; the vector is the unit eigenvector up to sign *)
Example C89_inverse_power_example : exists y, inverse_power [2] [0] 1 = Ok y /\ norm2 1 (ix y) = 1 /\ norm2 1 (fun i => matvec 1 (tri (ix [2]) (ix [0])) (ix y) i - 1 * ix y i) ^ (100 * 100) * Rabs 1 <= Rabs (2 - 1) ^ (100 * 100).
Proof.
  destruct (C89_inverse_power [2] [0] 1 (conj (le_n 1) (le_n 1))) as (y & E & L & U & H).
  - intros k Hk. cbn in Hk. lia.
  - intros k Hk (v & (i & Hi & N) & HV). cbn in Hk. assert (k = 1)%nat as -> by lia. assert (i = 0)%nat as -> by lia. specialize (HV 0%nat ltac:(lia)). unfold matvec, tri, ix in HV. cbn in HV. lra.
  - exists y. split; [exact E|]. split; [exact U|]. refine (proj1 (H (fun _ => 1) 2 _ _)).
    + intros i Hi. cbn in Hi. assert (i = 0)%nat as -> by lia. unfold matvec, tri, ix. cbn. ring.
    + unfold norm2, dot. cbn [length bigsum]. replace (0 + 1 * 1) with 1 by ring. apply sqrt_1.
Qed.

(** C90: the Lanczos process on a symmetric matrix, with or without the additional orthogonalisation of RestartLanczos: if it returns, the number of steps is at most the order, the vectors q are orthonormal, the first one is the normalised diagonal of A, and the returned alpha and beta are the entries of the projection Q^T A Q, which is tridiagonal *)
Theorem C90_process : forall re n A m alpha beta q, square_csr n A -> (0 < n)%nat -> symmetric n (entry A) -> process (Amul A) re A m = Ok (alpha, beta, q) ->
  (0 < m <= n)%nat /\ length alpha = m /\ length beta = m /\ length q = m /\ (forall j, (j < m)%nat -> length (nth j q []) = n) /\
  (forall i j, (i < m)%nat -> (j < m)%nat -> dot n (ix (nth i q [])) (ix (nth j q [])) = delta i j) /\
  (forall i, (i < n)%nat -> ix (nth 0 q []) i * norm2 n (fun i => entry A i i) = entry A i i) /\
  (forall i j, (i < m)%nat -> (j < m)%nat -> dot n (ix (nth i q [])) (matvec n (entry A) (ix (nth j q []))) = tri (ix alpha) (ix beta) i j) /\
  (forall k, (S k < m)%nat -> 0 < ix beta k).
Proof. exact C90_process_pf. Qed.
Print Assumptions C90_process.

(** the matrix [[1,1],[1,-1]]: q is an orthonormal basis and the projection is [[-1,1],[1,1]] *)
Example C90_process_example : square_csr 2 exH /\ symmetric 2 (entry exH) /\
  process (Amul exH) false exH 2 = Ok ([-1; 1], [1; 0], [[1 / sqrt 2; -1 / sqrt 2]; [1 / sqrt 2; 1 / sqrt 2]]).
Proof.
  split; [exact exH_square|]. split; [exact exH_sym|]. exact processH.
Qed.

(** C90: when Lanczos returns, its m results belong to an orthonormal family q (starting with the normalised diagonal of A): eigenvalue number k is the k-th smallest eigenvalue of the projection of A to their span up to 3e-13 times the norm of A; the vector is Q y with |y| = 1, and y is an approximate eigenvector of the projection in the sense of the inverse power method *)
Theorem C90_lanczos : forall fuel n A m l, square_csr n A -> (0 < n)%nat -> symmetric n (entry A) -> lanczos fuel A m = Ok l ->
  (0 < m <= n)%nat /\ length l = m /\ exists (q : nat -> nat -> R) (r : nat -> R),
    (forall i j, (i < m)%nat -> (j < m)%nat -> dot n (q i) (q j) = delta i j) /\
    (forall i, (i < n)%nat -> q 0%nat i * norm2 n (fun i => entry A i i) = entry A i i) /\
    ordered_spectrum m (fun i j => dot n (q i) (matvec n (entry A) (q j))) r /\
    forall k, (k < m)%nat -> let '(e, x) := nth k l (0, []) in
      (forall N, (forall v, norm2 n (matvec n (entry A) v) <= N * norm2 n v) -> Rabs (e - r k) <= 3 / 10 ^ 13 * N) /\
      length x = n /\ norm2 n (ix x) = 1 /\
      exists y, (forall i, (i < n)%nat -> ix x i = bigsum m (fun j => y j * q j i)) /\ norm2 m y = 1 /\
        (forall u t, (forall i, (i < m)%nat -> matvec m (fun i j => dot n (q i) (matvec n (entry A) (q j))) u i = t * u i) -> norm2 m u = 1 ->
           norm2 m (fun i => matvec m (fun i j => dot n (q i) (matvec n (entry A) (q j))) y i - e * y i) ^ (100 * 100) * Rabs (u 0%nat) <= Rabs (t - e) ^ (100 * 100)).
Proof. exact C90_lanczos_pf. Qed.
Print Assumptions C90_lanczos.

(** a run that returns *)
Example C90_lanczos_example : square_csr 2 exH /\ symmetric 2 (entry exH) /\ exists l, lanczos 45 exH 2 = Ok l /\ length l = 2%nat.
Proof.
  split; [exact exH_square|]. split; [exact exH_sym|]. destruct (runH 45 (le_n 45)) as (l & El). exists l. split; [exact El|].
  apply (C90_lanczos 45 2 exH 2 l exH_square Nat.lt_0_2 exH_sym El).
Qed.

(** C90: with as many steps as rows, a returning Lanczos gives all eigenvalues of the symmetric matrix A, in increasing order, each up to 3e-13 times the norm of A, and unit vectors x whose residual |A x - e x| satisfies |A x - e x|^10000 |v.d| <= |r_k - e|^10000 |d| for every unit eigenvector v of that eigenvalue (d is the diagonal of A, the starting vector) *)
Theorem C90_lanczos_full : forall fuel n A l, square_csr n A -> (0 < n)%nat -> symmetric n (entry A) -> lanczos fuel A n = Ok l ->
  length l = n /\ exists r, ordered_spectrum n (entry A) r /\
    forall k, (k < n)%nat -> let '(e, x) := nth k l (0, []) in
      (forall N, (forall v, norm2 n (matvec n (entry A) v) <= N * norm2 n v) -> Rabs (e - r k) <= 3 / 10 ^ 13 * N) /\
      length x = n /\ norm2 n (ix x) = 1 /\
      (forall v t, (forall i, (i < n)%nat -> matvec n (entry A) v i = t * v i) -> norm2 n v = 1 ->
         norm2 n (fun i => matvec n (entry A) (ix x) i - e * ix x i) ^ (100 * 100) * Rabs (dot n v (fun i => entry A i i)) <= Rabs (t - e) ^ (100 * 100) * norm2 n (fun i => entry A i i)).
Proof. exact C90_lanczos_full_pf. Qed.
Print Assumptions C90_lanczos_full.

(** the matrix [[1,1],[1,-1]] has the eigenvalues -sqrt 2 and sqrt 2; the run returns *)
Example C90_lanczos_full_example : exists e x e' x', lanczos 45 exH 2 = Ok [(e, x); (e', x')] /\ Rabs (e + sqrt 2) <= 6 / 10 ^ 13 /\ Rabs (e' - sqrt 2) <= 6 / 10 ^ 13 /\ norm2 2 (ix x) = 1 /\ norm2 2 (ix x') = 1.
Proof.
  destruct (runH 45 (le_n 45)) as (l & El). destruct (C90_lanczos_full 45 2 exH l exH_square Nat.lt_0_2 exH_sym El) as (Ll & r & HS & H).
  destruct l as [|[e x] [|[e' x'] [|]]]; try discriminate. exists e, x, e', x'. split; [exact El|].
  pose proof (H 0%nat Nat.lt_0_2) as (A0 & _ & U0 & _). pose proof (H 1%nat Nat.lt_1_2) as (A1 & _ & U1 & _). cbn [nth] in *.
  rewrite (exH_spectrum r HS 0%nat Nat.lt_0_2) in A0. rewrite (exH_spectrum r HS 1%nat Nat.lt_1_2) in A1. specialize (A0 2 exH_norm). specialize (A1 2 exH_norm). cbn [Nat.eqb] in *.
  split; [replace (e + sqrt 2) with (e - - sqrt 2) by ring; eapply Rle_trans; [exact A0|]; right; field; apply pow_nonzero; lra|].
  split; [eapply Rle_trans; [exact A1|]; right; field; apply pow_nonzero; lra|]. split; auto.
Qed.

(** C90, a refuted claim: for the symmetric matrix [[0,1],[1,0]] the starting vector (the diagonal) is zero and every run divides by zero *)
Theorem C90_zero_diagonal_refuted : exists A, square_csr 2 A /\ symmetric 2 (entry A) /\ (exists t, eigenvalue 2 (entry A) t) /\ forall fuel, lanczos fuel A 1 = Fail DivByZero.
Proof. exact C90_zero_diagonal_refuted_pf. Qed.
Print Assumptions C90_zero_diagonal_refuted.

(** C90, a refuted claim: when the starting vector lies in an invariant subspace the process breaks down: on the identity of order 2 two steps divide by zero *)
Theorem C90_breakdown_refuted : exists A, square_csr 2 A /\ symmetric 2 (entry A) /\ pos_def 2 (entry A) /\ forall fuel, lanczos fuel A 2 = Fail DivByZero.
Proof. exact C90_breakdown_refuted_pf. Qed.
Print Assumptions C90_breakdown_refuted.

(** C91: in exact arithmetic the additional orthogonalisation of RestartLanczos changes nothing for symmetric matrices: it returns what Lanczos returns, faults included *)
Theorem C91_restart_lanczos : forall fuel n A m, square_csr n A -> (0 < n)%nat -> symmetric n (entry A) -> restart_lanczos fuel A m = lanczos fuel A m.
Proof. exact C91_restart_lanczos_pf. Qed.
Print Assumptions C91_restart_lanczos.

Example C91_restart_lanczos_example : exists l, restart_lanczos 45 exH 2 = Ok l /\ length l = 2%nat.
Proof.
  destruct (runH 45 (le_n 45)) as (l & El). exists l. split; [rewrite (C91_restart_lanczos 45 2 exH 2 exH_square Nat.lt_0_2 exH_sym); exact El|]. apply (C90_lanczos_full 45 2 exH l exH_square Nat.lt_0_2 exH_sym El).
Qed.

(** C92: the matrix A - sigma I that ShiftedInvertLanczos works on *)
Theorem C92_shift : forall n A sigma, square_csr n A -> exists B, shift_identity A sigma = Ok B /\ square_csr n B /\ forall i j, (i < n)%nat -> (j < n)%nat -> entry B i j = entry A i j - sigma * delta i j.
Proof. exact C92_shift_pf. Qed.
Print Assumptions C92_shift.

Example C92_shift_example : exists B, shift_identity exH 5 = Ok B /\ entry B 1 1 = -1 - 5 * delta 1 1.
Proof. destruct (C92_shift 2 exH 5 exH_square) as (B & E & _ & V). exists B. split; [exact E|]. rewrite V by lia. reflexivity. Qed.

(** C92: ShiftedInvertLanczos for a symmetric A with A - sigma positive definite. If it returns, there are unit vectors q_j (q_0 the normalised diagonal of A - sigma, neighbours orthogonal), a tridiagonal T and a vector w orthogonal to the last q with: the columns z_j of Q T + w e_m^T solve (A - sigma) z_j = q_j up to 1e-10. Result number k is sigma + 1/theta where theta is the k-th largest eigenvalue of T (to the bisection accuracy), with the vector x = Q y, |y| = 1, y from the inverse power method; and (A - sigma)(theta x + Q (T y - theta y) + y_m w) = x up to 1e-10 sum |y_j| *)
Theorem C92_shifted_invert : forall fuel n A m sigma l, square_csr n A -> (0 < n)%nat -> symmetric n (entry A) -> pos_def n (fun i j => entry A i j - sigma * delta i j) ->
  shifted_invert fuel A m sigma = Ok l ->
  (0 < m)%nat /\ length l = m /\ exists (a b : nat -> R) (q : nat -> nat -> R) (w r : nat -> R),
    let M := fun i j => entry A i j - sigma * delta i j in
    (forall j, (j < m)%nat -> norm2 n (q j) = 1) /\
    (forall j, (S j < m)%nat -> 0 < b j /\ dot n (q j) (q (S j)) = 0) /\
    (forall i, (i < n)%nat -> q 0%nat i * norm2 n (fun i => M i i) = M i i) /\
    b (m - 1)%nat = norm2 n w /\ dot n (q (m - 1)%nat) w = 0 /\
    (forall j, (j < m)%nat -> norm2 n (fun i => matvec n M (fun i => bigsum m (fun k => tri a b j k * q k i) + (if (S j =? m)%nat then w i else 0)) i - q j i) < 1 / 10 ^ 10) /\
    ordered_spectrum m (tri a b) r /\
    forall k, (k < m)%nat -> let '(e, x) := nth k l (0, []) in
      exists theta y, theta <> 0 /\ e = sigma + 1 / theta /\ (forall B, row_bound m a b B -> Rabs (theta - r (m - k - 1)%nat) <= 1 / 10 ^ 13 * B) /\
        length x = n /\ (forall i, (i < n)%nat -> ix x i = bigsum m (fun j => y j * q j i)) /\ norm2 m y = 1 /\
        (forall u t, (forall i, (i < m)%nat -> matvec m (tri a b) u i = t * u i) -> norm2 m u = 1 ->
           norm2 m (fun i => matvec m (tri a b) y i - theta * y i) ^ (100 * 100) * Rabs (u 0%nat) <= Rabs (t - theta) ^ (100 * 100)) /\
        norm2 n (fun i => matvec n M (fun i => theta * ix x i + bigsum m (fun j => (matvec m (tri a b) y j - theta * y j) * q j i) + y (m - 1)%nat * w i) i - ix x i) <= 1 / 10 ^ 10 * bigsum m (fun j => Rabs (y j)).
Proof. exact C92_shifted_invert_pf. Qed.
Print Assumptions C92_shifted_invert.

(** the matrix (3) with the shift 1 *)
Example C92_shifted_invert_example : pos_def 1 (fun i j => entry (one_by_one 3) i j - 1 * delta i j) /\ exists l, shifted_invert 45 (one_by_one 3) 1 1 = Ok l /\ length l = 1%nat.
Proof.
  assert (PD : pos_def 1 (fun i j => entry (one_by_one 3) i j - 1 * delta i j)).
  { intros u (i & Hi & N). assert (i = 0)%nat as -> by lia. unfold dot, matvec. cbn [bigsum]. rewrite one_entry, delta_refl. pose proof (Rsqr_pos_lt _ N) as P. unfold Rsqr in P. nra. }
  split; [exact PD|]. destruct (shifted_example 45 (le_n 45)) as (l & El). exists l. split; [exact El|]. apply (C92_shifted_invert 45 1 (one_by_one 3) 1 1 l (one_square 3) Nat.lt_0_1 (one_sym 3) PD El).
Qed.

(** C93, a refuted claim: GeneralShiftedInvertLanczos and GeneralRestartShiftedInvertLanczos do not return the eigenvalues of A x = mu B x: the starting vector is normalised with the Euclidean norm and not with the norm of B. For A = (1), B = (4) the only eigenvalue is 1/4; both functions return 1/16 up to 1e-9 *)
Theorem C93_general_refuted : exists A B, square_csr 1 A /\ square_csr 1 B /\ symmetric 1 (entry A) /\ symmetric 1 (entry B) /\ pos_def 1 (entry A) /\ pos_def 1 (entry B) /\
  (forall mu, (exists v, nonzero 1 v /\ forall i, (i < 1)%nat -> matvec 1 (entry A) v i = mu * matvec 1 (entry B) v i) <-> mu = 1 / 4) /\
  forall fuel re, (45 <= fuel)%nat -> exists e x, general_shifted_invert fuel re A B 1 0 = Ok [(e, x)] /\ Rabs (e - 1 / 16) <= 1 / 10 ^ 9.
Proof. exact C93_general_refuted_pf. Qed.
Print Assumptions C93_general_refuted.
