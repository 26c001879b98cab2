(** Property C111: conjugate gradients on singular systems. *)
From Coq Require Import List Arith Lia Bool Reals Lra.
From Verif Require Import Res SumR SparseModel SparseSpec SparseMain DenseModel DenseR LUModel KrylovModel KrylovSpec KrylovMain SemiMain.
Import ListNotations.
Local Open Scope R_scope.

(** C111: a system with a symmetric matrix has a solution exactly when its
    right-hand side is orthogonal to the null vectors of the matrix *)
Theorem C111_alternative : forall (n : nat) (A : csr R) (b : list R), square_csr n A -> length b = n -> symmetric n (entry A) ->
  ((exists x, length x = n /\ csr_mulvec 0 Rplus Rmult A x = Ok b) <->
   forall z, (forall i, (i < n)%nat -> matvec n (entry A) z i = 0) -> dot n z (ix b) = 0).
Proof. exact C111_alternative_pf. Qed.
Print Assumptions C111_alternative.

Example C111_alternative_ex : exists x, length x = 2%nat /\ csr_mulvec 0 Rplus Rmult exS x = Ok [5; -5].
Proof. apply (C111_alternative 2 exS [5; -5] exS_square eq_refl exS_sym). intros z Hz. apply exS_kernel; auto. unfold ix. cbn. lra. Qed.

(** C111: plain conjugate gradients, in exact arithmetic, with a symmetric
    positive semidefinite matrix and a right-hand side orthogonal to its null
    vectors: after m <= n steps without any division by zero the residual is
    zero *)
Theorem C111_trace : forall (n : nat) (A : csr R) (b : list R),
  square_csr n A -> length b = n -> symmetric n (entry A) -> (forall u, 0 <= dot n u (matvec n (entry A) u)) ->
  (forall z, (forall i, (i < n)%nat -> matvec n (entry A) z i = 0) -> dot n z (ix b) = 0) ->
  exists (m : nat) (tr : nat -> cg_state), (m <= n)%nat /\ cg_init A b = Ok (tr 0%nat) /\
    (forall k, (k < m)%nat -> cg_step A (tr k) = Ok (tr (S k))) /\
    (forall k, (k < m)%nat -> nonzero n (ix (cg_r (tr k)))) /\
    (forall i, (i < n)%nat -> ix (cg_r (tr m)) i = 0) /\
    (forall i, (i < n)%nat -> matvec n (entry A) (ix (cg_x (tr m))) i = ix b i).
Proof. exact C111_trace_pf. Qed.
Print Assumptions C111_trace.

Example C111_trace_ex : exists m tr, (m <= 2)%nat /\ cg_init exS [5; -5] = Ok (tr 0%nat) /\ forall k, (k < m)%nat -> cg_step exS (tr k) = Ok (tr (S k)).
Proof.
  destruct (C111_trace 2 exS [5; -5] exS_square eq_refl exS_sym exS_nonneg) as (m & tr & H1 & H2 & H3 & _).
  - intros z Hz. apply exS_kernel; auto. unfold ix. cbn. lra.
  - exists m, tr. auto.
Qed.

(** C111: so CG, and ScalingCG when the diagonal is positive, report convergence
    within n iterations, for any tolerance *)
Theorem C111_converges : forall (n : nat) (A : csr R) (b : list R) (itrmax : nat) (eps : R),
  square_csr n A -> length b = n -> symmetric n (entry A) -> (forall u, 0 <= dot n u (matvec n (entry A) u)) ->
  (forall z, (forall i, (i < n)%nat -> matvec n (entry A) z i = 0) -> dot n z (ix b) = 0) ->
  nonzero n (ix b) -> 0 < eps -> (n <= itrmax)%nat ->
  (exists x, cg A b itrmax eps = Ok (true, x) /\ accurate n A b eps x) /\
  ((forall i, (i < n)%nat -> 0 < entry A i i) -> exists x, scaling_cg A b itrmax eps = Ok (true, x) /\ accurate n A b eps x).
Proof. exact C111_converges_pf. Qed.
Print Assumptions C111_converges.

Example C111_converges_ex : exists x, scaling_cg exS [5; -5] 2 (1 / 1000) = Ok (true, x) /\ accurate 2 exS [5; -5] (1 / 1000) x.
Proof.
  apply (C111_converges 2 exS [5; -5] 2 (1 / 1000) exS_square eq_refl exS_sym exS_nonneg); [|exists 0%nat; split; [lia|unfold ix; cbn; lra]|lra|lia|].
  - intros z Hz. apply exS_kernel; auto. unfold ix. cbn. lra.
  - intros i Hi. rewrite exS_entry, Nat.eqb_refl by auto. lra.
Qed.

(** C111: without that orthogonality no solver of the CG family reports
    convergence for a small tolerance: with A z = 0 and eps |b| |z| <= |z.b|,
    none of them returns through its convergence test *)
Theorem C111_inconsistent : forall (n : nat) (A M : csr R) (b : list R) (itrmax : nat) (eps : R) (z : nat -> R),
  square_csr n A -> length b = n -> symmetric n (entry A) ->
  (forall i, (i < n)%nat -> matvec n (entry A) z i = 0) -> dot n z (ix b) <> 0 ->
  eps * norm2 n (ix b) * norm2 n z <= Rabs (dot n z (ix b)) ->
  (forall x, cg A b itrmax eps <> Ok (true, x)) /\ (forall x, scaling_cg A b itrmax eps <> Ok (true, x)) /\
  (forall x, ilu0_cg A M b itrmax eps <> Ok (true, x)) /\
  (forall w soritr soreps x, sor_cg A b itrmax eps w soritr soreps <> Ok (true, x)).
Proof. exact C111_inconsistent_pf. Qed.
Print Assumptions C111_inconsistent.

Example C111_inconsistent_ex : forall itrmax x, scaling_cg exS [1; 0] itrmax (1 / 2) <> Ok (true, x).
Proof.
  intros itrmax. apply (C111_inconsistent 2 exS exS [1; 0] itrmax (1 / 2) (fun _ => 1) exS_square eq_refl exS_sym).
  - intros i Hi. unfold matvec. cbn [bigsum]. rewrite !exS_entry by lia. destruct i as [|[|i]]; [| |lia]; cbn; ring.
  - unfold dot, ix. cbn. lra.
  - unfold norm2, dot, ix. cbn [bigsum nth]. replace (0 + 1 * 1 + 0 * 0) with 1 by ring. replace (0 + 1 * 1 + 1 * 0) with 1 by ring. replace (0 + 1 * 1 + 1 * 1) with 2 by ring.
    rewrite sqrt_1, Rabs_R1. assert (sqrt 2 <= sqrt (2 * 2)) by (apply sqrt_le_1_alt; lra). rewrite sqrt_square in H by lra. lra.
Qed.
