(** Properties C22-C28, C56-C58: iterative solvers. *)
From Coq Require Import List Arith Lia Bool Reals Lra Sorted.
From Verif Require Import Res SumR SparseModel SparseSpec SparseProof SparseProof2 DenseModel DenseR LUModel LUProof KrylovModel KrylovSpec KrylovProof CGMath KrylovProof2 IluProof IluProof2 SorProof SorProof2 KrylovProof3 KrylovMain.
Import ListNotations.
Local Open Scope R_scope.

(** C22: whatever the matrix and the preconditioner do, when one of the solvers
    of the CG family leaves its loop through the convergence test, the returned
    vector has a true residual below the tolerance:
    |b - A x| < eps |b| (and the right length). *)
Theorem C22_cg_family : forall (n : nat) (A M : csr R) (b : list R) (itrmax : nat) (eps : R) (x : list R),
  square_csr n A -> length b = n ->
  (cg A b itrmax eps = Ok (true, x) -> accurate n A b eps x) /\
  (scaling_cg A b itrmax eps = Ok (true, x) -> accurate n A b eps x) /\
  (ilu0_cg A M b itrmax eps = Ok (true, x) -> accurate n A b eps x) /\
  (forall w soritr soreps, sor_cg A b itrmax eps w soritr soreps = Ok (true, x) -> accurate n A b eps x).
Proof. exact C22_cg_family_pf. Qed.
Print Assumptions C22_cg_family.

Example C22_ex : exists x, cg exA [1; 0] 2 (1/1000) = Ok (true, x) /\ accurate 2 exA [1; 0] (1/1000) x.
Proof.
  destruct (pcg_converges 2 exA id_pre (fun u => u) [1; 0] exA_square eq_refl exA_sym (fun k => exA_pos _) (id_computes 2)
     (fun u v => eq_refl) (fun u H => dot_pos 2 u H) (1/1000) 2 ltac:(lra)) as [x E].
  - exists 0%nat. split; [lia|]. unfold ix; cbn. lra.
  - lia.
  - rewrite (cg_is_pcg 2) in E by (auto using exA_square). exists x. split; auto.
    exact (proj1 (C22_cg_family_pf 2 exA exA [1; 0] 2 (1/1000) x exA_square eq_refl) E).
Qed.

(** C23: the same for the BiCGSTAB family. *)
Theorem C23_bicgstab_family : forall (n : nat) (A M : csr R) (b : list R) (itrmax : nat) (eps : R) (x : list R),
  square_csr n A -> length b = n ->
  (bicgstab A b itrmax eps = Ok (true, x) -> accurate n A b eps x) /\
  (scaling_bicgstab A b itrmax eps = Ok (true, x) -> accurate n A b eps x) /\
  (ilu0_bicgstab A M b itrmax eps = Ok (true, x) -> accurate n A b eps x) /\
  (bicgstab2 A b itrmax eps = Ok (true, x) -> accurate n A b eps x).
Proof. exact C23_bicgstab_family_pf. Qed.
Print Assumptions C23_bicgstab_family.

(** one step on [[1,1],[0,1]] with b = (0,1) gives x = (-1,1) and is accepted with eps = 2 *)
Example C23_ex : square_csr 2 exU /\ exists u v, bicgstab exU [0; 1] 1 2 = Ok (true, [u; v]) /\ u = -1 /\ v = 1.
Proof.
  split; [exact exU_square|].
  unfold bicgstab, bcg, exU, csr_mulvec; cbn. unfold bcg_step; cbn. unfold csr_mulvec; cbn. unfold inner; cbn.
  match goal with |- context [Rdiv_res ?a ?b] => replace a with 1 by lra; replace b with 1 by lra end.
  rewrite Rdiv_res_ok by lra. cbn. unfold inner; cbn.
  match goal with |- context [Rdiv_res ?a ?b] => replace a with 1 by (field; lra); replace b with 1 by (field; lra) end.
  rewrite Rdiv_res_ok by lra. cbn. unfold converged, inner; cbn.
  match goal with |- context [Rltb (sqrt ?a) (2 * sqrt ?b)] => replace a with 0 by (field; lra); replace b with 1 by ring end.
  rewrite sqrt_0, sqrt_1. unfold Rltb. destruct (Rlt_dec 0 (2 * 1)); [|lra]. cbn.
  eexists _, _. split; [reflexivity|]. split; field; lra.
Qed.

(** C24: for a symmetric positive definite matrix of order n and a nonzero right
    hand side CG reports convergence within n iterations for every positive
    tolerance, with a true residual below it: in particular no division by
    zero happens before. *)
Theorem C24_cg_converges : forall (n : nat) (A : csr R) (b : list R) (itrmax : nat) (eps : R),
  square_csr n A -> length b = n -> symmetric n (entry A) -> pos_def n (entry A) ->
  nonzero n (ix b) -> 0 < eps -> (n <= itrmax)%nat ->
  exists x, cg A b itrmax eps = Ok (true, x) /\ accurate n A b eps x.
Proof. exact C24_cg_converges_pf. Qed.
Print Assumptions C24_cg_converges.

Example C24_ex : exists x, cg exA [1; 0] 2 (1/1000000) = Ok (true, x) /\ accurate 2 exA [1; 0] (1/1000000) x.
Proof.
  apply (C24_cg_converges_pf 2 exA [1; 0] 2 (1/1000000) exA_square eq_refl exA_sym exA_pos); [|lra|lia].
  exists 0%nat. split; [lia|]. unfold ix; cbn. lra.
Qed.

(** C24: the iterates themselves.  There is a number m <= n of steps after which
    the residual is exactly zero; up to there every step succeeds, the carried
    residual is b - A x, residuals are mutually orthogonal and directions
    A-conjugate. *)
Theorem C24_cg_trace : forall (n : nat) (A : csr R) (b : list R),
  square_csr n A -> length b = n -> symmetric n (entry A) -> pos_def n (entry A) ->
  exists (m : nat) (tr : nat -> cg_state), (m <= n)%nat /\ cg_init A b = Ok (tr 0%nat) /\
    (forall k, (k < m)%nat -> cg_step A (tr k) = Ok (tr (S k))) /\
    (forall k, (k < m)%nat -> nonzero n (ix (cg_r (tr k)))) /\
    (forall i, (i < n)%nat -> ix (cg_r (tr m)) i = 0) /\
    (forall i, (i < n)%nat -> matvec n (entry A) (ix (cg_x (tr m))) i = ix b i) /\
    (forall k i, (k <= m)%nat -> (i < n)%nat -> ix (cg_r (tr k)) i = residual n A b (cg_x (tr k)) i) /\
    (forall i j, (i <= m)%nat -> (j <= m)%nat -> i <> j ->
       dot n (ix (cg_r (tr i))) (ix (cg_r (tr j))) = 0 /\
       exists p q, cg_p (tr i) = Ok p /\ cg_p (tr j) = Ok q /\
         dot n (ix p) (matvec n (entry A) (ix q)) = 0).
Proof. exact C24_cg_trace_pf. Qed.
Print Assumptions C24_cg_trace.

(** C24: diagonally scaled CG on symmetric positive definite matrices. *)
Theorem C24_scaling_cg : forall (n : nat) (A : csr R) (b : list R) (itrmax : nat) (eps : R),
  square_csr n A -> length b = n -> symmetric n (entry A) -> pos_def n (entry A) ->
  nonzero n (ix b) -> 0 < eps -> (n <= itrmax)%nat ->
  exists x, scaling_cg A b itrmax eps = Ok (true, x) /\ accurate n A b eps x.
Proof. exact C24_scaling_cg_pf. Qed.
Print Assumptions C24_scaling_cg.

(** C24: ILU0CG with the factors ILU0 computes from the (structurally) symmetric
    positive definite matrix itself: if the computed pivots are positive, the
    preconditioner L U is symmetric positive definite and ILU0CG reports
    convergence within n iterations. *)
Theorem C24_ilu0_cg : forall (n : nat) (A M : csr R) (b : list R) (itrmax : nat) (eps : R),
  square_csr n A -> length b = n -> symmetric n (entry A) -> pos_def n (entry A) ->
  (forall i j, (i < n)%nat -> (j < n)%nat -> stored A i j -> stored A j i) ->
  ilu0 A = Ok M -> (forall i, (i < n)%nat -> 0 < entry M i i) ->
  nonzero n (ix b) -> 0 < eps -> (n <= itrmax)%nat ->
  (symmetric n (matmul n (lower_part (entry M)) (upper_part (entry M))) /\
   pos_def n (matmul n (lower_part (entry M)) (upper_part (entry M)))) /\
  exists x, ilu0_cg A M b itrmax eps = Ok (true, x) /\ accurate n A b eps x.
Proof. exact C24_ilu0_cg_pf. Qed.
Print Assumptions C24_ilu0_cg.

Example C24_ilu_ex : ilu0 exA = Ok (mkCsr 2 2 [0; 2; 4]%nat [0; 1; 0; 1]%nat [2; 1; 1 / 2; 2 - 1 / 2 * 1]).
Proof.
  unfold ilu0, exA. cbn. rewrite Rdiv_res_ok by lra. cbn. reflexivity.
Qed.

(** C25 is false of the code.  With a zero right hand side every one of these
    solvers computes 0/0 in its first iteration (NaN in C++; the loop has no
    test before it), although x = 0 is the solution and the starting vector. *)
Theorem C25_zero_rhs : forall (n : nat) (A : csr R) (b : list R) (itr : nat) (eps : R),
  square_csr n A -> length b = n -> (forall i, (i < n)%nat -> ix b i = 0) ->
  cg A b (S itr) eps = Fail DivByZero /\
  scaling_cg A b (S itr) eps = Fail DivByZero /\
  bicgstab A b (S itr) eps = Fail DivByZero /\
  bicgstab2 A b (S itr) eps = Fail DivByZero.
Proof. exact C25_zero_rhs_pf. Qed.
Print Assumptions C25_zero_rhs.

Theorem C25_zero_rhs_refuted : exists (n : nat) (A : csr R) (b x : list R),
  square_csr n A /\ length b = n /\ symmetric n (entry A) /\ pos_def n (entry A) /\
  length x = n /\ (forall i, (i < n)%nat -> residual n A b x i = 0) /\
  forall itr eps, ~ exists c y, cg A b (S itr) eps = Ok (c, y).
Proof. exact C25_zero_rhs_refuted_pf. Qed.
Print Assumptions C25_zero_rhs_refuted.

(** C26: ILU0 either divides by a zero pivot or returns a matrix with exactly the
    stored positions of A, whose unit lower and upper triangular parts have a
    product that agrees with A at every stored position. *)
Theorem C26_ilu0 : forall (n : nat) (A : csr R), square_csr n A ->
  (ilu0 A = Fail DivByZero \/ exists m, ilu0 A = Ok m) /\
  forall m, ilu0 A = Ok m -> square_csr n m /\
    (forall i j, (i < n)%nat -> stored m i j <-> stored A i j) /\
    (forall i j, (i < n)%nat -> (j < n)%nat -> stored A i j ->
       matmul n (lower_part (entry m)) (upper_part (entry m)) i j = entry A i j).
Proof. exact C26_ilu0_pf. Qed.
Print Assumptions C26_ilu0.

Example C26_ex : square_csr 2 exA /\ exists m, ilu0 exA = Ok m /\ entry m 1 0 = 1 / 2 /\ entry m 1 1 = 3 / 2.
Proof.
  split; [exact exA_square|]. eexists. split; [exact C24_ilu_ex|]. unfold entry, csr_entry. cbn. split; [reflexivity|lra].
Qed.

(** C26: conversely, if some incomplete factorisation with nonzero pivots exists on
    the pattern of A, ILU0 succeeds and returns it. *)
Theorem C26_complete : forall (n : nat) (A : csr R) (F : nat -> nat -> R), square_csr n A ->
  (forall i j, (i < n)%nat -> ~ stored A i j -> F i j = 0) ->
  (forall i, (i < n)%nat -> F i i <> 0) ->
  (forall i j, (i < n)%nat -> (j < n)%nat -> stored A i j ->
     matmul n (lower_part F) (upper_part F) i j = entry A i j) ->
  exists m, ilu0 A = Ok m /\ forall i j, (i < n)%nat -> (j < n)%nat -> entry m i j = F i j.
Proof. exact C26_complete_pf. Qed.
Print Assumptions C26_complete.

(** C26: on patterns without fill-in (for instance tridiagonal ones) the
    factorisation is exact, so that one application of PreILU0 solves A x = b. *)
Theorem C26_no_fill_in : forall (n : nat) (A m : csr R) (b x : list R), square_csr n A ->
  (forall i j k, (i < n)%nat -> (j < n)%nat -> (k < i)%nat -> (k < j)%nat ->
     stored A i k -> stored A k j -> stored A i j) ->
  ilu0 A = Ok m ->
  (forall i j, (i < n)%nat -> (j < n)%nat ->
     matmul n (lower_part (entry m)) (upper_part (entry m)) i j = entry A i j) /\
  (length b = n -> pre_ilu0 m b = Ok x ->
   forall i, (i < n)%nat -> matvec n (entry A) (ix x) i = ix b i).
Proof. exact C26_no_fill_in_pf. Qed.
Print Assumptions C26_no_fill_in.

(** C27: PreILU0 solves L U x = b exactly when all diagonal entries are nonzero;
    a zero or missing diagonal entry makes it divide by zero. *)
Theorem C27_pre_ilu0 : forall (n : nat) (M : csr R) (b : list R), square_csr n M -> length b = n ->
  ((forall i, (i < n)%nat -> entry M i i <> 0) ->
   exists x, pre_ilu0 M b = Ok x /\ length x = n /\
     forall i, (i < n)%nat ->
       matvec n (matmul n (lower_part (entry M)) (upper_part (entry M))) (ix x) i = ix b i) /\
  ((exists i, (i < n)%nat /\ entry M i i = 0) -> pre_ilu0 M b = Fail DivByZero).
Proof. exact C27_pre_ilu0_pf. Qed.
Print Assumptions C27_pre_ilu0.

Example C27_ex : square_csr 2 exM /\ pre_ilu0 exM [3; 3] = Ok [(3 - 1 * ((3 - / 2 * 3) / (3 / 2))) / 2; (3 - / 2 * 3) / (3 / 2)].
Proof.
  split; [exact exM_square|]. unfold pre_ilu0, exM. cbn. rewrite Rdiv_res_ok by lra. cbn. rewrite Rdiv_res_ok by lra. reflexivity.
Qed.

(** C28: one sweep is the textbook SOR update
    x'_i = x_i + w ((b_i - sum_(j<i) A_ij x'_j - sum_(j>i) A_ij x_j)/A_ii - x_i);
    the returned estimate is the sum of the relative changes, not a number if a
    component was zero; a zero diagonal entry makes the sweep divide by zero. *)
Theorem C28_sweep : forall (n : nat) (A : csr R) (b x : list R) (w : R),
  square_csr n A -> length b = n -> length x = n ->
  ((forall i, (i < n)%nat -> entry A i i <> 0) ->
   exists x' er, sor_sweep A b w x = Ok (x', er) /\ length x' = n /\
     (forall i, (i < n)%nat -> ix x' i =
        ix x i + w * ((ix b i - bigsum n (fun j => if (j <? i)%nat then entry A i j * ix x' j else
                                                  if (j =? i)%nat then 0 else entry A i j * ix x j))
                      / entry A i i - ix x i)) /\
     match er with
     | Some v => (forall i, (i < n)%nat -> ix x i <> 0) /\ v = bigsum n (fun i => Rabs ((ix x i - ix x' i) / ix x i))
     | None => exists i, (i < n)%nat /\ ix x i = 0
     end) /\
  ((exists i, (i < n)%nat /\ entry A i i = 0) -> sor_sweep A b w x = Fail DivByZero).
Proof. exact C28_sweep_pf. Qed.
Print Assumptions C28_sweep.

Example C28_ex : sor_sweep exA [3; 3] 1 [1; 0] = Ok ([1 + 1 * ((3 - 1 * 0) / 2 - 1); 0 + 1 * ((3 - 1 * (1 + 1 * ((3 - 1 * 0) / 2 - 1))) / 2 - 0)], None).
Proof.
  unfold sor_sweep, exA. cbn. unfold sor_row. cbn. rewrite Rdiv_res_ok by lra. cbn.
  rewrite Rdiv_res_ok by lra. cbn. destruct (Req_EM_T 1 0); [lra|]. cbn. destruct (Req_EM_T 0 0); [|lra]. reflexivity.
Qed.

(** C28: a sweep leaves x unchanged exactly when x solves the system. *)
Theorem C28_fixed_point : forall (n : nat) (A : csr R) (b x : list R) (w : R),
  square_csr n A -> length b = n -> length x = n -> w <> 0 ->
  (forall i, (i < n)%nat -> entry A i i <> 0) ->
  (exists er, sor_sweep A b w x = Ok (x, er)) <->
  (forall i, (i < n)%nat -> matvec n (entry A) (ix x) i = ix b i).
Proof. exact C28_fixed_point_pf. Qed.
Print Assumptions C28_fixed_point.

(** C28: for symmetric A with positive diagonal and 0 < w < 2 no sweep increases
    the energy x'Ax/2 - b'x, and it decreases unless x is already a solution. *)
Theorem C28_energy : forall (n : nat) (A : csr R) (b x x' : list R) (w : R) (er : option R),
  square_csr n A -> length b = n -> length x = n -> 0 < w < 2 ->
  symmetric n (entry A) -> (forall i, (i < n)%nat -> 0 < entry A i i) ->
  sor_sweep A b w x = Ok (x', er) ->
  let energy := fun y : list R => dot n (ix y) (matvec n (entry A) (ix y)) / 2 - dot n (ix b) (ix y) in
  energy x' <= energy x /\
  (energy x' = energy x -> forall i, (i < n)%nat -> matvec n (entry A) (ix x) i = ix b i).
Proof. exact C28_energy_pf. Qed.
Print Assumptions C28_energy.

(** C28: when SOR reports convergence, its last sweep started from a vector
    without zero components and changed it by less than eps in the summed
    relative measure, and the true residual is controlled by that change. *)
Theorem C28_stop_test : forall (n : nat) (A : csr R) (b x : list R) (w : R) (itrmax : nat) (eps : R),
  square_csr n A -> length b = n -> w <> 0 ->
  sor A b w itrmax eps = Ok (true, x) ->
  length x = n /\ exists y, length y = n /\ (forall i, (i < n)%nat -> ix y i <> 0) /\
    bigsum n (fun i => Rabs ((ix y i - ix x i) / ix y i)) < eps /\
    forall i, (i < n)%nat -> residual n A b x i =
      entry A i i * (ix x i - ix y i) / w -
      bigsum n (fun j => if (j <? i)%nat then 0 else entry A i j * (ix x j - ix y j)).
Proof. exact C28_stop_test_pf. Qed.
Print Assumptions C28_stop_test.

(** C56 is false of the code: BiCGSTAB breaks down (0/0) whenever its first half
    step already yields the solution, e.g. on the identity matrix with any right
    hand side, where CG succeeds in one iteration. *)
Theorem C56_lucky_breakdown : forall (n : nat) (A : csr R) (b : list R) (itr : nat) (eps : R),
  square_csr n A -> length b = n ->
  (forall i j, (i < n)%nat -> (j < n)%nat -> entry A i j = if (i =? j)%nat then 1 else 0) ->
  bicgstab A b (S itr) eps = Fail DivByZero.
Proof. exact C56_lucky_breakdown_pf. Qed.
Print Assumptions C56_lucky_breakdown.

Theorem C56_lucky_breakdown_refuted : exists (n : nat) (A : csr R) (b x : list R) (eps : R),
  square_csr n A /\ length b = n /\ nonzero n (ix b) /\ symmetric n (entry A) /\ pos_def n (entry A) /\
  (exists c, cg A b n eps = Ok (true, c)) /\
  forall itr, bicgstab A b (S itr) eps = Fail DivByZero.
Proof. exact C56_lucky_breakdown_refuted_pf. Qed.
Print Assumptions C56_lucky_breakdown_refuted.

(** C57: for a symmetric positive definite matrix and 0 < w < 2 the SOR sweeps
    never fail, and from every starting vector they converge to the solution
    of A x = b (Ostrowski-Reich), in exact arithmetic. *)
Theorem C57_sor_converges : forall (n : nat) (A : csr R) (b x0 : list R) (w : R),
  square_csr n A -> length b = n -> length x0 = n ->
  symmetric n (entry A) -> pos_def n (entry A) -> 0 < w < 2 ->
  exists xs : nat -> list R, xs 0%nat = x0 /\
    (forall k, exists er, sor_sweep A b w (xs k) = Ok (xs (S k), er)) /\
    exists sol : nat -> R, (forall i, (i < n)%nat -> matvec n (entry A) sol i = ix b i) /\
      forall eps, 0 < eps -> exists K, forall k i, (K <= k)%nat -> (i < n)%nat -> Rabs (ix (xs k) i - sol i) < eps.
Proof. exact C57_sor_converges_pf. Qed.
Print Assumptions C57_sor_converges.

Example C57_ex : square_csr 2 exA /\ symmetric 2 (entry exA) /\ pos_def 2 (entry exA).
Proof. splits; auto using exA_square, exA_sym, exA_pos. Qed.

(** C58 is false of the code: the stopping test divides by the previous value of
    each component, so a system whose solution has a zero component, e.g. the
    1 x 1 system x = 0, is solved exactly by the first sweep but convergence is
    never reported, for any number of sweeps and any tolerance. *)
Theorem C58_sor_stops_refuted : exists (n : nat) (A : csr R) (b : list R),
  square_csr n A /\ length b = n /\ symmetric n (entry A) /\ pos_def n (entry A) /\
  forall itrmax eps, exists x, sor A b 1 itrmax eps = Ok (false, x) /\
    forall i, (i < n)%nat -> residual n A b x i = 0.
Proof. exact C58_sor_stops_refuted_pf. Qed.
Print Assumptions C58_sor_stops_refuted.
