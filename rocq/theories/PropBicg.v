(** Properties C78 and C79: BiCGSTAB and BiCGSTAB2. *)
From Coq Require Import List Arith Lia Bool Reals Lra.
From Verif Require Import Res SumR SparseModel SparseSpec DenseModel DenseR LUModel KrylovModel KrylovSpec KrylovMain BicgMain.
Import ListNotations.
Local Open Scope R_scope.

(** C78: the conditions that define BiCGSTAB hold after every iteration, for the
    plain and the preconditioned solvers (K is the preconditioner).  The shadow
    residual is orthogonal to the half step t; omega makes the new residual the
    shortest vector t - c A K t; beta makes the next direction conjugate, and
    the carried scalar product is that of the shadow and the new residual. *)
Theorem C78_bicgstab_step : forall (n : nat) (A : csr R) (pre : list R -> res (list R)) (K : (nat -> R) -> nat -> R) (rd p : list R) (s s' : bcg_state),
  square_csr n A -> computes n pre K ->
  (forall u v, (forall i, (i < n)%nat -> u i = v i) -> forall i, (i < n)%nat -> K u i = K v i) ->
  length rd = n -> length (bs_x s) = n -> length (bs_r s) = n -> length p = n ->
  bs_p s = Ok p -> bs_rr s = dot n (ix rd) (ix (bs_r s)) ->
  bcg_step A pre rd s = Ok s' ->
  let AK u := matvec n (entry A) (K u) in
  exists alpha omega : R,
  let t i := ix (bs_r s) i - alpha * AK (ix p) i in
  dot n (ix rd) t = 0 /\
  (forall i, (i < n)%nat -> ix (bs_r s') i = t i - omega * AK t i) /\
  (forall c, norm2 n (ix (bs_r s')) <= norm2 n (fun i => t i - c * AK t i)) /\
  bs_rr s' = dot n (ix rd) (ix (bs_r s')) /\
  (forall p', bs_p s' = Ok p' -> exists beta,
     dot n (ix rd) (AK t) + beta * dot n (ix rd) (AK (ix p)) = 0 /\
     forall i, (i < n)%nat -> ix p' i = ix (bs_r s') i + beta * (ix p i - omega * AK (ix p) i)).
Proof. exact C78_bicgstab_step_pf. Qed.
Print Assumptions C78_bicgstab_step.

Example C78_ex : exists s', bcg_step exU (fun v => Ok v) [0; 1] (mkBcg [0; 0] [0; 1] (Ok [0; 1]) 1) = Ok s' /\
  ix (bs_r s') 0 = 0 /\ ix (bs_r s') 1 = 0.
Proof.
  unfold bcg_step, exU; cbn. unfold csr_mulvec; cbn. unfold inner; cbn.
  match goal with |- context [Rdiv_res ?a ?b] => replace b with 1 by lra end.
  rewrite Rdiv_res_ok by lra. cbn. unfold inner; cbn.
  match goal with |- context [Rdiv_res ?a ?b] => replace a with 1 by (field; lra); replace b with 1 by (field; lra) end.
  rewrite Rdiv_res_ok by lra. cbn. eexists. split; [reflexivity|]. unfold ix; cbn. split; field; lra.
Qed.

(** C78 for BiCGSTAB2: in every run from the initial state the shadow residual is
    orthogonal to each half step t, and the new residual is the shortest vector
    of the form t - c A t in even steps, of the form t - e y - c A t in odd steps. *)
Theorem C78_bicgstab2_step : forall (n : nat) (A : csr R) (b : list R) (st : nat -> b2_state) (N : nat),
  square_csr n A -> length b = n ->
  st 0%nat = mkB2 (repeat 0 n) b (repeat 0 n) (repeat 0 n) (repeat 0 n) (Ok (repeat 0 n)) (repeat 0 n) (Ok 0) (dot n (ix b) (ix b)) ->
  (forall j, (j < N)%nat -> b2_step A b j (st j) = Ok (st (S j))) ->
  forall k, (k < N)%nat ->
  let Am := matvec n (entry A) in
  let r := ix (b2_r (st k)) in let r' := ix (b2_r (st (S k))) in
  let p := ix (b2_p (st (S k))) in let t := ix (b2_t (st (S k))) in
  exists alpha beta : R, b2_beta (st k) = Ok beta /\
  let y i := ix (b2_t (st k)) i - r i - alpha * (Am (ix (b2_t (st k))) i + beta * Am (ix (b2_p (st k))) i - Am p i) in
  (forall i, (i < n)%nat -> t i = r i - alpha * Am p i) /\
  dot n (ix b) t = 0 /\
  (Nat.even k = true -> forall c, norm2 n r' <= norm2 n (fun i => t i - c * Am t i)) /\
  (Nat.even k = false -> forall e c, norm2 n r' <= norm2 n (fun i => t i - e * y i - c * Am t i)) /\
  b2_rr (st (S k)) = dot n (ix b) r'.
Proof. exact C78_bicgstab2_step_pf. Qed.
Print Assumptions C78_bicgstab2_step.

(** C79: with more than n iterations allowed, the four bi-conjugate gradient solvers
    never give up: for every square matrix and nonzero right hand side they
    either report convergence, truthfully, or divide by zero.  The residual
    after n iterations without a breakdown is exactly zero. *)
Theorem C79_bicgstab_terminates : forall (n : nat) (A M : csr R) (b : list R) (itrmax : nat) (eps : R),
  square_csr n A -> square_csr n M -> length b = n -> nonzero n (ix b) -> 0 < eps -> (n < itrmax)%nat ->
  ((exists x, bicgstab A b itrmax eps = Ok (true, x) /\ accurate n A b eps x) \/ bicgstab A b itrmax eps = Fail DivByZero) /\
  ((exists x, scaling_bicgstab A b itrmax eps = Ok (true, x) /\ accurate n A b eps x) \/ scaling_bicgstab A b itrmax eps = Fail DivByZero) /\
  ((exists x, ilu0_bicgstab A M b itrmax eps = Ok (true, x) /\ accurate n A b eps x) \/ ilu0_bicgstab A M b itrmax eps = Fail DivByZero) /\
  ((exists x, bicgstab2 A b itrmax eps = Ok (true, x) /\ accurate n A b eps x) \/ bicgstab2 A b itrmax eps = Fail DivByZero).
Proof. exact C79_bicgstab_terminates_pf. Qed.
Print Assumptions C79_bicgstab_terminates.

Example C79_ex : (exists x, bicgstab2 exU [0; 1] 3 (1/100) = Ok (true, x) /\ accurate 2 exU [0; 1] (1/100) x) \/
  bicgstab2 exU [0; 1] 3 (1/100) = Fail DivByZero.
Proof.
  apply (C79_bicgstab_terminates 2 exU exU [0; 1] 3 (1/100) exU_square exU_square eq_refl); [|lra|lia].
  exists 1%nat. split; [lia|]. unfold ix; cbn. lra.
Qed.

(** C79: the second alternative does occur.  For the rotation matrix ((0,1),(-1,0)),
    which is nonsingular, and b = (1,0) both solvers divide by zero in their
    first iteration. *)
Theorem C79_breakdown : exists (A : csr R) (b : list R), square_csr 2 A /\ length b = 2%nat /\ nonzero 2 (ix b) /\
  (forall u, (forall i, (i < 2)%nat -> matvec 2 (entry A) u i = 0) -> forall i, (i < 2)%nat -> u i = 0) /\
  forall itr eps, bicgstab A b (S itr) eps = Fail DivByZero /\ bicgstab2 A b (S itr) eps = Fail DivByZero.
Proof. exact C79_breakdown_pf. Qed.
Print Assumptions C79_breakdown.
