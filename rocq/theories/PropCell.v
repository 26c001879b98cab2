(** Property C112: the homogenization sample. *)
From Coq Require Import List Arith Lia Bool Reals Lra.
From Verif Require Import Res SumR DenseModel DenseR DenseSpec ShapeModel QuadModel QuadSpec QuadMain ElemModel ElemSpec HomSpec SparseModel SparseSpec KrylovModel KrylovSpec AssemblyModel AssemblySpec StableMain TopModel TopSpec CellModel CellSpec CellMain.
Import ListNotations.
Local Open Scope R_scope.

(** C112, the system: the run numbers the two equations of every node, giving
    paired nodes the same numbers, and builds a symmetric positive semidefinite
    matrix whose quadratic form is the energy of the numbered field and three
    right-hand sides for each of which the system has a solution *)
Theorem C112_system : forall d, cell_ok d -> exists sy n, cell_system d = Ok sy /\
  (forall i j, (i < length (cl_x d))%nat -> (j < 2)%nat -> exists k, num (sy_t sy) i j = Some k /\ (k < n)%nat) /\
  (forall m s j, In (m, s) (cl_pairs d) -> (j < 2)%nat -> num (sy_t sy) s j = num (sy_t sy) m j) /\
  square_csr n (sy_A sy) /\ symmetric n (entry (sy_A sy)) /\
  (forall x w H, (forall i j k, num (sy_t sy) i j = Some k -> w i j = x k) -> cell_gradients d w H ->
     dot n x (matvec n (entry (sy_A sy)) x) = cell_energy d (fun _ => 0) w H) /\
  (forall x, 0 <= dot n x (matvec n (entry (sy_A sy)) x)) /\
  forall c, (c < 3)%nat -> length (sy_F sy c) = n /\ exists x, length x = n /\ csr_mulvec 0 Rplus Rmult (sy_A sy) x = Ok (sy_F sy c).
Proof. exact C112_system_pf. Qed.
Print Assumptions C112_system.

Example C112_system_ex : exists sy n, cell_system strip = Ok sy /\ num (sy_t sy) 1 0 = num (sy_t sy) 0 0 /\ symmetric n (entry (sy_A sy)).
Proof. destruct (C112_system strip strip_ok) as (sy & n & E & _ & P & _ & S & _). exists sy, n. split; auto. split; auto. apply (P 0%nat 1%nat 0%nat); [now left|lia]. Qed.

(** C112, the result: with a solver of consistent semidefinite systems the run
    succeeds, the characteristic displacements are periodic, the homogenized
    matrix is symmetric, its quadratic form times the volume is the energy of the
    cell under the macroscopic strain relaxed by the characteristic displacements,
    and that is the least energy any periodic field reaches.  The other matrix is
    the identity less the integrals of the strains, over the volume. *)
Theorem C112_run : forall solve d, psd_solver solve -> cell_ok d -> exists r ch ih, cell_run solve d = Ok r /\
  is_mat (cr_CH r) 3 3 ch /\ is_mat (cr_I r) 3 3 ih /\
  (forall c, (c < 3)%nat -> periodic d (cr_chi r c)) /\
  (forall a c, (a < 3)%nat -> (c < 3)%nat -> ch a c = ch c a) /\
  (forall v H, cell_gradients d (cr_field r v) H -> cl_volume d * quad_form ch v = cell_energy d v (cr_field r v) H) /\
  (forall v w H, periodic d w -> cell_gradients d w H -> cl_volume d * quad_form ch v <= cell_energy d v w H) /\
  (forall a c H, (a < 3)%nat -> (c < 3)%nat -> cell_gradients d (cr_chi r c) H ->
     cl_volume d * ih a c = (if (a =? c)%nat then 1 else 0) -
       sum_over (cl_elements d) (fun el => quad 2 (cl_q d) (fun p => jac (cl_s d) (nodal el (cl_x d)) p * (cl_t d * eng (H el p) a)))).
Proof. exact C112_run_pf. Qed.
Print Assumptions C112_run.

(** across the strip, which is free, only the springs are felt *)
Example C112_run_ex solve : psd_solver solve -> exists r ch, cell_run solve strip = Ok r /\ is_mat (cr_CH r) 3 3 ch /\ ch 0%nat 1%nat = ch 1%nat 0%nat /\ ch 1%nat 1%nat <= 1 / 1000.
Proof.
  intros HS. destruct (C112_run solve strip HS strip_ok) as (r & ch & ih & E & M & _ & _ & S & _ & HM & _). exists r, ch. split; [exact E|]. split; [exact M|]. split; [apply S; lia|].
  specialize (HM (fun c => if (c =? 1)%nat then 1 else 0) strip_w _ strip_periodic strip_gradients).
  assert (Q : cl_volume strip * quad_form ch (fun c => if (c =? 1)%nat then 1 else 0) = ch 1%nat 1%nat) by (unfold quad_form; cbn [bigsum Nat.eqb strip cl_volume]; ring). rewrite Q in HM.
  rewrite strip_energy in HM. exact HM.
Qed.

(** C112, bounds: the homogenized matrix is positive semidefinite and at most the
    mean of the material over the volume (the bound of Voigt) *)
Theorem C112_bounds : forall solve d r ch v, psd_solver solve -> cell_ok d -> cell_run solve d = Ok r -> is_mat (cr_CH r) 3 3 ch ->
  0 <= quad_form ch v /\ cl_volume d * quad_form ch v <= stress_work d (fun _ _ => macro v) (fun _ _ => macro v).
Proof. exact C112_bounds_pf. Qed.
Print Assumptions C112_bounds.

Example C112_bounds_ex solve r ch : psd_solver solve -> cell_run solve strip = Ok r -> is_mat (cr_CH r) 3 3 ch -> 0 <= ch 0%nat 0%nat.
Proof.
  intros HS E M. destruct (C112_bounds solve strip r ch (fun c => if (c =? 0)%nat then 1 else 0) HS strip_ok E M) as [P _]. unfold quad_form in P. cbn [bigsum Nat.eqb] in P. lra.
Qed.

(** C112, the solver does not matter: although the system is singular and its
    solutions differ, any two solvers give the same homogenized matrix *)
Theorem C112_unique : forall solve solve' d r r' ch ch', psd_solver solve -> psd_solver solve' -> cell_ok d ->
  cell_run solve d = Ok r -> cell_run solve' d = Ok r' -> is_mat (cr_CH r) 3 3 ch -> is_mat (cr_CH r') 3 3 ch' ->
  forall a c, (a < 3)%nat -> (c < 3)%nat -> ch a c = ch' a c.
Proof. exact C112_unique_pf. Qed.
Print Assumptions C112_unique.

Example C112_unique_ex solve solve' r r' ch ch' : psd_solver solve -> psd_solver solve' -> cell_run solve strip = Ok r -> cell_run solve' strip = Ok r' ->
  is_mat (cr_CH r) 3 3 ch -> is_mat (cr_CH r') 3 3 ch' -> ch 0%nat 1%nat = ch' 0%nat 1%nat.
Proof. intros HS HS' E E' M M'. apply (C112_unique solve solve' strip r r' ch ch' HS HS' strip_ok E E' M M'); lia. Qed.

(** C112, the springs: stiffer springs give a stiffer homogenized matrix, and
    the difference is at most the work of the added springs on the old
    characteristic displacements; taking a = 0, the artificial springs change the
    result by at most a constant times their stiffness *)
Theorem C112_springs : forall solve solve' d a a' r r' ch ch' v, psd_solver solve -> psd_solver solve' ->
  cell_ok (with_springs d a) -> cell_ok (with_springs d a') -> a <= a' ->
  cell_run solve (with_springs d a) = Ok r -> cell_run solve' (with_springs d a') = Ok r' -> is_mat (cr_CH r) 3 3 ch -> is_mat (cr_CH r') 3 3 ch' ->
  quad_form ch v <= quad_form ch' v /\
  cl_volume d * (quad_form ch' v - quad_form ch v) <= (a' - a) * spring_work (with_springs d 1) (cr_field r v) (cr_field r v).
Proof. exact C112_springs_pf. Qed.
Print Assumptions C112_springs.

Example C112_springs_ex solve r r' ch ch' v : psd_solver solve -> cell_run solve (with_springs strip 0) = Ok r -> cell_run solve strip = Ok r' ->
  is_mat (cr_CH r) 3 3 ch -> is_mat (cr_CH r') 3 3 ch' -> quad_form ch v <= quad_form ch' v.
Proof.
  intros HS E E' M M'. apply (C112_springs solve solve strip 0 (1 / 1000) r r' ch ch' v HS HS (strip_springs 0 ltac:(lra)) (strip_springs (1 / 1000) ltac:(lra)) ltac:(lra) E E' M M').
Qed.

(** C112, the matrix is singular for every cell that has a node: the springs of
    a node act on the sum of its two displacements, so the translation by (1, -1)
    has no energy whatever their stiffness *)
Theorem C112_singular : forall d sy, cell_ok d -> cl_x d <> [] -> cell_system d = Ok sy ->
  exists n z, square_csr n (sy_A sy) /\ nonzero n z /\ (forall i, (i < n)%nat -> matvec n (entry (sy_A sy)) z i = 0) /\
    forall i j k, num (sy_t sy) i j = Some k -> z k = match j with O => 1 | _ => -1 end.
Proof. exact C112_singular_pf. Qed.
Print Assumptions C112_singular.

Example C112_singular_ex sy : cell_system strip = Ok sy -> exists n z, nonzero n z /\ forall i, (i < n)%nat -> matvec n (entry (sy_A sy)) z i = 0.
Proof. intros E. destruct (C112_singular strip sy strip_ok ltac:(discriminate) E) as (n & z & _ & N & Z & _). now exists n, z. Qed.

(** C112, ScalingCG: with springs and every node in an element the diagonal is
    positive, so that the solver the sample calls converges within n iterations,
    for each right-hand side that is not zero *)
Theorem C112_scaling_cg : forall d sy c itrmax eps, cell_ok d -> 0 < cl_alpha d ->
  (forall i, (i < length (cl_x d))%nat -> exists el, In el (cl_elements d) /\ In i el) -> cell_system d = Ok sy -> (c < 3)%nat ->
  nonzero (length (sy_F sy c)) (ix (sy_F sy c)) -> 0 < eps -> (length (sy_F sy c) <= itrmax)%nat ->
  exists x, scaling_cg (sy_A sy) (sy_F sy c) itrmax eps = Ok (true, x) /\ accurate (length (sy_F sy c)) (sy_A sy) (sy_F sy c) eps x.
Proof. exact C112_scaling_cg_pf. Qed.
Print Assumptions C112_scaling_cg.

Example C112_scaling_cg_ex sy : cell_system strip = Ok sy ->
  exists x, scaling_cg (sy_A sy) (sy_F sy 1) (length (sy_F sy 1)) (1 / 1000) = Ok (true, x).
Proof.
  intros E. destruct (C112_scaling_cg strip sy 1 (length (sy_F sy 1)) (1 / 1000) strip_ok ltac:(cbn; lra) strip_cover E ltac:(lia) (strip_loaded sy E) ltac:(lra) (le_n _)) as (x & X & _). now exists x.
Qed.

(** C112, a solver: conjugate gradients, run until the residual is zero, solve
    every consistent system with a symmetric positive semidefinite matrix *)
Theorem C112_solver : psd_solver cg_exact.
Proof. exact C112_solver_pf. Qed.
Print Assumptions C112_solver.

Example C112_solver_ex : exists r, cell_run cg_exact strip = Ok r.
Proof. destruct (C112_run cg_exact strip C112_solver strip_ok) as (r & ch & ih & E & _). now exists r. Qed.
