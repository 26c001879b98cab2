(** Property C119: the beam sample. *)
From Coq Require Import List Arith Lia Bool Reals Lra.
From Verif Require Import Res SumR DenseModel DenseR DenseSpec ShapeModel QuadModel ElemModel ElemSpec BeamModel BeamSpec SparseModel SparseSpec AssemblyModel AssemblySpec PatchSpec TopSpec TopMain StaticModel StaticSpec FrameModel FrameSpec FrameMain.
Import ListNotations.
Local Open Scope R_scope.

(** C119, the run: for a frame of straight bars in any position, each node
    connected with one whose six components are prescribed, and a solver that is
    right on symmetric positive definite matrices, the program runs without a fault.
    Displacements and rotations have the prescribed values; the work of the bars
    (Timoshenko beams) for every virtual field is that of the loads; no other field
    of this shape does so; the exported displacements are the first three
    components. *)
Theorem C119_run : forall solve d, spd_solver solve -> frame_ok d ->
  exists ur u, fr_run solve d = Ok (ur, u) /\ sshape (fr_static d) ur /\ virtual_work d ur /\
    (forall u', sshape (fr_static d) u' -> virtual_work d u' -> forall i j, uval u' i j = uval ur i j) /\ first_three d ur u.
Proof. exact C119_run_pf. Qed.
Print Assumptions C119_run.

(** the sample: the three bars and the load do the same work when the end is lifted *)
Example C119_run_ex : exists ur u, fr_run cg_exact steel = Ok (ur, u) /\ uval u 0 2 = 0 /\ length u = 4%nat /\
  sum_over (fr_elements steel) (fun el => steel_work el (ends (fun i c => if (i =? 3)%nat && (c =? 2)%nat then 1 else 0) el) (ends (uval ur) el)) = -10.
Proof.
  destruct (C119_run cg_exact steel C108_solver_pf steel_ok) as (ur & u & E & _ & [B V] & _ & L & T). exists ur, u. split; [exact E|]. clear E. split; [|split].
  - destruct (T 0%nat) as [_ Q]; [cbn; lia|]. rewrite Q by lia. apply B. reflexivity.
  - exact L.
  - rewrite (V steel_work steel_bars).
    + unfold sum_over. cbn. lra.
    + intros i j H. destruct (i =? 3)%nat eqn:Ei; [|reflexivity]. apply Nat.eqb_eq in Ei. subst i. exfalso. apply H. reflexivity.
Qed.

(** C119, least energy: the field of the program has the least potential energy of
    all fields with the prescribed values. *)
Theorem C119_least : forall solve d ur u W z, spd_solver solve -> frame_ok d -> fr_run solve d = Ok (ur, u) ->
  (forall el, In el (fr_elements d) -> bar_work d el (W el)) -> (forall i j v, last_value (fr_fixed d) i j = Some v -> z i j = v) ->
  potential d W (uval ur) <= potential d W z.
Proof. exact C119_least_pf. Qed.
Print Assumptions C119_least.

(** lower than the field without any displacement *)
Example C119_least_ex : exists ur u, fr_run cg_exact steel = Ok (ur, u) /\ potential steel steel_work (uval ur) <= 0.
Proof.
  destruct (C119_run cg_exact steel C108_solver_pf steel_ok) as (ur & u & E & _). exists ur, u. split; [exact E|].
  eapply Rle_trans; [apply (C119_least cg_exact steel ur u steel_work (fun _ _ => 0) C108_solver_pf steel_ok E steel_bars)|].
  - clear E. intros i j v H. symmetry. exact (steel_zero i j v H).
  - clear E. unfold potential, sum_over, steel_work, timoshenko, stretch, turn, mean_turn, dot3, ends. cbn. lra.
Qed.

(** C119, the sample: with n bars of length l and the load P at the end, node i at
    x = i l has the deflection P x / (5/6 G A) + P (L x^2 / 2 - x^3 / 6 - l^2 x / 12) / (E I)
    and turns by - P (L x - x^2 / 2) / (E I); all other components are zero. *)
Theorem C119_cantilever : forall solve n l P E V a b, spd_solver solve -> 0 < l -> 0 < E -> 0 < 1 + V -> 0 < a -> 0 < b ->
  exists ur u, fr_run solve (fr_sample n l P E V a b) = Ok (ur, u) /\
    forall i, (i <= n)%nat -> nth i ur [] = [0; 0; deflection n l P E V a b i; 0; - slope n l P E a b i; 0] /\ nth i u [] = [0; 0; deflection n l P E V a b i].
Proof. exact C119_cantilever_pf. Qed.
Print Assumptions C119_cantilever.

(** the end of the sample goes down by 0.6272... *)
Example C119_cantilever_ex : exists ur u, fr_run cg_exact (fr_sample 3 5 (-10) 210000 (3 / 10) 1 1) = Ok (ur, u) /\ nth 3 u [] = [0; 0; - 21953 / 35000].
Proof.
  destruct (C119_cantilever cg_exact 3 5 (-10) 210000 (3 / 10) 1 1 C108_solver_pf) as (ur & u & E & Q); try lra. exists ur, u. split; [exact E|]. clear E.
  rewrite (proj2 (Q 3%nat (le_n 3))). unfold deflection, lame_mu. cbn [INR]. do 3 f_equal. field.
Qed.

(** C119, the end: against the deflection of the Timoshenko beam only the part due to
    bending is too small, by the factor 1 - 1 / (4 n^2), whatever the section: the
    elements do not lock. *)
Theorem C119_tip : forall solve n l P E V a b, spd_solver solve -> (0 < n)%nat -> 0 < l -> 0 < E -> 0 < 1 + V -> 0 < a -> 0 < b ->
  let L := INR n * l in
  exists ur u, fr_run solve (fr_sample n l P E V a b) = Ok (ur, u) /\
    uval u n 2 = P * L / (5 / 6 * (E / (2 * (1 + V))) * (a * b)) + P * L ^ 3 / (3 * (E * (a * b ^ 3 / 12))) * (1 - 1 / (4 * INR n ^ 2)).
Proof. exact C119_tip_pf. Qed.
Print Assumptions C119_tip.

(** one bar: three quarters of the bending *)
Example C119_tip_ex : exists ur u, fr_run cg_exact (fr_sample 1 1 3 1 0 1 1) = Ok (ur, u) /\ uval u 1 2 = 36 / 5 + 12 * (3 / 4).
Proof.
  destruct (C119_tip cg_exact 1 1 3 1 0 1 1 C108_solver_pf) as (ur & u & E & Q); try lra; try lia. exists ur, u. split; [exact E|]. clear E. rewrite Q. cbn [INR]. field.
Qed.

(** C119, reciprocity: of two load cases on a frame whose prescribed values are zero,
    the loads of each do the same work on the displacements and rotations of the
    other. *)
Theorem C119_reciprocal : forall solve d P Q, spd_solver solve -> frame_ok d -> loads_fit d P -> loads_fit d Q -> (forall i j v, In (i, j, v) (fr_fixed d) -> v = 0) ->
  exists ur u vr v, fr_run solve (loaded d P) = Ok (ur, u) /\ fr_run solve (loaded d Q) = Ok (vr, v) /\
    sum_over P (fun w => snd w * uval vr (fst (fst w)) (snd (fst w))) = sum_over Q (fun w => snd w * uval ur (fst (fst w)) (snd (fst w))).
Proof. exact C119_reciprocal_pf. Qed.
Print Assumptions C119_reciprocal.

(** the sample: a load at the end deflects node 1 as much as a load at node 1 the end *)
Example C119_reciprocal_ex : exists ur u vr v, fr_run cg_exact (loaded steel [(3%nat, 2%nat, 1)]) = Ok (ur, u) /\ fr_run cg_exact (loaded steel [(1%nat, 2%nat, 1)]) = Ok (vr, v) /\
  uval vr 3 2 = uval ur 1 2.
Proof.
  destruct (C119_reciprocal cg_exact steel [(3%nat, 2%nat, 1)] [(1%nat, 2%nat, 1)] C108_solver_pf steel_ok) as (ur & u & vr & v & E & E' & Q).
  - intros i j x [H|[]]. injection H as <- <- _. cbn. lia.
  - intros i j x [H|[]]. injection H as <- <- _. cbn. lia.
  - exact steel_values.
  - exists ur, u, vr, v. split; [exact E|]. split; [exact E'|]. clear E E'. unfold sum_over in Q. cbn [map sumlist fold_right fst snd] in Q. lra.
Qed.
