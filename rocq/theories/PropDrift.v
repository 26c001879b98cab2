(** Property C120: the static advection-diffusion sample. *)
From Coq Require Import List Arith Lia Bool Reals Lra.
From Verif Require Import Res SumR DenseModel DenseR DenseSpec ShapeModel QuadModel ElemModel ElemSpec SupgSpec SparseModel SparseSpec AssemblyModel AssemblySpec PatchSpec StaticModel StaticSpec FrameSpec DriftModel DriftSpec DriftMain.
Import ListNotations.
Local Open Scope R_scope.

(** C120, the run: for counterclockwise triangles, a nonzero velocity in any
    direction and positive diffusion, every side being shared, prescribed, or one
    through which the flow does not enter, and every node connected with a prescribed
    one, and a solver that is right on positive definite matrices (BiCGSTAB is used
    as the matrix is not symmetric), the program runs without a fault.  The
    temperature has the prescribed values and satisfies the weak form of advection,
    diffusion and streamline diffusion for every test field; no other field of this
    shape does so. *)
Theorem C120_run : forall solve d, pd_solver solve -> drift_ok d ->
  exists T, dr_run solve d = Ok T /\ sshape (dr_static d) T /\ weak_form d T /\
    forall T', sshape (dr_static d) T' -> weak_form d T' -> forall i j, uval T' i j = uval T i j.
Proof. exact C120_run_pf. Qed.
Print Assumptions C120_run.

(** the duct: prescribed values at the inflow, and the balance of node 1 *)
Example C120_run_ex : exists T, dr_run exact_solve (duct 1 0 1) = Ok T /\ uval T 0 0 = 0 /\ uval T 3 0 = 1 /\
  drift_form (duct 1 0 1) [0; 1; 2]%nat (corner 1) (corners (fun i => uval T i 0) [0; 1; 2]%nat) = 0.
Proof.
  destruct (C120_run exact_solve (duct 1 0 1) exact_pd (duct_ok 0 1)) as (T & E & _ & [B V] & _). exists T. split; [exact E|]. clear E. split; [apply B; reflexivity|]. split; [apply B; reflexivity|].
  specialize (V (corner 1)). cbn [duct dr_elements] in V. unfold sum_over in V. cbn [map sumlist fold_right] in V. fold (duct 1 0 1) in V.
  assert (Z : drift_form (duct 1 0 1) [0; 2; 3]%nat (corners (corner 1) [0; 2; 3]%nat) (corners (fun i => uval T i 0) [0; 2; 3]%nat) = 0).
  { unfold drift_form, along2, slope2, corners, corner. cbn [nth Nat.eqb]. unfold Rdiv. ring. }
  rewrite Z in V. rewrite <- V at 2; [|intros i Hi; unfold corner; destruct (Nat.eqb_spec i 1) as [->|]; [exfalso; apply Hi; reflexivity|reflexivity]].
  unfold drift_form, along2, slope2, corners, corner. cbn [nth Nat.eqb]. rewrite ?Rplus_0_r. reflexivity.
Qed.

(** C120, cross wind: if the prescribed values are those of a linear field that does
    not change along the flow, and every side is shared, prescribed, or one through
    which its gradient has no flow, the program returns this field at every node,
    however small the diffusion is against the velocity. *)
Theorem C120_crosswind : forall solve d g0 gx gy, pd_solver solve -> drift_ok d -> dr_ax d * gx + dr_ay d * gy = 0 ->
  (forall i j v, In (i, j, v) (dr_fixed d) -> v = g0 + gx * px (dr_x d) i + gy * py (dr_x d) i) ->
  (forall sd, In sd (flat_map sides (dr_elements d)) ->
    count_occ (list_eq_dec Nat.eq_dec) (flat_map sides (dr_elements d)) sd = count_occ (list_eq_dec Nat.eq_dec) (flat_map sides (dr_elements d)) (rev sd) \/
    (forall k, In k sd -> last_value (dr_fixed d) k 0 <> None) \/ through d gx gy sd = 0) ->
  exists T, dr_run solve d = Ok T /\ forall i, (i < length (dr_x d))%nat -> uval T i 0 = g0 + gx * px (dr_x d) i + gy * py (dr_x d) i.
Proof. exact C120_crosswind_pf. Qed.
Print Assumptions C120_crosswind.

(** the plate: the inner node at height 1/3 has the temperature 1/3 *)
Example C120_crosswind_ex : exists T, dr_run exact_solve plate = Ok T /\ uval T 4 0 = 1 / 3.
Proof.
  destruct (C120_crosswind exact_solve plate 0 0 1 exact_pd plate_ok) as (T & E & Q).
  - destruct plate_ax as [-> ->]. lra.
  - cbn [dr_fixed plate In]. intros i j v [Q|[Q|[Q|[Q|[]]]]]; injection Q as <- _ <-; unfold px, py; cbn; lra.
  - intros sd Hin. destruct (plate_sides sd Hin) as [Q|Q]; auto.
  - exists T. split; [exact E|]. clear E. rewrite Q by (cbn; lia). unfold px, py. cbn. lra.
Qed.

(** C120, constants: if all prescribed values are equal, every node has this value. *)
Theorem C120_constant : forall solve d c, pd_solver solve -> drift_ok d -> (forall i j v, In (i, j, v) (dr_fixed d) -> v = c) ->
  exists T, dr_run solve d = Ok T /\ forall i, (i < length (dr_x d))%nat -> uval T i 0 = c.
Proof. exact C120_constant_pf. Qed.
Print Assumptions C120_constant.

(** the duct: what enters with 5 leaves with 5 *)
Example C120_constant_ex : exists T, dr_run exact_solve (duct 1 5 5) = Ok T /\ uval T 1 0 = 5 /\ uval T 2 0 = 5.
Proof.
  destruct (C120_constant exact_solve (duct 1 5 5) 5 exact_pd (duct_ok 5 5)) as (T & E & Q).
  - cbn [dr_fixed duct In]. intros i j v [H|[H|[]]]; now injection H.
  - exists T. split; [exact E|]. clear E. split; apply Q; cbn; lia.
Qed.

(** C120, superposition: the temperature is linear in the prescribed values. *)
Theorem C120_superpose : forall solve d g h a b, pd_solver solve -> drift_ok d ->
  exists T T' T'', dr_run solve (prescribe d g) = Ok T /\ dr_run solve (prescribe d h) = Ok T' /\
    dr_run solve (prescribe d (fun i => a * g i + b * h i)) = Ok T'' /\
    forall i j, (i < length (dr_x d))%nat -> (j < 1)%nat -> uval T'' i j = a * uval T i j + b * uval T' i j.
Proof. exact C120_superpose_pf. Qed.
Print Assumptions C120_superpose.

(** the duct: hot above and cold below, and the reverse, give one together *)
Example C120_superpose_ex : exists T T', dr_run exact_solve (duct 1 0 1) = Ok T /\ dr_run exact_solve (duct 1 1 0) = Ok T' /\ uval T 1 0 + uval T' 1 0 = 1.
Proof.
  destruct (C120_superpose exact_solve (duct 1 0 0) (fun i => if (i =? 0)%nat then 0 else 1) (fun i => if (i =? 0)%nat then 1 else 0) 1 1 exact_pd (duct_ok 0 0)) as (T & T' & T'' & E & E' & E'' & Q).
  exists T, T'. split; [exact E|]. split; [exact E'|]. clear E E'. specialize (Q 1%nat 0%nat ltac:(cbn; lia) ltac:(lia)). 
  destruct (C120_constant exact_solve (prescribe (duct 1 0 0) (fun i => 1 * (if (i =? 0)%nat then 0 else 1) + 1 * (if (i =? 0)%nat then 1 else 0))) 1 exact_pd) as (S & F & C).
  - replace (prescribe (duct 1 0 0) (fun i => 1 * (if (i =? 0)%nat then 0 else 1) + 1 * (if (i =? 0)%nat then 1 else 0))) with (duct 1 1 1); [apply duct_ok|]. unfold prescribe, duct. cbn [dr_x dr_elements dr_fixed dr_a dr_theta dr_k map fst snd Nat.eqb]. repeat f_equal; lra.
  - cbn [prescribe duct dr_fixed map fst snd Nat.eqb In]. intros i j v [H|[H|[]]]; injection H as _ _ <-; lra.
  - rewrite E'' in F. injection F as ->. clear E''. rewrite C in Q by (cbn; lia). lra.
Qed.

(** C120, turning: the mesh and the flow turned by the same angle give the same
    temperatures. *)
Theorem C120_turned : forall d phi solve, pd_solver solve -> drift_ok d ->
  exists T T', dr_run solve d = Ok T /\ dr_run solve (turned d phi) = Ok T' /\ forall i j, uval T' i j = uval T i j.
Proof. exact C120_turned_pf. Qed.
Print Assumptions C120_turned.

(** the plate turned by 60 degrees *)
Example C120_turned_ex : exists T, dr_run exact_solve (turned plate 60) = Ok T /\ uval T 4 0 = 1 / 3.
Proof.
  destruct (C120_turned plate 60 exact_solve exact_pd plate_ok) as (T & T' & E & E' & Q). exists T'. split; [exact E'|]. rewrite Q. clear E'.
  destruct C120_crosswind_ex as (S & F & V). rewrite E in F. injection F as ->. exact V.
Qed.

(** C120, similarity: lengths times l, speed times m and diffusion times l m (the same
    Peclet number) give the same temperatures, stabilisation included. *)
Theorem C120_similar : forall d l m, 0 < l -> 0 < m -> forall solve, pd_solver solve -> drift_ok d ->
  exists T T', dr_run solve d = Ok T /\ dr_run solve (similar d l m) = Ok T' /\ forall i j, uval T' i j = uval T i j.
Proof. exact C120_similar_pf. Qed.
Print Assumptions C120_similar.

(** the duct ten times as long with ten times the diffusion *)
Example C120_similar_ex : exists T T', dr_run exact_solve (duct 1 0 1) = Ok T /\
  dr_run exact_solve (mkDrift [[10 * 0; 10 * 0]; [10 * 1; 10 * 0]; [10 * 1; 10 * 1]; [10 * 0; 10 * 1]] [[0%nat; 1%nat; 2%nat]; [0%nat; 2%nat; 3%nat]] [(0%nat, 0%nat, 0); (3%nat, 0%nat, 1)] (1 * 1) 0 (10 * 1 * (1 / 10))) = Ok T' /\
  uval T' 2 0 = uval T 2 0.
Proof.
  destruct (C120_similar (duct 1 0 1) 10 1 ltac:(lra) ltac:(lra) exact_solve exact_pd (duct_ok 0 1)) as (T & T' & E & E' & Q). exists T, T'. split; [exact E|]. split; [exact E'|]. apply Q.
Qed.

(** C120, no velocity: with the speed zero, where the problem is that of the static
    heat sample, the program divides by zero at the first triangle. *)
Theorem C120_still_air : forall solve d el els, dr_a d = 0 -> dr_elements d = el :: els -> ccw (dr_x d) el ->
  (forall i j v, In (i, j, v) (dr_fixed d) -> (i < length (dr_x d))%nat /\ (j < 1)%nat) ->
  dr_run solve d = Fail DivByZero.
Proof. exact C120_still_air_pf. Qed.
Print Assumptions C120_still_air.

Example C120_still_air_ex : dr_run exact_solve (duct 0 0 1) = Fail DivByZero.
Proof.
  apply (C120_still_air exact_solve (duct 0 0 1) [0; 1; 2]%nat [[0; 2; 3]%nat]); try reflexivity.
  - apply (duct_tri 0 0 1). cbn. auto.
  - cbn [dr_fixed duct In]. intros i j v [Q|[Q|[]]]; injection Q as <- <- _; cbn; lia.
Qed.
