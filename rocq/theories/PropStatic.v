(** Property C118: the static heat and solid samples. *)
From Coq Require Import List Arith Lia Bool Reals Lra.
From Verif Require Import Res SumR DenseModel DenseR DenseSpec ShapeModel QuadModel QuadSpec ElemModel ElemSpec SparseModel SparseSpec AssemblyModel AssemblySpec PatchSpec StableSpec TopSpec TopMain StaticModel StaticSpec StaticSpec2 StaticMain.
Import ListNotations.
Local Open Scope R_scope.

(** C118, the run: with a mesh whose elements have no mechanisms and whose nodes
    are all held by the prescribed values, and a solver that is right on
    symmetric positive definite matrices, the program runs without a fault.  The
    exported field has the prescribed values, the forces of the elements balance
    the loads in every other dof, and no other field of this shape does so. *)
Theorem C118_run : forall solve d dim, spd_solver solve -> static_ok d dim ->
  (exists es, Forall2 (made_by (st_f d)) (st_pieces d) es) /\
  exists u, st_run solve d = Ok u /\ sshape d u /\
    forall es, Forall2 (made_by (st_f d)) (st_pieces d) es -> balanced d es u /\ forall u', sshape d u' -> balanced d es u' -> forall i j, uval u' i j = uval u i j.
Proof. exact C118_run_pf. Qed.
Print Assumptions C118_run.

(** the unit cube of steel: node 0 stays, the forces at node 6 balance the load *)
Example C118_run_ex : exists es u, Forall2 (made_by (st_f cube)) (st_pieces cube) es /\ st_run cg_exact cube = Ok u /\ uval u 0 1 = 0 /\
  internal_force es u 6 1 = -100 /\ internal_force es u 6 0 = 0.
Proof.
  destruct (C118_run cg_exact cube 3 C108_solver_pf cube_ok) as ((es & HF) & u & E & _ & Q). destruct (Q es HF) as [[B1 B2] _]. exists es, u.
  split; [exact HF|]. split; [exact E|]. clear E Q. split; [apply B1; reflexivity|]. split.
  - rewrite B2; [|cbn; lia|cbn; lia|reflexivity]. unfold nodal_load, sum_over. cbn. lra.
  - rewrite B2; [|cbn; lia|cbn; lia|reflexivity]. unfold nodal_load, sum_over. cbn. lra.
Qed.

(** C118, bricks: an eight node element with parallel edges that is not turned
    inside out, with the rule of the sample (2 x 2 x 2 points), has no mechanism:
    displacements without strain at the eight points are rigid motions, and a
    scalar field without gradient there is constant. *)
Theorem C118_brick : forall xs el o e m, brick xs el o e -> 0 < det3 e -> (m = 1 \/ m = 3)%nat -> sound_piece 3 m xs (mkPiece sf_8Cubic Gauss8Cubic el).
Proof. exact C118_brick_pf. Qed.
Print Assumptions C118_brick.

Example C118_brick_ex : sound_piece 3 3 cube_xs (mkPiece sf_8Cubic Gauss8Cubic [0; 1; 2; 3; 4; 5; 6; 7]%nat).
Proof. exact (C118_brick cube_xs cube_el _ half 3 cube_brick half_det (or_intror eq_refl)). Qed.

(** C118, simplices and quadrilaterals: triangles and tetrahedra with any rule, and
    quadrilaterals with three points that are not on a line, have no mechanism. *)
Theorem C118_stable : forall d m xs p, (m = 1 \/ m = d)%nat -> stable_piece d xs p -> sound_piece d m xs p.
Proof. exact C118_stable_pf. Qed.
Print Assumptions C118_stable.

Example C118_stable_ex : sound_piece 2 1 room_xs (mkPiece sf_3Triangle Gauss1Triangle [0; 5; 4]%nat).
Proof. apply C118_stable; [now left|]. apply room_stable. now left. Qed.

(** C118, the heat sample: between two walls held at [hot] (x = x0) and [cold]
    (x = x1), where every side of the mesh at a free node is shared by two
    elements or is level, the exported temperature is the linear profile at every
    node, for every mesh, conductivity and thickness. *)
Theorem C118_profile : forall solve xs els left right hot cold alpha t x0 x1, let d := st_heat xs els left right hot alpha t in
  spd_solver solve -> static_ok d 2 -> x0 <> x1 ->
  (forall i j v, In (i, j, v) left -> nth 0 (nth i xs []) 0 = x0) -> (forall i j v, In (i, j, v) right -> nth 0 (nth i xs []) 0 = x1 /\ v = cold) ->
  (forall i, (i < length xs)%nat -> last_value (st_fx d) i 0 = None -> enclosed xs els i) ->
  exists u, st_run solve d = Ok u /\ sshape d u /\ forall i, (i < length xs)%nat -> uval u i 0 = hot + (cold - hot) * ((nth 0 (nth i xs []) 0 - x0) / (x1 - x0)).
Proof. exact C118_profile_pf. Qed.
Print Assumptions C118_profile.

(** a third of the way from the wall at 300 to the wall at 0 the temperature is 200,
    half way on the insulated side it is 150 *)
Example C118_profile_ex : exists u, st_run cg_exact room = Ok u /\ uval u 4 0 = 200 /\ uval u 5 0 = 150 /\ uval u 0 0 = 300.
Proof.
  destruct (C118_profile cg_exact room_xs room_els room_left room_right 300 0 5 1 0 1 C108_solver_pf room_ok) as (u & E & _ & Q); [lra| | |exact room_sides|].
  - intros i j v H. cbn in H. repeat (destruct H as [H|H]; [injection H as <- <- _; reflexivity|]). contradiction.
  - intros i j v H. cbn in H. repeat (destruct H as [H|H]; [injection H as <- <- <-; split; reflexivity|]). contradiction.
  - exists u. split; [exact E|]. clear E. rewrite !Q by (cbn; lia). cbn. splits; lra.
Qed.

(** C118, linearity: all prescribed values and loads multiplied by [c] give the
    field multiplied by [c]. *)
Theorem C118_scale : forall solve d dim c, spd_solver solve -> static_ok d dim ->
  exists u u', st_run solve d = Ok u /\ st_run solve (st_scaled c d) = Ok u' /\ forall i j, uval u' i j = c * uval u i j.
Proof. exact C118_scale_pf. Qed.
Print Assumptions C118_scale.

Example C118_scale_ex : exists u u', st_run cg_exact cube = Ok u /\ st_run cg_exact (st_scaled (-2) cube) = Ok u' /\ uval u' 6 1 = -2 * uval u 6 1.
Proof. destruct (C118_scale cg_exact cube 3 (-2) C108_solver_pf cube_ok) as (u & u' & E & E' & Q). exists u, u'. split; [exact E|]. split; [exact E'|]. apply Q. Qed.

(** C118, reciprocity: of two load cases with zero prescribed values, the loads of
    each do the same work on the field of the other. *)
Theorem C118_reciprocal : forall solve d dim P Q, spd_solver solve -> static_ok d dim -> st_fit d P -> st_fit d Q -> (forall i j v, In (i, j, v) (st_fx d) -> v = 0) ->
  exists u v, st_run solve (st_loaded d P) = Ok u /\ st_run solve (st_loaded d Q) = Ok v /\
    sum_over P (fun w => snd w * uval v (fst (fst w)) (snd (fst w))) = sum_over Q (fun w => snd w * uval u (fst (fst w)) (snd (fst w))).
Proof. exact C118_reciprocal_pf. Qed.
Print Assumptions C118_reciprocal.

(** the cube: a force at node 2 moves node 6 across as a force at node 6 across moves node 2 *)
Example C118_reciprocal_ex : exists u v, st_run cg_exact (st_loaded cube [(2%nat, 0%nat, 1)]) = Ok u /\ st_run cg_exact (st_loaded cube [(6%nat, 1%nat, 1)]) = Ok v /\ uval v 2 0 = uval u 6 1.
Proof.
  destruct (C118_reciprocal cg_exact cube 3 [(2%nat, 0%nat, 1)] [(6%nat, 1%nat, 1)] C108_solver_pf cube_ok) as (u & v & E & E' & Q).
  - intros i j x [H|[]]. injection H as <- <- _. cbn. lia.
  - intros i j x [H|[]]. injection H as <- <- _. cbn. lia.
  - exact cube_zero.
  - exists u, v. split; [exact E|]. split; [exact E'|]. clear E E'. unfold sum_over in Q. cbn [map sumlist fold_right fst snd] in Q. lra.
Qed.

(** C118, least energy: of all fields with the prescribed values that of the program
    has the least potential energy. *)
Theorem C118_least : forall solve d dim es u z, spd_solver solve -> static_ok d dim -> Forall2 (made_by (st_f d)) (st_pieces d) es -> st_run solve d = Ok u ->
  (forall i j v, last_value (st_fx d) i j = Some v -> z i j = v) -> st_potential d es (uval u) <= st_potential d es z.
Proof. exact C118_least_pf. Qed.
Print Assumptions C118_least.

(** the cube: lower than that of the field without displacements *)
Example C118_least_ex : exists es u, Forall2 (made_by (st_f cube)) (st_pieces cube) es /\ st_run cg_exact cube = Ok u /\ st_potential cube es (uval u) <= 0.
Proof.
  destruct (C118_run cg_exact cube 3 C108_solver_pf cube_ok) as ((es & HF) & u & E & _). exists es, u. split; [exact HF|]. split; [exact E|].
  eapply Rle_trans; [apply (C118_least cg_exact cube 3 es u (fun _ _ => 0) C108_solver_pf cube_ok HF E)|].
  - intros i j v H. symmetry. exact (cube_last i j v H).
  - clear E HF. unfold st_potential. rewrite no_energy. unfold sum_over. cbn [cube st_loads map sumlist fold_right fst snd]. lra.
Qed.
