(** Property C101: the smoothing of the triangle mesher. *)
From Coq Require Import List Arith ZArith Lia Bool Reals Lra.
From Verif Require Import Res DenseModel DenseR LUModel DelaunayModel DelaunaySpec DelaunaySpec2 DelaunayMain DelaunayMain2.
Import ListNotations.
Local Open Scope R_scope.

(** C101: [laplacesmoothing] on a mesh with mutual neighbors and consistent
    boundary marks, whose elements may have any orientation, returns with
    [length es] steps per node.  The elements and the boundary nodes stay as
    they are and the total area is unchanged.  An interior node moves to the
    mean of the nodes around it, taken over a closed ring of elements; of
    these the ones with a smaller number have been moved already. *)
Theorem C101_smoothing : forall ns es, topo_ok ns es -> border_ok ns es -> cover_ok ns es ->
  exists ns', (forall fuel, (length es <= fuel)%nat -> laplacesmoothing fuel (mkMesh ns es) = Ok (mkMesh ns' es)) /\
    length ns' = length ns /\ topo_ok ns' es /\ border_ok ns' es /\ cover_ok ns' es /\ total2 ns' es = total2 ns es /\
    (forall i, onb ns' i = onb ns i) /\
    (forall i, onb ns i = true -> xy ns' i = xy ns i) /\
    (forall i, (i < length ns)%nat -> onb ns i = false -> exists l, ring es i l /\
       xy ns' i = mean (map (fun q => if (q <? i)%nat then xy ns' q else xy ns q) (afters es i l))).
Proof. exact C101_smoothing_pf. Qed.
Print Assumptions C101_smoothing.

Example C101_smoothing_ex : exists ns', laplacesmoothing 4 (mkMesh arrow_nodes arrow_elems) = Ok (mkMesh ns' arrow_elems) /\
  total2 ns' arrow_elems = 12 /\ xy ns' 4 = (0, -5 / 4) /\ xy ns' 3 = (0, 4).
Proof.
  destruct (C101_smoothing _ _ arrow_topo arrow_border arrow_cover) as (s & H & L & _ & _ & _ & T & _ & X & _).
  specialize (H 4%nat (le_n _)). destruct arrow_smooth as (n & H' & Xn). rewrite H in H'. injection H' as E.
  exists s. splits; auto.
  - rewrite T. unfold total2, area2, tri2, xy, nxy. cbn. lra.
  - rewrite E. exact Xn.
  - rewrite X by reflexivity. reflexivity.
Qed.

(** C101, the nodes stay within the region: every half plane that contains
    all nodes before the smoothing contains all nodes after it. *)
Theorem C101_half_plane : forall ns es u v w ns' fuel, topo_ok ns es -> border_ok ns es -> cover_ok ns es ->
  (length es <= fuel)%nat -> laplacesmoothing fuel (mkMesh ns es) = Ok (mkMesh ns' es) ->
  (forall i, (i < length ns)%nat -> half_plane u v w (xy ns i)) ->
  forall i, (i < length ns)%nat -> half_plane u v w (xy ns' i).
Proof. exact C101_half_plane_pf. Qed.
Print Assumptions C101_half_plane.

Example C101_half_plane_ex : half_plane 0 1 4 (0, -5 / 4) /\ forall i, (i < 5)%nat -> half_plane 0 1 4 (xy arrow_nodes i).
Proof. split; [unfold half_plane; cbn; lra|]. intros i Hi. destruct i as [|[|[|[|[|i]]]]]; [| | | | |lia]; unfold half_plane, xy, nxy; cbn; lra. Qed.

(** C101, repeated: the ten smoothings at the end of the constructor (any
    number of them) return as well and keep the elements, the boundary nodes
    and the total area. *)
Theorem C101_repeated : forall m ns es, topo_ok ns es -> border_ok ns es -> cover_ok ns es ->
  exists ns', (forall fuel, (length es <= fuel)%nat -> foldM (fun M (_ : nat) => laplacesmoothing fuel M) (seq 0 m) (mkMesh ns es) = Ok (mkMesh ns' es)) /\
    length ns' = length ns /\ topo_ok ns' es /\ border_ok ns' es /\ cover_ok ns' es /\ total2 ns' es = total2 ns es /\
    (forall i, onb ns' i = onb ns i) /\ (forall i, onb ns i = true -> xy ns' i = xy ns i) /\
    (forall u v w, (forall i, (i < length ns)%nat -> half_plane u v w (xy ns i)) -> forall i, (i < length ns)%nat -> half_plane u v w (xy ns' i)).
Proof. exact C101_repeated_pf. Qed.
Print Assumptions C101_repeated.

Example C101_repeated_ex : exists ns', foldM (fun M (_ : nat) => laplacesmoothing 4 M) (seq 0 10) (mkMesh arrow_nodes arrow_elems) = Ok (mkMesh ns' arrow_elems) /\ total2 ns' arrow_elems = 12.
Proof.
  destruct (C101_repeated 10 _ _ arrow_topo arrow_border arrow_cover) as (s & H & _ & _ & _ & _ & T & _).
  exists s. split; [apply H; cbn; lia|]. rewrite T. unfold total2, area2, tri2, xy, nxy. cbn. lra.
Qed.

(** C101, what is lost: the smoothing may turn elements over.  In an arrow
    head with one interior node near the tip all elements are
    counterclockwise before and two are clockwise after it. *)
Theorem C101_turns_over : exists ns es ns' e,
  mesh_ok ns es /\ border_ok ns es /\ cover_ok ns es /\ laplacesmoothing (length es) (mkMesh ns es) = Ok (mkMesh ns' es) /\
  In e es /\ area2 ns' e < 0.
Proof. exact C101_turns_over_pf. Qed.
Print Assumptions C101_turns_over.
