(** Properties C99-C100: the triangle mesher, the point location and the subdivision. *)
From Coq Require Import List Arith ZArith Lia Bool Reals Lra.
From Verif Require Import Res DenseModel DenseR LUModel DelaunayModel DelaunaySpec DelaunayMain.
Import ListNotations.
Local Open Scope R_scope.

(** C99: [Element::inouton] of a node against a counterclockwise element
    always returns.  The result is not negative exactly when the node lies in
    the closed triangle; it is 0 exactly when the node is to the left of all
    three sides by more than the margin 1e-10, hence in the interior; a
    positive result [i + 1] means that the node is in the triangle with a
    cross product of at most 1e-10 with side [i]; a negative result
    [-(i + 1)] means that the node is not in the triangle and is not to the
    left of side [i] by more than the margin. *)
Theorem C99_inouton : forall ns e k,
  flat ns -> ids_ok (length ns) e -> (k < length ns)%nat -> 0 < area2 ns e ->
  let a := xy ns (at3 (en e) 0) in let b := xy ns (at3 (en e) 1) in let c := xy ns (at3 (en e) 2) in
  let off i := tri2 (xy ns (fst (side e i))) (xy ns (snd (side e i))) (xy ns k) in
  exists r, inouton e k ns = Ok r /\ (-3 <= r <= 3)%Z /\
    ((0 <= r)%Z <-> in_triangle a b c (xy ns k)) /\
    (r = 0%Z <-> forall i, (i < 3)%nat -> / 10 ^ 10 < off i) /\
    (r = 0%Z -> inside_triangle a b c (xy ns k)) /\
    (forall i, (i < 3)%nat -> r = (Z.of_nat i + 1)%Z -> 0 <= off i <= / 10 ^ 10) /\
    (forall i, (i < 3)%nat -> r = (- (Z.of_nat i + 1))%Z -> off i <= / 10 ^ 10).
Proof. exact C99_inouton_pf. Qed.
Print Assumptions C99_inouton.

Example C99_inouton_ex : inouton (mkElem (A3 0 1 2)%nat (A3 None None None) (A3 false false false) true false) 4 dart_nodes = Ok 0%Z /\
  inouton (mkElem (A3 0 1 2)%nat (A3 None None None) (A3 false false false) true false) 3 dart_nodes <> Ok 0%Z.
Proof.
  assert (Hi : ids_ok (length dart_nodes) (mkElem (A3 0 1 2)%nat (A3 None None None) (A3 false false false) true false)).
  { intros j Hj. destruct j as [|[|[|j]]]; cbn; lia. }
  assert (F : flat dart_nodes) by exact dart_flat.
  assert (Ha : 0 < area2 dart_nodes (mkElem (A3 0 1 2)%nat (A3 None None None) (A3 false false false) true false)) by (unfold area2, tri2, xy, nxy; cbn; lra).
  split.
  - destruct (C99_inouton _ _ 4%nat F Hi ltac:(cbn; lia) Ha) as (r & E & _ & _ & H & _). rewrite E. f_equal. apply H.
    intros i Hi'. destruct i as [|[|[|i]]]; [| | |lia]; unfold tri2, xy, nxy, side; cbn; lra.
  - destruct (C99_inouton _ _ 3%nat F Hi ltac:(cbn; lia) Ha) as (r & E & _ & _ & H & _). rewrite E. intros Q. inversion Q; subst r.
    destruct H as [H _]. specialize (H eq_refl 0%nat ltac:(lia)). revert H. unfold tri2, xy, nxy, side; cbn; lra.
Qed.

(** C99, what it does not say: a result [-(i + 1)] does not say that the node lies
    beyond side [i].  For the triangle (0,0), (1,0), (0,1) and the node (2,0)
    the result is -3, and the node is on the line of side 2. *)
Theorem C99_minus_not_beyond : exists ns e k,
  flat ns /\ ids_ok (length ns) e /\ (k < length ns)%nat /\ 0 < area2 ns e /\
  inouton e k ns = Ok (-3)%Z /\ tri2 (xy ns (fst (side e 2))) (xy ns (snd (side e 2))) (xy ns k) = 0.
Proof. exact C99_minus_not_beyond_pf. Qed.
Print Assumptions C99_minus_not_beyond.

(** C100: one round of the subdivision in [makefinemesh].  On a triangulation
    with at least one element it halves a longest side, inserts the midpoint
    with [getelementon] and swaps sides until the stack is empty, and this
    ends: from some amount of fuel on the result is the same.  The result is
    again a triangulation of counterclockwise elements with mutual neighbors
    and the same total area.  There is one more node, at the midpoint, the
    old nodes are where they were; there are two more elements, or one more
    when the side has no neighbor.  The new node is a boundary node exactly
    when the side was marked, the boundary marks stay consistent, every
    interior node stays a corner, and no swap is left at the new node. *)
Theorem C100_refine : forall ns es, mesh_ok ns es -> es <> [] ->
  exists d k j e N ns' es',
    nth_error es k = Some e /\ (j < 3)%nat /\ d = side_len ns e j /\
    (forall f i, In f es -> (i < 3)%nat -> side_len ns f i <= d) /\
    (forall fuel, (N <= fuel)%nat -> refine fuel (mkMesh ns es) = Ok (d, mkMesh ns' es')) /\
    mesh_ok ns' es' /\ total2 ns' es' = total2 ns es /\
    length es' = (length es + match at3 (enb e) j with Some _ => 2 | None => 1 end)%nat /\
    length ns' = (length ns + 1)%nat /\
    (forall i, (i < length ns)%nat -> xy ns' i = xy ns i /\ onb ns' i = onb ns i) /\
    xy ns' (length ns) = midpoint (xy ns (fst (side e j))) (xy ns (snd (side e j))) /\
    onb ns' (length ns) = at3 (esd e) j /\
    (border_ok ns es -> border_ok ns' es') /\
    (cover_ok ns es -> cover_ok ns' es') /\
    (forall i, corner es' i <-> i = length ns \/ corner es i) /\
    no_swap_at ns' es' (length ns).
Proof. exact C100_refine_pf. Qed.
Print Assumptions C100_refine.

Example C100_refine_ex : exists d N ns' es', (forall fuel, (N <= fuel)%nat -> refine fuel (mkMesh sq_nodes sq_elems) = Ok (d, mkMesh ns' es')) /\
  d = sqrt 2 /\ length es' = 4%nat /\ total2 ns' es' = 2 /\ xy ns' 4 = (1 / 2, 1 / 2) /\ onb ns' 4 = false.
Proof.
  destruct (C100_refine _ _ sq_ok ltac:(discriminate)) as (d & k & j & e & N & ns' & es' & Hk & Hj & Hd & Hm & HR & _ & HT & HL & _ & _ & HX & HB & _).
  exists d, N, ns', es'. split; [exact HR|].
  assert (D2 : sqrt 2 <= d).
  { apply Rle_trans with (2 := Hm _ 1%nat (nth_error_In sq_elems 0 eq_refl) ltac:(lia)).
    unfold side_len, pdist, side, xy, nxy. cbn. right. f_equal. lra. }
  assert (H1 : 1 < sqrt 2). { rewrite <- sqrt_1. apply sqrt_lt_1; lra. }
  assert (T2 : total2 sq_nodes sq_elems = 2). { unfold total2, area2, tri2, xy, nxy. cbn. lra. }
  assert (S1 : forall z, z = 1 -> sqrt z = 1) by (intros z ->; exact sqrt_1).
  assert (S2 : forall z, z = 2 -> sqrt z = sqrt 2) by (intros z ->; reflexivity).
  assert (Long : (k = 0 /\ j = 1 \/ k = 1 /\ j = 2)%nat).
  { destruct k as [|[|k]]; [| |destruct k; discriminate Hk]; inversion Hk; subst e; (destruct j as [|[|[|j]]]; [| | |lia]); auto;
    exfalso; unfold side_len, pdist in Hd; rewrite S1 in Hd; try lra; unfold side, xy, nxy; cbn; lra. }
  destruct Long as [[-> ->]|[-> ->]]; inversion Hk; subst e.
  - splits; auto; try lra.
    + rewrite Hd. unfold side_len, pdist. apply S2. unfold side, xy, nxy; cbn; lra.
    + change (xy ns' (length sq_nodes) = (1 / 2, 1 / 2)). rewrite HX. unfold midpoint, side, xy, nxy; cbn. f_equal; lra.
  - splits; auto; try lra.
    + rewrite Hd. unfold side_len, pdist. apply S2. unfold side, xy, nxy; cbn; lra.
    + change (xy ns' (length sq_nodes) = (1 / 2, 1 / 2)). rewrite HX. unfold midpoint, side, xy, nxy; cbn. f_equal; lra.
Qed.

(** C100, insertion in an element: when [inouton] of an unused node against
    element [k] is 0 and neither neighbor of the node on its boundary list is
    a corner yet, [getelementin] ends, splits the element in three, and keeps
    the triangulation, its total area and its marks; no swap is left at the
    node. *)
Theorem C100_insert_inside : forall ns es k p e p1 m1,
  mesh_ok ns es -> nth_error es k = Some e -> (p < length ns)%nat -> inouton e p ns = Ok 0%Z ->
  ~ corner es p -> (forall i, corner es i \/ i = p -> Z.of_nat i <> p1 /\ Z.of_nat i <> m1) ->
  exists N es', (forall fuel, (N <= fuel)%nat -> getelementin fuel (mkMesh ns es) k p1 p m1 = Ok (mkMesh ns es')) /\
    mesh_ok ns es' /\ total2 ns es' = total2 ns es /\ length es' = (length es + 2)%nat /\
    (border_ok ns es -> border_ok ns es') /\ (forall i, corner es' i <-> i = p \/ corner es i) /\ no_swap_at ns es' p.
Proof. exact C100_insert_inside_pf. Qed.
Print Assumptions C100_insert_inside.

Example C100_insert_inside_ex : exists N es', (forall fuel, (N <= fuel)%nat -> getelementin fuel (mkMesh dart_nodes dart_elems) 0 (-2) 4 (-2) = Ok (mkMesh dart_nodes es')) /\
  mesh_ok dart_nodes es' /\ length es' = 4%nat.
Proof.
  destruct (C100_insert_inside dart_nodes dart_elems 0 4 _ (-2) (-2) dart_ok eq_refl) as (N & es' & H1 & H2 & _ & H3 & _).
  - cbn; lia.
  - exact (proj1 C99_inouton_ex).
  - intros (f & x & Hf & Hx & E). destruct Hf as [<-|[<-|[]]]; destruct x as [|[|[|x]]]; cbn in E; lia.
  - intros i _. lia.
  - exists N, es'. auto.
Qed.

(** C100, without the condition on the neighbors on the
    boundary list the elements may turn over.  [swapping] swaps whenever the
    node beyond the side is the next one on the list, also when the two
    elements form a quadrilateral that is not convex: an insertion inside a
    counterclockwise element of a correct mesh leaves a clockwise element. *)
Theorem C100_forced_swap_turns_over : exists ns es k p e p1 es' f,
  mesh_ok ns es /\ nth_error es k = Some e /\ (p < length ns)%nat /\ inouton e p ns = Ok 0%Z /\ ~ corner es p /\ Z.of_nat p <> p1 /\
  (forall fuel, (5 <= fuel)%nat -> getelementin fuel (mkMesh ns es) k p1 p (-2) = Ok (mkMesh ns es')) /\
  In f es' /\ area2 ns f < 0.
Proof. exact C100_forced_swap_turns_over_pf. Qed.
Print Assumptions C100_forced_swap_turns_over.
