(** Property C103: the constructor of the triangle mesher. *)
From Coq Require Import List Arith ZArith Lia Bool Reals Lra Sorted.
From Verif Require Import Res DenseModel DenseR LUModel DelaunayModel DelaunaySpec DelaunaySpec2 DelaunaySpec3 DelaunayMain DelaunayMain2 DelaunayMain3 DelaunayMain4.
Import ListNotations.
Local Open Scope R_scope.

(** C103, the rough mesh, for all inputs: whenever the constructor gets to
    the subdivision, the mesh it has then has exactly the nodes on the
    boundary lists, in the order of their numbers, each at its given place,
    set and marked as a boundary node.  [K] lists the given numbers of the
    nodes.  Every element is active, has its corners in range, and either has
    all corners on one outer list and does not run along this list, or has a
    corner on an inner list and does not run along it. *)
Theorem C103_roughmesh : forall fuel x outer inner ns es,
  roughmesh fuel x outer inner = Ok (mkMesh ns es) -> (forall k, on_list outer inner k -> (k < length x)%nat) ->
  exists K, StronglySorted lt K /\ (forall k, In k K <-> on_list outer inner k) /\
    map dx ns = map (fun k => nth k x []) K /\ (forall n, In n ns -> isset n = true /\ isonb n = true) /\
    forall e, In e es -> eact e = true /\ ids_ok (length ns) e /\
      let o j := nth (at3 (en e) j) K 0%nat in
      (exists l, In l outer /\ (forall j, (j < 3)%nat -> In (o j) l) /\ ~ runs_with l (o 0%nat) (o 1%nat) (o 2%nat)) \/
      (exists l j, In l inner /\ (j < 3)%nat /\ In (o j) l /\ ~ runs_with l (o 0%nat) (o 1%nat) (o 2%nat)).
Proof. exact C103_roughmesh_pf. Qed.
Print Assumptions C103_roughmesh.

Example C103_roughmesh_ex : roughmesh 3 tri_points [[0; 1; 2]%nat] [] = Ok (mkMesh tri3_nodes tri3_elems) /\
  ~ runs_with [0; 1; 2]%nat 2 1 0 /\ length tri3_elems = 1%nat.
Proof.
  split; [apply tri_rough; auto|]. split; [|reflexivity].
  destruct (C103_roughmesh 3 tri_points [[0; 1; 2]%nat] [] _ _ (tri_rough 3 (le_n _))) as (K & SK & HK & D & _ & He).
  { intros k (l & [<-|[]] & Hk). cbn in *. lia. }
  destruct (He _ (or_introl eq_refl)) as (_ & _ & [(l & [<-|[]] & _ & H)|(l & j & [] & _)]). cbn [en at3 a30 a31 a32] in H.
  assert (EK : K = [0; 1; 2]%nat).
  { assert (L : length K = 3%nat) by (rewrite <- (map_length (fun k => nth k tri_points [])), <- D; reflexivity).
    destruct K as [|a [|b [|c [|]]]]; try discriminate L.
    assert (P : forall k, In k [a; b; c] -> (k < 3)%nat). { intros k Hk. apply HK in Hk. destruct Hk as (l & [<-|[]] & Hk). cbn in Hk. lia. }
    assert (Pa := P a ltac:(cbn; auto)). assert (Pb := P b ltac:(cbn; auto)). assert (Pc := P c ltac:(cbn; auto)).
    inversion SK as [|? ? S1 F1]; subst. inversion S1 as [|? ? S2 F2]; subst. inversion F1; subst. inversion F2; subst. repeat f_equal; lia. }
  now rewrite EK in H.
Qed.

(** C103, the direction of the boundary list: for one outer list around a
    convex polygon, every element of the rough mesh with three different
    corners is counterclockwise if the list runs clockwise, and clockwise if
    the list runs counterclockwise.  [s] is the sign of the direction of the
    list.  The constructor thus needs clockwise lists. *)
Theorem C103_direction : forall fuel x l ns es s,
  roughmesh fuel x [l] [] = Ok (mkMesh ns es) -> (forall k, In k l -> (k < length x)%nat) ->
  (forall i j k a b c, (i < j < k)%nat -> nth_error l i = Some a -> nth_error l j = Some b -> nth_error l k = Some c ->
     0 < s * tri2 (xy (map node_of x) a) (xy (map node_of x) b) (xy (map node_of x) c)) ->
  forall e, In e es -> proper e -> s * area2 ns e < 0.
Proof. exact C103_direction_pf. Qed.
Print Assumptions C103_direction.

Example C103_direction_ex : forall e, In e tri3_elems -> -1 * area2 tri3_nodes e < 0.
Proof.
  intros e He. refine (C103_direction 3 tri_points [0; 1; 2]%nat _ _ (-1) (tri_rough 3 (le_n _)) _ _ e He _).
  - intros k Hk. cbn in *. lia.
  - intros i j k a b c H Ha Hb Hc. assert (Q : (k < 3)%nat) by (apply (nth_error_Some [0; 1; 2]%nat k); congruence).
    destruct i as [|i]; [|lia]. destruct j as [|[|j]]; [lia| |lia]. destruct k as [|[|[|k]]]; [lia|lia| |lia].
    injection Ha as <-. injection Hb as <-. injection Hc as <-. unfold tri2, xy, nxy. cbn. lra.
  - destruct He as [<-|[]]. unfold proper. cbn. lia.
Qed.

(** C103, the constructor, for all inputs: whenever it returns, the nodes on
    the boundary lists come first, in the order of their numbers and exactly
    where they were given, and are still boundary nodes; there is at least one
    further node, one for every round of the subdivision, and there are more
    elements than rounds; every element is active and has its corners in
    range; and the bound on the sides was not negative. *)
Theorem C103_constructor : forall rounds fuel x outer inner maxsize ns es,
  delaunay rounds fuel x outer inner maxsize = Ok (mkMesh ns es) -> (forall k, on_list outer inner k -> (k < length x)%nat) ->
  exists K r, StronglySorted lt K /\ (forall k, In k K <-> on_list outer inner k) /\
    (1 <= r <= rounds)%nat /\ length ns = (length K + r)%nat /\ (r + 1 <= length es)%nat /\
    (forall i k, nth_error K i = Some k -> exists n, nth_error ns i = Some n /\ dx n = nth k x [] /\ isonb n = true) /\
    (forall e, In e es -> eact e = true /\ ids_ok (length ns) e) /\ 0 <= maxsize.
Proof. exact C103_constructor_pf. Qed.
Print Assumptions C103_constructor.

Example C103_constructor_ex : exists fuel ns es, delaunay 1 fuel tri_points [[0; 1; 2]%nat] [] 3 = Ok (mkMesh ns es) /\ length ns = 4%nat /\ (2 <= length es)%nat.
Proof.
  destruct tri_delaunay as (N & H). destruct (H N (le_n _)) as [[ns es] HM]. exists N, ns, es. split; [exact HM|].
  destruct (C103_constructor _ _ _ _ _ _ _ _ HM) as (K & r & SK & HK & Hr & L1 & L2 & _).
  { intros k (l & [<-|[]] & Hk). cbn in *. lia. }
  assert (r = 1)%nat as -> by lia. split; [|lia]. rewrite L1. enough (length K = 3%nat) by lia.
  assert (P : forall k, In k K <-> (k = 0 \/ k = 1 \/ k = 2)%nat).
  { intros k. rewrite HK. split; [intros (l & [<-|[]] & Hk); cbn in Hk; lia|]. intros Hk. exists [0; 1; 2]%nat. split; [left; reflexivity|]. cbn. lia. }
  assert (ND : NoDup K). { clear -SK. induction SK as [|a K SK IH F]; constructor; auto. intros Hin. apply (proj1 (Forall_forall _ _) F) in Hin. lia. }
  apply Nat.le_antisymm.
  - change 3%nat with (length [0; 1; 2]%nat). apply NoDup_incl_length; [exact ND|]. intros k Hk. apply P in Hk. cbn. lia.
  - change 3%nat with (length [0; 1; 2]%nat). apply NoDup_incl_length; [repeat constructor; cbn; lia|]. intros k Hk. apply P. cbn in Hk. lia.
Qed.

(** C103, no element left: when no element of the rough mesh is left, as when
    there is no boundary list, the subdivision reads [elements[0]] of an empty
    vector. *)
Theorem C103_no_elements : forall rounds fuel x outer inner maxsize ns, (0 < rounds)%nat ->
  roughmesh fuel x outer inner = Ok (mkMesh ns []) -> delaunay rounds fuel x outer inner maxsize = Fail OutOfBounds.
Proof. exact C103_no_elements_pf. Qed.
Print Assumptions C103_no_elements.

Example C103_no_elements_ex : roughmesh 1 [] [] [] = Ok (mkMesh [] []) /\ forall maxsize, delaunay 1 1 [] [] [] maxsize = Fail OutOfBounds.
Proof. assert (H : roughmesh 1 [] [] [] = Ok (mkMesh [] [])) by reflexivity. split; [exact H|]. intros maxsize. exact (C103_no_elements 1 1 [] [] [] maxsize [] (le_n _) H). Qed.

(** C103, the rounds of the subdivision: from a triangulation with consistent
    boundary marks, as long as the smoothing turns no element over, the
    subdivision either needs more rounds than it is given or returns a
    triangulation that keeps what [kept] says after [r + 1] of them; in the
    triangulation before the last round no side was longer than the bound. *)
Theorem C103_rounds : forall maxside rounds ns es, mesh_ok ns es -> es <> [] -> border_ok ns es -> cover_ok ns es ->
  ccw_rounds rounds (mkMesh ns es) maxside ->
  exists N, (forall fuel, (N <= fuel)%nat -> makefinemesh rounds fuel (mkMesh ns es) maxside = Fail OutOfFuel) \/
    exists r ns0 es0 d ns1 es1 ns', (r < rounds)%nat /\ kept ns es r ns0 es0 /\
      (forall f i, In f es0 -> (i < 3)%nat -> side_len ns0 f i <= maxside) /\ kept ns es (r + 1) ns' es1 /\
      (forall fuel, (N <= fuel)%nat -> refine fuel (mkMesh ns0 es0) = Ok (d, mkMesh ns1 es1) /\ laplacesmoothing fuel (mkMesh ns1 es1) = Ok (mkMesh ns' es1)) /\
      forall fuel, (N <= fuel)%nat -> makefinemesh rounds fuel (mkMesh ns es) maxside = Ok (mkMesh ns' es1).
Proof. exact C103_rounds_pf. Qed.
Print Assumptions C103_rounds.

Example C103_rounds_ex : exists N ns' es', (forall fuel, (N <= fuel)%nat -> makefinemesh 1 fuel (mkMesh tri3_nodes tri3_elems) 3 = Ok (mkMesh ns' es')) /\
  length ns' = 4%nat /\ total2 ns' es' = 6.
Proof.
  destruct (C103_rounds 3 1 _ _ tri_ok ltac:(discriminate) tri_border tri_cover (tri_ccw 3 0 (or_introl (Rle_refl 3)))) as (N & [F|(r & ns0 & es0 & d & ns1 & es1 & ns' & Hr & _ & _ & K & _ & H)]).
  - exfalso. destruct tri_fine as (N' & M & H). destruct (H (Nat.max N N') ltac:(lia)) as [H1 _]. rewrite F in H1 by lia. discriminate.
  - exists N, ns', es1. split; [exact H|]. assert (r = 0)%nat as -> by lia. split; [rewrite (kp_len _ _ _ _ _ K); reflexivity|].
    rewrite (kp_total _ _ _ _ _ K). unfold total2, area2, tri2, xy, nxy. cbn. lra.
Qed.

(** C103, a bound that is not positive: then no number of rounds is enough
    (the loop of the code does not end), under the same conditions. *)
Theorem C103_nonpositive : forall maxside, maxside <= 0 -> forall rounds ns es, mesh_ok ns es -> es <> [] -> border_ok ns es -> cover_ok ns es ->
  ccw_rounds rounds (mkMesh ns es) maxside ->
  exists N, forall fuel, (N <= fuel)%nat -> makefinemesh rounds fuel (mkMesh ns es) maxside = Fail OutOfFuel.
Proof. exact C103_nonpositive_pf. Qed.
Print Assumptions C103_nonpositive.

Example C103_nonpositive_ex : exists N, forall fuel, (N <= fuel)%nat -> makefinemesh 1 fuel (mkMesh tri3_nodes tri3_elems) 0 = Fail OutOfFuel.
Proof. exact (C103_nonpositive 0 (Rle_refl 0) 1 _ _ tri_ok ltac:(discriminate) tri_border tri_cover (tri_ccw 0 0 (or_intror eq_refl))). Qed.

(** C103, the whole constructor: if the rough mesh is a triangulation whose
    unlinked sides are marked, and the smoothing turns no element over during
    the subdivision, then the constructor either needs more rounds or returns
    a mesh of active elements with mutual neighbors, consistent boundary
    marks, the total area of the rough mesh, all given nodes in place and all nodes within every half
    plane that contains the given nodes. *)
Theorem C103_whole : forall rounds x outer inner maxsize ns es N0,
  (forall k, on_list outer inner k -> (k < length x)%nat) ->
  (forall fuel, (N0 <= fuel)%nat -> roughmesh fuel x outer inner = Ok (mkMesh ns es)) ->
  mesh_ok ns es -> es <> [] -> (forall e j, In e es -> (j < 3)%nat -> at3 (enb e) j = None -> at3 (esd e) j = true) ->
  ccw_rounds rounds (mkMesh ns es) maxsize ->
  exists N, (forall fuel, (N <= fuel)%nat -> delaunay rounds fuel x outer inner maxsize = Fail OutOfFuel) \/
    exists r ns' es', (r < rounds)%nat /\
      (forall fuel, (N <= fuel)%nat -> delaunay rounds fuel x outer inner maxsize = Ok (mkMesh ns' es')) /\
      topo_ok ns' es' /\ border_ok ns' es' /\ cover_ok ns' es' /\ marks_ok es' /\ (forall e, In e es' -> eact e = true) /\ total2 ns' es' = total2 ns es /\
      length ns' = (length ns + r + 1)%nat /\ (length es + r + 1 <= length es')%nat /\
      (forall i, (i < length ns)%nat -> onb ns' i = true /\ xy ns' i = xy ns i) /\
      (forall u v w, (forall i, (i < length ns)%nat -> half_plane u v w (xy ns i)) -> forall i, (i < length ns')%nat -> half_plane u v w (xy ns' i)).
Proof. exact C103_whole_pf. Qed.
Print Assumptions C103_whole.

Example C103_whole_ex : exists N ns' es', (forall fuel, (N <= fuel)%nat -> delaunay 1 fuel tri_points [[0; 1; 2]%nat] [] 3 = Ok (mkMesh ns' es')) /\
  length ns' = 4%nat /\ total2 ns' es' = 6 /\ xy ns' 1 = (-2, 0).
Proof.
  destruct (C103_whole 1 tri_points [[0; 1; 2]%nat] [] 3 tri3_nodes tri3_elems 3) as (N & [F|(r & ns' & es' & Hr & H & _ & _ & _ & _ & _ & T & L & _ & X & _)]).
  - intros k (l & [<-|[]] & Hk). cbn in *. lia.
  - exact tri_rough.
  - exact tri_ok.
  - discriminate.
  - exact (proj1 tri_border).
  - exact (tri_ccw 3 0 (or_introl (Rle_refl 3))).
  - exfalso. destruct tri_delaunay as (N' & H). destruct (H (Nat.max N N') ltac:(lia)) as [M HM]. rewrite F in HM by lia. discriminate.
  - exists N, ns', es'. split; [exact H|]. assert (r = 0)%nat as -> by lia. split; [rewrite L; reflexivity|].
    split; [rewrite T; unfold total2, area2, tri2, xy, nxy; cbn; lra|]. destruct (X 1%nat ltac:(cbn; lia)) as [_ ->]. reflexivity.
Qed.
