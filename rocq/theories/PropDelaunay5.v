(** Property C104: what the triangle mesher hands out. *)
From Coq Require Import List Arith ZArith Lia Bool Reals Lra Sorted.
From Verif Require Import Res DenseModel DenseR LUModel DelaunayModel DelaunaySpec DelaunaySpec2 DelaunaySpec3 DelaunayMain DelaunayMain2 DelaunayMain3 DelaunayMain4 DelaunayMain5.
Import ListNotations.
Local Open Scope R_scope.

(** C104, for all inputs: whenever the constructor returns, [GenerateNodes]
    begins with the nodes on the boundary lists, in the order of their numbers
    and exactly as they were given, followed by at least one further node;
    [GenerateElements] gives triples and [GenerateEdges] pairs of numbers of
    nodes of [GenerateNodes], and all elements are given. *)
Theorem C104_outputs : forall rounds fuel x outer inner maxsize M,
  delaunay rounds fuel x outer inner maxsize = Ok M -> (forall k, on_list outer inner k -> (k < length x)%nat) ->
  exists K r, StronglySorted lt K /\ (forall k, In k K <-> on_list outer inner k) /\ (1 <= r <= rounds)%nat /\
    length (gen_nodes M) = (length K + r)%nat /\ firstn (length K) (gen_nodes M) = map (fun k => nth k x []) K /\
    length (gen_elements M) = length (mes M) /\ (r + 1 <= length (gen_elements M))%nat /\
    (forall l, In l (gen_elements M) -> length l = 3%nat /\ forall k, In k l -> (k < length (gen_nodes M))%nat) /\
    (forall l, In l (gen_edges M) -> length l = 2%nat /\ forall k, In k l -> (k < length (gen_nodes M))%nat).
Proof. exact C104_outputs_pf. Qed.
Print Assumptions C104_outputs.

Example C104_outputs_ex : exists fuel M, delaunay 1 fuel tri_points [[0; 1; 2]%nat] [] 3 = Ok M /\
  firstn 3 (gen_nodes M) = tri_points /\ length (gen_nodes M) = 4%nat.
Proof.
  destruct tri_delaunay as (N & H). destruct (H N (le_n _)) as [M HM]. exists N, M. split; [exact HM|].
  destruct (C104_outputs _ _ _ _ _ _ _ HM) as (K & r & SK & HK & Hr & L1 & F & _).
  { intros k (l & [<-|[]] & Hk). cbn in *. lia. }
  assert (EK : K = [0; 1; 2]%nat).
  { assert (P : forall k, In k K <-> (k = 0 \/ k = 1 \/ k = 2)%nat).
    { intros k. rewrite HK. split; [intros (l & [<-|[]] & Hk); cbn in Hk; lia|]. intros Hk. exists [0; 1; 2]%nat. split; [left; reflexivity|]. cbn. lia. }
    exact (sorted_three K SK P). }
  subst K. split; [exact F|]. rewrite L1. cbn [length]. lia.
Qed.

(** C104, the boundary of the mesh: if the elements are active, neighbors are
    mutual and agree on the marks, and sides without neighbor are marked (as
    in the meshes of C103_whole), then the sum of the cross products over
    [GenerateEdges] is the sum of twice the areas of [GenerateElements]. *)
Theorem C104_shoelace : forall ns es, topo_ok ns es -> marks_ok es -> (forall e, In e es -> eact e = true) ->
  (forall e j, In e es -> (j < 3)%nat -> at3 (enb e) j = None -> at3 (esd e) j = true) ->
  let p k := (nth 0 (nth k (gen_nodes (mkMesh ns es)) []) 0, nth 1 (nth k (gen_nodes (mkMesh ns es)) []) 0) in
  rsum (fun l => fst (p (nth 0 l 0%nat)) * snd (p (nth 1 l 0%nat)) - fst (p (nth 1 l 0%nat)) * snd (p (nth 0 l 0%nat))) (gen_edges (mkMesh ns es)) =
  rsum (fun l => tri2 (p (nth 0 l 0%nat)) (p (nth 1 l 0%nat)) (p (nth 2 l 0%nat))) (gen_elements (mkMesh ns es)).
Proof. exact C104_shoelace_pf. Qed.
Print Assumptions C104_shoelace.

Example C104_shoelace_ex : gen_edges (mkMesh arrow_nodes arrow_elems) = [[0; 1]; [1; 2]; [2; 3]; [3; 0]]%nat /\
  rsum (fun l => fst (xy arrow_nodes (nth 0 l 0%nat)) * snd (xy arrow_nodes (nth 1 l 0%nat)) - fst (xy arrow_nodes (nth 1 l 0%nat)) * snd (xy arrow_nodes (nth 0 l 0%nat))) (gen_edges (mkMesh arrow_nodes arrow_elems)) = 12.
Proof. split; [reflexivity|]. rewrite <- gap_area. exact (C104_shoelace _ _ arrow_topo arrow_marks arrow_act (proj1 arrow_border)). Qed.

(** C104, the boundary is closed: under the same conditions as many edges of
    [GenerateEdges] begin at a node as end there. *)
Theorem C104_closed : forall ns es i, topo_ok ns es -> marks_ok es -> (forall e, In e es -> eact e = true) ->
  (forall e j, In e es -> (j < 3)%nat -> at3 (enb e) j = None -> at3 (esd e) j = true) ->
  length (filter (fun l => (nth 0 l 0 =? i)%nat) (gen_edges (mkMesh ns es))) = length (filter (fun l => (nth 1 l 0 =? i)%nat) (gen_edges (mkMesh ns es))).
Proof. exact C104_closed_pf. Qed.
Print Assumptions C104_closed.

Example C104_closed_ex : length (filter (fun l => (nth 1 l 0 =? 2)%nat) (gen_edges (mkMesh arrow_nodes arrow_elems))) = 1%nat.
Proof. rewrite <- (C104_closed _ _ 2 arrow_topo arrow_marks arrow_act (proj1 arrow_border)). reflexivity. Qed.

(** C104, [GenerateFixedlist]: with numbers of components that are not
    negative it gives exactly one entry with the value zero for each node that
    satisfies the predicate and each component of the list, in order; with a
    negative number it is stopped by the assertion, and with an empty list it
    reads past the end of the list. *)
Theorem C104_fixedlist : forall M ul P,
  (ul = [] -> gen_fixed M ul P = Fail OutOfBounds) /\
  (ul <> [] -> (exists u, In u ul /\ (u < 0)%Z) -> gen_fixed M ul P = Fail AssertFail) /\
  (ul <> [] -> (forall u, In u ul -> (0 <= u)%Z) -> exists l, gen_fixed M ul P = Ok l /\
     (forall i u v, In ((i, u), v) l <-> v = 0 /\ In u ul /\ exists y, nth_error (gen_nodes M) i = Some y /\ P y = true) /\
     (NoDup ul -> NoDup l)).
Proof. exact C104_fixedlist_pf. Qed.
Print Assumptions C104_fixedlist.

Example C104_fixedlist_ex : gen_fixed (mkMesh tri3_nodes tri3_elems) [0; 1]%Z (fun _ => true) = Ok (map (fun q => (q, 0)) [(0%nat, 0%Z); (0%nat, 1%Z); (1%nat, 0%Z); (1%nat, 1%Z); (2%nat, 0%Z); (2%nat, 1%Z)]) /\
  gen_fixed (mkMesh tri3_nodes tri3_elems) [-1]%Z (fun _ => true) = Fail AssertFail.
Proof. split; [reflexivity|]. apply C104_fixedlist; [discriminate|]. exists (-1)%Z. split; [now left|lia]. Qed.
