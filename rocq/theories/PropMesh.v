(** Properties C50, C51 and C53: structured meshes of rectangles. *)
From Coq Require Import List Arith ZArith Lia Bool Reals Lra.
From Verif Require Import Res DenseR LUModel OCModel MeshModel MeshSpec MeshMain.
Import ListNotations.
Local Open Scope R_scope.

(** The nodes of SquareMesh are the points of the regular grid, column by column. *)
Theorem C50_nodes : forall x y nx ny, (0 < nx)%nat -> (0 < ny)%nat -> exists nodes, sq_nodes x y nx ny = Ok nodes /\ length nodes = ((nx + 1) * (ny + 1))%nat /\
    forall i j, (i <= nx)%nat -> (j <= ny)%nat -> nth ((ny + 1) * i + j) nodes [] = [x * (INR i / INR nx); y * (INR j / INR ny)].
Proof. exact C50_nodes_pf. Qed.
Print Assumptions C50_nodes.

Example C50_nodes_ex : exists nodes, sq_nodes 4 3 2 3 = Ok nodes /\ length nodes = 12%nat /\ nth 6 nodes [] = [2; 2].
Proof.
  destruct (C50_nodes 4 3 2 3 ltac:(lia) ltac:(lia)) as (nodes & E & L & N). exists nodes. split; [exact E|]. split; [exact L|]. pose proof (N 1 2 ltac:(lia) ltac:(lia))%nat as N1. cbn [Nat.add Nat.mul INR] in N1. rewrite N1. f_equal; [|f_equal]; field.
Qed.

(** SquareMesh: elements are conforming, they are counter-clockwise rectangles tiling the rectangle, and the edges are its boundary. *)
Theorem C50_mesh : forall x y nx ny, (0 < nx)%nat -> (0 < ny)%nat -> 0 < x -> 0 < y -> exists nodes elements edges,
    sq_nodes x y nx ny = Ok nodes /\ sq_elements nx ny = Ok elements /\ sq_edges nx ny = Ok edges /\
    conforming (length nodes) elements /\ boundary elements edges /\ tiles nodes elements (fun p q => 0 <= p < x /\ 0 <= q < y).
Proof. exact C50_mesh_pf. Qed.
Print Assumptions C50_mesh.

(** two by two cells *)
Example C50_mesh_ex : sq_elements 2 2 = Ok [[0; 3; 4; 1]; [1; 4; 5; 2]; [3; 6; 7; 4]; [4; 7; 8; 5]]%nat /\
  sq_edges 2 2 = Ok [[0; 3]; [3; 6]; [6; 7]; [7; 8]; [8; 5]; [5; 2]; [2; 1]; [1; 0]]%nat /\
  free_side [[0; 3; 4; 1]; [1; 4; 5; 2]; [3; 6; 7; 4]; [4; 7; 8; 5]]%nat 7 8 /\ ~ free_side [[0; 3; 4; 1]; [1; 4; 5; 2]; [3; 6; 7; 4]; [4; 7; 8; 5]]%nat 3 4.
Proof.
  splits; try reflexivity.
  { split; cbn; [tauto|]. intro H. repeat (destruct H as [H|H]; [discriminate H|]). exact H. }
  intros (_ & H). apply H. cbn. tauto. Qed.

(** The same for eight node elements, whose additional nodes are the midpoints of the sides. *)
Theorem C50_mesh2 : forall x y nx ny, (0 < nx)%nat -> (0 < ny)%nat -> 0 < x -> 0 < y -> exists nodes elements edges,
    sq_nodes2 x y nx ny = Ok nodes /\ sq_elements2 nx ny = Ok elements /\ sq_edges2 nx ny = Ok edges /\
    conforming2 (length nodes) elements /\ boundary2 elements edges /\ tiles nodes elements (fun p q => 0 <= p < x /\ 0 <= q < y) /\
    forall a b m, In (a, b, m) (all_sides2 elements) -> px nodes m = (px nodes a + px nodes b) / 2 /\ py nodes m = (py nodes a + py nodes b) / 2.
Proof. exact C50_mesh2_pf. Qed.
Print Assumptions C50_mesh2.

Example C50_mesh2_ex : sq_elements2 1 2 = Ok [[0; 3; 4; 1; 10; 8; 11; 6]; [1; 4; 5; 2; 11; 9; 12; 7]]%nat /\
  sq_edges2 1 2 = Ok [[0; 3; 10]; [3; 4; 8]; [4; 5; 9]; [5; 2; 12]; [2; 1; 7]; [1; 0; 6]]%nat.
Proof. split; reflexivity. Qed.

(** GenerateElementIdsSelected and GenerateEdgeIdsSelected return the elements and edges all of whose nodes satisfy the predicate, each once. *)
Theorem C50_selected : forall x y nx ny pred, (0 < nx)%nat -> (0 < ny)%nat -> exists nodes elements edges edge_ids,
    sq_nodes x y nx ny = Ok nodes /\ sq_elements nx ny = Ok elements /\ sq_edges nx ny = Ok edges /\
    sq_element_ids x y nx ny pred = Ok (filter (fun k => forallb (fun v => pred (nth v nodes [])) (nth k elements [])) (seq 0 (length elements))) /\
    sq_edge_ids x y nx ny pred = Ok edge_ids /\ NoDup edge_ids /\
    forall k, In k edge_ids <-> (k < length edges)%nat /\ forallb (fun v => pred (nth v nodes [])) (nth k edges []) = true.
Proof. exact C50_selected_pf. Qed.
Print Assumptions C50_selected.

(** SquareMesh::GenerateFixedlist lists, node by node, the given degrees of freedom of exactly the nodes satisfying the predicate. *)
Theorem C51_square : forall x y nx ny, (0 < nx)%nat -> (0 < ny)%nat -> exists nodes, sq_nodes x y nx ny = Ok nodes /\
    forall ulist pred, ulist <> [] -> (forall u, In u ulist -> (0 <= u)%Z) -> sq_fixed x y nx ny ulist pred = Ok (fixed_nodes nodes ulist pred).
Proof. exact C51_square_pf. Qed.
Print Assumptions C51_square.

(** the nodes on the left side of a 1 x 1 mesh *)
Example C51_square_ex : sq_fixed 2 2 1 1 [0; 1]%Z (fun p => Rltb (nth 0 p 0) 1) = Ok [((0%nat, 0%Z), 0); ((0%nat, 1%Z), 0); ((1%nat, 0%Z), 0); ((1%nat, 1%Z), 0)].
Proof.
  destruct (C51_square 2 2 1 1 ltac:(lia) ltac:(lia)) as (nodes & E & F). rewrite F by (try discriminate; intros u [<-|[<-|[]]]; lia).
  destruct (C50_nodes 2 2 1 1 ltac:(lia) ltac:(lia)) as (nodes' & E' & L & N). rewrite E in E'. injection E' as <-. unfold fixed_nodes. rewrite L. cbn [seq flat_map Nat.add Nat.mul].
  pose proof (N 0 0 ltac:(lia) ltac:(lia))%nat as N0. pose proof (N 0 1 ltac:(lia) ltac:(lia))%nat as N1. pose proof (N 1 0 ltac:(lia) ltac:(lia))%nat as N2. pose proof (N 1 1 ltac:(lia) ltac:(lia))%nat as N3.
  cbn [Nat.add Nat.mul INR] in N0, N1, N2, N3. rewrite N0, N1, N2, N3. cbn [nth]. unfold Rltb. repeat destruct (Rlt_dec _ _); try lra. reflexivity.
Qed.

(** The same for GenerateFixedlist2 and the nodes of the eight node mesh. *)
Theorem C51_square_second : forall x y nx ny, (0 < nx)%nat -> (0 < ny)%nat -> exists nodes, sq_nodes2 x y nx ny = Ok nodes /\
    forall ulist pred, ulist <> [] -> (forall u, In u ulist -> (0 <= u)%Z) -> sq_fixed2 x y nx ny ulist pred = Ok (fixed_nodes nodes ulist pred).
Proof. exact C51_square_second_pf. Qed.
Print Assumptions C51_square_second.

(** The same for SquareMesh2. *)
Theorem C51_graded : forall x y nx ny rx ry, (0 < nx)%nat -> (0 < ny)%nat -> 0 < rx -> rx <> 1 -> 0 < ry -> ry <> 1 -> exists nodes, sq2_nodes x y nx ny rx ry = Ok nodes /\
    forall ulist pred, ulist <> [] -> (forall u, In u ulist -> (0 <= u)%Z) -> sq2_fixed x y nx ny rx ry ulist pred = Ok (fixed_nodes nodes ulist pred).
Proof. exact C51_graded_pf. Qed.
Print Assumptions C51_graded.

(** The same for GrandStructure2D. *)
Theorem C51_grand : forall x y nx ny, (0 < nx)%nat -> (0 < ny)%nat -> exists nodes, gs_nodes x y nx ny = Ok nodes /\
    forall ulist pred, ulist <> [] -> (forall u, In u ulist -> (0 <= u)%Z) -> gs_fixed x y nx ny ulist pred = Ok (fixed_nodes nodes ulist pred).
Proof. exact C51_grand_pf. Qed.
Print Assumptions C51_grand.

(** A negative degree of freedom is rejected. *)
Theorem C51_bad_dof : forall x y nx ny ulist pred u, In u ulist -> (u < 0)%Z -> sq_fixed x y nx ny ulist pred = Fail AssertFail.
Proof. exact C51_bad_dof_pf. Qed.
Print Assumptions C51_bad_dof.

(** GrandStructure2D::GenerateElements lists every pair of different nodes whose distance is below the limit exactly once, the later node first. *)
Theorem C53_bars : forall x y nx ny lmax, (0 < nx)%nat -> (0 < ny)%nat -> exists nodes elements, gs_nodes x y nx ny = Ok nodes /\ gs_elements x y nx ny lmax = Ok elements /\
    NoDup elements /\ (forall e, In e elements -> exists a b, e = [a; b]) /\
    forall a b, In [a; b] elements <-> (b < a < length nodes)%nat /\ (px nodes a - px nodes b) ^ 2 + (py nodes a - py nodes b) ^ 2 < lmax ^ 2.
Proof. exact C53_bars_pf. Qed.
Print Assumptions C53_bars.

(** in a unit square of four nodes with limit 1.2 the diagonals are excluded *)
Example C53_bars_ex : exists elements, gs_elements 1 1 1 1 (12/10) = Ok elements /\ In [2; 0]%nat elements /\ ~ In [3; 0]%nat elements /\ ~ In [0; 2]%nat elements.
Proof.
  destruct (C53_bars 1 1 1 1 (12/10) ltac:(lia) ltac:(lia)) as (nodes & els & E & F & _ & _ & H). exists els. split; [exact F|].
  destruct (C50_nodes 1 1 1 1 ltac:(lia) ltac:(lia)) as (nodes' & E' & L & N). change (gs_nodes 1 1 1 1) with (sq_nodes 1 1 1 1) in E. rewrite E in E'. injection E' as <-.
  pose proof (N 0 0 ltac:(lia) ltac:(lia))%nat as N0. pose proof (N 1 0 ltac:(lia) ltac:(lia))%nat as N2. pose proof (N 1 1 ltac:(lia) ltac:(lia))%nat as N3.
  cbn [Nat.add Nat.mul INR] in N0, N2, N3. unfold px, py in H. rewrite !H, L, N0, N2, N3. cbn [nth Nat.add Nat.mul]. split; [split; [lia|lra]|]. split; [intros (_ & C); lra|intros (C & _); lia].
Qed.

(** SquareMesh2 is a conforming mesh of counter-clockwise rectangles tiling the rectangle, whatever the grading ratios (other than one). *)
Theorem C76_graded_mesh : forall x y nx ny rx ry, (0 < nx)%nat -> (0 < ny)%nat -> 0 < x -> 0 < y -> 0 < rx -> rx <> 1 -> 0 < ry -> ry <> 1 -> exists nodes elements edges,
    sq2_nodes x y nx ny rx ry = Ok nodes /\ sq2_elements nx ny = Ok elements /\ sq2_edges nx ny = Ok edges /\
    conforming (length nodes) elements /\ boundary elements edges /\ tiles nodes elements (fun p q => 0 <= p < x /\ 0 <= q < y).
Proof. exact C76_graded_mesh_pf. Qed.
Print Assumptions C76_graded_mesh.

(** Its coordinates are symmetric about the centre and successive widths grow by the given ratio towards it. *)
Theorem C76_grading : forall x y nx ny rx ry, (0 < nx)%nat -> (0 < ny)%nat -> 0 < rx -> rx <> 1 -> 0 < ry -> ry <> 1 -> exists X Y nodes,
    sq2_nodes x y nx ny rx ry = Ok nodes /\ (forall i j, (i <= nx)%nat -> (j <= ny)%nat -> nth ((ny + 1) * i + j) nodes [] = [X i; Y j]) /\
    X 0%nat = 0 /\ Y 0%nat = 0 /\ (forall i, (i <= nx)%nat -> X (nx - i)%nat = x - X i) /\ (forall j, (j <= ny)%nat -> Y (ny - j)%nat = y - Y j) /\
    (forall i, (2 * (i + 2) <= nx)%nat -> X (i + 2)%nat - X (i + 1)%nat = rx * (X (i + 1)%nat - X i)) /\
    (forall j, (2 * (j + 2) <= ny)%nat -> Y (j + 2)%nat - Y (j + 1)%nat = ry * (Y (j + 1)%nat - Y j)).
Proof. exact C76_grading_pf. Qed.
Print Assumptions C76_grading.

(** four cells with ratio two: widths 1, 2, 2, 1 *)
Example C76_grading_ex : exists nodes, sq2_nodes 6 6 4 4 2 2 = Ok nodes /\ nth 5 nodes [] = [1; 0] /\ nth 10 nodes [] = [3; 0] /\ nth 15 nodes [] = [5; 0].
Proof.
  destruct (C76_grading 6 6 4 4 2 2) as (X & Y & nodes & E & N & X0 & Y0 & SX & SY & RX & RY); try lia; try lra. exists nodes. split; [exact E|].
  pose proof (N 1 0 ltac:(lia) ltac:(lia))%nat as N1. pose proof (N 2 0 ltac:(lia) ltac:(lia))%nat as N2. pose proof (N 3 0 ltac:(lia) ltac:(lia))%nat as N3. cbn [Nat.add Nat.mul] in N1, N2, N3.
  rewrite N1, N2, N3, Y0. pose proof (SX 1 ltac:(lia))%nat as S1. pose proof (SX 2 ltac:(lia))%nat as S2. pose proof (RX 0 ltac:(lia))%nat as R0. cbn in S1, S2, R0. repeat split; f_equal; lra.
Qed.

(** With ratio one (no grading) the width of the first cell is a division by zero and every coordinate is not a number. *)
Theorem C76_ratio_one : forall x y nx ny ry, sq2_nodes x y nx ny 1 ry = Fail DivByZero.
Proof. exact C76_ratio_one_pf. Qed.
Print Assumptions C76_ratio_one.
