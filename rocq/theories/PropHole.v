(** Properties C51 and C52: a rectangle with a hole. *)
From Coq Require Import List Arith ZArith Lia Bool Reals Lra.
From Verif Require Import Res SumR DenseR LUModel OCModel MeshModel MeshSpec OCMain HoleMain.
Import ListNotations.
Local Open Scope R_scope.

(** SquareAnnulusMesh2::GenerateFixedlist selects exactly the nodes satisfying the predicate. *)
Theorem C51_hole : forall a b (nx ny nv nw : Z), (1 <= nv <= nx)%Z -> (1 <= nw <= ny)%Z -> Z.Even (nx - nv) -> Z.Even (ny - nw) -> exists h nodes,
    hole_new nx ny nv nw = Ok h /\ ho_nodes a b h = Ok nodes /\
    forall ulist pred, ulist <> [] -> (forall u, In u ulist -> (0 <= u)%Z) -> ho_fixed a b h ulist pred = Ok (fixed_nodes nodes ulist pred).
Proof. exact C51_hole_pf. Qed.
Print Assumptions C51_hole.

(** the sixteen nodes of a three by three grid; the one at (2,1) is number 9 *)
Example C51_hole_ex : exists h nodes, hole_new 3 3 1 1 = Ok h /\ ho_nodes 3 3 h = Ok nodes /\ nth 9 nodes [] = [2; 1].
Proof.
  destruct (C52_cells_pf 3 3 3 3 1 1 ltac:(lia) ltac:(lia) (ex_intro _ 1%Z eq_refl) (ex_intro _ 1%Z eq_refl) ltac:(lra) ltac:(lra)) as (h & nodes & els & E & N & _). exists h, nodes. split; [exact E|]. split; [exact N|].
  change (Ok (hset 1 1 1 1) = Ok h) in E. injection E as <-. rewrite ho_nodes_eq in N by lia. injection N as <-. unfold hnodes, hpts, hnode, hX, hY. cbn. f_equal; [|f_equal]; field.
Qed.

(** SquareAnnulusMesh2 generates a conforming mesh of counter-clockwise rectangles that tile the rectangle without the centred hole. *)
Theorem C52_mesh : forall a b (nx ny nv nw : Z), (1 <= nv <= nx)%Z -> (1 <= nw <= ny)%Z -> Z.Even (nx - nv) -> Z.Even (ny - nw) -> 0 < a -> 0 < b -> exists h nodes elements,
    hole_new nx ny nv nw = Ok h /\ ho_nodes a b h = Ok nodes /\ ho_elements h = Ok (map (map Z.of_nat) elements) /\
    Z.of_nat (length nodes) = ((nx + 1) * (ny + 1) - (nv - 1) * (nw - 1))%Z /\ Z.of_nat (length elements) = (nx * ny - nv * nw)%Z /\
    conforming (length nodes) elements /\
    tiles nodes elements (fun x y => 0 <= x < a /\ 0 <= y < b /\
      ~ (a * (IZR (nx - nv) / (2 * IZR nx)) <= x < a * (IZR (nx + nv) / (2 * IZR nx)) /\ b * (IZR (ny - nw) / (2 * IZR ny)) <= y < b * (IZR (ny + nw) / (2 * IZR ny)))).
Proof. exact C52_mesh_pf. Qed.
Print Assumptions C52_mesh.

(** a four by three grid without the two middle cells *)
Example C52_mesh_ex : (h <- hole_new 4 3 2 1 ;; ho_elements h) = Ok [[0; 4; 5; 1]; [1; 5; 6; 2]; [2; 6; 7; 3]; [4; 8; 9; 5]; [6; 10; 11; 7]; [8; 12; 13; 9]; [10; 14; 15; 11]; [12; 16; 17; 13]; [13; 17; 18; 14]; [14; 18; 19; 15]]%Z.
Proof. reflexivity. Qed.

(** Every element consists of the four corners of a cell of the nx x ny grid outside the hole. *)
Theorem C52_cells : forall a b (nx ny nv nw : Z), (1 <= nv <= nx)%Z -> (1 <= nw <= ny)%Z -> Z.Even (nx - nv) -> Z.Even (ny - nw) -> 0 < a -> 0 < b -> exists h nodes elements,
    hole_new nx ny nv nw = Ok h /\ ho_nodes a b h = Ok nodes /\ ho_elements h = Ok (map (map Z.of_nat) elements) /\
    forall e, In e elements -> exists i j, (0 <= i < nx)%Z /\ (0 <= j < ny)%Z /\ ~ ((nx - nv <= 2 * i < nx + nv)%Z /\ (ny - nw <= 2 * j < ny + nw)%Z) /\
      rectangle nodes e (a * IZR i / IZR nx) (b * IZR j / IZR ny) (a * IZR (i + 1) / IZR nx) (b * IZR (j + 1) / IZR ny).
Proof. exact C52_cells_pf. Qed.
Print Assumptions C52_cells.

(** GenerateEdges lists every free side on the outer rectangle exactly once; the sides of the hole, which are free too, are not listed. *)
Theorem C52_edges : forall a b (nx ny nv nw : Z), (1 <= nv < nx)%Z -> (1 <= nw < ny)%Z -> Z.Even (nx - nv) -> Z.Even (ny - nw) -> 0 < a -> 0 < b -> exists h nodes elements edges,
    hole_new nx ny nv nw = Ok h /\ ho_nodes a b h = Ok nodes /\ ho_elements h = Ok (map (map Z.of_nat) elements) /\ ho_edges h = Ok (map (map Z.of_nat) edges) /\
    NoDup edges /\ forall l, In l edges <-> exists s t, l = [s; t] /\ free_side elements s t /\ (px nodes s = 0 \/ px nodes s = a \/ py nodes s = 0 \/ py nodes s = b).
Proof. exact C52_edges_pf. Qed.
Print Assumptions C52_edges.

Example C52_edges_ex : (h <- hole_new 3 3 1 1 ;; ho_edges h) = Ok [[0; 4]; [4; 8]; [8; 12]; [12; 13]; [13; 14]; [14; 15]; [15; 11]; [11; 7]; [7; 3]; [3; 2]; [2; 1]; [1; 0]]%Z.
Proof. reflexivity. Qed.

(** A hole that cannot be centred is rejected. *)
Theorem C52_parity : forall nx ny nv nw, Z.Odd (nx - nv) \/ Z.Odd (ny - nw) -> hole_new nx ny nv nw = Fail AssertFail.
Proof. exact C52_parity_pf. Qed.
Print Assumptions C52_parity.

(** The hole must not be empty: with nv = 0 GenerateNodes writes beyond the end of its array. *)
Theorem C52_no_hole : forall a b (nx ny nw : Z), (0 < nx)%Z -> (0 <= nw <= ny)%Z -> (0 < ny)%Z -> Z.Even nx -> Z.Even (ny - nw) -> exists h, hole_new nx ny 0 nw = Ok h /\ ho_nodes a b h = Fail OutOfBounds.
Proof. exact C52_no_hole_pf. Qed.
Print Assumptions C52_no_hole.
