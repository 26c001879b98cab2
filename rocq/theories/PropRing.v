(** Properties C51 and C77: meshes of annuli. *)
From Coq Require Import List Arith ZArith Lia Bool Reals Lra.
From Verif Require Import Res SumR DenseR LUModel OCModel MeshModel MeshSpec OCMain RingMain.
Import ListNotations.
Local Open Scope R_scope.

(** AnnulusMesh::GenerateFixedlist selects exactly the nodes satisfying the predicate. *)
Theorem C51_annulus : forall r0 r1 nr nt, (1 <= nr)%nat -> (3 <= nt)%nat -> exists nodes, an_nodes r0 r1 nr nt = Ok nodes /\
    forall ulist pred, ulist <> [] -> (forall u, In u ulist -> (0 <= u)%Z) -> an_fixed r0 r1 nr nt ulist pred = Ok (fixed_nodes nodes ulist pred).
Proof. exact C51_annulus_pf. Qed.
Print Assumptions C51_annulus.

(** radii 1 and 2, four sectors: the nodes on the outer circle *)
Example C51_annulus_ex : an_fixed 1 2 1 4 [1%Z] (fun p => Rltb 2 (nth 0 p 0 ^ 2 + nth 1 p 0 ^ 2)) = Ok [((4%nat, 1%Z), 0); ((5%nat, 1%Z), 0); ((6%nat, 1%Z), 0); ((7%nat, 1%Z), 0)].
Proof.
  destruct (C51_annulus 1 2 1 4 ltac:(lia) ltac:(lia)) as (nodes & E & F). rewrite F by (try discriminate; intros u [<-|[]]; lia). clear F.
  destruct (C77_annulus_pf 1 2 1 4 ltac:(lia) ltac:(lia) ltac:(lra) ltac:(lra)) as (nodes' & _ & _ & E' & _ & _ & L & N & _). rewrite E in E'. injection E' as <-.
  unfold fixed_nodes. rewrite L. cbn [seq Nat.mul Nat.add].
  assert (K : forall i j, (i <= 1)%nat -> (j < 4)%nat -> nth 0 (nth (4 * i + j) nodes []) 0 ^ 2 + nth 1 (nth (4 * i + j) nodes []) 0 ^ 2 = (1 + INR i) ^ 2).
  { intros i j Hi Hj. rewrite N by assumption. cbn [nth]. set (t := 2 * PI * INR j / INR 4). pose proof (sin2_cos2 t) as Q. unfold Rsqr in Q.
    transitivity ((1 + INR i) ^ 2 * (sin t * sin t + cos t * cos t)); [cbn [INR]; field|rewrite Q; ring]. }
  assert (K0 : forall j, (j < 4)%nat -> Rltb 2 (nth 0 (nth j nodes []) 0 ^ 2 + nth 1 (nth j nodes []) 0 ^ 2) = false).
  { intros j Hj. apply Rltb_false. pose proof (K 0%nat j ltac:(lia) Hj) as Q. cbn [Nat.mul Nat.add] in Q. rewrite Q. cbn [INR]. lra. }
  assert (K1 : forall j, (j < 4)%nat -> Rltb 2 (nth 0 (nth (4 + j) nodes []) 0 ^ 2 + nth 1 (nth (4 + j) nodes []) 0 ^ 2) = true).
  { intros j Hj. apply Rltb_true. pose proof (K 1%nat j ltac:(lia) Hj) as Q. change (4 * 1 + j)%nat with (4 + j)%nat in Q. rewrite Q. cbn [INR]. lra. }
  cbn [flat_map]. rewrite (K0 0%nat), (K0 1%nat), (K0 2%nat), (K0 3%nat) by lia. pose proof (K1 0%nat ltac:(lia)) as A0. pose proof (K1 1%nat ltac:(lia)) as A1. pose proof (K1 2%nat ltac:(lia)) as A2. pose proof (K1 3%nat ltac:(lia)) as A3. cbn [Nat.add] in A0, A1, A2, A3.
  rewrite A0, A1, A2, A3. reflexivity.
Qed.

(** The same for SquareCircleAnnulusMesh. *)
Theorem C51_square_circle : forall a b r p nx ny nr, (0 < nx)%nat -> (0 < ny)%nat -> (0 < nr)%nat -> 0 < p -> exists nodes, sc_nodes a b r p nx ny nr = Ok nodes /\
    forall ulist pred, ulist <> [] -> (forall u, In u ulist -> (0 <= u)%Z) -> sc_fixed a b r p nx ny nr ulist pred = Ok (fixed_nodes nodes ulist pred).
Proof. exact C51_square_circle_pf. Qed.
Print Assumptions C51_square_circle.

(** outside the circle of radius 1 and inside the square of side 4 with one element per side: the nodes 4 and 5 at (2,-2) and (2,2) *)
Example C51_square_circle_ex : sc_fixed 4 4 1 1 1 1 1 [0%Z] (fun p => Rltb (3/2) (nth 0 p 0)) = Ok [((4%nat, 0%Z), 0); ((5%nat, 0%Z), 0)].
Proof.
  rewrite sc_fixed_eq by (try lia; try lra; try discriminate; intros u [<-|[]]; lia). unfold fixed_nodes. rewrite ring_nodes_length. change (2 * (1 + 1) * (1 + 1))%nat with 8%nat. change (2 * (1 + 1))%nat with 4%nat. cbn [seq].
  set (nodes := ring_nodes _ _ _).
  assert (K : forall i J, (i <= 1)%nat -> (J < 4)%nat -> nth (4 * i + J) nodes [] = sc_N 1 1 4 4 1 1 1 i J) by (intros i J Hi HJ; apply (nth_ring_nodes _ 4 1 i J); assumption).
  assert (T1 : sc_t 1 1 1 = 1). { unfold sc_t. cbn. replace (1 / 1) with 1 by lra. unfold Rpower. rewrite ln_1, Rmult_0_r. apply exp_0. }
  assert (K0 : forall j, (j < 4)%nat -> Rltb (3/2) (nth 0 (nth j nodes []) 0) = false).
  { intros j Hj. apply Rltb_false. pose proof (K 0%nat j ltac:(lia) Hj) as Q. cbn [Nat.mul Nat.add] in Q. rewrite Q. unfold sc_N, sc_t. cbn [nth Nat.eq_dec nat_rec nat_rect sumbool_rec]. pose proof (COS_bound (sc_th 1 1 j)) as B. cbn. lra. }
  assert (K1 : forall j, (j < 4)%nat -> nth 0 (nth (4 + j) nodes []) 0 = 4 * pu 1 1 j).
  { intros j Hj. pose proof (K 1%nat j ltac:(lia) Hj) as Q. change (4 * 1 + j)%nat with (4 + j)%nat in Q. rewrite Q. unfold sc_N. cbn [nth]. rewrite T1. ring. }
  cbn [flat_map]. rewrite (K0 0%nat), (K0 1%nat), (K0 2%nat), (K0 3%nat) by lia. pose proof (K1 0%nat ltac:(lia)) as A0. pose proof (K1 1%nat ltac:(lia)) as A1. pose proof (K1 2%nat ltac:(lia)) as A2. pose proof (K1 3%nat ltac:(lia)) as A3. cbn [Nat.add] in A0, A1, A2, A3.
  rewrite A0, A1, A2, A3. assert (R1 : forall x, 3/2 < x -> Rltb (3/2) x = true) by (intros; apply Rltb_true; assumption). assert (R0 : forall x, x <= 3/2 -> Rltb (3/2) x = false) by (intros; apply Rltb_false; lra).
  rewrite (R1 (4 * pu 1 1 0)), (R1 (4 * pu 1 1 1)), (R0 (4 * pu 1 1 2)), (R0 (4 * pu 1 1 3)); [reflexivity|unfold pu; cbn; lra..].
Qed.

(** It is false for SquareAnnulusMesh: between the squares of sides 1 and 2 with one element per side, asking for the nodes with x > 3/4 gives node 0 at (1/2,-1/2) but not node 4 at (1,-1). GenerateFixedlist exchanges the roles of the inner and the outer square. *)
Theorem C51_square_annulus_refuted : exists a b c d nx ny nt ulist pred nodes l, sa_nodes a b c d nx ny nt = Ok nodes /\ sa_fixed a b c d nx ny nt ulist pred = Ok l /\
    In ((0%nat, 0%Z), 0) l /\ pred (nth 0 nodes []) = false /\ ~ In ((4%nat, 0%Z), 0) l /\ pred (nth 4 nodes []) = true.
Proof. exact C51_square_annulus_refuted_pf. Qed.
Print Assumptions C51_square_annulus_refuted.

(** What SquareAnnulusMesh::GenerateFixedlist does select, for all sizes: node k is listed when the predicate holds of the node at the same position of the opposite layer (layer nt - i instead of i). The full claim would have nodes in place of the mirrored list; it holds for predicates that do not distinguish the two. *)
Theorem C51_square_annulus_partial : forall a b c d nx ny nt, (0 < nx)%nat -> (0 < ny)%nat -> (0 < nt)%nat -> exists nodes, sa_nodes a b c d nx ny nt = Ok nodes /\
    forall ulist pred, ulist <> [] -> (forall u, In u ulist -> (0 <= u)%Z) ->
    let n := (2 * (nx + ny))%nat in
    sa_fixed a b c d nx ny nt ulist pred = Ok (fixed_nodes (map (fun k => nth (n * (nt - k / n) + k mod n) nodes []) (seq 0 (length nodes))) ulist pred).
Proof. exact C51_square_annulus_partial_pf. Qed.
Print Assumptions C51_square_annulus_partial.

(** with the sides 2 and 1 and one element per side the nodes of the inner square are taken for those of the outer one *)
Example C51_square_annulus_ex : exists nodes, sa_nodes 2 2 1 1 1 1 1 = Ok nodes /\ map (fun k => nth (4 * (1 - k / 4) + k mod 4) nodes []) (seq 0 8) = [[1; -1]; [1; 1]; [-1; 1]; [-1; -1]; [1/2; -1/2]; [1/2; 1/2]; [-1/2; 1/2]; [-1/2; -1/2]].
Proof.
  destruct (C51_square_annulus_partial 2 2 1 1 1 1 1 ltac:(lia) ltac:(lia) ltac:(lia)) as (nodes & E & _). exists nodes. split; [exact E|].
  rewrite sa_nodes_eq in E by lia. injection E as <-. unfold ring_nodes, sa_N, sa_A, sa_Bb, pu, pv. cbn. repeat (f_equal; try field).
Qed.

(** AnnulusMesh puts its nodes on nr + 1 circles and generates a conforming mesh of counter-clockwise elements with its two boundary polygons; the areas add up to that of the regular polygon with nt corners on the outer circle less that of the inner one. *)
Theorem C77_annulus : forall r0 r1 nr nt, (1 <= nr)%nat -> (3 <= nt)%nat -> 0 <= r0 -> r0 < r1 -> exists nodes elements edges,
    an_nodes r0 r1 nr nt = Ok nodes /\ an_elements nr nt = Ok elements /\ an_edges nr nt = Ok edges /\
    length nodes = (nt * (nr + 1))%nat /\
    (forall i j, (i <= nr)%nat -> (j < nt)%nat -> let rho := r0 + INR i / INR nr * (r1 - r0) in
       nth (nt * i + j) nodes [] = [rho * cos (2 * PI * INR j / INR nt); rho * sin (2 * PI * INR j / INR nt)]) /\
    length elements = (nr * nt)%nat /\ conforming (length nodes) elements /\ boundary elements edges /\
    (forall e, In e elements -> 0 < area2 nodes e) /\
    total_area2 nodes elements = INR nt * sin (2 * PI / INR nt) * (r1 ^ 2 - r0 ^ 2).
Proof. exact C77_annulus_pf. Qed.
Print Assumptions C77_annulus.

(** radii 1 and 2, four sectors *)
Example C77_annulus_ex : an_elements 1 4 = Ok [[0; 4; 5; 1]; [1; 5; 6; 2]; [2; 6; 7; 3]; [3; 7; 4; 0]]%nat /\ an_edges 1 4 = Ok [[0; 3]; [3; 2]; [2; 1]; [1; 0]; [4; 5]; [5; 6]; [6; 7]; [7; 4]]%nat /\
  exists nodes, an_nodes 1 2 1 4 = Ok nodes /\ total_area2 nodes [[0; 4; 5; 1]; [1; 5; 6; 2]; [2; 6; 7; 3]; [3; 7; 4; 0]]%nat = 12.
Proof.
  split; [reflexivity|]. split; [reflexivity|]. destruct (C77_annulus 1 2 1 4 ltac:(lia) ltac:(lia) ltac:(lra) ltac:(lra)) as (nodes & els & edges & E & F & _ & _ & _ & _ & _ & _ & _ & T).
  exists nodes. split; [exact E|]. change (an_elements 1 4) with (Ok [[0; 4; 5; 1]; [1; 5; 6; 2]; [2; 6; 7; 3]; [3; 7; 4; 0]]%nat : res (list (list nat))) in F. injection F as <-. rewrite T. cbn [INR].
  replace (2 * PI / (1 + 1 + 1 + 1)) with (PI / 2) by field. rewrite sin_PI2. field.
Qed.

(** SquareAnnulusMesh: a conforming mesh of counter-clockwise elements between two concentric rectangles, with its boundary; the nodes of a layer lie on an interpolated rectangle, and the areas add up to the difference of the two areas. *)
Theorem C77_square_annulus : forall a b c d nx ny nt, (0 < nx)%nat -> (0 < ny)%nat -> (0 < nt)%nat -> 0 <= c -> c < a -> 0 <= d -> d < b -> exists nodes elements edges,
    sa_nodes a b c d nx ny nt = Ok nodes /\ sa_elements nx ny nt = Ok elements /\ sa_edges nx ny nt = Ok edges /\
    length nodes = (2 * (nx + ny) * (nt + 1))%nat /\ length elements = (nt * (2 * (nx + ny)))%nat /\
    conforming (length nodes) elements /\ boundary elements edges /\
    (forall e, In e elements -> 0 < area2 nodes e) /\
    total_area2 nodes elements = 2 * (a * b - c * d) /\
    (forall i J, (i <= nt)%nat -> (J < 2 * (nx + ny))%nat -> let t := INR i / INR nt in
       let A := t * a + (1 - t) * c in let B := t * b + (1 - t) * d in let k := (2 * (nx + ny) * i + J)%nat in
       ((px nodes k = A / 2 \/ px nodes k = - (A / 2)) /\ - (B / 2) <= py nodes k <= B / 2) \/
       ((py nodes k = B / 2 \/ py nodes k = - (B / 2)) /\ - (A / 2) <= px nodes k <= A / 2)).
Proof. exact C77_square_annulus_pf. Qed.
Print Assumptions C77_square_annulus.

(** one element per side: two rings of four nodes *)
Example C77_square_annulus_ex : sa_elements 1 1 1 = Ok [[0; 4; 5; 1]; [1; 5; 6; 2]; [2; 6; 7; 3]; [3; 7; 4; 0]]%nat /\ exists nodes, sa_nodes 2 2 1 1 1 1 1 = Ok nodes /\ area2 nodes [0; 4; 5; 1]%nat = 3 / 2.
Proof.
  split; [reflexivity|]. rewrite sa_nodes_eq by lia. eexists. split; [reflexivity|]. unfold area2, px, py, ring_nodes, sa_N, sa_A, sa_Bb, pu, pv. cbn. field.
Qed.

(** SquareCircleAnnulusMesh: a conforming mesh with its boundary whose first layer of nodes lies on the circle, the last on the rectangle, and the others on the segments between them. *)
Theorem C77_square_circle : forall a b r p nx ny nr, (0 < nx)%nat -> (0 < ny)%nat -> (0 < nr)%nat -> 0 < p -> 0 <= a -> 0 <= b -> exists nodes elements edges,
    sc_nodes a b r p nx ny nr = Ok nodes /\ sc_elements nx ny nr = Ok elements /\ sc_edges nx ny nr = Ok edges /\
    length nodes = (2 * (nx + ny) * (nr + 1))%nat /\ length elements = (nr * (2 * (nx + ny)))%nat /\
    conforming (length nodes) elements /\ boundary elements edges /\
    (forall J, (J < 2 * (nx + ny))%nat -> px nodes J ^ 2 + py nodes J ^ 2 = r ^ 2) /\
    (forall J, (J < 2 * (nx + ny))%nat -> let k := (2 * (nx + ny) * nr + J)%nat in
       ((px nodes k = a / 2 \/ px nodes k = - (a / 2)) /\ - (b / 2) <= py nodes k <= b / 2) \/
       ((py nodes k = b / 2 \/ py nodes k = - (b / 2)) /\ - (a / 2) <= px nodes k <= a / 2)) /\
    (forall i J, (i <= nr)%nat -> (J < 2 * (nx + ny))%nat -> exists t, 0 <= t <= 1 /\
       px nodes (2 * (nx + ny) * i + J) = (1 - t) * px nodes J + t * px nodes (2 * (nx + ny) * nr + J) /\
       py nodes (2 * (nx + ny) * i + J) = (1 - t) * py nodes J + t * py nodes (2 * (nx + ny) * nr + J)).
Proof. exact C77_square_circle_pf. Qed.
Print Assumptions C77_square_circle.

Example C77_square_circle_ex : sc_elements 1 2 1 = Ok [[0; 6; 7; 1]; [1; 7; 8; 2]; [2; 8; 9; 3]; [3; 9; 10; 4]; [4; 10; 11; 5]; [5; 11; 6; 0]]%nat /\ sc_edges 1 2 1 = Ok [[0; 5]; [5; 4]; [4; 3]; [3; 2]; [2; 1]; [1; 0]; [6; 7]; [7; 8]; [8; 9]; [9; 10]; [10; 11]; [11; 6]]%nat.
Proof. split; reflexivity. Qed.
