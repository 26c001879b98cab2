(** Properties C13 and C105: solutions of the assembled system, and the patch test. *)
From Coq Require Import List Arith ZArith Lia Bool Reals Lra.
From Verif Require Import Res SumR DenseModel DenseR DenseSpec MeshModel DelaunayModel DelaunaySpec DelaunaySpec2 DelaunaySpec3 DelaunayMain2 DelaunayMain5 SparseModel SparseSpec ShapeModel QuadModel QuadSpec ElemModel ElemSpec AssemblyModel AssemblySpec PatchSpec PatchMain.
Import ListNotations.
Local Open Scope R_scope.

(** C13, the converse: every field with the prescribed values for which at
    every free dof the element forces equal the loads is what Disassembling
    gives for some solution of the assembled system. *)
Theorem C13_complete : forall (u0 : list (list R)) (t0 : table) (fx f : list (nat * nat * R)) (es : list elem) (v : nat -> nat -> R),
  (forall i j, in_table t0 i j -> in_table u0 i j) ->
  (forall i j w, In (i, j, w) fx -> in_table t0 i j) ->
  (forall i j w, In (i, j, w) f -> in_table t0 i j) ->
  (forall e, In e es -> elem_fits t0 e) ->
  (forall i j w, last_value fx i j = Some w -> v i j = w) ->
  (forall i j, last_value fx i j = None -> num t0 i j = None -> v i j = uval u0 i j) ->
  (forall i j u, (forall i j, uval u i j = v i j) -> last_value fx i j = None -> num t0 i j <> None ->
     internal_force es u i j = element_load es i j + nodal_load f i j) ->
  exists u1 t1 t2 n K F F' Kc K',
    set_dirichlet (u0, t0) fx = Ok (u1, t1) /\ renumber t1 = (t2, n) /\
    asm_all u1 t2 es (lil_new n n, repeat 0 n) = Ok (K, F) /\
    assemble_N F f t2 = Ok F' /\ csr_of_lil K = Ok (Kc, K') /\
    exists x u2, length x = n /\ csr_mulvec 0 Rplus Rmult Kc x = Ok F' /\ disassemble u1 x t2 = Ok u2 /\
      forall i j, uval u2 i j = v i j.
Proof. exact C13_complete_pf. Qed.
Print Assumptions C13_complete.

(** two bars in a row, the left end held at 1, a load of 2 at the right end:
    the field 1, 13, 20 is in equilibrium *)
Definition bar2 (i j : nat) : elem := mkElem [i; j] [[(0, 0)]; [(0, 1)]]%nat (mkMat 2 2 [1; -1; -1; 1]) [0; 5].
Example C13_complete_ex : exists u1 t1 t2 n K F F' Kc K' x u2,
  set_dirichlet ([[0]; [0]; [0]], [[Some 0]; [Some 0]; [Some 0]]%nat) [(0%nat, 0%nat, 1)] = Ok (u1, t1) /\ renumber t1 = (t2, n) /\
  asm_all u1 t2 [bar2 0 1; bar2 1 2] (lil_new n n, repeat 0 n) = Ok (K, F) /\ assemble_N F [(2%nat, 0%nat, 2)] t2 = Ok F' /\ csr_of_lil K = Ok (Kc, K') /\
  csr_mulvec 0 Rplus Rmult Kc x = Ok F' /\ disassemble u1 x t2 = Ok u2 /\ uval u2 1 0 = 13 /\ uval u2 2 0 = 20.
Proof.
  destruct (C13_complete [[0]; [0]; [0]] [[Some 0]; [Some 0]; [Some 0]]%nat [(0%nat, 0%nat, 1)] [(2%nat, 0%nat, 2)] [bar2 0 1; bar2 1 2] (uval [[1]; [13]; [20]]))
    as (u1 & t1 & t2 & n & K & F0 & F' & Kc & K' & E1 & E2 & E3 & E4 & E5 & x & u2 & Lx & E6 & E7 & E8).
  - intros i j. unfold in_table. destruct i as [|[|[|i]]]; cbn; try lia; destruct i; cbn; lia.
  - intros i j w [H|[]]. injection H as <- <- <-. unfold in_table; cbn; lia.
  - intros i j w [H|[]]. injection H as <- <- <-. unfold in_table; cbn; lia.
  - intros e [<-|[<-|[]]]; (split; [cbn; lia|]); (split; [reflexivity|]); intros a Ha; cbn in Ha; destruct Ha as [<-|[<-|[]]]; cbn; repeat split; unfold in_table; cbn; lia.
  - intros i j w H. destruct i as [|i]; [destruct j as [|j]; cbn in H; [injection H as <-; reflexivity|discriminate H]|cbn in H; discriminate H].
  - intros i j H1 H2. destruct i as [|[|[|i]]].
    + destruct j as [|[|j]]; [discriminate H1|reflexivity|reflexivity].
    + destruct j as [|[|j]]; [discriminate H2|reflexivity|reflexivity].
    + destruct j as [|[|j]]; [discriminate H2|reflexivity|reflexivity].
    + unfold uval. cbn. now destruct i, j.
  - intros i j u Hu H1 H2.
    destruct i as [|[|[|i]]]; [destruct j as [|[|j]]; [discriminate H1|now elim H2|now elim H2]|destruct j as [|[|j]]; [|now elim H2|now elim H2]|destruct j as [|[|j]]; [|now elim H2|now elim H2]|elim H2; cbn; now destruct i, j];
      unfold internal_force, element_load, nodal_load, sum_over, e_dofs, duval; cbn -[uval];
      rewrite ?Hu; unfold ind, at_dof, e_k, e_f, uval; cbn; lra.
  - exists u1, t1, t2, n, K, F0, F', Kc, K', x, u2. repeat (split; [assumption|]). rewrite !E8. split; reflexivity.
Qed.

(** C105, the rules: the triangle and square rules of the library together
    with the plane shape functions they are meant for. *)
Theorem C105_rules : forall s q,
  In (s, q) [(sf_3Triangle, Gauss1Triangle); (sf_3Triangle, Gauss3Triangle); (sf_6Triangle, Gauss3Triangle);
    (sf_4Square, Gauss1Square); (sf_4Square, Gauss4Square); (sf_4Square, Gauss9Square); (sf_8Square, Gauss4Square); (sf_8Square, Gauss9Square)] ->
  plane_pair s q /\ rule_ok 2 q.
Proof. exact C105_rules_pf. Qed.
Print Assumptions C105_rules.

(** C105, the elements: on a mesh of plane elements, of one kind or mixed,
    with nonzero Jacobians, the routine returns a matrix for every element,
    and these fit every table that has the dofs of the nodes. *)
Theorem C105_runs : forall dou xs m f P, plane_routine dou xs m f -> length dou = m -> (forall p, In p P -> piece_ok xs p) ->
  exists es, Forall2 (made_by f) P es /\ forall e, In e es -> (forall a, e_f e a = 0) /\
    forall t, (forall p k c, In p P -> In k (p_nodes p) -> In c dou -> in_table t k c) -> elem_fits t e.
Proof. exact C105_runs_pf. Qed.
Print Assumptions C105_runs.

(** C105, the patch test: when the dofs hold an affine field, the element
    forces sum up to zero at every node inside the mesh. *)
Theorem C105_patch : forall dou xs m f P es u a A i j,
  plane_routine dou xs m f -> length dou = m -> (forall p, In p P -> piece_ok xs p) -> Forall2 (made_by f) P es ->
  (forall p, In p P -> affine_on m dou xs u a A (p_nodes p)) -> inner (map p_nodes P) i ->
  internal_force es u i j = 0.
Proof. exact C105_patch_pf. Qed.
Print Assumptions C105_patch.

(** four triangles around a node that is not in the middle of the square *)
Definition star_xs : list (list R) := [[0; 0]; [1; 0]; [1; 1]; [0; 1]; [1 / 3; 1 / 4]].
Definition star : list piece := map (mkPiece sf_3Triangle Gauss1Triangle) [[0; 1; 4]; [1; 2; 4]; [2; 3; 4]; [3; 0; 4]]%nat.
Example star_ok : forall p, In p star -> piece_ok star_xs p.
Proof.
  intros p Hp. destruct (C105_rules sf_3Triangle Gauss1Triangle ltac:(cbn; tauto)) as [PP RK].
  apply in_map_iff in Hp. destruct Hp as (l & <- & Hl). split; [exact PP|]. cbn [p_shape p_rule p_nodes].
  unfold element_ok. split; [cbn; tauto|]. split; [reflexivity|].
  cbn in Hl. destruct Hl as [<-|[<-|[<-|[<-|[]]]]]; (split; [reflexivity|]); (split; [intros k Hk; cbn in Hk; destruct Hk as [<-|[<-|[<-|[]]]]; cbn; lia|]); (split; [exact RK|]);
    intros g _; unfold jac, detd, det2, tangent, dshp, nodal, star_xs, sf_3Triangle, dN_3Triangle; cbn [sf_d sf_n sf_dN bigsum nth]; lra.
Qed.
Example star_inner : inner (map p_nodes star) 4.
Proof.
  apply inner_sides.
  - cbn. repeat constructor; cbn; intros H; repeat (destruct H as [H|H]; [discriminate H|]); exact H.
  - intros sd Hs Hi. cbn in Hs. repeat (destruct Hs as [<-|Hs]; [cbn in *; repeat (destruct Hi as [Hi|Hi]; [try discriminate Hi|]); try contradiction; tauto|]). contradiction.
Qed.
Example C105_patch_ex : exists es, Forall2 (made_by (fun s q el => PlaneStrainStiffness s q el [0; 1]%nat star_xs 1 (1 / 4) 1)) star es /\
  forall u, (forall k, (k < 5)%nat -> uval u k 0 = 2 * nth 1 (nth k star_xs []) 0 /\ uval u k 1 = 3 + nth 0 (nth k star_xs []) 0) ->
    internal_force es u 4 0 = 0 /\ internal_force es u 4 1 = 0.
Proof.
  assert (HR : plane_routine [0; 1]%nat star_xs 2 (fun s q el => PlaneStrainStiffness s q el [0; 1]%nat star_xs 1 (1 / 4) 1)) by (constructor; lra).
  destruct (C105_runs _ _ _ _ star HR eq_refl star_ok) as (es & F & _). exists es. split; [exact F|]. intros u Hu.
  assert (HA : forall p, In p star -> affine_on 2 [0; 1]%nat star_xs u (fun c => match c with O => 0 | _ => 3 end) (fun l c => match l, c with 1%nat, O => 2 | O, 1%nat => 1 | _, _ => 0 end) (p_nodes p)).
  { intros p Hp k c Hk Hc. assert (Hk5 : (k < 5)%nat).
    { apply in_map_iff in Hp. destruct Hp as (l & <- & Hl). cbn in Hl, Hk. repeat (destruct Hl as [<-|Hl]; [cbn in Hk; lia|]). contradiction. }
    destruct (Hu k Hk5) as [U0 U1]. destruct c as [|[|c]]; [|cbn [nth]|lia]; cbn [nth]; rewrite ?U0, ?U1; lra. }
  split; exact (C105_patch _ _ _ _ star es u _ _ 4%nat _ HR eq_refl star_ok F HA star_inner).
Qed.

(** C105, the assembled system: if no element has a load and no nodal load is
    given, the prescribed values are those of a field that is affine on the
    elements, and every dof that is not prescribed belongs to a node inside
    the mesh, then the assembled system has a solution for which Disassembling
    gives this affine field. *)
Theorem C105_solution : forall dou xs m f P es u0 t0 fx u a A,
  plane_routine dou xs m f -> length dou = m -> (forall p, In p P -> piece_ok xs p) -> Forall2 (made_by f) P es ->
  (forall e, In e es -> elem_fits t0 e /\ forall a, e_f e a = 0) ->
  (forall i j, in_table t0 i j -> in_table u0 i j) -> (forall i j w, In (i, j, w) fx -> in_table t0 i j) ->
  (forall p, In p P -> affine_on m dou xs u a A (p_nodes p)) ->
  (forall i j w, last_value fx i j = Some w -> uval u i j = w) ->
  (forall i j, last_value fx i j = None -> num t0 i j = None -> uval u i j = uval u0 i j) ->
  (forall i j, last_value fx i j = None -> num t0 i j <> None -> inner (map p_nodes P) i) ->
  exists u1 t1 t2 n K F F' Kc K',
    set_dirichlet (u0, t0) fx = Ok (u1, t1) /\ renumber t1 = (t2, n) /\
    asm_all u1 t2 es (lil_new n n, repeat 0 n) = Ok (K, F) /\
    assemble_N F [] t2 = Ok F' /\ csr_of_lil K = Ok (Kc, K') /\
    exists x u2, length x = n /\ csr_mulvec 0 Rplus Rmult Kc x = Ok F' /\ disassemble u1 x t2 = Ok u2 /\
      forall i j, uval u2 i j = uval u i j.
Proof. exact C105_solution_pf. Qed.
Print Assumptions C105_solution.

(** the boundary of the star holds the temperature 5 + x, the node inside gets it *)
Example C105_solution_ex : exists es u1 t1 t2 n K F F' Kc K' x u2,
  Forall2 (made_by (fun s q el => HeatTransfer s q el [0]%nat star_xs 2 1)) star es /\
  set_dirichlet (repeat [0] 5, repeat [Some 0%nat] 5) [(0%nat, 0%nat, 5); (1%nat, 0%nat, 6); (2%nat, 0%nat, 6); (3%nat, 0%nat, 5)] = Ok (u1, t1) /\ renumber t1 = (t2, n) /\
  asm_all u1 t2 es (lil_new n n, repeat 0 n) = Ok (K, F) /\ assemble_N F [] t2 = Ok F' /\ csr_of_lil K = Ok (Kc, K') /\
  csr_mulvec 0 Rplus Rmult Kc x = Ok F' /\ disassemble u1 x t2 = Ok u2 /\ uval u2 4 0 = 5 + 1 / 3.
Proof.
  assert (HR : plane_routine [0]%nat star_xs 1 (fun s q el => HeatTransfer s q el [0]%nat star_xs 2 1)) by constructor.
  destruct (C105_runs _ _ _ _ star HR eq_refl star_ok) as (es & F & HE). exists es.
  assert (TB : forall i j, in_table (repeat [Some 0%nat] 5) i j <-> (i < 5 /\ j = 0)%nat).
  { intros i j. unfold in_table. do 5 (destruct i as [|i]; [cbn; lia|]). cbn. destruct i; cbn; lia. }
  destruct (C105_solution _ _ _ _ star es (repeat [0] 5) (repeat [Some 0%nat] 5) [(0%nat, 0%nat, 5); (1%nat, 0%nat, 6); (2%nat, 0%nat, 6); (3%nat, 0%nat, 5)] [[5]; [6]; [6]; [5]; [5 + 1 / 3]] (fun _ => 5) (fun l _ => match l with O => 1 | _ => 0 end)
    HR eq_refl star_ok F) as (u1 & t1 & t2 & n & K & F0 & F' & Kc & K' & E1 & E2 & E3 & E4 & E5 & x & u2 & Lx & E6 & E7 & E8).
  - intros e He. destruct (HE e He) as [A B]. split; [|exact A]. apply B. intros p k c Hp Hk Hc. apply TB.
    apply in_map_iff in Hp. destruct Hp as (l & <- & Hl). cbn in Hl, Hk, Hc. repeat (destruct Hl as [<-|Hl]; [cbn in Hk; lia|]). contradiction.
  - intros i j H. apply TB in H. unfold in_table. destruct H as [Hi ->]. do 5 (destruct i as [|i]; [cbn; lia|]). lia.
  - intros i j w H. apply TB. cbn in H. repeat (destruct H as [H|H]; [injection H as <- <- <-; lia|]). contradiction.
  - intros p Hp k c Hk Hc. assert (Hk5 : (k < 5)%nat).
    { apply in_map_iff in Hp. destruct Hp as (l & <- & Hl). cbn in Hl, Hk. repeat (destruct Hl as [<-|Hl]; [cbn in Hk; lia|]). contradiction. }
    destruct c as [|c]; [|lia]. unfold star_xs. do 5 (destruct k as [|k]; [cbn; lra|]). lia.
  - intros i j w H. unfold last_value in H. do 4 (destruct i as [|i]; [destruct j as [|j]; cbn in H; [injection H as <-; reflexivity|discriminate H]|]). cbn in H. discriminate H.
  - intros i j H1 H2. unfold last_value in H1. unfold num in H2. do 4 (destruct i as [|i]; [destruct j as [|j]; [discriminate H1|destruct j; reflexivity]|]).
    destruct i as [|i]; [destruct j as [|[|j]]; [discriminate H2|reflexivity|reflexivity]|]. unfold uval. cbn. now destruct i, j.
  - intros i j H1 H2. assert (i = 4%nat) as ->; [|exact star_inner]. unfold last_value in H1. unfold num in H2.
    do 4 (destruct i as [|i]; [destruct j as [|[|j]]; [discriminate H1|exfalso; apply H2; reflexivity|exfalso; apply H2; reflexivity]|]).
    destruct i as [|i]; [reflexivity|]. exfalso. apply H2. cbn. now destruct i, j.
  - exists u1, t1, t2, n, K, F0, F', Kc, K', x, u2. repeat (split; [assumption|]). rewrite E8. reflexivity.
Qed.

(** C105, SquareMesh: its rectangles, with four or eight nodes, are admissible
    elements for every sufficient rule, and a node that is on none of the edges
    of GenerateEdges is inside the mesh. *)
Theorem C105_square : forall x y nx ny, (0 < nx)%nat -> (0 < ny)%nat -> 0 < x -> 0 < y ->
  (exists nodes elements edges, sq_nodes x y nx ny = Ok nodes /\ sq_elements nx ny = Ok elements /\ sq_edges nx ny = Ok edges /\
     (forall q, rule_ok 2 q -> plane_pair sf_4Square q -> forall l, In l elements -> piece_ok nodes (mkPiece sf_4Square q l)) /\
     forall i, (forall l, In l edges -> ~ In i l) -> inner elements i) /\
  (exists nodes elements edges, sq_nodes2 x y nx ny = Ok nodes /\ sq_elements2 nx ny = Ok elements /\ sq_edges2 nx ny = Ok edges /\
     (forall q, rule_ok 2 q -> plane_pair sf_8Square q -> forall l, In l elements -> piece_ok nodes (mkPiece sf_8Square q l)) /\
     forall i, (forall l, In l edges -> ~ In i l) -> inner elements i).
Proof. exact C105_square_pf. Qed.
Print Assumptions C105_square.

(** the middle node of two by two cells *)
Example C105_square_ex : inner [[0; 3; 4; 1]; [1; 4; 5; 2]; [3; 6; 7; 4]; [4; 7; 8; 5]]%nat 4.
Proof.
  destruct (C105_square 2 2 2 2 ltac:(lia) ltac:(lia) ltac:(lra) ltac:(lra)) as [(nodes & els & edges & _ & E2 & E3 & _ & H) _].
  injection E2 as <-. injection E3 as <-. apply H. intros l Hl Hi. cbn in Hl. repeat (destruct Hl as [<-|Hl]; [cbn in Hi; lia|]). contradiction.
Qed.

(** C105, the triangle mesher: if neighbors are mutual and agree on the marks,
    and sides without neighbor are marked (as in the meshes of C103_whole), and
    no triangle is degenerate, then the elements of GenerateElements are
    admissible, and a node that is on none of the edges of GenerateEdges is
    inside the mesh. *)
Theorem C105_delaunay : forall ns es, topo_ok ns es -> marks_ok es -> (forall e, In e es -> eact e = true) ->
  (forall e j, In e es -> (j < 3)%nat -> at3 (enb e) j = None -> at3 (esd e) j = true) -> (forall e, In e es -> area2 ns e <> 0) ->
  (forall q, rule_ok 2 q -> plane_pair sf_3Triangle q -> forall l, In l (gen_elements (mkMesh ns es)) -> piece_ok (gen_nodes (mkMesh ns es)) (mkPiece sf_3Triangle q l)) /\
  forall i, (forall l, In l (gen_edges (mkMesh ns es)) -> ~ In i l) -> inner (gen_elements (mkMesh ns es)) i.
Proof. exact C105_delaunay_pf. Qed.
Print Assumptions C105_delaunay.

(** the arrow head of C101: its interior node is number 4 *)
Example C105_delaunay_ex : inner (gen_elements (mkMesh arrow_nodes arrow_elems)) 4 /\
  forall l, In l (gen_elements (mkMesh arrow_nodes arrow_elems)) -> piece_ok (gen_nodes (mkMesh arrow_nodes arrow_elems)) (mkPiece sf_3Triangle Gauss3Triangle l).
Proof.
  destruct (C105_delaunay _ _ arrow_topo arrow_marks arrow_act (proj1 arrow_border)) as [H1 H2].
  - intros e He. cbn in He. repeat (destruct He as [<-|He]; [unfold area2, tri2, xy, nxy; cbn; lra|]). contradiction.
  - split.
    + apply H2. intros l Hl Hi. cbn in Hl. repeat (destruct Hl as [<-|Hl]; [cbn in Hi; lia|]). contradiction.
    + apply H1; apply (C105_rules sf_3Triangle Gauss3Triangle); cbn; tauto.
Qed.
