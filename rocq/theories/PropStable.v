(** Property C106: the assembled system of a mesh that is held. *)
From Coq Require Import List Arith Lia Bool Reals Lra.
From Verif Require Import Res SumR DenseModel DenseR DenseSpec ShapeModel QuadModel QuadSpec ElemModel ElemSpec SparseModel SparseSpec KrylovModel KrylovSpec AssemblyModel AssemblySpec PatchSpec StableSpec PatchMain StableMain.
Import ListNotations.
Local Open Scope R_scope.

(** C106, the rules: the rules of the library for triangles, quadrilaterals
    and tetrahedra whose points are enough, with positive weights. *)
Theorem C106_rules : forall s q, In (s, q) [(sf_3Triangle, Gauss1Triangle); (sf_3Triangle, Gauss3Triangle); (sf_4Square, Gauss4Square); (sf_4Square, Gauss9Square); (sf_4Tetrahedron, Gauss1Tetrahedron)] ->
  stable_pair s q /\ rule_ok (sf_d s) q /\ forall g, (g < q_n q)%nat -> 0 < wprod (sf_d s) (nth g (q_weights q) []).
Proof. exact C106_rules_pf. Qed.
Print Assumptions C106_rules.

(** the four points of Gauss4Square are three points that are not on a line *)
Example C106_rules_ex : three_points Gauss4Square /\ ~ three_points Gauss1Square.
Proof.
  split.
  - destruct (C106_rules sf_4Square Gauss4Square) as [[[E _]|[[_ H]|[E _]]] _]; [cbn; tauto|apply (f_equal sf_n) in E; discriminate E|exact H|apply (f_equal sf_d) in E; discriminate E].
  - intros (a & b & c & Ha & Hb & Hc & H). cbn in Ha, Hb, Hc. assert (a = 0%nat) by lia. assert (b = 0%nat) by lia. assert (c = 0%nat) by lia. subst. apply H. ring.
Qed.

(** C106, the elements: the routines return a matrix for every element of such
    a mesh. *)
Theorem C106_runs : forall dou xs d m f P, stiff_routine dou xs d m f -> length dou = m -> (forall p, In p P -> stable_piece d xs p) ->
  exists es, Forall2 (made_by f) P es /\ forall e, In e es -> (forall a, e_f e a = 0) /\
    forall t, (forall p k c, In p P -> In k (p_nodes p) -> In c dou -> in_table t k c) -> elem_fits t e.
Proof. exact C106_runs_pf. Qed.
Print Assumptions C106_runs.

(** a square plate of two triangles *)
Definition plate_xs : list (list R) := [[0; 0]; [1; 0]; [1; 1]; [0; 1]].
Definition plate : list piece := map (mkPiece sf_3Triangle Gauss1Triangle) [[0; 1; 2]; [0; 2; 3]]%nat.
Example plate_ok : forall p, In p plate -> stable_piece 2 plate_xs p.
Proof.
  intros p Hp. destruct (C106_rules sf_3Triangle Gauss1Triangle ltac:(cbn; tauto)) as (PP & RK & WP).
  apply in_map_iff in Hp. destruct Hp as (l & <- & Hl). split; [exact PP|]. cbn [p_shape p_rule p_nodes].
  assert (J : forall r, jac sf_3Triangle (nodal l plate_xs) r = 1).
  { intros r. cbn in Hl. destruct Hl as [<-|[<-|[]]]; unfold jac, detd, det2, tangent, dshp, nodal, plate_xs, sf_3Triangle, dN_3Triangle; cbn [sf_d sf_n sf_dN bigsum nth]; lra. }
  split.
  - unfold element_ok. split; [cbn; tauto|]. split; [reflexivity|].
    cbn in Hl. destruct Hl as [<-|[<-|[]]]; (split; [reflexivity|]); (split; [intros k Hk; cbn in Hk; destruct Hk as [<-|[<-|[<-|[]]]]; cbn; lia|]); (split; [exact RK|]); intros g _; rewrite J; lra.
  - intros g Hg. rewrite J. split; [lra|now apply WP].
Qed.
Example C106_runs_ex : exists es, Forall2 (made_by (fun s q el => PlaneStressStiffness s q el [0; 1]%nat plate_xs 210 (3 / 10) 1)) plate es.
Proof.
  destruct (C106_runs [0; 1]%nat plate_xs 2 2 (fun s q el => PlaneStressStiffness s q el [0; 1]%nat plate_xs 210 (3 / 10) 1) plate) as (es & F & _); [constructor; lra|reflexivity|exact plate_ok|]. eauto.
Qed.

(** C106, the system: if every node with a free dof is held, then the
    assembled matrix is symmetric and positive definite; the assembled system
    has exactly one solution, and Disassembling makes of it the field with the
    prescribed values that is in equilibrium at all free dofs. *)
Theorem C106_definite : forall dou xs d m f P es u0 t0 fx fl,
  stiff_routine dou xs d m f -> length dou = m -> (forall p, In p P -> stable_piece d xs p) -> Forall2 (made_by f) P es ->
  (forall i j, in_table t0 i j -> in_table u0 i j) -> (forall i j v, In (i, j, v) fx -> in_table t0 i j) -> (forall i j v, In (i, j, v) fl -> in_table t0 i j) ->
  (forall e, In e es -> elem_fits t0 e) ->
  (forall i j, last_value fx i j = None -> num t0 i j <> None ->
     In j dou /\ held xs m (map p_nodes P) (fun k => forall c, In c dou -> last_value fx k c <> None \/ num t0 k c = None) i) ->
  exists u1 t1 t2 n K F F' Kc K',
    set_dirichlet (u0, t0) fx = Ok (u1, t1) /\ renumber t1 = (t2, n) /\
    asm_all u1 t2 es (lil_new n n, repeat 0 n) = Ok (K, F) /\ assemble_N F fl t2 = Ok F' /\ csr_of_lil K = Ok (Kc, K') /\ length F' = n /\
    square_csr n Kc /\ symmetric n (entry Kc) /\ pos_def n (entry Kc) /\
    exists x u2, length x = n /\ csr_mulvec 0 Rplus Rmult Kc x = Ok F' /\ disassemble u1 x t2 = Ok u2 /\
      (forall x', length x' = n -> csr_mulvec 0 Rplus Rmult Kc x' = Ok F' -> x' = x) /\
      (forall i j v, last_value fx i j = Some v -> uval u2 i j = v) /\
      (forall i j, last_value fx i j = None -> num t0 i j = None -> uval u2 i j = uval u0 i j) /\
      (forall i j, last_value fx i j = None -> num t0 i j <> None -> internal_force es u2 i j = element_load es i j + nodal_load fl i j).
Proof. exact C106_definite_pf. Qed.
Print Assumptions C106_definite.

(** the plate clamped at the nodes 0 and 3, with a load at node 1 *)
Definition clamp : list (nat * nat * R) := [(0%nat, 0%nat, 0); (0%nat, 1%nat, 0); (3%nat, 0%nat, 0); (3%nat, 1%nat, 0)].
Definition plate_routine (s : shape) (q : rule) (el : list nat) := PlaneStressStiffness s q el [0; 1]%nat plate_xs 210 (3 / 10) 1.
Definition dofs4 : list (list (option nat)) := repeat [Some 0%nat; Some 0%nat] 4.
Lemma dofs4_in : forall i j, in_table dofs4 i j <-> (i < 4 /\ j < 2)%nat.
Proof. intros i j. unfold in_table, dofs4. do 4 (destruct i as [|i]; [cbn; lia|]). cbn. destruct i; cbn; lia. Qed.
Lemma clamp_in : forall i j v, In (i, j, v) clamp -> in_table dofs4 i j.
Proof. intros i j v H. apply dofs4_in. cbn in H. repeat (destruct H as [H|H]; [injection H as <- <- <-; lia|]). contradiction. Qed.
Lemma plate_dofs : forall p k c, In p plate -> In k (p_nodes p) -> In c [0; 1]%nat -> in_table dofs4 k c.
Proof.
  intros p k c Hp Hk Hc. apply dofs4_in. apply in_map_iff in Hp. destruct Hp as (l & <- & Hl). cbn in Hl, Hk, Hc. repeat (destruct Hl as [<-|Hl]; [cbn in Hk; lia|]). contradiction.
Qed.
Lemma plate_held : forall i j, last_value clamp i j = None -> num dofs4 i j <> None ->
  In j [0; 1]%nat /\ held plate_xs 2 (map p_nodes plate) (fun k => forall c, In c [0; 1]%nat -> last_value clamp k c <> None \/ num dofs4 k c = None) i.
Proof.
  intros i j H1 H2.
  assert (J : (i < 4 /\ j < 2)%nat).
  { unfold num, dofs4 in H2. do 4 (destruct i as [|i]; [destruct j as [|[|j]]; [lia|lia|exfalso; apply H2; cbn; now destruct j]|]). exfalso. apply H2. cbn. now destruct i, j. }
  split; [cbn; lia|].
  assert (B : forall k, k = 0%nat \/ k = 3%nat -> held plate_xs 2 (map p_nodes plate) (fun k => forall c, In c [0; 1]%nat -> last_value clamp k c <> None \/ num dofs4 k c = None) k).
  { intros k Hk. apply held_base. intros c Hc. left. cbn in Hc. destruct Hk as [-> | ->], Hc as [<-|[<-|[]]]; unfold last_value; cbn; discriminate. }
  assert (H : held plate_xs 2 (map p_nodes plate) (fun k => forall c, In c [0; 1]%nat -> last_value clamp k c <> None \/ num dofs4 k c = None) 2%nat).
  { apply (held_elem _ _ _ _ [0; 2; 3]%nat [0; 3]%nat); [cbn; tauto|constructor; exists 1%nat; split; [lia|cbn; lra]|cbn; intros; lia| |cbn; lia].
    intros k Hk. apply B. cbn in Hk. lia. }
  assert (i = 0 \/ i = 1 \/ i = 2 \/ i = 3)%nat as [-> | [-> | [-> | ->]]] by lia; auto.
  apply (held_elem _ _ _ _ [0; 1; 2]%nat [0; 2]%nat); [cbn; tauto|constructor; exists 1%nat; split; [lia|cbn; lra]|cbn; intros; lia| |cbn; lia].
  intros k Hk. cbn in Hk. destruct Hk as [<-|[<-|[]]]; auto.
Qed.
Example C106_definite_ex : exists es u1 t1 t2 n K F F' Kc K' x u2,
  Forall2 (made_by plate_routine) plate es /\ set_dirichlet (repeat [0; 0] 4, dofs4) clamp = Ok (u1, t1) /\ renumber t1 = (t2, n) /\
  asm_all u1 t2 es (lil_new n n, repeat 0 n) = Ok (K, F) /\ assemble_N F [(1%nat, 1%nat, -1)] t2 = Ok F' /\ csr_of_lil K = Ok (Kc, K') /\
  pos_def n (entry Kc) /\ csr_mulvec 0 Rplus Rmult Kc x = Ok F' /\ disassemble u1 x t2 = Ok u2 /\ internal_force es u2 1 1 = -1 /\ uval u2 3 0 = 0.
Proof.
  assert (HR : stiff_routine [0; 1]%nat plate_xs 2 2 plate_routine) by (constructor; lra).
  destruct (C106_runs _ _ _ _ _ plate HR eq_refl plate_ok) as (es & F & HE). exists es.
  destruct (C106_definite _ _ _ _ _ plate es (repeat [0; 0] 4) dofs4 clamp [(1%nat, 1%nat, -1)] HR eq_refl plate_ok F)
    as (u1 & t1 & t2 & n & K & F0 & F' & Kc & K' & E1 & E2 & E3 & E4 & E5 & LF & SQ & SY & PD & x & u2 & Lx & E6 & E7 & UX & V1 & V2 & V3).
  - intros i j H. apply dofs4_in in H. unfold in_table. destruct H as [Hi Hj]. do 4 (destruct i as [|i]; [cbn; lia|]). lia.
  - exact clamp_in.
  - intros i j v [E|[]]. injection E as <- <- <-. apply dofs4_in. lia.
  - intros e He. apply (HE e He). exact plate_dofs.
  - exact plate_held.
  - exists u1, t1, t2, n, K, F0, F', Kc, K', x, u2. repeat (split; [assumption|]). split.
    + rewrite V3; [|reflexivity|cbn; discriminate].
      assert (element_load es 1 1 = 0) as ->. { apply no_load. intros e He. apply (HE e He). } unfold nodal_load, sum_over. cbn. lra.
    + apply V1. reflexivity.
Qed.

(** C106, the solvers: when the prescribed values with zeros elsewhere are
    not already an equilibrium, CG and ScalingCG with
    at least as many iterations as there are equations report convergence, and
    Disassembling gives a field with the prescribed values whose forces are at
    every free dof within the tolerance of the loads. *)
Theorem C106_solve : forall dou xs d m f P es u0 t0 fx fl,
  stiff_routine dou xs d m f -> length dou = m -> (forall p, In p P -> stable_piece d xs p) -> Forall2 (made_by f) P es ->
  (forall i j, in_table t0 i j -> in_table u0 i j) -> (forall i j v, In (i, j, v) fx -> in_table t0 i j) -> (forall i j v, In (i, j, v) fl -> in_table t0 i j) ->
  (forall e, In e es -> elem_fits t0 e) ->
  (forall i j, last_value fx i j = None -> num t0 i j <> None ->
     In j dou /\ held xs m (map p_nodes P) (fun k => forall c, In c dou -> last_value fx k c <> None \/ num t0 k c = None) i) ->
  (exists u i j, (forall i j v, last_value fx i j = Some v -> uval u i j = v) /\ (forall i j, last_value fx i j = None -> num t0 i j = None -> uval u i j = uval u0 i j) /\
     (forall i j, last_value fx i j = None -> num t0 i j <> None -> uval u i j = 0) /\
     last_value fx i j = None /\ num t0 i j <> None /\ internal_force es u i j <> element_load es i j + nodal_load fl i j) ->
  exists u1 t1 t2 n K F F' Kc K',
    set_dirichlet (u0, t0) fx = Ok (u1, t1) /\ renumber t1 = (t2, n) /\
    asm_all u1 t2 es (lil_new n n, repeat 0 n) = Ok (K, F) /\ assemble_N F fl t2 = Ok F' /\ csr_of_lil K = Ok (Kc, K') /\
    forall solver itrmax eps, In solver [cg; scaling_cg] -> (n <= itrmax)%nat -> 0 < eps ->
      exists x u2, solver Kc F' itrmax eps = Ok (true, x) /\ disassemble u1 x t2 = Ok u2 /\
        (forall i j v, last_value fx i j = Some v -> uval u2 i j = v) /\
        (forall i j, last_value fx i j = None -> num t0 i j = None -> uval u2 i j = uval u0 i j) /\
        (forall i j, last_value fx i j = None -> num t0 i j <> None ->
           Rabs (internal_force es u2 i j - (element_load es i j + nodal_load fl i j)) < eps * norm2 n (ix F')).
Proof. exact C106_solve_pf. Qed.
Print Assumptions C106_solve.

(** ScalingCG with as many iterations as there are unknowns, for the plate *)
Example C106_solve_ex : exists es u1 t1 t2 n K F F' Kc K' x u2,
  Forall2 (made_by plate_routine) plate es /\ set_dirichlet (repeat [0; 0] 4, dofs4) clamp = Ok (u1, t1) /\ renumber t1 = (t2, n) /\
  asm_all u1 t2 es (lil_new n n, repeat 0 n) = Ok (K, F) /\ assemble_N F [(1%nat, 1%nat, -1)] t2 = Ok F' /\ csr_of_lil K = Ok (Kc, K') /\
  scaling_cg Kc F' n (1 / 1000) = Ok (true, x) /\ disassemble u1 x t2 = Ok u2 /\ Rabs (internal_force es u2 1 1 + 1) < 1 / 1000 * norm2 n (ix F').
Proof.
  assert (HR : stiff_routine [0; 1]%nat plate_xs 2 2 plate_routine) by (constructor; lra).
  destruct (C106_runs _ _ _ _ _ plate HR eq_refl plate_ok) as (es & F & HE). exists es.
  assert (Z : element_load es 1 1 = 0). { apply no_load. intros e He. apply (HE e He). }
  destruct (C106_solve _ _ _ _ _ plate es (repeat [0; 0] 4) dofs4 clamp [(1%nat, 1%nat, -1)] HR eq_refl plate_ok F)
    as (u1 & t1 & t2 & n & K & F0 & F' & Kc & K' & E1 & E2 & E3 & E4 & E5 & HS).
  - intros i j H. apply dofs4_in in H. unfold in_table. destruct H as [Hi Hj]. do 4 (destruct i as [|i]; [cbn; lia|]). lia.
  - exact clamp_in.
  - intros i j v [E|[]]. injection E as <- <- <-. apply dofs4_in. lia.
  - intros e He. apply (HE e He). exact plate_dofs.
  - exact plate_held.
  - assert (U0 : forall k c, uval (repeat [0; 0] 4) k c = 0).
    { intros k c. unfold uval. do 4 (destruct k as [|k]; [destruct c as [|[|[|c]]]; reflexivity|]). cbn. now destruct k, c. }
    exists (repeat [0; 0] 4), 1%nat, 1%nat. split.
    { intros i j v H. rewrite U0. unfold last_value in H.
      destruct i as [|[|[|[|i]]]]; cbn in H; destruct j as [|[|j]]; cbn in H; try discriminate H; injection H as <-; reflexivity. }
    split; [auto|]. split; [auto|]. split; [reflexivity|]. split; [cbn; discriminate|]. rewrite Z, no_motion by exact U0. unfold nodal_load, sum_over. cbn. lra.
  - destruct (HS scaling_cg n (1 / 1000)) as (x & u2 & E6 & E7 & V1 & V2 & V3); [cbn; tauto|auto|lra|].
    exists u1, t1, t2, n, K, F0, F', Kc, K', x, u2. repeat (split; [assumption|]).
    specialize (V3 1%nat 1%nat eq_refl ltac:(cbn; discriminate)). rewrite Z in V3.
    replace (internal_force es u2 1 1 + 1) with (internal_force es u2 1 1 - (0 + nodal_load [(1%nat, 1%nat, -1)] 1 1)); [exact V3|]. unfold nodal_load, sum_over. cbn. lra.
Qed.

(** C106, the patch test again: if the prescribed values are those of an
    affine field and the nodes with free dofs are inside the mesh, then
    whatever solves the assembled system gives the affine field. *)
Theorem C106_patch : forall dou xs m f P es u0 t0 fx u a A,
  stiff_routine dou xs 2 m f -> plane_routine dou xs m f -> length dou = m -> (forall p, In p P -> stable_piece 2 xs p /\ piece_ok xs p) -> Forall2 (made_by f) P es ->
  (forall i j, in_table t0 i j -> in_table u0 i j) -> (forall i j v, In (i, j, v) fx -> in_table t0 i j) ->
  (forall e, In e es -> elem_fits t0 e /\ forall a, e_f e a = 0) ->
  (forall i j, last_value fx i j = None -> num t0 i j <> None ->
     In j dou /\ held xs m (map p_nodes P) (fun k => forall c, In c dou -> last_value fx k c <> None \/ num t0 k c = None) i /\ inner (map p_nodes P) i) ->
  (forall p, In p P -> affine_on m dou xs u a A (p_nodes p)) ->
  (forall i j w, last_value fx i j = Some w -> uval u i j = w) ->
  (forall i j, last_value fx i j = None -> num t0 i j = None -> uval u i j = uval u0 i j) ->
  exists u1 t1 t2 n K F F' Kc K' x,
    set_dirichlet (u0, t0) fx = Ok (u1, t1) /\ renumber t1 = (t2, n) /\
    asm_all u1 t2 es (lil_new n n, repeat 0 n) = Ok (K, F) /\ assemble_N F [] t2 = Ok F' /\ csr_of_lil K = Ok (Kc, K') /\
    length x = n /\ csr_mulvec 0 Rplus Rmult Kc x = Ok F' /\
    forall x', length x' = n -> csr_mulvec 0 Rplus Rmult Kc x' = Ok F' -> exists u2, disassemble u1 x' t2 = Ok u2 /\ forall i j, uval u2 i j = uval u i j.
Proof. exact C106_patch_pf. Qed.
Print Assumptions C106_patch.

(** four triangles around a node; the boundary holds the temperature 5 + x, and
    every solution of the system has 5 + 1/3 inside *)
Definition fan_xs : list (list R) := [[0; 0]; [1; 0]; [1; 1]; [0; 1]; [1 / 3; 1 / 4]].
Definition fan : list piece := map (mkPiece sf_3Triangle Gauss1Triangle) [[0; 1; 4]; [1; 2; 4]; [2; 3; 4]; [3; 0; 4]]%nat.
Definition fan_fix : list (nat * nat * R) := [(0%nat, 0%nat, 5); (1%nat, 0%nat, 6); (2%nat, 0%nat, 6); (3%nat, 0%nat, 5)].
Lemma fan_ok : forall p, In p fan -> stable_piece 2 fan_xs p /\ piece_ok fan_xs p.
Proof.
  intros p Hp. destruct (C106_rules sf_3Triangle Gauss1Triangle ltac:(cbn; tauto)) as (PP & RK & WP).
  apply in_map_iff in Hp. destruct Hp as (l & <- & Hl).
  assert (J : forall r, 0 < jac sf_3Triangle (nodal l fan_xs) r).
  { intros r. cbn in Hl. destruct Hl as [<-|[<-|[<-|[<-|[]]]]]; unfold jac, detd, det2, tangent, dshp, nodal, fan_xs, sf_3Triangle, dN_3Triangle; cbn [sf_d sf_n sf_dN bigsum nth]; lra. }
  assert (EO : element_ok 2 sf_3Triangle Gauss1Triangle l fan_xs).
  { unfold element_ok. split; [cbn; tauto|]. split; [reflexivity|].
    cbn in Hl. destruct Hl as [<-|[<-|[<-|[<-|[]]]]]; (split; [reflexivity|]); (split; [intros k Hk; cbn in Hk; destruct Hk as [<-|[<-|[<-|[]]]]; cbn; lia|]); (split; [exact RK|]); intros g _; apply Rgt_not_eq, J. }
  split; split; cbn [p_shape p_rule p_nodes]; auto.
  - split; [exact EO|]. intros g Hg. split; [apply J|now apply WP].
  - apply C105_rules_pf. cbn. tauto.
Qed.
Example C106_patch_ex : exists es u1 t1 t2 n K F F' Kc K' x,
  Forall2 (made_by (fun s q el => HeatTransfer s q el [0]%nat fan_xs 2 1)) fan es /\
  set_dirichlet (repeat [0] 5, repeat [Some 0%nat] 5) fan_fix = Ok (u1, t1) /\ renumber t1 = (t2, n) /\
  asm_all u1 t2 es (lil_new n n, repeat 0 n) = Ok (K, F) /\ assemble_N F [] t2 = Ok F' /\ csr_of_lil K = Ok (Kc, K') /\
  csr_mulvec 0 Rplus Rmult Kc x = Ok F' /\
  forall x', length x' = n -> csr_mulvec 0 Rplus Rmult Kc x' = Ok F' -> exists u2, disassemble u1 x' t2 = Ok u2 /\ uval u2 4 0 = 5 + 1 / 3.
Proof.
  assert (HR : stiff_routine [0]%nat fan_xs 2 1 (fun s q el => HeatTransfer s q el [0]%nat fan_xs 2 1)) by (constructor; lra).
  assert (HR' : plane_routine [0]%nat fan_xs 1 (fun s q el => HeatTransfer s q el [0]%nat fan_xs 2 1)) by constructor.
  destruct (C106_runs _ _ _ _ _ fan HR eq_refl (fun p Hp => proj1 (fan_ok p Hp))) as (es & F & HE). exists es.
  assert (TB : forall i j, in_table (repeat [Some 0%nat] 5) i j <-> (i < 5 /\ j = 0)%nat).
  { intros i j. unfold in_table. do 5 (destruct i as [|i]; [cbn; lia|]). cbn. destruct i; cbn; lia. }
  assert (NB : forall p k, In p fan -> In k (p_nodes p) -> (k < 5)%nat).
  { intros p k Hp Hk. apply in_map_iff in Hp. destruct Hp as (l & <- & Hl). cbn in Hl, Hk. repeat (destruct Hl as [<-|Hl]; [cbn in Hk; lia|]). contradiction. }
  destruct (C106_patch _ _ _ _ fan es (repeat [0] 5) (repeat [Some 0%nat] 5) fan_fix [[5]; [6]; [6]; [5]; [5 + 1 / 3]] (fun _ => 5) (fun l _ => match l with O => 1 | _ => 0 end)
    HR HR' eq_refl fan_ok F) as (u1 & t1 & t2 & n & K & F0 & F' & Kc & K' & x & E1 & E2 & E3 & E4 & E5 & Lx & E6 & E7).
  - intros i j H. apply TB in H. unfold in_table. destruct H as [Hi ->]. do 5 (destruct i as [|i]; [cbn; lia|]). lia.
  - intros i j w H. apply TB. cbn in H. repeat (destruct H as [H|H]; [injection H as <- <- <-; lia|]). contradiction.
  - intros e He. destruct (HE e He) as [A B]. split; [|exact A]. apply B. intros p k c Hp Hk Hc. apply TB. cbn in Hc. split; [eauto|lia].
  - intros i j H1 H2. assert (i = 4%nat /\ j = 0%nat) as [-> ->].
    { unfold last_value, fan_fix in H1. unfold num in H2.
      do 4 (destruct i as [|i]; [destruct j as [|[|j]]; [discriminate H1|exfalso; apply H2; reflexivity|exfalso; apply H2; reflexivity]|]).
      destruct i as [|i]; [destruct j as [|[|j]]; [auto|exfalso; apply H2; reflexivity|exfalso; apply H2; reflexivity]|]. exfalso. apply H2. cbn. now destruct i, j. }
    split; [now left|]. split.
    + apply (held_elem _ _ _ _ [0; 1; 4]%nat [0]%nat); [cbn; tauto|constructor|cbn; intros; lia| |cbn; lia]. intros k [<-|[]]. apply held_base. intros c [<-|[]]. left. unfold last_value. cbn. discriminate.
    + apply inner_sides.
      * cbn. repeat constructor; cbn; intros H; repeat (destruct H as [H|H]; [discriminate H|]); exact H.
      * intros sd Hs Hi. cbn in Hs. repeat (destruct Hs as [<-|Hs]; [cbn in *; repeat (destruct Hi as [Hi|Hi]; [try discriminate Hi|]); try contradiction; tauto|]). contradiction.
  - intros p Hp k c Hk Hc. specialize (NB p k Hp Hk). destruct c as [|c]; [|lia]. unfold fan_xs. do 5 (destruct k as [|k]; [cbn; lra|]). lia.
  - intros i j w H. unfold last_value, fan_fix in H. do 4 (destruct i as [|i]; [destruct j as [|j]; cbn in H; [injection H as <-; reflexivity|discriminate H]|]). cbn in H. discriminate H.
  - intros i j H1 H2. unfold last_value, fan_fix in H1. unfold num in H2. do 4 (destruct i as [|i]; [destruct j as [|j]; [discriminate H1|destruct j; reflexivity]|]).
    destruct i as [|i]; [destruct j as [|[|j]]; [discriminate H2|reflexivity|reflexivity]|]. unfold uval. cbn. now destruct i, j.
  - exists u1, t1, t2, n, K, F0, F', Kc, K', x. repeat (split; [assumption|]). intros x' Lx' Ex'. destruct (E7 x' Lx' Ex') as (u2 & D & U). exists u2. split; [exact D|]. rewrite U. reflexivity.
Qed.

(** C106, why one point is not enough: with a rule whose points are all at the
    centre (Gauss1Square) every quadrilateral gives no force for nodal values of alternating
    sign, so values that are not a rigid motion have no energy. *)
Theorem C106_hourglass : forall q elem dou xs E V t alpha b,
  (forall g, (g < q_n q)%nat -> pt q g 0%nat = 0 /\ pt q g 1%nat = 0) -> element_ok 2 sf_4Square q elem xs ->
  (length dou = 1%nat -> kills 1 4 (HeatTransfer sf_4Square q elem dou xs alpha t) (fun i c => (-1) ^ i * b c)) /\
  (length dou = 2%nat -> (1 - 2 * V) * (1 + V) <> 0 -> kills 2 4 (PlaneStrainStiffness sf_4Square q elem dou xs E V t) (fun i c => (-1) ^ i * b c)) /\
  (length dou = 2%nat -> (1 - V) * (1 + V) <> 0 -> kills 2 4 (PlaneStressStiffness sf_4Square q elem dou xs E V t) (fun i c => (-1) ^ i * b c)).
Proof. exact C106_hourglass_pf. Qed.
Print Assumptions C106_hourglass.

(** Gauss1Square on the unit square: the alternating values make no force *)
Example C106_hourglass_ex : kills 1 4 (HeatTransfer sf_4Square Gauss1Square [0; 1; 2; 3]%nat [0]%nat plate_xs 2 1) (fun i c => (-1) ^ i * 1).
Proof.
  refine (proj1 (C106_hourglass Gauss1Square [0; 1; 2; 3]%nat [0]%nat plate_xs 0 0 1 2 (fun _ => 1) _ _) eq_refl).
  - intros g Hg. cbn in Hg. assert (g = 0%nat) as -> by lia. split; reflexivity.
  - unfold element_ok. split; [cbn; tauto|]. split; [reflexivity|]. split; [reflexivity|]. split; [intros k Hk; cbn in Hk; destruct Hk as [<-|[<-|[<-|[<-|[]]]]]; cbn; lia|].
    split; [unfold rule_ok; cbn; split; [lia|]; split; [lia|]; intros g Hg; assert (g = 0%nat) as -> by lia; cbn; lia|].
    intros g Hg. cbn in Hg. assert (g = 0%nat) as -> by lia. unfold jac, detd, det2, tangent, dshp, nodal, plate_xs, sf_4Square, dN_4Square, pt. cbn [sf_d sf_n sf_dN bigsum nth q_points Gauss1Square]. lra.
Qed.
