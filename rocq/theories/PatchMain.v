(** Properties C13 and C105: solutions of the assembled system, and the patch test: the proofs. *)
From Coq Require Import List Arith ZArith Lia Bool Reals Lra.
From Verif Require Import Res SumR DenseModel DenseR DenseSpec MeshModel DelaunayModel DelaunaySpec DelaunaySpec2 DelaunaySpec3 DelaunayMain2 DelaunayMain5 SparseModel SparseSpec ShapeModel QuadModel QuadSpec ElemModel ElemSpec AssemblyModel AssemblySpec PatchSpec.
Import ListNotations.
Local Open Scope R_scope.
From Verif Require Import PatchProof PatchProof2 PatchProof3 PatchProof4 PatchProof5.

(** a way to check that a node is inside *)
Lemma inner_sides els i : NoDup (flat_map sides els) -> (forall sd, In sd (flat_map sides els) -> In i sd -> In (rev sd) (flat_map sides els)) -> inner els i.
Proof. intros A B. apply inner_nodup; auto. Qed.
Lemma no_load es i j : (forall e, In e es -> forall a, e_f e a = 0) -> element_load es i j = 0.
Proof.
  intros H. unfold element_load. apply AssemblyProof.sum_zero. intros e He. apply AssemblyProof.sum_zero. intros a _. rewrite H by auto. destruct (at_dof i j a); reflexivity.
Qed.

Lemma C13_complete_pf : forall (u0 : list (list R)) (t0 : table) (fx f : list (nat * nat * R)) (es : list elem) (v : nat -> nat -> R),
  (forall i j, in_table t0 i j -> in_table u0 i j) ->
  (forall i j w, In (i, j, w) fx -> in_table t0 i j) ->
  (forall i j w, In (i, j, w) f -> in_table t0 i j) ->
  (forall e, In e es -> elem_fits t0 e) ->
  (forall i j w, last_value fx i j = Some w -> v i j = w) ->
  (forall i j, last_value fx i j = None -> num t0 i j = None -> v i j = uval u0 i j) ->
  (forall i j u, (forall i j, uval u i j = v i j) -> last_value fx i j = None -> num t0 i j <> None ->
     internal_force es u i j = element_load es i j + nodal_load f i j) ->
  exists u1 t1 t2 n K F F' Kc K',
    set_dirichlet (u0, t0) fx = Ok (u1, t1) /\ renumber t1 = (t2, n) /\
    asm_all u1 t2 es (lil_new n n, repeat 0 n) = Ok (K, F) /\
    assemble_N F f t2 = Ok F' /\ csr_of_lil K = Ok (Kc, K') /\
    exists x u2, length x = n /\ csr_mulvec 0 Rplus Rmult Kc x = Ok F' /\ disassemble u1 x t2 = Ok u2 /\
      forall i j, uval u2 i j = v i j.
Proof. intros. now apply field_solution. Qed.

Lemma C105_rules_pf : forall s q,
  In (s, q) [(sf_3Triangle, Gauss1Triangle); (sf_3Triangle, Gauss3Triangle); (sf_6Triangle, Gauss3Triangle);
    (sf_4Square, Gauss1Square); (sf_4Square, Gauss4Square); (sf_4Square, Gauss9Square); (sf_8Square, Gauss4Square); (sf_8Square, Gauss9Square)] ->
  plane_pair s q /\ rule_ok 2 q.
Proof. exact rule_pairs. Qed.

Lemma C105_runs_pf : forall dou xs m f P, plane_routine dou xs m f -> length dou = m -> (forall p, In p P -> piece_ok xs p) ->
  exists es, Forall2 (made_by f) P es /\ forall e, In e es -> (forall a, e_f e a = 0) /\
    forall t, (forall p k c, In p P -> In k (p_nodes p) -> In c dou -> in_table t k c) -> elem_fits t e.
Proof.
  intros dou xs m f P HR HD HP. destruct (patch_runs dou xs m f P HR HD HP) as (es & F & H). exists es. split; auto.
  intros e He. destruct (H e He) as [A B]. split; auto. intros a. unfold e_f. rewrite A. apply nth_repeat.
Qed.

Lemma C105_patch_pf : forall dou xs m f P es u a A i j,
  plane_routine dou xs m f -> length dou = m -> (forall p, In p P -> piece_ok xs p) -> Forall2 (made_by f) P es ->
  (forall p, In p P -> affine_on m dou xs u a A (p_nodes p)) -> inner (map p_nodes P) i ->
  internal_force es u i j = 0.
Proof. exact patch_zero. Qed.

Lemma C105_solution_pf : forall dou xs m f P es u0 t0 fx u a A,
  plane_routine dou xs m f -> length dou = m -> (forall p, In p P -> piece_ok xs p) -> Forall2 (made_by f) P es ->
  (forall e, In e es -> elem_fits t0 e /\ forall a, e_f e a = 0) ->
  (forall i j, in_table t0 i j -> in_table u0 i j) -> (forall i j w, In (i, j, w) fx -> in_table t0 i j) ->
  (forall p, In p P -> affine_on m dou xs u a A (p_nodes p)) ->
  (forall i j w, last_value fx i j = Some w -> uval u i j = w) ->
  (forall i j, last_value fx i j = None -> num t0 i j = None -> uval u i j = uval u0 i j) ->
  (forall i j, last_value fx i j = None -> num t0 i j <> None -> inner (map p_nodes P) i) ->
  exists u1 t1 t2 n K F F' Kc K',
    set_dirichlet (u0, t0) fx = Ok (u1, t1) /\ renumber t1 = (t2, n) /\
    asm_all u1 t2 es (lil_new n n, repeat 0 n) = Ok (K, F) /\
    assemble_N F [] t2 = Ok F' /\ csr_of_lil K = Ok (Kc, K') /\
    exists x u2, length x = n /\ csr_mulvec 0 Rplus Rmult Kc x = Ok F' /\ disassemble u1 x t2 = Ok u2 /\
      forall i j, uval u2 i j = uval u i j.
Proof.
  intros dou xs m f P es u0 t0 fx u a A HR HD HP HF He HU HX HA V1 V2 HI.
  apply (field_solution u0 t0 fx [] es (uval u)); auto.
  - intros i j w [].
  - intros e Hin. apply (He e Hin).
  - intros i j u' Hu' Hl Hn. rewrite no_load by (intros e Hin; apply (He e Hin)). unfold nodal_load. rewrite AssemblyProof.sum_over_nil, Rplus_0_r.
    apply (patch_zero dou xs m f P es u' a A i j HR HD HP HF); [|eauto].
    intros p Hp k c Hk Hc. rewrite Hu'. now apply (HA p Hp).
Qed.

Lemma C105_square_pf : forall x y nx ny, (0 < nx)%nat -> (0 < ny)%nat -> 0 < x -> 0 < y ->
  (exists nodes elements edges, sq_nodes x y nx ny = Ok nodes /\ sq_elements nx ny = Ok elements /\ sq_edges nx ny = Ok edges /\
     (forall q, rule_ok 2 q -> plane_pair sf_4Square q -> forall l, In l elements -> piece_ok nodes (mkPiece sf_4Square q l)) /\
     forall i, (forall l, In l edges -> ~ In i l) -> inner elements i) /\
  (exists nodes elements edges, sq_nodes2 x y nx ny = Ok nodes /\ sq_elements2 nx ny = Ok elements /\ sq_edges2 nx ny = Ok edges /\
     (forall q, rule_ok 2 q -> plane_pair sf_8Square q -> forall l, In l elements -> piece_ok nodes (mkPiece sf_8Square q l)) /\
     forall i, (forall l, In l edges -> ~ In i l) -> inner elements i).
Proof. intros. split; [now apply square_pieces|now apply square2_pieces]. Qed.

Lemma C105_delaunay_pf : forall ns es, topo_ok ns es -> marks_ok es -> (forall e, In e es -> eact e = true) ->
  (forall e j, In e es -> (j < 3)%nat -> at3 (enb e) j = None -> at3 (esd e) j = true) -> (forall e, In e es -> area2 ns e <> 0) ->
  (forall q, rule_ok 2 q -> plane_pair sf_3Triangle q -> forall l, In l (gen_elements (mkMesh ns es)) -> piece_ok (gen_nodes (mkMesh ns es)) (mkPiece sf_3Triangle q l)) /\
  forall i, (forall l, In l (gen_edges (mkMesh ns es)) -> ~ In i l) -> inner (gen_elements (mkMesh ns es)) i.
Proof.
  intros ns es T Mk Ac Un AR. split.
  - intros q RQ PP. apply delaunay_pieces; auto. destruct PP as [[_ H]|[[H _]|[[H _]|[H _]]]]; auto; discriminate (f_equal sf_n H).
  - intros i Hi. now apply delaunay_inner.
Qed.
