(** The solution of the assembled system of a mesh that is held. *)
From Coq Require Import List Arith Lia Bool Reals Lra.
From Verif Require Import Res SumR DenseModel DenseSpec ShapeModel QuadModel QuadSpec ElemModel ElemSpec SparseModel SparseSpec KrylovModel KrylovSpec AssemblyModel AssemblySpec PatchSpec StableSpec.
From Verif Require Import SparseMain KrylovMain AssemblyProof AssemblyProof3 PatchProof3 StableProof3.
Import ListNotations.
Local Open Scope R_scope.

Lemma mulvec_rows n A x b : square_csr n A -> length x = n -> length b = n ->
  (csr_mulvec 0 Rplus Rmult A x = Ok b <-> forall i, (i < n)%nat -> matvec n (entry A) (ix x) i = ix b i).
Proof.
  intros (W & C & R1 & C1) Hx Hb. destruct (C06_spmv_csr_pf A x W C ltac:(congruence)) as (y & Ey & Ly & Hy). rewrite R1, C1 in *. split.
  - intros E i Hi. rewrite E in Ey. injection Ey as ->. symmetry. exact (Hy i Hi).
  - intros H. rewrite Ey. f_equal. apply (nth_ext _ _ 0 0); [congruence|]. intros i Hi. rewrite Ly in Hi. rewrite Hy by auto. exact (H i Hi).
Qed.
Lemma definite_solution n A b : square_csr n A -> length b = n -> symmetric n (entry A) -> pos_def n (entry A) ->
  exists x, length x = n /\ csr_mulvec 0 Rplus Rmult A x = Ok b /\ forall x', length x' = n -> csr_mulvec 0 Rplus Rmult A x' = Ok b -> x' = x.
Proof.
  intros HA Hb HS HP. destruct (C24_cg_trace_pf n A b HA Hb HS HP) as (m & tr & _ & _ & _ & _ & _ & Hs & _).
  set (x := map (ix (cg_x (tr m))) (seq 0 n)). assert (Lx : length x = n) by (unfold x; now rewrite map_length, seq_length).
  assert (Ex : forall i, (i < n)%nat -> ix x i = ix (cg_x (tr m)) i).
  { intros i Hi. unfold x, ix. rewrite (nth_indep _ 0 (ix (cg_x (tr m)) 0)) by (now rewrite map_length, seq_length). rewrite map_nth, seq_nth by auto. reflexivity. }
  assert (Sx : forall i, (i < n)%nat -> matvec n (entry A) (ix x) i = ix b i).
  { intros i Hi. rewrite <- Hs by auto. apply bigsum_ext. intros j Hj. now rewrite Ex. }
  exists x. split; [exact Lx|]. split; [now apply (mulvec_rows n)|]. intros x' Lx' E'. pose proof (proj1 (mulvec_rows n A x' b HA Lx' Hb) E') as E2. clear E'. rename E2 into E'.
  apply (nth_ext _ _ 0 0); [congruence|]. intros i Hi. rewrite Lx' in Hi. destruct (Req_dec (nth i x' 0) (nth i x 0)) as [|Hne]; auto. exfalso.
  assert (Q : 0 < dot n (fun k => ix x' k - ix x k) (matvec n (entry A) (fun k => ix x' k - ix x k))).
  { apply HP. exists i. split; auto. unfold ix. lra. }
  assert (Z : forall k, (k < n)%nat -> matvec n (entry A) (fun k => ix x' k - ix x k) k = 0).
  { intros k Hk. specialize (E' k Hk). specialize (Sx k Hk). rewrite <- Sx in E'. unfold matvec in *.
    rewrite (bigsum_ext n _ (fun j => entry A k j * ix x' j - entry A k j * ix x j)) by (intros; ring). rewrite bigsum_minus. lra. }
  assert (Z0 : dot n (fun k => ix x' k - ix x k) (matvec n (entry A) (fun k => ix x' k - ix x k)) = 0) by (apply bigsum_zero; intros k Hk; rewrite Z by auto; ring).
  lra.
Qed.
Lemma component_le_norm n u i : (i < n)%nat -> Rabs (u i) <= norm2 n u.
Proof.
  intros Hi. rewrite <- sqrt_Rsqr_abs. apply sqrt_le_1_alt. unfold dot.
  replace ((u i)²) with (bigsum n (fun k => if (k =? i)%nat then (u i)² else 0)).
  - apply bigsum_le. intros k Hk. destruct (Nat.eqb_spec k i) as [->|]; [unfold Rsqr; lra|]. apply Rle_0_sqr.
  - rewrite (bigsum_single n i); auto; [now rewrite Nat.eqb_refl|]. intros k Hk Hne. destruct (Nat.eqb_spec k i); [contradiction|reflexivity].
Qed.

Lemma held_system dou xs d m f P es u0 t0 fx fl :
  stiff_routine dou xs d m f -> length dou = m -> (forall p, In p P -> stable_piece d xs p) -> Forall2 (made_by f) P es ->
  (forall i j, in_table t0 i j -> in_table u0 i j) -> (forall i j v, In (i, j, v) fx -> in_table t0 i j) -> (forall i j v, In (i, j, v) fl -> in_table t0 i j) ->
  (forall e, In e es -> elem_fits t0 e) ->
  (forall i j, last_value fx i j = None -> num t0 i j <> None ->
     In j dou /\ held xs m (map p_nodes P) (fun k => forall c, In c dou -> last_value fx k c <> None \/ num t0 k c = None) i) ->
  exists u1 t1 t2 n K F F' Kc K',
    set_dirichlet (u0, t0) fx = Ok (u1, t1) /\ renumber t1 = (t2, n) /\
    asm_all u1 t2 es (lil_new n n, repeat 0 n) = Ok (K, F) /\ assemble_N F fl t2 = Ok F' /\ csr_of_lil K = Ok (Kc, K') /\ length F' = n /\
    square_csr n Kc /\ symmetric n (entry Kc) /\ pos_def n (entry Kc) /\
    forall x, length x = n -> exists u2, disassemble u1 x t2 = Ok u2 /\
      (forall i j v, last_value fx i j = Some v -> uval u2 i j = v) /\
      (forall i j, last_value fx i j = None -> num t0 i j = None -> uval u2 i j = uval u0 i j) /\
      (forall i j, last_value fx i j = None -> num t0 i j <> None -> exists k, (k < n)%nat /\ uval u2 i j = nth k x 0 /\
         internal_force es u2 i j - (element_load es i j + nodal_load fl i j) = - residual n Kc F' x k) /\
      (csr_mulvec 0 Rplus Rmult Kc x = Ok F' <->
       forall i j, last_value fx i j = None -> num t0 i j <> None -> internal_force es u2 i j = element_load es i j + nodal_load fl i j).
Proof.
  intros HR HD HP HF HU HX HL He HH.
  destruct (system_iff u0 t0 fx fl es HU HX HL He) as (u1 & t1 & t2 & n & K & F & F' & Kc & K' & E1 & E2 & E3 & E4 & E5 & NU & EN & W & C & R1 & C1 & LF & EK & EO & HS).
  assert (SQ : square_csr n Kc) by (splits; auto; split; auto).
  exists u1, t1, t2, n, K, F, F', Kc, K'. splits; auto.
  1,2: apply (held_definite dou xs d m f P es n t2 u1 (entry Kc)); auto.
  1,2: intros i j Hn; destruct (HH i j) as [Hj Hh];
      [destruct (last_value fx i j) eqn:Ev; auto; exfalso; apply Hn, EN; left; congruence|intros Hc; apply Hn, EN; now right|];
      split; [exact Hj|]; clear - Hh EN; induction Hh as [k Hb|el ks k Hel HSu Hks _ IH Hin];
      [apply held_base; intros c Hc; apply EN; auto|now apply (held_elem _ _ _ _ el ks k)].
  intros x Lx. destruct (HS x Lx) as (u2 & ED & VU & (y & Ey & Hy) & IFF). exists u2. splits; auto.
  - intros i j v Hv. rewrite VU, Hv. reflexivity.
  - intros i j Hv Hn. rewrite VU, Hv. assert (num t2 i j = None) as -> by (apply EN; now right). reflexivity.
  - intros i j Hv Hn. destruct (num t2 i j) as [k|] eqn:Ek; [|apply EN in Ek; destruct Ek; congruence].
    assert (Hk : (k < n)%nat) by (destruct NU as (B & _); eauto). exists k. split; auto. split; [rewrite VU, Hv, Ek; reflexivity|]. specialize (Hy k i j Ek).
    destruct (C06_spmv_csr_pf Kc x W C ltac:(congruence)) as (y' & Ey' & Ly' & Hy'). rewrite Ey in Ey'. injection Ey' as <-.
    unfold residual, ix. rewrite (Hy' k) in Hy by lia. rewrite C1 in Hy. unfold entry. lra.
Qed.
