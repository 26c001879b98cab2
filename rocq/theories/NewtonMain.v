(** Property C117: the load stepping sample: the proofs. *)
From Coq Require Import List Arith Lia Bool Reals Lra.
From Verif Require Import Res SumR DenseModel DenseR DenseSpec ShapeModel QuadModel QuadSpec ElemModel ElemSpec ElemSpec2 SparseModel SparseSpec AssemblyModel AssemblySpec KrylovSpec NewtonModel NewtonSpec.
Import ListNotations.
Local Open Scope R_scope.
From Verif Require Import NewtonProof NewtonProof2 NewtonProof3 NewtonProof4 NewtonProof5 NewtonProof6.

Lemma started d u0 t n : newton_ok d -> nw_start d = Ok (u0, t, n) -> ntables d t n.
Proof. intros HO E. destruct (start_ok d HO) as (u & t' & n' & E' & TB & _). rewrite E in E'. injection E' as <- <- <-. exact TB. Qed.
Lemma mild_total : total_lagrange light sf_4Tetrahedron Gauss1Tetrahedron 1 0.
Proof. exact light_total. Qed.
Lemma mild_held : zero_held light.
Proof. exact light_held. Qed.
Lemma mild_norm : load_norm light = 1 / 1000.
Proof. exact light_norm. Qed.
Lemma node_ok : newton_ok spring.
Proof. exact spring_ok. Qed.
Lemma node_norm : load_norm spring = 2.
Proof. exact spring_norm. Qed.
Definition three : table := [[Some 0; Some 1; Some 2]]%nat.
Lemma node_pass : exists u, nw_pass self spring three 3 1 [[0;0;0]] = Ok (u, false).
Proof. exact spring_pass. Qed.
Lemma node_exact : exact_solver self.
Proof. exact self_exact. Qed.
Definition node := spring.
Definition mild := light.
Definition block := tet.
Definition checked := self.
Lemma block_norm : load_norm block = 1.
Proof. exact tet_norm. Qed.
Lemma block_total : total_lagrange block sf_4Tetrahedron Gauss1Tetrahedron 1 0.
Proof. exact tet_total. Qed.

Lemma C117_run_pf : forall solve d, total_solver solve -> newton_ok d -> 0 < load_norm d ->
  exists rs, nw_run solve d = Ok rs /\ length rs = nw_steps d /\
    forall k u c, nth_error rs k = Some (u, c) -> keeps d u /\
      (c = true -> free_squares d (fun i j => out d (INR (S k) / INR (nw_steps d)) u i j - held_share d u i j) < nw_tol d * (INR (S k) / INR (nw_steps d) * load_norm d)).
Proof. exact run_total. Qed.

Lemma C117_equilibrium_pf : forall solve d rs k u, total_solver solve -> newton_ok d -> 0 < load_norm d -> zero_held d -> nw_run solve d = Ok rs -> nth_error rs k = Some (u, true) ->
  forall i j, (i < length (nw_x d))%nat -> (j < 3)%nat -> held d i j = false ->
    out d (INR (S k) / INR (nw_steps d)) u i j * out d (INR (S k) / INR (nw_steps d)) u i j < nw_tol d * (INR (S k) / INR (nw_steps d) * load_norm d).
Proof.
  intros solve d rs k u HS HO HL HZ E HN i j Hi Hj Hh. destruct (run_total solve d HS HO HL) as (rs' & E' & _ & P). rewrite E in E'. injection E' as <-. destruct (P k u true HN) as (HK & T). specialize (T eq_refl).
  destruct (start_ok d HO) as (u0 & t & n & _ & TB & _). rewrite (tested_zero d t n _ u HO TB HK HZ) in T. exact (square_bound d _ i j _ Hi Hj Hh T).
Qed.

Lemma C117_idle_pf : forall solve d, newton_ok d -> load_norm d = 0 -> (0 < nw_steps d)%nat -> (0 < nw_passes d)%nat -> nw_run solve d = Fail DivByZero.
Proof. exact run_idle. Qed.

Lemma C117_total_pf : forall d s q E V, total_lagrange d s q E V -> newton_ok d.
Proof. exact total_ok. Qed.

Lemma C117_step_pf : forall solve d u0 t n f u u', exact_solver solve -> newton_ok d -> 0 < load_norm d -> (0 < f <= nw_steps d)%nat ->
  nw_start d = Ok (u0, t, n) -> nshape d u -> nw_pass solve d t n f u = Ok (u', false) ->
  forall i j, (i < length (nw_x d))%nat -> (j < 3)%nat -> held d i j = false ->
    tangent_on d u (fun i j => uval u' i j - uval u i j) i j = out d (INR f / INR (nw_steps d)) u i j - held_share d u i j.
Proof. intros solve d u0 t n f u u' HX HO HL Hf ES HU EP. apply (pass_step solve d t n f u u' HO (started d u0 t n HO ES) HU ltac:(lia) ltac:(lia) HL HX EP). Qed.

Lemma C117_tangent_pf : forall d s q E V c u z us, total_lagrange d s q E V -> line_from d u z us ->
  forall i j, derivable_pt_lim (fun e => out d c (us e) i j) 0 (- tangent_on d u z i j).
Proof. intros d s q E V c u z us HT HL i j. exact (out_deriv d s q E V c u z us i j HT HL). Qed.

Lemma C117_small_pf : forall solve d s q E V, total_lagrange d s q E V -> zero_held d -> NoDup (map fst (nw_qfixed d)) -> (forall i j v, In (i, j, v) (nw_qfixed d) -> held d i j = false) ->
  0 < load_norm d < nw_tol d -> (0 < nw_passes d)%nat ->
  exists u, nw_run solve d = Ok (repeat (u, true) (nw_steps d)) /\ nshape d u /\ (forall i j, uval u i j = 0) /\ forall c i j, out d c u i j = c * nodal_load (nw_qfixed d) i j.
Proof. exact small_run. Qed.

Lemma C117_prescribed_pf : (forall solve d u0 t n f u, newton_ok d -> 0 < load_norm d -> (0 < f <= nw_steps d)%nat -> nw_start d = Ok (u0, t, n) -> nshape d u ->
    (forall i j, (i < length (nw_x d))%nat -> (j < 3)%nat -> held d i j = false -> out d (INR f / INR (nw_steps d)) u i j = 0) ->
    ((exists u', nw_pass solve d t n f u = Ok (u', true)) <-> free_squares d (held_share d u) < nw_tol d * (INR f / INR (nw_steps d) * load_norm d))) /\
  exists d s q E V u0 t n u, total_lagrange d s q E V /\ 0 < load_norm d /\ nw_steps d = 1%nat /\ nw_start d = Ok (u0, t, n) /\ keeps d u /\
    (forall i j, (i < length (nw_x d))%nat -> (j < 3)%nat -> held d i j = false -> out d 1 u i j = 0) /\
    forall solve u', nw_pass solve d t n 1 u <> Ok (u', true).
Proof.
  split.
  - intros solve d u0 t n f u HO HL Hf ES HU HQ. pose proof (started d u0 t n HO ES) as TB.
    destruct (pass_ok solve d t n f u HO TB HU ltac:(lia) ltac:(lia)) as (A & b & _ & _ & _ & _ & _ & EP). rewrite (EP HL). clear EP.
    assert (SQ : free_squares d (fun i j => out d (INR f / INR (nw_steps d)) u i j - held_share d u i j) = free_squares d (held_share d u)).
    { transitivity (free_squares d (fun i j => (-1) * held_share d u i j)); [apply squares_ext; intros i j Hi Hj Hh; rewrite HQ by auto; ring|]. rewrite squares_scal. ring. }
    rewrite SQ.
    destruct (Rlt_dec _ _) as [C|C]; [split; [intros _; exact C|intros _; exists u; reflexivity]|]. split; [|contradiction]. intros (u' & X). exfalso. destruct (solve A b) as [x|] eqn:Ex; [|discriminate]. cbn [bind] in X. unfold after in X. destruct (disassemble _ _ _); [|discriminate]. cbn [bind] in X. destruct (nw_move _ _); discriminate.
  - pose proof (total_ok _ _ _ _ _ tet_total) as HO. destruct (start_ok tet HO) as (u0 & t & n & ES & TB & _). exists tet, sf_4Tetrahedron, Gauss1Tetrahedron, 1, 0, u0, t, n, tet_move.
    split; [exact tet_total|]. split; [rewrite tet_norm; lra|]. split; [reflexivity|]. split; [exact ES|]. split; [exact tet_keeps|]. split; [exact tet_rest|]. intros solve u' X.
    destruct (pass_ok solve tet t n 1 tet_move HO TB (proj1 tet_keeps) ltac:(lia) ltac:(cbn; lia)) as (A & b & _ & _ & _ & _ & _ & EP). rewrite X in EP. specialize (EP ltac:(rewrite tet_norm; lra)).
    destruct (Rlt_dec _ _) as [C|C].
    + pose proof (square_bound tet _ 0 0 _ ltac:(cbn; lia) ltac:(lia) eq_refl C) as Q. cbv beta in Q. replace (INR 1 / INR (nw_steps tet)) with 1 in Q by (cbn; field). rewrite tet_rest, tet_share, tet_norm in Q by (lia || reflexivity). cbn [tet nw_tol] in Q. lra.
    + destruct (solve A b) as [x|]; [|discriminate]. cbn [bind] in EP. unfold after in EP. destruct (disassemble _ _ _); [|discriminate]. cbn [bind] in EP. destruct (nw_move _ _); discriminate.
Qed.
