(** The Newton step of the total Lagrangian sample; prescribed values. *)
From Coq Require Import List Arith Lia Bool Reals Lra.
From Verif Require Import Res SumR DenseModel DenseR DenseSpec ShapeModel QuadModel QuadSpec ElemModel ElemSpec ElemSpec2 SparseModel SparseSpec AssemblyModel AssemblySpec KrylovSpec NewtonModel NewtonSpec.
From Verif Require Import DenseProof DenseMain SparseMain AssemblyProof AssemblyProof2 AssemblyProof3 AssemblyMain KrylovProof PatchProof2 StableProof3 StableProof4 TopProof4 ElemMain2 ElemMain3 FilterMain PlaneProof2 NewtonProof NewtonProof2 NewtonProof3 NewtonProof4.
Import ListNotations.
Local Open Scope R_scope.

Lemma deriv_ext f g x l : (forall e, f e = g e) -> derivable_pt_lim g x l -> derivable_pt_lim f x l.
Proof. intros E D eps He. destruct (D eps He) as [dl H]. exists dl. intros h Hh Hd. rewrite !E. now apply H. Qed.
Lemma deriv_sum {A} (l : list A) (f : A -> R -> R) x g : (forall a, In a l -> derivable_pt_lim (f a) x (g a)) -> derivable_pt_lim (fun e => sum_over l (fun a => f a e)) x (sum_over l g).
Proof.
  induction l as [|a l IH]; intros H; [unfold sum_over; cbn; apply derivable_pt_lim_const|].
  rewrite sum_over_cons. apply (deriv_ext _ (fun e => f a e + sum_over l (fun b => f b e))); [intros e; now rewrite sum_over_cons|].
  apply (derivable_pt_lim_plus (f a) (fun e => sum_over l (fun b => f b e))); [apply H; now left|apply IH; intros; apply H; now right].
Qed.
Lemma sum_over_map {A B} (g : A -> B) l f : sum_over (map g l) f = sum_over l (fun a => f (g a)).
Proof. unfold sum_over. now rewrite map_map. Qed.

(** the forces of one element, over its local dofs *)
Lemma nel_forces d s q E V u el i j : total_lagrange d s q E V -> nshape d u -> In el (nw_elements d) ->
  sum_over (e_dofs (nel d u el)) (fun a => ind (at_dof i j a) (e_f (nel d u el) (dloc a))) =
  bigsum (length el) (fun i' => bigsum 3 (fun j' => ind (at_dof i j (mkDof (nth i' el O) (nth j' [0; 1; 2]%nat O) (3 * i' + j'))) (nth (3 * i' + j') (ElemSpec2.residual (nw_call d el u)) 0))).
Proof.
  intros HT HU Hel. destruct (no_call d (total_ok d s q E V HT) el u Hel HU) as (K & Q & ne & k & EC & _ & _ & HN).
  unfold e_dofs, nel. rewrite EC. cbn [e_nodes e_nte]. rewrite (numbered_sum 3 [0; 1; 2]%nat el ne _ HN). apply bigsum_ext. intros i' _. apply bigsum_ext. intros j' _. reflexivity.
Qed.
Lemma line_moved d s q E V u z us el : total_lagrange d s q E V -> line_from d u z us -> In el (nw_elements d) -> moved 3 el us (fun i c => z (nth i el O) c).
Proof.
  intros HT (H0 & HL) Hel e. destruct (HL e) as [HU HV]. split; [now apply (shape_nodes d s q E V)|]. intros i c Hi Hc.
  assert (B : (nth i el O < length (nw_x d))%nat) by (apply (no_nodes d (total_ok d s q E V HT) el); auto; now apply nth_In).
  specialize (HV (nth i el O) c B Hc). unfold uval in HV. unfold nodal. rewrite H0. exact HV.
Qed.
Lemma out_deriv d s q E V c u z us i j : total_lagrange d s q E V -> line_from d u z us -> derivable_pt_lim (fun e => out d c (us e) i j) 0 (- tangent_on d u z i j).
Proof.
  intros HT HL. pose proof (total_ok d s q E V HT) as HO. pose proof HT as (HC & HE & HV & _). destruct HL as (H0 & HL). assert (HS : forall e, nshape d (us e)) by (intros e; apply (HL e)).
  apply (deriv_ext _ (fun e => c * nodal_load (nw_qfixed d) i j + sum_over (nw_elements d) (fun el => bigsum (length el) (fun i' => bigsum 3 (fun j' => ind (at_dof i j (mkDof (nth i' el O) (nth j' [0; 1; 2]%nat O) (3 * i' + j'))) (nth (3 * i' + j') (ElemSpec2.residual (nw_call d el (us e))) 0)))))).
  { intros e. unfold out, element_load. f_equal. rewrite sum_over_map. apply sum_ext. intros el Hel. now apply (nel_forces d s q E V). }
  replace (- tangent_on d u z i j) with (0 + - tangent_on d u z i j) by ring.
  apply (derivable_pt_lim_plus (fun _ => c * nodal_load (nw_qfixed d) i j) (fun e => sum_over (nw_elements d) _)); [apply derivable_pt_lim_const|].
  unfold tangent_on. rewrite sum_over_map. replace (- sum_over (nw_elements d) _) with ((-1) * sum_over (nw_elements d) (fun el => sum_over (e_dofs (nel d u el)) (fun a => ind (at_dof i j a) (sum_over (e_dofs (nel d u el)) (fun b => e_k (nel d u el) (dloc a) (dloc b) * z (dnode b) (ddof b)))))) by ring.
  rewrite <- sum_over_scal. apply deriv_sum. intros el Hel.
  destruct (proj2 (C39_consistent_pf s q el [0; 1; 2]%nat (nw_x d) us (fun i c => z (nth i el O) c) E V 1) (HE el Hel) (line_moved d s q E V u z us el HT (conj H0 HL) Hel) eq_refl HV) as (_ & K & F & ne & k & EQ & HK & D).
  destruct (no_call d HO el (us 0) Hel (HS 0)) as (K' & Q' & ne' & k' & EC & _ & _ & HN). rewrite HC in EC. unfold nw_total in EC. rewrite EQ in EC. injection EC as <- <- <-.
  unfold nel. rewrite HC, <- H0. unfold nw_total. rewrite EQ. unfold e_dofs. cbn [e_nodes e_nte]. rewrite (numbered_sum 3 [0; 1; 2]%nat el ne _ HN), <- bigsum_scal. apply deriv_bigsum. intros i' Hi'. rewrite <- bigsum_scal. apply deriv_bigsum. intros j' Hj'.
  cbn [dnode ddof dloc]. destruct (at_dof i j _); cbn [ind]; [|rewrite Rmult_0_r; apply derivable_pt_lim_const].
  specialize (D (3 * i' + j')%nat ltac:(lia)). replace (-1 * _) with (- apply_field 3 (length el) k (fun i c => z (nth i el O) c) (3 * i' + j')%nat); [exact D|].
  rewrite (numbered_sum 3 [0; 1; 2]%nat el ne _ HN). unfold apply_field. rewrite blocks_sum by lia. match goal with |- - ?a = -1 * ?b => cut (a = b); [intros ->; ring|] end. apply bigsum_ext. intros m Hm. apply bigsum_ext. intros l Hl. cbn [dnode ddof dloc]. unfold e_k. cbn [e_K]. rewrite (mat_entry _ _ _ _ _ _ HK) by lia.
  replace ((3 * m + l) / 3)%nat with m by (symmetry; rewrite Nat.mul_comm, Nat.div_add_l by lia; rewrite Nat.div_small by lia; lia). replace ((3 * m + l) mod 3)%nat with l by (symmetry; rewrite Nat.add_comm, Nat.mul_comm, Nat.mod_add by lia; now apply Nat.mod_small).
  destruct l as [|[|[|l]]]; [reflexivity..|lia].
Qed.
(** the step solves the linearised equations *)
Lemma step_deriv solve d s q E V t n f u u' us : total_lagrange d s q E V -> exact_solver solve -> ntables d t n -> nshape d u -> (0 < f)%nat -> (0 < nw_steps d)%nat -> 0 < load_norm d ->
  nw_pass solve d t n f u = Ok (u', false) -> line_from d u (fun i j => uval u' i j - uval u i j) us ->
  forall i j, (i < length (nw_x d))%nat -> (j < 3)%nat -> held d i j = false ->
    derivable_pt_lim (fun e => out d (scale d f) (us e) i j) 0 (- (out d (scale d f) u i j - held_share d u i j)).
Proof.
  intros HT HX TB HU Hf Hs HL EP HLn i j Hi Hj Hh. rewrite <- (pass_step solve d t n f u u' (total_ok d s q E V HT) TB HU Hf Hs HL HX EP i j Hi Hj Hh). exact (out_deriv d s q E V (scale d f) u (fun i j => uval u' i j - uval u i j) us i j HT HLn).
Qed.

(** ** A translation that is not accepted *)
Definition tet : newton := mkNewton [[1;0;0]; [0;1;0]; [0;0;1]; [0;0;0]] [[0;1;2;3]%nat]
  [(1%nat,0%nat,1); (1%nat,1%nat,0); (1%nat,2%nat,0); (2%nat,0%nat,1); (2%nat,1%nat,0); (2%nat,2%nat,0); (3%nat,0%nat,1); (3%nat,1%nat,0); (3%nat,2%nat,0)] [(1%nat,0%nat,1)]
  (nw_total sf_4Tetrahedron Gauss1Tetrahedron [[1;0;0]; [0;1;0]; [0;0;1]; [0;0;0]] 1 0) 1 100 (1 / 100).
Definition tet_move : list (list R) := [[1;0;0]; [1;0;0]; [1;0;0]; [1;0;0]].
Lemma tet_elem : element_ok 3 sf_4Tetrahedron Gauss1Tetrahedron [0; 1; 2; 3]%nat [[1;0;0]; [0;1;0]; [0;0;1]; [0;0;0]].
Proof.
  unfold element_ok. split; [cbn; tauto|]. split; [reflexivity|]. split; [reflexivity|]. split; [|split].
  - intros e H. cbn in H. decompose [or] H; subst; cbn; try lia; contradiction.
  - unfold rule_ok. cbn. split; [lia|]. split; [lia|]. intros g Hg. destruct g; [cbn; lia|lia].
  - intros g Hg. cbn in Hg. replace g with O by lia. unfold jac, detd, det3, tangent, dshp, nodal, sf_4Tetrahedron, dN_4Tetrahedron. cbn [sf_d sf_n sf_dN bigsum nth]. lra.
Qed.
Lemma tet_total : total_lagrange tet sf_4Tetrahedron Gauss1Tetrahedron 1 0.
Proof.
  split; [reflexivity|]. split; [intros el [<-|[]]; exact tet_elem|]. split; [lra|]. split; intros i j v H; cbn [tet nw_ufixed nw_qfixed nw_x length In] in *; decompose [or] H; try contradiction; try (injection H0; intros; subst; lia); try (injection H1; intros; subst; lia); inversion H; subst; lia.
Qed.
Lemma tet_tables u : length u = 4%nat -> (forall i, (i < 4)%nat -> length (nth i u []) = 3%nat) -> nshape tet u.
Proof. intros A B. split; [exact A|exact B]. Qed.
Lemma tet_keeps : keeps tet tet_move.
Proof.
  split; [apply tet_tables; [reflexivity|]; intros i Hi; do 4 (destruct i as [|i]; [reflexivity|]); lia|]. intros i j v H. pose proof (last_value_in (nw_ufixed tet) i j) as L. rewrite H in L.
  cbn [tet nw_ufixed In] in L. decompose [or] L; try contradiction; match goal with E : _ = (i, j, v) |- _ => injection E as <- <- <-; reflexivity end.
Qed.
Lemma tet_held i j : (i < 4)%nat -> (j < 3)%nat -> held tet i j = negb (i =? 0)%nat.
Proof. intros Hi Hj. do 4 (destruct i as [|i]; [do 3 (destruct j as [|j]; [reflexivity|]); lia|]). lia. Qed.
Lemma tet_norm : load_norm tet = 1.
Proof. unfold load_norm, sum_over. cbn [tet nw_qfixed map sumlist snd]. cbn. replace (1 * 1 + 0) with 1 by ring. apply sqrt_1. Qed.
Lemma sixth : wprod 3 (nth 0 (q_weights Gauss1Tetrahedron) []) = 1 / 6.
Proof.
  cbn [Gauss1Tetrahedron q_weights nth wprod]. assert (H : cbrt 6 * cbrt 6 * cbrt 6 = 6).
  { unfold cbrt. rewrite <- !Rpower_plus. replace (1/3 + 1/3 + 1/3) with 1 by field. apply Rpower_1. lra. }
  assert (cbrt 6 <> 0) by (intros E; rewrite E in H; lra). replace (1 * (1 / cbrt 6) * (1 / cbrt 6) * (1 / cbrt 6)) with (1 / (cbrt 6 * cbrt 6 * cbrt 6)) by (field; auto). now rewrite H.
Qed.
Lemma tet_rest i j : (i < 4)%nat -> (j < 3)%nat -> held tet i j = false -> out tet 1 tet_move i j = 0.
Proof.
  intros Hi Hj Hh. pose proof tet_total as HT. pose proof HT as (HC & HE & HV & _). pose proof (shape_nodes tet _ _ 1 0 [0;1;2;3]%nat tet_move HT ltac:(left; reflexivity) (proj1 tet_keeps)) as HN.
  destruct (proj2 (ElemMain3.C39_rigid_pf sf_4Tetrahedron Gauss1Tetrahedron [0;1;2;3]%nat [0; 1; 2]%nat (nw_x tet) tet_move 1 0 1) tet_elem HN eq_refl ltac:(lra)) as (K & ne & EQ).
  { exists (fun a b => if (a =? b)%nat then 1 else 0), (fun c => if (c =? 0)%nat then 1 else 0). split; [|split].
    - intros a b Ha Hb. unfold kron. destruct a as [|[|[|a]]]; try lia; destruct b as [|[|[|b]]]; try lia; cbn; ring.
    - unfold detd, det3. cbn. lra.
    - intros a c Ha Hc. cbn in Ha. unfold nodal. do 4 (destruct a as [|a]; [do 3 (destruct c as [|c]; [cbn; ring|]); lia|]). lia. }
  unfold out, element_load, nel. cbn [tet nw_elements map]. rewrite sum_over_cons, sum_over_nil. change (nw_call tet) with (nw_total sf_4Tetrahedron Gauss1Tetrahedron (nw_x tet) 1 0). unfold nw_total. cbn [nw_call]. rewrite EQ. rewrite sum_zero.
  2:{ intros a _. unfold e_f. cbn [e_F]. rewrite nth_rep0. destruct (at_dof i j a); reflexivity. }
  replace (nodal_load (nw_qfixed tet) i j) with 0; [ring|]. rewrite tet_held in Hh by auto. unfold nodal_load. cbn [tet nw_qfixed]. rewrite sum_over_cons, sum_over_nil. cbn [fst snd]. destruct i as [|i]; [cbn; ring|discriminate].
Qed.
Lemma tet_share : held_share tet tet_move 0 0 = - (1 / 6).
Proof.
  pose proof tet_total as HT. pose proof HT as (HC & HE & HV & _). pose proof (shape_nodes tet _ _ 1 0 [0;1;2;3]%nat tet_move HT ltac:(left; reflexivity) (proj1 tet_keeps)) as HN.
  destruct (proj2 (C39_forms_pf sf_4Tetrahedron Gauss1Tetrahedron [0;1;2;3]%nat [0; 1; 2]%nat (nw_x tet) tet_move 1 0 1) tet_elem HN eq_refl ltac:(lra)) as (K & F & ne & k & f & EQ & HK & Hf & HNe & FO).
  set (y := fun i c : nat => if (i + c =? 0)%nat then 1 else 0). set (z := fun i c : nat => if (c =? 0)%nat then if (i =? 0)%nat then 0 else 1 else 0).
  destruct (FO y z (fun _ _ _ => 0) (fun _ l c => if (l + c =? 0)%nat then 1 else 0) (fun _ l c => if (l + c =? 0)%nat then -1 else 0)) as [FK _].
  1-3: intros g Hg k0 c Hk0 Hc; cbn in Hg, Hk0; unfold y, z, tangent, dshp, nodal, tet_move, sf_4Tetrahedron, dN_4Tetrahedron; cbn [sf_d sf_n sf_dN bigsum nth tet nw_x];
    do 3 (destruct k0 as [|k0]; [do 3 (destruct c as [|c]; [cbn; ring|]); lia|]); lia.
  transitivity (form 3 (length [0;1;2;3]%nat) k y z).
  - unfold held_share. cbn [tet nw_elements map]. rewrite sum_over_cons, sum_over_nil. unfold nel. change (nw_call tet) with (nw_total sf_4Tetrahedron Gauss1Tetrahedron (nw_x tet) 1 0). cbn [nw_call]. unfold nw_total. rewrite EQ. unfold e_dofs. cbn [e_nodes e_nte].
    rewrite (numbered_sum 3 [0; 1; 2]%nat _ ne _ HNe).
    assert (IN : forall a, sum_over (dofs [0;1;2;3]%nat ne) (fun b => ind (held tet (dnode b) (ddof b)) (e_k (mkElem [0;1;2;3]%nat ne K F) a (dloc b) * duval tet_move b)) = e_k (mkElem [0;1;2;3]%nat ne K F) a 3 + e_k (mkElem [0;1;2;3]%nat ne K F) a 6 + e_k (mkElem [0;1;2;3]%nat ne K F) a 9).
    { intros a. rewrite (numbered_sum 3 [0; 1; 2]%nat _ ne _ HNe). cbn [length bigsum nth dnode ddof dloc Nat.mul Nat.add]. rewrite !tet_held by lia. unfold duval, uval, tet_move. cbn [dnode ddof nth negb Nat.eqb ind]. ring. }
    assert (KE : forall b, (b < 12)%nat -> e_k (mkElem [0;1;2;3]%nat ne K F) 0 b = k 0%nat b) by (intros b Hb; exact (mat_entry K 12 12 k 0 b HK ltac:(lia) Hb)).
    transitivity (k 0%nat 3%nat + k 0%nat 6%nat + k 0%nat 9%nat).
    + rewrite (bigsum_ext _ _ (fun i' => bigsum 3 (fun j' => ind ((i' =? 0) && (j' =? 0))%nat (k 0%nat 3%nat + k 0%nat 6%nat + k 0%nat 9%nat)))); [cbn; ring|]. intros i' Hi'. cbn in Hi'. apply bigsum_ext. intros j' Hj'.
      do 4 (destruct i' as [|i']; [do 3 (destruct j' as [|j']; [unfold at_dof; cbn [dnode ddof dloc nth Nat.eqb andb ind Nat.mul Nat.add]; first [reflexivity|exact (eq_trans (IN 0%nat) (f_equal2 Rplus (f_equal2 Rplus (KE 3%nat ltac:(lia)) (KE 6%nat ltac:(lia))) (KE 9%nat ltac:(lia))))]|]); lia|]). lia.
    + unfold form. rewrite (bigsum_single _ 0%nat).
      * unfold y, z. cbn. ring.
      * cbn; lia.
      * intros a Ha Hne. apply bigsum_zero. intros b _. replace (y (a / 3)%nat (a mod 3)) with 0; [ring|]. unfold y. destruct (Nat.eqb_spec (a / 3 + a mod 3) 0) as [E|]; [|reflexivity]. pose proof (Nat.div_mod a 3 ltac:(lia)). lia.
  - rewrite FK. unfold quad. cbn [Gauss1Tetrahedron q_n bigsum]. fold Gauss1Tetrahedron. change (q_weights _) with (q_weights Gauss1Tetrahedron). rewrite sixth.
    unfold svk_tangent, hooke, dgreen, ddgreen, green, trace, ddot, strain, defgrad, kron, lame_lambda, lame_mu, jac, detd, det3, tangent, dshp, nodal, sf_4Tetrahedron, dN_4Tetrahedron. cbn [sf_d sf_n sf_dN bigsum nth Nat.add Nat.eqb tet nw_x]. field.
Qed.
