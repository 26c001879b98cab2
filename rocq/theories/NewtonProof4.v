(** The total Lagrangian sample: admissible data, small loads, linearisation. *)
From Coq Require Import List Arith Lia Bool Reals Lra.
From Verif Require Import Res SumR DenseModel DenseR DenseSpec ShapeModel QuadModel QuadSpec ElemModel ElemSpec ElemSpec2 SparseModel SparseSpec AssemblyModel AssemblySpec KrylovSpec NewtonModel NewtonSpec.
From Verif Require Import DenseProof DenseMain SparseMain AssemblyProof AssemblyProof2 AssemblyProof3 AssemblyMain KrylovProof PatchProof2 StableProof3 StableProof4 TopProof4 BeamProof ElemMain2 FilterMain NewtonProof NewtonProof2 NewtonProof3.
Import ListNotations.
Local Open Scope R_scope.

Lemma shape_nodes d s q E V el u : total_lagrange d s q E V -> In el (nw_elements d) -> nshape d u -> nodes_ok 3 el u.
Proof. intros (_ & HE & _) Hel (L & HU) k Hk. destruct (HE el Hel) as (_ & _ & _ & HN & _). destruct (HN k Hk) as [A _]. rewrite HU by auto. lia. Qed.
Lemma total_ok d s q E V : total_lagrange d s q E V -> newton_ok d.
Proof.
  intros HT. pose proof HT as (HC & HE & HV & HF & HQ). split; auto.
  - intros el u Hel HU. pose proof (shape_nodes d s q E V el u HT Hel HU) as HN. rewrite HC. unfold nw_total.
    destruct (proj2 (C39_forms_pf s q el [0; 1; 2]%nat (nw_x d) u E V 1) (HE el Hel) HN eq_refl HV) as (K & F & ne & k & f & EQ & HK & Hf & HNe & _).
    exists K, F, ne, k. destruct (DenseMain.is_vec_nth _ _ _ 0 Hf) as [LF _]. auto.
  - intros el k Hel Hk. destruct (HE el Hel) as (_ & _ & _ & HN & _). apply (HN k Hk).
Qed.

(** ** At rest *)
Lemma nth_rep0 n a : nth a (repeat 0 n) 0 = 0.
Proof. revert a. induction n as [|n IH]; intros [|a]; cbn; auto. Qed.
Lemma rest_out d s q E V c u i j : total_lagrange d s q E V -> nshape d u -> (forall i j, uval u i j = 0) -> out d c u i j = c * nodal_load (nw_qfixed d) i j.
Proof.
  intros HT HU HZ. pose proof HT as (HC & HE & HV & HF & HQ). unfold out, element_load. rewrite sum_zero; [ring|]. intros e He. apply in_map_iff in He. destruct He as (el & <- & Hel). apply sum_zero. intros a _.
  pose proof (shape_nodes d s q E V el u HT Hel HU) as HN.
  destruct (proj2 (C39_zero_pf s q el [0; 1; 2]%nat (nw_x d) u E V 1) (HE el Hel) HN eq_refl HV) as (K & ne & EQ & _).
  { intros i' c' Hi' Hc'. exact (HZ (nth i' el O) c'). }
  unfold nel. rewrite HC. unfold nw_total. rewrite EQ. unfold e_f. cbn [e_F]. rewrite nth_rep0. destruct (at_dof i j a); reflexivity.
Qed.
Lemma distinct_square (q : list (nat * nat * R)) i j : NoDup (map fst q) ->
  nodal_load q i j * nodal_load q i j = sum_over q (fun w => ind ((fst (fst w) =? i) && (snd (fst w) =? j))%nat (snd w * snd w)).
Proof.
  unfold nodal_load. induction q as [|[[a b] v] q IH]; intros HD; [unfold sum_over; cbn; ring|]. cbn [map] in HD. inversion HD as [|? ? HN HD']; subst. rewrite !sum_over_cons. cbn [fst snd].
  destruct ((a =? i) && (b =? j))%nat eqn:Eb; cbn [ind].
  - apply andb_prop in Eb. destruct Eb as [E1 E2]. apply Nat.eqb_eq in E1, E2. subst.
    assert (NO : forall w, In w q -> ((fst (fst w) =? i) && (snd (fst w) =? j))%nat = false).
    { intros [[a b] w] Hw. cbn [fst snd]. destruct (Nat.eqb_spec a i), (Nat.eqb_spec b j); auto. subst. exfalso. apply HN. apply in_map_iff. exists (i, j, w). auto. }
    rewrite !sum_zero; [ring| |]; intros w Hw; rewrite (NO w Hw); reflexivity.
  - rewrite <- IH by auto. ring.
Qed.
Lemma distinct_squares d : (forall i j v, In (i, j, v) (nw_qfixed d) -> (i < length (nw_x d))%nat /\ (j < 3)%nat /\ held d i j = false) -> NoDup (map fst (nw_qfixed d)) ->
  free_squares d (nodal_load (nw_qfixed d)) = load_norm d * load_norm d.
Proof.
  intros HR HD. unfold load_norm. rewrite sqrt_sqrt by (apply sum_over_nonneg; intros w _; apply Rle_0_sqr). unfold free_squares.
  rewrite (bigsum_ext _ _ (fun i => sum_over (nw_qfixed d) (fun w => bigsum 3 (fun j => ind ((fst (fst w) =? i) && (snd (fst w) =? j))%nat (snd w * snd w))))).
  - rewrite bigsum_over. apply sum_ext. intros [[a b] v] Hw. cbn [fst snd]. destruct (HR a b v Hw) as (Ha & Hb & _). rewrite (bigsum_single _ a); auto.
    + rewrite (bigsum_single 3 b); auto; [now rewrite !Nat.eqb_refl|]. intros j _ Hne. rewrite Nat.eqb_refl. destruct (Nat.eqb_spec b j); [congruence|reflexivity].
    + intros i _ Hne. apply bigsum_zero. intros j _. destruct (Nat.eqb_spec a i); [congruence|reflexivity].
  - intros i Hi. rewrite <- bigsum_over. apply bigsum_ext. intros j Hj. destruct (held d i j) eqn:Eh; [|now apply distinct_square].
    symmetry. apply sum_zero. intros [[a b] v] Hw. cbn [fst snd]. destruct (Nat.eqb_spec a i), (Nat.eqb_spec b j); auto. subst. destruct (HR i j v Hw) as (_ & _ & X). congruence.
Qed.
Lemma squares_scal d c g : free_squares d (fun i j => c * g i j) = c * c * free_squares d g.
Proof. unfold free_squares. rewrite <- bigsum_scal. apply bigsum_ext. intros i _. rewrite <- bigsum_scal. apply bigsum_ext. intros j _. destruct (held d i j); ring. Qed.
Lemma small_run solve d s q E V : total_lagrange d s q E V -> zero_held d -> NoDup (map fst (nw_qfixed d)) -> (forall i j v, In (i, j, v) (nw_qfixed d) -> held d i j = false) ->
  0 < load_norm d < nw_tol d -> (0 < nw_passes d)%nat ->
  exists u, nw_run solve d = Ok (repeat (u, true) (nw_steps d)) /\ nshape d u /\ (forall i j, uval u i j = 0) /\ forall c i j, out d c u i j = c * nodal_load (nw_qfixed d) i j.
Proof.
  intros HT HZ HD HR HL Hp. pose proof (total_ok d s q E V HT) as HO. destruct (start_ok d HO) as (u & t & n & ES & TB & HK & H0).
  assert (U0 : forall i j, uval u i j = 0).
  { intros i j. destruct (held d i j) eqn:Eh; [|auto]. unfold held in Eh. pose proof (last_value_in (nw_ufixed d) i j) as L. destruct (last_value (nw_ufixed d) i j) as [v|] eqn:El; [|discriminate]. rewrite (proj2 HK i j v El). apply (HZ i j v L). }
  exists u. split; [|split; [apply HK|split; [exact U0|intros; apply (rest_out d s q E V); auto; apply HK]]].
  assert (PA : forall f, (0 < f <= nw_steps d)%nat -> nw_pass solve d t n f u = Ok (u, true)).
  { intros f Hf. destruct (pass_ok solve d t n f u HO TB (proj1 HK) ltac:(lia) ltac:(lia)) as (A & b & _ & _ & _ & _ & _ & EP). rewrite (EP (proj1 HL)). clear EP. fold (scale d f). fold (tested d (scale d f) u).
    rewrite (tested_zero d t n _ u HO TB HK HZ). rewrite (squares_ext d _ (fun i j => scale d f * nodal_load (nw_qfixed d) i j)) by (intros; apply (rest_out d s q E V); auto; apply HK).
    rewrite squares_scal, distinct_squares; auto; [|intros i j v Hw; pose proof HT as (_ & _ & _ & _ & HQ); destruct (HQ i j v Hw); eauto].
    assert (SC : 0 < scale d f <= 1). { unfold scale. split; [apply Rdiv_lt_0_compat; apply lt_0_INR; lia|]. apply Rmult_le_reg_r with (INR (nw_steps d)); [apply lt_0_INR; lia|]. unfold Rdiv. rewrite Rmult_assoc, Rinv_l, Rmult_1_r, Rmult_1_l by (apply not_0_INR; lia). apply le_INR. lia. }
    destruct (Rlt_dec _ _) as [|C]; [reflexivity|]. exfalso. apply C. set (c := scale d f) in *. set (L := load_norm d) in *. assert (P : 0 < c * L) by nra. replace (c * c * (L * L)) with (c * L * (c * L)) by ring. apply Rmult_lt_compat_r with (r := c * L) (r1 := c * L); auto. nra. }
  unfold nw_run. rewrite ES. cbn [bind]. assert (G : forall m f, (0 < f)%nat -> (f + m <= S (nw_steps d))%nat -> nw_from solve d t n f m u = Ok (repeat (u, true) m)).
  { induction m as [|m IH]; intros f Hf Hm; [reflexivity|]. cbn [nw_from]. destruct (nw_passes d) as [|k] eqn:Ek; [lia|]. cbn [nw_iterate]. rewrite (PA f) by lia. cbn [bind]. rewrite (IH (S f)) by lia. reflexivity. }
  apply G; lia.
Qed.
