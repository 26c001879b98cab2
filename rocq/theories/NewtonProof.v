(** One pass of the load stepping sample. *)
From Coq Require Import List Arith Lia Bool Reals Lra.
From Verif Require Import Res SumR DenseModel DenseR DenseSpec ShapeModel QuadModel QuadSpec ElemModel ElemSpec SparseModel SparseSpec AssemblyModel AssemblySpec KrylovSpec NewtonModel NewtonSpec.
From Verif Require Import DenseProof DenseMain SparseMain AssemblyProof AssemblyProof2 AssemblyProof3 AssemblyMain KrylovProof PatchProof2 StableProof3 StableProof4 TopProof4.
Import ListNotations.
Local Open Scope R_scope.

(** ** Tables *)
Lemma in_repeat3 {A} (x : A) N i j : in_table (repeat (repeat x 3) N) i j <-> (i < N)%nat /\ (j < 3)%nat.
Proof. unfold in_table. rewrite nth_repeat_in. destruct (Nat.ltb_spec i N); [rewrite repeat_length|cbn [length]]; lia. Qed.
Lemma num_repeat3 N i j : num (repeat (repeat (Some 0%nat) 3) N) i j = if (i <? N)%nat && (j <? 3)%nat then Some 0%nat else None.
Proof. unfold num. rewrite nth_repeat_in. destruct (i <? N)%nat; cbn [andb]; [apply nth_repeat_in|destruct j; auto]. Qed.
Lemma uval_zero3 N i j : uval (repeat (vnew R_ops 3) N) i j = 0.
Proof. unfold uval. rewrite nth_repeat_in. destruct (i <? N)%nat; [unfold vnew; apply nth_repeat|destruct j; auto]. Qed.
Lemma shape_full d u : nshape d u -> nfull d u.
Proof.
  intros (L & H) i j. unfold in_table. destruct (lt_dec i (length (nw_x d))) as [Hi|Hi]; [rewrite H by auto; lia|]. rewrite nth_overflow by lia. cbn; lia.
Qed.
Lemma same_nshape d u v : nshape d v -> same_shape u v -> nshape d u.
Proof. intros (L & H) (L' & H'). split; [lia|]. intros i Hi. rewrite H'. auto. Qed.
Lemma zero_shape d : nshape d (repeat (vnew R_ops 3) (length (nw_x d))).
Proof. split; [apply repeat_length|]. intros i Hi. rewrite nth_repeat_in. destruct (Nat.ltb_spec i (length (nw_x d))); [apply repeat_length|lia]. Qed.

Record ntables (d : newton) (t : table) (n : nat) : Prop := mkNt {
  nt_num : numbering n t; nt_in : nfull d t;
  nt_none : forall i j, (i < length (nw_x d))%nat -> (j < 3)%nat -> (num t i j = None <-> held d i j = true) }.
Lemma start_ok d : newton_ok d -> exists u t n, nw_start d = Ok (u, t, n) /\ ntables d t n /\ keeps d u /\ forall i j, held d i j = false -> uval u i j = 0.
Proof.
  intros HT. set (N := length (nw_x d)). unfold nw_start. fold N.
  destruct (set_dirichlet_ok (nw_ufixed d) (repeat (vnew R_ops 3) N) (repeat (repeat (Some 0%nat) 3) N)) as (u1 & t1 & E1 & Su & St & Vu & Vt).
  { intros i j v Hin. destruct (no_fixed d HT i j v Hin) as (A & B). split; apply in_repeat3; auto. }
  rewrite E1. cbn [bind]. destruct (renumber t1) as [t n] eqn:E2. destruct (renumber_ok _ _ _ E2) as ((L2 & L2' & P2) & _ & _ & NU & _).
  exists u1, t, n. split; [reflexivity|]. split; [split; fold N; auto|split; [split|]].
  - intros i j. fold N. rewrite <- (in_repeat3 (Some 0%nat) N i j). rewrite <- (same_shape_in t1 _ i j St). unfold in_table. rewrite (L2' i). tauto.
  - intros i j Hi Hj. rewrite <- P2, Vt. unfold held. destruct (last_value (nw_ufixed d) i j) as [v|]; [tauto|]. rewrite num_repeat3. fold N in Hi. apply Nat.ltb_lt in Hi, Hj. rewrite Hi, Hj. cbn [andb]. split; discriminate.
  - apply (same_nshape d u1 _ (zero_shape d) Su).
  - intros i j v H. rewrite Vu, H. reflexivity.
  - intros i j H. unfold held in H. rewrite Vu. destruct (last_value (nw_ufixed d) i j); [discriminate|]. apply uval_zero3.
Qed.
Lemma some_in (t : table) i j k : num t i j = Some k -> in_table t i j.
Proof. unfold num, in_table. intros H. destruct (lt_dec j (length (nth i t []))); auto. rewrite nth_overflow in H by lia. discriminate. Qed.
Lemma by_number d t n (G : nat -> R) : ntables d t n ->
  bigsum n G = bigsum (length (nw_x d)) (fun i => bigsum 3 (fun j => match num t i j with Some k => G k | None => 0 end)).
Proof.
  intros HT. destruct (nt_num _ _ _ HT) as (B2 & I2 & O2).
  rewrite (bigsum_ext (length (nw_x d)) _ (fun i => bigsum n (fun k => bigsum 3 (fun j => if is_eq (num t i j) k then G k else 0)))).
  - rewrite bigsum_swap. apply bigsum_ext. intros k Hk. destruct (O2 k Hk) as (i & j & E). destruct (proj1 (nt_in _ _ _ HT i j) (some_in t i j k E)) as [Hi Hj].
    symmetry. rewrite (bigsum_single _ i); auto.
    + rewrite (bigsum_single 3 j); auto; [rewrite E; cbn [is_eq]; now rewrite Nat.eqb_refl|]. intros j' Hj' Hne. destruct (num t i j') as [k'|] eqn:E'; cbn [is_eq]; auto. destruct (Nat.eqb_spec k' k); auto. subst. destruct (I2 _ _ _ _ _ E E'). congruence.
    + intros i' Hi' Hne. apply bigsum_zero. intros j' Hj'. destruct (num t i' j') as [k'|] eqn:E'; cbn [is_eq]; auto. destruct (Nat.eqb_spec k' k); auto. subst. destruct (I2 _ _ _ _ _ E E'). congruence.
  - intros i Hi. rewrite bigsum_swap. apply bigsum_ext. intros j Hj. destruct (num t i j) as [k|] eqn:E; cbn [is_eq]; [|symmetry; apply bigsum_zero; auto].
    symmetry. rewrite (bigsum_single n k); eauto; [now rewrite Nat.eqb_refl|]. intros k' Hk' Hne. destruct (Nat.eqb_spec k k'); congruence.
Qed.

(** ** Elements *)
Lemma nel_ok d u t n el : newton_ok d -> ntables d t n -> nshape d u -> In el (nw_elements d) ->
  nw_call d el u = Ok (e_K (nel d u el), e_F (nel d u el), e_nte (nel d u el)) /\ e_nodes (nel d u el) = el /\ elem_ok n t u (nel d u el) /\
  numbered 3 (length el) [0; 1; 2]%nat (e_nte (nel d u el)).
Proof.
  intros HT TB HU Hel. destruct (no_call d HT el u Hel HU) as (K & Q & ne & k & E & HK & LQ & HN). unfold nel. rewrite E. cbn [e_K e_F e_nte e_nodes]. split; [reflexivity|]. split; [reflexivity|]. split; [|exact HN].
  unfold elem_ok. cbn [e_nodes e_nte e_K e_F]. split; [rewrite (proj1 HN); lia|]. split; [apply HK|]. assert (HR' : mrow K = (3 * length el)%nat /\ mcol K = (3 * length el)%nat) by (split; apply HK).
  intros a Ha. unfold e_dofs in Ha. cbn [e_nodes e_nte] in Ha. destruct (numbered_dofs 3 _ a _ _ HN Ha) as (i & j & Hi & Hj & ->). cbn [dnode ddof dloc]. rewrite LQ. destruct HR' as [-> ->].
  assert (IN : (nth i el O < length (nw_x d))%nat /\ (nth j [0; 1; 2]%nat O < 3)%nat).
  { split; [apply (no_nodes d HT el); auto; now apply nth_In|]. destruct j as [|[|[|j]]]; cbn; lia. }
  split; [now apply (nt_in _ _ _ TB)|]. split; [now apply (shape_full d u HU)|]. split; [|lia].
  intros k0 Hk0. destruct (nt_num _ _ _ TB) as (B2 & _). exact (B2 _ _ _ Hk0).
Qed.
Definition nels (d : newton) (u : list (list R)) : list elem := map (nel d u) (nw_elements d).
Lemma nels_ok d u t n e : newton_ok d -> ntables d t n -> nshape d u -> In e (nels d u) -> elem_ok n t u e.
Proof. intros HT TB HU He. apply in_map_iff in He. destruct He as (el & <- & Hel). now apply nel_ok. Qed.
Lemma add_ok d u t n : newton_ok d -> ntables d t n -> nshape d u -> forall l K F G H, incl l (nw_elements d) -> mat_is n K G -> vec_is n F H ->
  exists K' F', foldM (nw_add d u t) l (K, F) = Ok (K', F') /\
    mat_is n K' (fun i j => G i j + sum_over (map (nel d u) l) (fun e => k_contrib t e i j)) /\
    vec_is n F' (fun i => H i + sum_over (map (nel d u) l) (fun e => f_contrib t e i - d_contrib t u e i)).
Proof.
  intros HT TB HU. induction l as [|el l IH]; intros K F G H HI HK HF.
  - exists K, F. split; [reflexivity|]. cbn [map]. split.
    + destruct HK as (A & B & C & D & E'). unfold mat_is. splits; auto. intros i j Hi. rewrite sum_over_nil, Rplus_0_r. auto.
    + revert HF; apply vec_is_ext. intros; rewrite sum_over_nil; lra.
  - cbn [foldM map]. destruct (nel_ok d u t n el HT TB HU (HI el (or_introl eq_refl))) as (E & EN & EO & _). unfold nw_add at 1. rewrite E. cbn [bind].
    destruct (assemble_KFe_ok n t u (nel d u el) EO K F G H HK HF) as (K1 & F1 & E1 & HK1 & HF1). rewrite EN in E1. rewrite E1. cbn [bind].
    destruct (IH K1 F1 _ _ (fun e' H' => HI e' (or_intror H')) HK1 HF1) as (K' & F' & E' & HK' & HF'). exists K', F'. split; auto. split.
    + destruct HK' as (A & B & C & D & E''). unfold mat_is. splits; auto. intros i j Hi. rewrite E'' by auto. f_equal. rewrite sum_over_cons. lra.
    + revert HF'; apply vec_is_ext. intros; rewrite sum_over_cons; lra.
Qed.
