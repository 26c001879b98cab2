(** Reactions and virtual work of the plane strain sample. *)
From Coq Require Import List Arith Lia Bool Reals Lra.
From Verif Require Import Res SumR DenseModel DenseR DenseSpec ShapeModel QuadModel QuadSpec ElemModel ElemSpec LoadSpec SparseModel SparseSpec AssemblyModel AssemblySpec KrylovSpec PatchSpec StableSpec TopModel TopSpec PlaneModel PlaneSpec.
From Verif Require Import DenseProof DenseMain SparseMain AssemblyProof AssemblyProof2 AssemblyProof3 AssemblyMain ElemProof ElemProof2 ElemProof3 ElemMain LoadMain HomMain KrylovProof PatchProof PatchProof2 StableProof StableProof2 StableProof3 StableProof4 ThetaProof ThetaProof3 ThetaProof4 ThetaProof5 TopProof2 TopProof3 TopProof4 PlaneProof PlaneProof2 PlaneProof3.
Import ListNotations.
Local Open Scope R_scope.

(** ** Reactions *)
Definition act (d : plane) (u : list (list R)) (el : list nat) (e : elem) : Prop :=
  e_nodes e = el /\ e_nte e = e_nte (pel d el) /\ e_K e = e_K (pel d el) /\ (forall t RF, pl_react d u t RF el = assemble_F RF (e_F e) t (e_nte e) (e_nodes e)) /\
  (forall t, full d t -> elem_fits t e) /\
  forall a, In a (e_dofs e) -> e_f e (dloc a) = sum_over (e_dofs e) (fun b => e_k e (dloc a) (dloc b) * duval u b).
Lemma act_some d u el : plane_ok d -> In el (pl_elements d) -> full d u -> exists e, act d u el e.
Proof.
  intros HP Hel HU. pose proof (pel_good d el HP Hel) as P. destruct (pe_mat _ _ _ P) as (k & Hk & _). set (e := pel d el) in *.
  destruct (action 2 [0%nat; 1%nat] el (e_nte e) (e_K e) k u (pe_num _ _ _ P) eq_refl Hk) as (ue & y & E1 & E2 & Ly & Hy & _).
  { intros a c Ha Hc. apply HU. split; [now apply (elem_in d el)|destruct Hc as [<-|[<-|[]]]; lia]. }
  exists (mkElem el (e_nte e) (e_K e) y). unfold act, e_dofs. cbn [e_nodes e_nte e_K e_F]. splits; auto.
  - intros t RF. unfold pl_react. rewrite (pe_call _ _ _ P). cbn [bind]. fold e. rewrite E1. cbn [bind]. rewrite E2. reflexivity.
  - intros t Ht. refine (fits d t el (mkElem el (e_nte e) (e_K e) y) k Ht eq_refl _ _ _ _); cbn [e_nodes e_nte e_K e_F]; auto. { apply P. } intros k0. now apply elem_in.
Qed.
Lemma acts d u : plane_ok d -> full d u -> exists es, Forall2 (act d u) (pl_elements d) es.
Proof.
  intros HP HU. assert (G : forall l, incl l (pl_elements d) -> exists es, Forall2 (act d u) l es); [|apply G; apply incl_refl].
  induction l as [|el l IH]; intros HI; [exists []; constructor|]. destruct (act_some d u el HP (HI el (or_introl eq_refl)) HU) as (e & He). destruct IH as (es & F); [intros x Hx; apply HI; now right|]. exists (e :: es). now constructor.
Qed.
Lemma react_fold d u t es : Forall2 (act d u) (pl_elements d) es -> forall F, foldM (pl_react d u t) (pl_elements d) F = foldM (fun F e => assemble_F F (e_F e) t (e_nte e) (e_nodes e)) es F.
Proof.
  induction 1 as [|el e l es A F IH]; intros a; [reflexivity|]. cbn [foldM]. destruct A as (_ & _ & _ & A & _). rewrite A. destruct (assemble_F a (e_F e) t (e_nte e) (e_nodes e)) as [a'|]; cbn [bind]; [|reflexivity]. apply IH.
Qed.
Lemma act_force d u es i j : plane_ok d -> Forall2 (act d u) (pl_elements d) es -> element_load es i j = internal_force (els d) u i j.
Proof.
  intros HP HF. unfold element_load, internal_force, els. assert (G : forall l es, incl l (pl_elements d) -> Forall2 (act d u) l es ->
    sum_over es (fun e => sum_over (e_dofs e) (fun a => ind (at_dof i j a) (e_f e (dloc a)))) =
    sum_over (map (pel d) l) (fun e => sum_over (e_dofs e) (fun a => ind (at_dof i j a) (sum_over (e_dofs e) (fun b => e_k e (dloc a) (dloc b) * duval u b))))); [|apply G; auto; apply incl_refl].
  intros l es' HI H. induction H as [|el e l es' A F IH]; [reflexivity|]. cbn [map]. rewrite !sum_over_cons. f_equal; [|apply IH; intros x Hx; apply HI; now right].
  destruct A as (A1 & A2 & A3 & _ & _ & A6). pose proof (pel_good d el HP (HI el (or_introl eq_refl))) as P.
  assert (ED : e_dofs (pel d el) = e_dofs e) by (unfold e_dofs; rewrite A1, A2, (pe_nodes _ _ _ P); reflexivity).
  rewrite ED. apply sum_ext. intros a Ha. f_equal. rewrite A6 by auto. apply sum_ext. intros b Hb. unfold e_k. now rewrite A3.
Qed.
Lemma pl_reacted d u t : plane_ok d -> full d t -> full d u ->
  exists r, pl_reaction d u t = Ok r /\ length r = length (pl_x d) /\ full d r /\ forall i j, (i < length (pl_x d))%nat -> (j < 2)%nat -> uval r i j = internal_force (els d) u i j.
Proof.
  intros HP Ht HU. set (N := length (pl_x d)) in *. destruct (acts d u HP HU) as (es & HF).
  unfold pl_reaction. destruct (renumber (remove_bc t)) as [t' n'] eqn:E0. destruct (renumber_ok _ _ _ E0) as ((L2 & L2' & P2) & _ & _ & (B2 & I2 & O2) & _).
  assert (Ht' : full d t'). { intros i j. fold N. rewrite <- (removed_table t N Ht i j). unfold in_table. rewrite (L2' i). tauto. }
  assert (HN : forall i j, (i < N)%nat -> (j < 2)%nat -> exists k, num t' i j = Some k).
  { intros i j Hi Hj. destruct (num t' i j) as [k|] eqn:Ek; [eauto|]. apply P2, removed_num in Ek. exfalso. apply Ek, Ht. auto. }
  assert (OK : forall e, In e es -> elem_ok n' t' u e).
  { intros e He. destruct (Forall2_In_r _ _ _ HF e He) as (el & Hel & (_ & _ & _ & _ & FI & _)). apply (elem_fits_ok n' t' t' u e); auto. { split; auto. } intros i' j' H. apply HU, Ht', H. }
  rewrite (react_fold d u t' es HF). destruct (loads_ok n' t' u es (repeat 0 n') _ OK (vec_zero_is n')) as (RF & E1 & LRF & VRF). rewrite E1. cbn [bind].
  destruct (disassemble_ok (repeat (vnew R_ops 2) N) RF t') as (r & E2 & SH & VR).
  { intros i j H. apply in_table_repeat. now apply Ht'. } { intros i j k Hk. rewrite LRF. eauto. }
  exists r. split; [exact E2|]. split; [rewrite (proj1 SH); apply repeat_length|]. split; [intros i j; rewrite (same_shape_in r _ i j SH); apply (in_table_repeat 0)|].
  intros i j Hi Hj. destruct (HN i j Hi Hj) as (k & Ek). rewrite VR. unfold dis_val. rewrite Ek, VRF by eauto. rewrite Rplus_0_l.
  assert (Hat : forall a, is_eq (dnum t' a) k = at_dof i j a).
  { intros a. unfold at_dof. destruct (dnum t' a) as [k'|] eqn:Ea; cbn [is_eq].
    - destruct (Nat.eqb_spec k' k).
      + subst k'. destruct (I2 _ _ _ _ _ Ea Ek) as [-> ->]. now rewrite !Nat.eqb_refl.
      + destruct (Nat.eqb_spec (dnode a) i); auto. destruct (Nat.eqb_spec (ddof a) j); auto. subst. unfold dnum in Ea. congruence.
    - destruct (Nat.eqb_spec (dnode a) i); auto. destruct (Nat.eqb_spec (ddof a) j); auto. subst. unfold dnum in Ea. congruence. }
  rewrite <- (act_force d u es i j HP HF). unfold element_load, f_contrib. apply sum_ext. intros e _. apply sum_ext. intros a _. now rewrite Hat.
Qed.

(** ** Virtual work *)
Definition field_sum (d : plane) (g : nat -> nat -> R) : R := bigsum (length (pl_x d)) (fun i => bigsum 2 (fun j => g i j)).
Lemma sum_pick N a c x (w : nat -> nat -> R) : (a < N)%nat -> (c < 2)%nat -> bigsum N (fun i => bigsum 2 (fun j => w i j * ind ((a =? i) && (c =? j))%nat x)) = w a c * x.
Proof.
  intros Ha Hc. rewrite (bigsum_single N a); auto.
  - rewrite (bigsum_single 2 c); auto; [now rewrite !Nat.eqb_refl|]. intros j Hj Hne. rewrite Nat.eqb_refl. destruct (Nat.eqb_spec c j); [congruence|]. cbn. ring.
  - intros i Hi Hne. apply bigsum_zero. intros j Hj. destruct (Nat.eqb_spec a i); [congruence|]. cbn. ring.
Qed.
Lemma field_over {A} d (l : list A) (g : nat -> nat -> A -> R) : field_sum d (fun i j => sum_over l (g i j)) = sum_over l (fun a => field_sum d (fun i j => g i j a)).
Proof. unfold field_sum. rewrite <- bigsum_over. apply bigsum_ext. intros i _. apply bigsum_over. Qed.
Lemma field_ext d g h : (forall i j, (i < length (pl_x d))%nat -> (j < 2)%nat -> g i j = h i j) -> field_sum d g = field_sum d h.
Proof. intros H. unfold field_sum. apply bigsum_ext. intros i Hi. apply bigsum_ext. intros j Hj. auto. Qed.
Lemma field_plus d g h : field_sum d (fun i j => g i j + h i j) = field_sum d g + field_sum d h.
Proof. unfold field_sum. rewrite <- bigsum_plus. apply bigsum_ext. intros. apply bigsum_plus. Qed.
Lemma spread d (es : list elem) (w : nat -> nat -> R) (g : elem -> ldof -> R) : (forall e a, In e es -> In a (e_dofs e) -> (dnode a < length (pl_x d))%nat /\ (ddof a < 2)%nat) ->
  field_sum d (fun i j => w i j * sum_over es (fun e => sum_over (e_dofs e) (fun a => ind (at_dof i j a) (g e a)))) = sum_over es (fun e => sum_over (e_dofs e) (fun a => w (dnode a) (ddof a) * g e a)).
Proof.
  intros HD. rewrite (field_ext d _ (fun i j => sum_over es (fun e => sum_over (e_dofs e) (fun a => w i j * ind (at_dof i j a) (g e a))))).
  2:{ intros i j _ _. rewrite <- sum_over_scal. apply sum_ext. intros e _. now rewrite <- sum_over_scal. }
  rewrite field_over. apply sum_ext. intros e He. rewrite field_over. apply sum_ext. intros a Ha. destruct (HD e a He Ha) as [A B]. unfold field_sum, at_dof. now apply sum_pick.
Qed.
Lemma dofs_in d e : elem_fits (repeat (repeat (Some 0%nat) 2) (length (pl_x d))) e -> forall a, In a (e_dofs e) -> (dnode a < length (pl_x d))%nat /\ (ddof a < 2)%nat.
Proof. intros (_ & _ & H) a Ha. apply (in_table_repeat (Some 0%nat)), (H a Ha). Qed.
Lemma blank_full d : full d (repeat (repeat (Some 0%nat) 2) (length (pl_x d))).
Proof. intros i j. apply in_table_repeat. Qed.
Definition B (d : plane) (w v : nat -> nat -> R) : R := sum_over (els d) (fun e => bil e (e_dofs e) w v).
Lemma inner_spread d u w : plane_ok d -> field_sum d (fun i j => w i j * internal_force (els d) u i j) = B d w (uval u).
Proof.
  intros HP. unfold internal_force. rewrite (spread d (els d) w (fun e a => sum_over (e_dofs e) (fun b => e_k e (dloc a) (dloc b) * duval u b))); [reflexivity|].
  intros e a He. apply (dofs_in d e). exact (els_fit d _ HP (blank_full d) e He).
Qed.
Lemma forces_spread d w : plane_ok d -> field_sum d (fun i j => w i j * forces d i j) = total_work d w.
Proof.
  intros HP. unfold forces, total_work. rewrite (field_ext d _ (fun i j => w i j * element_load (els d) i j + w i j * nodal_load (pl_qfixed d) i j + w i j * element_load (eds d) i j)) by (intros; ring). rewrite !field_plus. f_equal; [f_equal|].
  - unfold element_load. rewrite (spread d (els d) w (fun e a => e_f e (dloc a))); [now apply body_all|]. intros e a He. apply (dofs_in d e). exact (els_fit d _ HP (blank_full d) e He).
  - unfold nodal_load, nodal_work. rewrite (field_ext d _ (fun i j => sum_over (pl_qfixed d) (fun f => w i j * ind ((fst (fst f) =? i) && (snd (fst f) =? j))%nat (snd f)))) by (intros; now rewrite sum_over_scal).
    rewrite field_over. apply sum_ext. intros [[i j] v] Hf. cbn [fst snd]. destruct (pk_loads d HP i j v Hf). unfold field_sum. rewrite sum_pick by auto. ring.
  - unfold element_load. rewrite (spread d (eds d) w (fun e a => e_f e (dloc a))); [now apply edge_all|]. intros e a He. apply (dofs_in d e). exact (eds_fit d _ HP (blank_full d) e He).
Qed.
Lemma B_comb d p q w v v' : B d w (fun i j => p * v i j + q * v' i j) = p * B d w v + q * B d w v'.
Proof. unfold B. rewrite <- !sum_over_scal, <- sum_over_plus. apply sum_ext. intros. apply bil_r. Qed.
Lemma B_work d w v Gw Gv : plane_ok d -> slopes d w Gw -> slopes d v Gv -> B d w v = stress_work d Gv Gw.
Proof. apply stress_bil. Qed.
Lemma B_sym d w v : plane_ok d -> B d w v = B d v w.
Proof.
  intros HP. rewrite (B_work d w v _ _ HP (gr_slopes d w HP) (gr_slopes d v HP)), (B_work d v w _ _ HP (gr_slopes d v HP) (gr_slopes d w HP)).
  unfold stress_work. apply sum_ext. intros el Hel. apply quad_ext. intros g Hg. f_equal. exact (dens_sym d _ _).
Qed.
Lemma B_energy d v : B d v v = sum_over (els d) (fun e => denergy e v).
Proof. unfold B. apply sum_ext. intros. apply bil_energy. Qed.
Lemma B_pos d v : plane_ok d -> 0 <= B d v v.
Proof. intros HP. rewrite B_energy. apply sum_over_nonneg. now apply els_nonneg. Qed.
Lemma field_B_ext d w v v' : plane_ok d -> (forall i j, (i < length (pl_x d))%nat -> (j < 2)%nat -> v i j = v' i j) -> B d w v = B d w v'.
Proof.
  intros HP H. unfold B. apply sum_ext. intros e He. unfold bil. apply sum_ext. intros a Ha. f_equal. apply sum_ext. intros b Hb. f_equal.
  destruct (dofs_in d e (els_fit d _ HP (blank_full d) e He) b Hb). now apply H.
Qed.
