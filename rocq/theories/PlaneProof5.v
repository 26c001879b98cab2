(** The results of a run of the plane strain sample, and the sample itself. *)
From Coq Require Import List Arith Lia Bool Reals Lra.
From Verif Require Import Res SumR DenseModel DenseR DenseSpec ShapeModel QuadModel QuadSpec ElemModel ElemSpec LoadSpec SparseModel SparseSpec AssemblyModel AssemblySpec KrylovSpec PatchSpec StableSpec TopModel TopSpec PlaneModel PlaneSpec.
From Verif Require Import DenseProof DenseMain SparseMain AssemblyProof AssemblyProof2 AssemblyProof3 AssemblyMain ElemProof ElemProof2 ElemProof3 ElemMain LoadMain HomMain KrylovProof PatchProof PatchProof2 StableProof StableProof2 StableProof3 StableProof4 ThetaProof ThetaProof3 ThetaProof4 ThetaProof5 TopProof2 TopProof3 TopProof4 PlaneProof PlaneProof2 PlaneProof3 PlaneProof4.
Import ListNotations.
Local Open Scope R_scope.

(** ** A run *)
Record good_run (d : plane) (u r : list (list R)) : Prop := mkGr {
  gr_u : full d u; gr_r : full d r; gr_lu : length u = length (pl_x d); gr_lr : length r = length (pl_x d);
  gr_fix : forall i j v, last_value (pl_ufixed d) i j = Some v -> uval u i j = v;
  gr_bal : forall w, admissible d w -> B d w (uval u) = total_work d w;
  gr_force : forall w, field_sum d (fun i j => w i j * uval r i j) = B d w (uval u) }.
Lemma pl_runs solve d : spd_solver solve -> plane_ok d -> exists u r, pl_run solve d = Ok (u, r) /\ good_run d u r.
Proof.
  intros HS HP. destruct (ptables_exist d HP) as (u1 & t & n & TB). destruct (pl_solved solve d u1 t n HS HP TB) as (u & E & LU & HU & FX & FR).
  destruct (pl_reacted d u t HP (pt_in _ _ _ _ TB) HU) as (r & Er & LR & HR & VR). exists u, r. split; [unfold pl_run; rewrite E; cbn [bind]; rewrite Er; reflexivity|]. split; auto.
  - intros w Hw. rewrite <- inner_spread, <- forces_spread by auto. apply field_ext. intros i j Hi Hj. destruct (num t i j) as [k|] eqn:En.
    + rewrite FR by congruence. reflexivity.
    + apply (pt_none _ _ _ _ TB) in En. destruct En as [(v & Hin)|]; [|tauto]. rewrite (Hw i j v Hin). ring.
  - intros w. rewrite <- inner_spread by auto. apply field_ext. intros i j Hi Hj. now rewrite VR.
Qed.
Lemma equi_bal d u : plane_ok d -> equilibrium d u <-> (forall i j v, last_value (pl_ufixed d) i j = Some v -> uval u i j = v) /\ forall w, admissible d w -> B d w (uval u) = total_work d w.
Proof.
  intros HP. split; intros (A & C); split; auto.
  - intros w Hw. rewrite (B_work d w (uval u) (gr d w) (gr d (uval u))); auto using gr_slopes.
  - intros w Gu Gw Hw S1 S2. rewrite <- (B_work d w (uval u) Gw Gu); auto.
Qed.
Lemma fixed_last d i j v : In (i, j, v) (pl_ufixed d) -> exists v', last_value (pl_ufixed d) i j = Some v'.
Proof. intros H. pose proof (last_value_in (pl_ufixed d) i j) as L. destruct (last_value (pl_ufixed d) i j) as [v'|]; [eauto|]. exfalso. exact (L v H). Qed.
Lemma agree_admissible d a b : (forall i j v, last_value (pl_ufixed d) i j = Some v -> a i j = v) -> (forall i j v, last_value (pl_ufixed d) i j = Some v -> b i j = v) -> admissible d (fun i j => 1 * a i j + -1 * b i j).
Proof. intros A C i j v H. destruct (fixed_last d i j v H) as (v' & E). rewrite (A i j v' E), (C i j v' E). ring. Qed.
Lemma total_comb d p q w v : plane_ok d -> total_work d (fun i j => p * w i j + q * v i j) = p * total_work d w + q * total_work d v.
Proof.
  intros HP. rewrite <- !forces_spread by auto. unfold field_sum. rewrite <- !bigsum_scal, <- bigsum_plus. apply bigsum_ext. intros i _. rewrite <- !bigsum_scal, <- bigsum_plus. apply bigsum_ext. intros; ring.
Qed.
Lemma B_comb_l d p q w w' v : plane_ok d -> B d (fun i j => p * w i j + q * w' i j) v = p * B d w v + q * B d w' v.
Proof. intros HP. rewrite B_sym, B_comb, (B_sym d v w), (B_sym d v w') by auto. reflexivity. Qed.
Lemma equi_unique d u v : plane_ok d -> equilibrium d u -> equilibrium d v -> forall i j, (i < length (pl_x d))%nat -> (j < 2)%nat -> uval v i j = uval u i j.
Proof.
  intros HP EU EV i j Hi Hj. apply equi_bal in EU; auto. apply equi_bal in EV; auto. destruct EU as (U1 & U2), EV as (V1 & V2).
  set (z := fun i j => 1 * uval v i j + -1 * uval u i j). assert (HA : admissible d z) by (apply agree_admissible; auto).
  assert (Z : z i j = 0); [|unfold z in Z; lra]. apply (energy_held d z HP HA); auto. rewrite <- B_energy. unfold z at 2. rewrite B_comb, V2, U2 by auto. ring.
Qed.
Lemma equi_least d u w : plane_ok d -> equilibrium d u -> (forall i j v, last_value (pl_ufixed d) i j = Some v -> w i j = v) ->
  B d (uval u) (uval u) / 2 - total_work d (uval u) <= B d w w / 2 - total_work d w /\
  (B d (uval u) (uval u) / 2 - total_work d (uval u) = B d w w / 2 - total_work d w -> forall i j, (i < length (pl_x d))%nat -> (j < 2)%nat -> w i j = uval u i j).
Proof.
  intros HP EU HW. apply equi_bal in EU; auto. destruct EU as (U1 & U2). set (z := fun i j => 1 * w i j + -1 * uval u i j).
  assert (HA : admissible d z) by (apply agree_admissible; auto).
  pose proof (U2 z HA) as E. unfold z in E at 2. rewrite total_comb in E by auto. pose proof (B_pos d z HP) as P.
  assert (Q : B d z z = B d w w - 2 * B d z (uval u) - B d (uval u) (uval u)).
  { unfold z at 2. rewrite B_comb. unfold z. rewrite !B_comb_l, (B_sym d (uval u) w) by auto. ring. }
  split; [lra|]. intros EQ i j Hi Hj. assert (Z : z i j = 0); [|unfold z in Z; lra]. apply (energy_held d z HP HA); auto. rewrite <- B_energy. lra.
Qed.

(** ** Reactions *)
Lemma sum_zero_all {A} (l : list A) f : (forall a, In a l -> f a = 0) -> sum_over l f = 0.
Proof. induction l as [|a l IH]; intros H; [reflexivity|]. rewrite sum_over_cons, H, IH; [ring| |now left]. intros; apply H; now right. Qed.
Lemma skew_work d w v : plane_ok d -> (forall el, In el (pl_elements d) -> rigid_motion 2 (length el) (nodal el (pl_x d)) (on el w)) -> B d w v = 0.
Proof.
  intros HP HR. unfold B, els. rewrite sum_map. apply sum_zero_all. intros el Hel.
  destruct (rigid_gradients 2 (pl_s d) (pl_q d) el (pl_x d) (on el w) (pk_elem d el HP Hel) (le_n 2) (HR el Hel)) as (W & HW & HG).
  rewrite (bil_work d el w v (fun _ => W) (gr d v el) HP Hel HG (gr_slopes d v HP el Hel)). unfold quad. apply bigsum_zero. intros g Hg. rewrite dens_sym. unfold dens. rewrite hooke_skew; [|now apply skew_strain]. ring.
Qed.
Lemma run_free d u r i j : plane_ok d -> good_run d u r -> unsupported d i j -> (i < length (pl_x d))%nat -> (j < 2)%nat -> uval r i j = total_work d (spot i j).
Proof.
  intros HP GR HU Hi Hj. rewrite <- (gr_bal _ _ _ GR).
  - rewrite <- (gr_force _ _ _ GR). unfold field_sum. rewrite (bigsum_single _ i); auto.
    + rewrite (bigsum_single 2 j); auto; [unfold spot; rewrite !Nat.eqb_refl; cbn [andb]; ring|]. intros c Hc Hne. unfold spot. rewrite Nat.eqb_refl. destruct (Nat.eqb_spec c j); [congruence|]. cbn [andb]. ring.
    + intros k Hk Hne. apply bigsum_zero. intros c Hc. unfold spot. destruct (Nat.eqb_spec k i); [congruence|]. cbn [andb]. ring.
  - intros k c v Hin. unfold spot. destruct (Nat.eqb_spec k i), (Nat.eqb_spec c j); cbn [andb]; auto. subst. exfalso. exact (HU v Hin).
Qed.
Lemma run_force d u r c : plane_ok d -> good_run d u r -> (c < 2)%nat -> sum_force d r c = 0.
Proof.
  intros HP GR Hc. rewrite <- (skew_work d (fun _ k => if (k =? c)%nat then 1 else 0) (uval u) HP).
  - rewrite <- (gr_force _ _ _ GR). unfold sum_force, field_sum. apply bigsum_ext. intros i _. rewrite (bigsum_single 2 c); auto; [rewrite Nat.eqb_refl; ring|].
    intros k Hk Hne. destruct (Nat.eqb_spec k c); [congruence|ring].
  - intros el Hel. exists (fun k => if (k =? c)%nat then 1 else 0), (fun _ _ => 0). split; [intros; ring|]. intros i k Hi Hk. unfold on. rewrite bigsum_zero; [ring|]. intros; ring.
Qed.
Lemma run_moment d u r : plane_ok d -> good_run d u r -> sum_moment d r = 0.
Proof.
  intros HP GR. rewrite <- (skew_work d (fun i k => match k with O => - uval (pl_x d) i 1 | _ => uval (pl_x d) i 0 end) (uval u) HP).
  - rewrite <- (gr_force _ _ _ GR). unfold sum_moment, field_sum. apply bigsum_ext. intros i _. cbn [bigsum]. ring.
  - intros el Hel. exists (fun _ => 0), (fun l c => match l, c with O, 1%nat => 1 | 1%nat, O => -1 | _, _ => 0 end). split; [intros [|[|l]] [|[|c]]; ring|].
    intros i k Hi Hk. unfold on, nodal, uval. cbn [bigsum]. destruct k as [|[|k]]; [ring|ring|lia].
Qed.
