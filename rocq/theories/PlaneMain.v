(** Property C116: the plane strain sample: the proofs. *)
From Coq Require Import List Arith Lia Bool Reals Lra.
From Verif Require Import Res SumR DenseModel DenseR DenseSpec ShapeModel QuadModel QuadSpec ElemModel ElemSpec LoadSpec SparseModel SparseSpec AssemblyModel AssemblySpec KrylovSpec PatchSpec StableSpec TopModel TopSpec PlaneModel PlaneSpec TopMain.
Import ListNotations.
Local Open Scope R_scope.
From Verif Require Import ThetaProof5 PlaneProof2 PlaneProof3 PlaneProof4 PlaneProof5 PlaneProof6.

Lemma plate_ok E V t b f p : 0 < E -> -1 < V < 1 / 2 -> 0 < t -> plane_ok (pl_sample E V t b f p).
Proof. apply sample_ok. Qed.
Lemma plate_work E V t b f p w : total_work (pl_sample E V t b f p) w =
  b * t / 6 * (2 * w 0%nat 1%nat + 3 * w 1%nat 1%nat + w 2%nat 1%nat + 2 * w 3%nat 1%nat + 3 * w 4%nat 1%nat + w 5%nat 1%nat) + p * w 3%nat 1%nat + f * t / 2 * (w 3%nat 1%nat + 2 * w 4%nat 1%nat + w 5%nat 1%nat).
Proof. apply sample_work. Qed.
Lemma plate_free E V t b f p i j : ~ ((i = 0 /\ j = 0) \/ (i = 0 /\ j = 1) \/ (i = 5 /\ j = 0))%nat -> unsupported (pl_sample E V t b f p) i j.
Proof. apply sample_unsupported. Qed.
Lemma run_good solve d u r : spd_solver solve -> plane_ok d -> pl_run solve d = Ok (u, r) -> good_run d u r.
Proof. intros HS HP E. destruct (pl_runs solve d HS HP) as (u' & r' & E' & G). rewrite E in E'. injection E' as <- <-. exact G. Qed.
Lemma good_equi d u r : plane_ok d -> good_run d u r -> equilibrium d u.
Proof. intros HP G. apply equi_bal; auto. split; apply G. Qed.
Lemma slopes_some d w : plane_ok d -> exists G, slopes d w G.
Proof. intros HP. exists (gr d w). now apply gr_slopes. Qed.
Lemma slopes_same s q x (z z' : nat -> nat -> R) H : gradients s q x 2 z H -> (forall i c, (i < sf_n s)%nat -> (c < 2)%nat -> z' i c = z i c) -> gradients s q x 2 z' H.
Proof. intros A E g Hg k c Hk Hc. transitivity (bigsum (sf_n s) (fun i => dshp s (pt q g) k i * z i c)); [exact (A g Hg k c Hk Hc)|]. apply bigsum_ext. intros i Hi. now rewrite E. Qed.
Lemma rest_work d G0 G : plane_ok d -> slopes d (fun _ _ => 0) G0 -> (exists w, slopes d w G) -> stress_work d G0 G = 0.
Proof.
  intros HP S0 (w & Sw). rewrite <- (B_work d w (fun _ _ => 0) G G0) by auto. unfold B. apply sum_zero_all. intros e _. unfold bil. apply sum_zero_all. intros a _. rewrite sum_zero_all; [ring|]. intros; ring.
Qed.
Lemma fixed_listed fx i j v : last_value fx i j = Some v -> In (i, j, v) fx.
Proof. intros H. pose proof (TopProof4.last_value_in fx i j) as L. now rewrite H in L. Qed.
Definition steel : plane := pl_sample 210000 (3/10) 1 (-300) (-200) (-100).
Lemma steel_ok : plane_ok steel.
Proof. apply sample_ok; lra. Qed.

Lemma C116_run_pf : forall solve d, spd_solver solve -> plane_ok d ->
  exists u r, pl_run solve d = Ok (u, r) /\ length u = length (pl_x d) /\ length r = length (pl_x d) /\ equilibrium d u /\
    forall v, equilibrium d v -> forall i j, (i < length (pl_x d))%nat -> (j < 2)%nat -> uval v i j = uval u i j.
Proof.
  intros solve d HS HP. destruct (pl_runs solve d HS HP) as (u & r & E & G). exists u, r. pose proof (good_equi d u r HP G) as Q.
  split; [exact E|]. split; [apply G|]. split; [apply G|]. split; [exact Q|]. intros v Hv. now apply equi_unique.
Qed.

Lemma C116_least_pf : forall solve d u r, spd_solver solve -> plane_ok d -> pl_run solve d = Ok (u, r) ->
  forall w Gu Gw, (forall i j v, last_value (pl_ufixed d) i j = Some v -> w i j = v) -> slopes d (uval u) Gu -> slopes d w Gw ->
    potential d (uval u) Gu <= potential d w Gw /\
    (potential d (uval u) Gu = potential d w Gw -> forall i j, (i < length (pl_x d))%nat -> (j < 2)%nat -> w i j = uval u i j).
Proof.
  intros solve d u r HS HP E w Gu Gw HW SU SW. pose proof (good_equi d u r HP (run_good solve d u r HS HP E)) as Q.
  destruct (equi_least d u w HP Q HW) as (A & C). unfold potential. rewrite <- (B_work d (uval u) (uval u) Gu Gu), <- (B_work d w w Gw Gw) by auto. split; auto.
Qed.

Lemma C116_reaction_pf : forall solve d u r, spd_solver solve -> plane_ok d -> pl_run solve d = Ok (u, r) ->
  (forall w Gu Gw, slopes d (uval u) Gu -> slopes d w Gw -> bigsum (length (pl_x d)) (fun i => bigsum 2 (fun j => w i j * uval r i j)) = stress_work d Gu Gw) /\
  (forall i j, (i < length (pl_x d))%nat -> (j < 2)%nat -> unsupported d i j -> uval r i j = total_work d (spot i j)) /\
  (forall c, (c < 2)%nat -> sum_force d r c = 0) /\ sum_moment d r = 0.
Proof.
  intros solve d u r HS HP E. pose proof (run_good solve d u r HS HP E) as G. split; [|split; [|split]].
  - intros w Gu Gw SU SW. rewrite <- (B_work d w (uval u) Gw Gu) by auto. apply (gr_force d u r G).
  - intros i j Hi Hj HU. now apply (run_free d u r).
  - intros c Hc. now apply (run_force d u r).
  - now apply (run_moment d u r).
Qed.

Lemma C116_sample_pf : forall solve E V t b f p, spd_solver solve -> 0 < E -> -1 < V < 1 / 2 -> 0 < t ->
  plane_ok (pl_sample E V t b f p) /\
  exists u r, pl_run solve (pl_sample E V t b f p) = Ok (u, r) /\
    uval r 0 1 = - (5 / 3 * b * t + 2 * f * t + p) /\ uval r 5 0 = 2 * b * t + 2 * f * t + 2 * p /\ uval r 0 0 = - uval r 5 0 /\
    total_work (pl_sample E V t b f p) (fun _ c => if (c =? 1)%nat then 1 else 0) = 2 * b * t + 2 * f * t + p /\
    total_work (pl_sample E V t b f p) (fun _ c => if (c =? 1)%nat then 1 else 0) + uval r 0 1 = b * t / 3.
Proof.
  intros solve E V t b f p HS HE HV Ht. pose proof (sample_ok E V t b f p HE HV Ht) as HP. split; [exact HP|]. destruct (pl_runs solve _ HS HP) as (u & r & EQ & G).
  exists u, r. destruct (sample_forces E V t b f p u r HP G) as (A & C & D). rewrite A, C, D. split; [exact EQ|]. rewrite sample_work. cbn [Nat.eqb]. split; [lra|]. split; [ring|]. split; [ring|]. split; field.
Qed.
