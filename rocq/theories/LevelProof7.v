(** The problem of the sample is admissible. *)
From Coq Require Import List Arith Lia Bool Reals Lra ZArith.
From Verif Require Import Res SumR DenseModel DenseSpec ShapeModel QuadModel QuadSpec ElemModel ElemSpec AssemblyModel AssemblySpec PatchSpec StableSpec MeshModel MeshSpec GenModel GenSpec TopModel TopSpec LoopModel LoopSpec LevelModel LevelSpec.
From Verif Require Import MeshProof MeshMain GenMain StableMain FilterMain LoopProof LoopProof5 AssemblyProof LevelProof LevelProof5.
Import ListNotations.
Local Open Scope R_scope.

Section M.
Variables (lx ly : R) (nx ny : nat) (sup at_load edge : list R -> bool) (load Vmax tau E0 Emin nu nvol dt d p : R).
Hypothesis Hx : 0 < lx.
Hypothesis Hy : 0 < ly.
Hypothesis Hnx : (0 < nx)%nat.
Hypothesis Hny : (0 < ny)%nat.
Hypothesis Hsup : forall y, sup [0; y] = true.
Hypothesis HE : 0 < Emin <= E0.
Hypothesis Hnu : -1 < nu < 1 / 2.
Hypothesis Htau : 0 < tau.
Hypothesis Hdt : 0 < dt.
Hypothesis Hnvol : 0 < nvol.
Hypothesis HV : 0 < Vmax.
Lemma lproblem_ok : exists l, lv_problem lx ly nx ny sup at_load edge load Vmax tau E0 Emin nu nvol dt d p = Ok l /\ level_ok l /\
  length (lv_elements l) = (nx * ny)%nat /\ length (lv_x l) = ((nx + 1) * (ny + 1))%nat /\
  (forall i j, (i <= nx)%nat -> (j <= ny)%nat -> nth ((ny + 1) * i + j) (lv_x l) [] = [lx * (INR i / INR nx); ly * (INR j / INR ny)]) /\
  (forall i j v, In (i, j, v) (lv_ufixed l) <-> (i < length (lv_x l))%nat /\ sup (nth i (lv_x l) []) = true /\ (j < 2)%nat /\ v = 0) /\
  (forall i j v, In (i, j, v) (lv_qfixed l) <-> (i < length (lv_x l))%nat /\ at_load (nth i (lv_x l) []) = true /\ j = 1%nat /\ v = load) /\
  (forall i j v, In (i, j, v) (lv_phifixed l) <-> (i < length (lv_x l))%nat /\ edge (nth i (lv_x l) []) = true /\ j = 0%nat /\ v = 0) /\ lv_nvol l = nvol.
Proof.
  destruct (problem_ok lx ly nx ny sup at_load load Emin E0 1 1 1 1 Hx Hy Hnx Hny Hsup HE) as (t & E & T & LE & LX & UF & QF & _).
  destruct (C50_nodes_pf lx ly nx ny Hnx Hny) as (nodes & EN & LN & N). destruct (C51_square_pf lx ly nx ny Hnx Hny) as (nodes' & EN' & FX). rewrite EN in EN'. injection EN' as <-.
  unfold ds_problem in E. unfold lv_problem. rewrite EN, (cells_eq nx ny) in *. cbn [bind] in *. rewrite !FX in * by (try discriminate; cbn; intros u Hu; lia). cbn [bind] in *. injection E as <-. cbn [tp_x tp_elements tp_ufixed tp_qfixed] in *.
  assert (PF : forall i j v, In (i, j, v) (dof_list (fixed_nodes nodes [0]%Z edge)) <-> (i < length nodes)%nat /\ edge (nth i nodes []) = true /\ j = 0%nat /\ v = 0).
  { intros i j v. rewrite in_dof_list. split.
    - intros (u & H & ->). apply in_fixed in H. destruct H as (A & B & C & D). splits; auto. cbn in C. lia.
    - intros (A & B & -> & D). exists 0%Z. split; [|reflexivity]. apply in_fixed. splits; auto. now left. }
  eexists. split; [reflexivity|]. cbn [lv_x lv_elements lv_ufixed lv_qfixed lv_phifixed lv_nvol]. split; [|splits; auto].
  split; cbn [lv_x lv_elements lv_ufixed lv_qfixed lv_phifixed lv_s lv_q lv_nu lv_E0 lv_Emin lv_tau lv_dt lv_nvol lv_Vmax]; auto.
  - apply (tk_piece _ T).
  - apply (tk_nodes _ T).
  - intros k Hk. rewrite LX in Hk. destruct (ndi_split nx ny Hnx Hny k Hk) as (i & j & Hi & Hj & ->).
    assert (G : forall a b, (a < nx)%nat -> (b < ny)%nat -> In (ndi ny i j) (cell ny a b) -> exists el, In el (map (fun q => cell ny (fst q) (snd q)) (list_prod (seq 0 nx) (seq 0 ny))) /\ In (ndi ny i j) el).
    { intros a b Ha Hb H. exists (cell ny a b). split; [|exact H]. apply (in_cells nx ny Hnx Hny). exists a, b. auto. }
    destruct (Nat.eq_dec i nx) as [Ei|Ei], (Nat.eq_dec j ny) as [Ej|Ej].
    + apply (G (nx - 1) (ny - 1))%nat; try lia. unfold cell. right; right; left. f_equal; lia.
    + apply (G (nx - 1) j)%nat; try lia. unfold cell. right; left. f_equal; lia.
    + apply (G i (ny - 1))%nat; try lia. unfold cell. right; right; right; left. f_equal; lia.
    + apply (G i j); try lia. now left.
  - rewrite LE. nia.
  - apply (tk_fixed _ T).
  - apply (tk_loads _ T).
  - intros i j v H. apply PF in H. tauto.
  - apply (tk_held _ T).
Qed.
End M.

Lemma loaded_node (f : list (nat * nat * R)) i j v : v <> 0 -> (forall w, In w f -> snd w = v) -> In (i, j, v) f -> nodal_load f i j <> 0.
Proof.
  intros Hv Ha Hin. unfold nodal_load. assert (E : exists c, 1 <= c /\ sum_over f (fun w => ind ((fst (fst w) =? i) && (snd (fst w) =? j))%nat (snd w)) = c * v).
  { enough (G : exists c, 0 <= c /\ (In (i, j, v) f -> 1 <= c) /\ sum_over f (fun w => ind ((fst (fst w) =? i) && (snd (fst w) =? j))%nat (snd w)) = c * v) by (destruct G as (c & _ & A & B); exists c; auto).
    clear Hin. induction f as [|w f IH]; [exists 0; rewrite sum_over_nil; split; [lra|split; [intros []|ring]]|].
    destruct IH as (c & C0 & C1 & EC); [intros; apply Ha; now right|]. rewrite sum_over_cons, EC, (Ha w) by now left.
    destruct ((fst (fst w) =? i) && (snd (fst w) =? j))%nat eqn:B; cbn [ind].
    - exists (1 + c). split; [lra|split; [intros; lra|ring]].
    - exists c. split; [exact C0|split; [|ring]]. intros [->|H]; [|auto]. cbn [fst snd] in B. rewrite !Nat.eqb_refl in B. discriminate B. }
  destruct E as (c & Hc & ->). intros Z. apply Rmult_integral in Z. destruct Z; [lra|contradiction].
Qed.
