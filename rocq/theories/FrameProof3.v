(** Virtual work and the cantilever. *)
From Coq Require Import List Arith Lia Bool Reals Lra.
From Verif Require Import Res SumR DenseModel DenseR DenseSpec ShapeModel QuadModel QuadSpec ElemModel ElemSpec BeamModel BeamSpec SparseModel SparseSpec AssemblyModel AssemblySpec KrylovSpec PatchSpec StableSpec TopSpec StaticModel StaticSpec FrameModel FrameSpec.
From Verif Require Import DenseProof DenseMain AssemblyProof AssemblyProof2 AssemblyProof3 AssemblyMain ElemProof ElemProof2 ElemMain PatchProof PatchProof2 PatchProof3 StableProof3 StableProof4 StableMain HomMain TopProof3 TopProof4 StaticPiece StaticProof BeamMain FrameProof FrameProof2.
Import ListNotations.
Local Open Scope R_scope.

Lemma pieces_sum d es (g : elem -> R) (h : list nat -> R) : Forall2 (made_by (fr_routine d)) (st_pieces (fr_static d)) es ->
  (forall el e, In el (fr_elements d) -> made_by (fr_routine d) (mkPiece sf_2Line Gauss1Line el) e -> g e = h el) -> sum_over es g = sum_over (fr_elements d) h.
Proof.
  unfold st_pieces, fr_static. cbn [st_s st_q st_elements]. revert es. induction (fr_elements d) as [|el els IH]; intros es HF HG; inversion HF as [|? e ? es1 A B]; subst; [reflexivity|].
  rewrite !sum_over_cons, (IH es1); auto.
  - f_equal. apply HG; auto. now left.
  - intros el' e' Hin. apply HG. now right.
Qed.
Lemma work_sum d es W u y : frame_ok d -> Forall2 (made_by (fr_routine d)) (st_pieces (fr_static d)) es -> (forall el, In el (fr_elements d) -> bar_work d el (W el)) ->
  sum_over (fr_elements d) (fun el => W el (ends y el) (ends (uval u) el)) = bigsum (length (fr_x d)) (fun i => bigsum 6 (fun j => y i j * internal_force es u i j)).
Proof.
  intros HD HF HW. rewrite <- (force_work d es HD HF). symmetry. apply (pieces_sum d es _ _ HF). intros el e Hel Hm. destruct (HW el Hel) as (l & d1 & d2 & Hl & HS & HQ).
  destruct (bar_made d el e l d1 d2 (fk_a d HD) (fk_b d HD) (fk_V d HD) (fk_bar d HD el Hel) Hl HS Hm) as (kf & _ & _ & _ & B4). now rewrite B4, HQ.
Qed.
Lemma work_exists d : frame_ok d -> exists W, forall el, In el (fr_elements d) -> bar_work d el (W el).
Proof.
  intros HD. pose proof (fk_bar d HD) as HB. induction (fr_elements d) as [|el els IH]; [exists (fun _ _ _ => 0); intros el []|].
  destruct IH as (W & HW); [intros; apply HB; now right|]. destruct (HB el (or_introl eq_refl)) as (_ & _ & _ & _ & l & d1 & d2 & Hl & HS).
  exists (fun el' => if list_eq_dec Nat.eq_dec el' el then timoshenko (fr_E d) (lame_mu (fr_E d) (fr_V d)) l (fr_a d) (fr_b d) d1 d2 else W el').
  intros el' Hin. destruct (list_eq_dec Nat.eq_dec el' el) as [->|Hne]; [exists l, d1, d2; auto|]. apply HW. destruct Hin as [<-|Hin]; [congruence|auto].
Qed.
Lemma fixed_fx d : st_fx (fr_static d) = fr_fixed d.
Proof. unfold st_fx, fr_static. cbn [st_fixed concat]. apply app_nil_r. Qed.
Lemma balanced_work d es u : frame_ok d -> Forall2 (made_by (fr_routine d)) (st_pieces (fr_static d)) es -> (balanced (fr_static d) es u <-> virtual_work d u).
Proof.
  intros HD HF. unfold balanced, virtual_work. rewrite fixed_fx. cbn [fr_static st_x st_m st_loads]. split; intros [H1 H2]; (split; [exact H1|]).
  - intros W HW y Hy. rewrite (work_sum d es W u y HD HF HW), <- (load_work d (fr_loads d) y (fk_loads d HD)). apply bigsum_ext. intros i Hi. apply bigsum_ext. intros j Hj.
    destruct (last_value (fr_fixed d) i j) eqn:E; [rewrite (Hy i j) by congruence; lra|]. now rewrite H2.
  - intros i j Hi Hj Hl. destruct (work_exists d HD) as (W & HW). set (y := fun i' j' : nat => if (i =? i')%nat && (j =? j')%nat then 1 else 0).
    assert (Hy : forall i j, last_value (fr_fixed d) i j <> None -> y i j = 0).
    { intros i' j' H. unfold y. destruct (Nat.eqb_spec i i'), (Nat.eqb_spec j j'); cbn [andb]; auto. subst. contradiction. }
    pose proof (H2 W HW y Hy) as Q. rewrite (work_sum d es W u y HD HF HW), <- (load_work d (fr_loads d) y (fk_loads d HD)) in Q.
    assert (S : forall g : nat -> nat -> R, bigsum (length (fr_x d)) (fun i => bigsum 6 (fun j => y i j * g i j)) = g i j).
    { intros g. rewrite (bigsum_single _ i), (bigsum_single _ j); auto.
      - unfold y. rewrite !Nat.eqb_refl. cbn [andb]. ring.
      - intros j' _ Hne. unfold y. replace (j =? j')%nat with false by (symmetry; apply Nat.eqb_neq; auto). rewrite andb_false_r. ring.
      - intros i' _ Hne. apply bigsum_zero. intros j' _. unfold y. replace (i =? i')%nat with false by (symmetry; apply Nat.eqb_neq; auto). cbn [andb]. ring. }
    rewrite !S in Q. exact Q.
Qed.
Lemma segment6 (v : list R) : length v = 6%nat -> vsegment R_ops v 0 3 = Ok (firstn 3 v).
Proof. intros H. do 6 (destruct v as [|? v]; [discriminate|]). reflexivity. Qed.
Lemma frame_run solve d : spd_solver solve -> frame_ok d -> exists ur u, fr_run solve d = Ok (ur, u) /\ sshape (fr_static d) ur /\ virtual_work d ur /\
  (forall u', sshape (fr_static d) u' -> virtual_work d u' -> forall i j, uval u' i j = uval ur i j) /\ first_three d ur u.
Proof.
  intros HS HD. destruct (frame_elements_fit d HD) as (es & HF & HLF).
  destruct (gen_run solve (fr_static d) es HS HF) as (ur & E & HL & SH & HB & HU); cbn [fr_static st_x st_m st_loads]; rewrite ?fixed_fx.
  - intros e He. exact (bar_sym d es HD HF e He).
  - intros e v He. exact (bar_energy d es HD HF e v He).
  - intros e t He. apply (bar_fits d es HD HF); auto.
  - apply HD.
  - apply HD.
  - exact (bar_held d es HD HF).
  - cbn [fr_static st_x] in HL.
    assert (H6 : forall i, (i < length (fr_x d))%nat -> length (nth i ur []) = 6%nat).
    { intros i Hi. pose proof (SH i 5%nat) as [_ A]. pose proof (SH i 6%nat) as [B _]. unfold in_table in A, B. cbn [fr_static st_x st_m] in A, B. specialize (A ltac:(lia)).
      destruct (le_lt_dec (length (nth i ur [])) 6); [lia|]. specialize (B ltac:(lia)). lia. }
    exists ur, (map (fun i => firstn 3 (nth i ur [])) (seq 0 (length (fr_x d)))). splits.
    + unfold fr_run. rewrite E. cbn [bind]. rewrite (KrylovProof2.mapM_seq_ok _ (fun i => firstn 3 (nth i ur []))); [reflexivity|].
      intros i Hi. unfold rd. rewrite (nth_error_nth' ur []) by lia. cbn [bind]. apply segment6. auto.
    + exact SH.
    + now apply (balanced_work d es ur HD HF).
    + intros u' S' V'. apply HU; auto. now apply (balanced_work d es u' HD HF).
    + split; [now rewrite map_length, seq_length|]. intros i Hi. unfold uval.
      rewrite (nth_indep _ [] (firstn 3 (nth 0 ur []))) by (now rewrite map_length, seq_length). rewrite (map_nth (fun i => firstn 3 (nth i ur []))), seq_nth by auto. cbn [Nat.add].
      pose proof (H6 i Hi) as H. destruct (nth i ur []) as [|a0 [|a1 [|a2 v]]]; try discriminate. split; [reflexivity|]. intros c Hc. do 3 (destruct c as [|c]; [reflexivity|]). lia.
Qed.
