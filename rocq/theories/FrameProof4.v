(** The cantilever. *)
From Coq Require Import List Arith Lia Bool Reals Lra.
From Verif Require Import Res SumR DenseModel DenseR DenseSpec ShapeModel QuadModel QuadSpec ElemModel ElemSpec BeamModel BeamSpec SparseModel SparseSpec AssemblyModel AssemblySpec KrylovSpec PatchSpec StableSpec TopSpec StaticModel StaticSpec FrameModel FrameSpec.
From Verif Require Import DenseProof DenseMain AssemblyProof AssemblyProof2 AssemblyProof3 AssemblyMain ElemProof ElemProof2 ElemMain PatchProof PatchProof2 PatchProof3 StableProof3 StableProof4 StableMain HomMain TopProof3 TopProof4 TopProof5 StaticPiece StaticProof NewtonProof5 BeamMain FrameProof FrameProof2 FrameProof3.
Import ListNotations.
Local Open Scope R_scope.

Lemma nth_mapseq {A} (f : nat -> A) N i d : (i < N)%nat -> nth i (map f (seq 0 N)) d = f i.
Proof. intros H. rewrite (nth_indep _ d (f O)) by (now rewrite map_length, seq_length). rewrite (map_nth f), seq_nth by auto. reflexivity. Qed.

Section cantilever.
Variables (n : nat) (l P E V a b : R).
Hypotheses (Hl : 0 < l) (HE : 0 < E) (HV : 0 < 1 + V) (Ha : 0 < a) (Hb : 0 < b).
Let d := fr_sample n l P E V a b.

Lemma sample_len : length (fr_x d) = S n.
Proof. unfold d, fr_sample. cbn [fr_x]. now rewrite map_length, seq_length. Qed.
Lemma sample_x i : (i <= n)%nat -> nth i (fr_x d) [] = [INR i * l; 0; 0].
Proof. intros H. unfold d, fr_sample. cbn [fr_x]. now rewrite (nth_mapseq (fun i => [INR i * l; 0; 0])) by lia. Qed.
Lemma sample_v1 i : (i <= n)%nat -> nth i (fr_v1 d) [] = [0; 1; 0].
Proof. intros H. unfold d, fr_sample. cbn [fr_v1]. rewrite nth_rep. now replace (i <? S n)%nat with true by (symmetry; apply Nat.ltb_lt; lia). Qed.
Lemma sample_v2 i : (i <= n)%nat -> nth i (fr_v2 d) [] = [0; 0; 1].
Proof. intros H. unfold d, fr_sample. cbn [fr_v2]. rewrite nth_rep. now replace (i <? S n)%nat with true by (symmetry; apply Nat.ltb_lt; lia). Qed.
Lemma sample_straight p : (p < n)%nat -> straight [p; S p] (fr_x d) (fr_v1 d) (fr_v2 d) l axis_y axis_z.
Proof.
  intros Hp. unfold straight. splits; try (unfold dot3, axis_y, axis_z; cbn; lra).
  - intros c Hc. unfold nodal. cbn [nth]. rewrite !sample_x by lia. rewrite S_INR. unfold cross3, axis_y, axis_z. do 3 (destruct c as [|c]; [cbn; lra|]). lia.
  - intros i Hi. exists 1, 1. split; [lra|]. split; [lra|]. intros c Hc. unfold nodal. assert (Hn : (nth i [p; S p] O <= n)%nat) by (destruct i as [|[|i]]; cbn; lia).
    rewrite (sample_v1 _ Hn), (sample_v2 _ Hn). unfold axis_y, axis_z. do 3 (destruct c as [|c]; [cbn; lra|]). lia.
Qed.
Lemma sample_el el : In el (fr_elements d) -> exists p, (p < n)%nat /\ el = [p; S p].
Proof. unfold d, fr_sample. cbn [fr_elements]. rewrite in_map_iff. intros (p & <- & Hp). apply in_seq in Hp. exists p. split; [lia|reflexivity]. Qed.
Lemma sample_bar el : In el (fr_elements d) -> bar_ok d el.
Proof.
  intros Hin. destruct (sample_el el Hin) as (p & Hp & ->). unfold bar_ok. split; [reflexivity|].
  assert (X : forall k, In k [p; S p] -> (k <= n)%nat) by (intros k [<-|[<-|[]]]; lia).
  split; [|split; [|split]].
  - intros k Hk. rewrite sample_len, sample_x by auto. specialize (X k Hk). cbn; lia.
  - intros k Hk. rewrite sample_v1 by auto. specialize (X k Hk). split; [|reflexivity]. unfold d, fr_sample. cbn [fr_v1]. rewrite repeat_length. lia.
  - intros k Hk. rewrite sample_v2 by auto. specialize (X k Hk). split; [|reflexivity]. unfold d, fr_sample. cbn [fr_v2]. rewrite repeat_length. lia.
  - exists l, axis_y, axis_z. split; auto. now apply sample_straight.
Qed.
Lemma sample_fixed i j v : In (i, j, v) (fr_fixed d) -> i = O /\ (j < 6)%nat /\ v = 0.
Proof. unfold d, fr_sample. cbn [fr_fixed]. rewrite in_map_iff. intros (c & Ec & Hc). injection Ec as <- <- <-. apply in_seq in Hc. repeat split; lia. Qed.
Lemma sample_clamped c : (c < 6)%nat -> last_value (fr_fixed d) 0 c <> None.
Proof. intros Hc. unfold d, fr_sample. cbn [fr_fixed]. do 6 (destruct c as [|c]; [cbn; discriminate|]). lia. Qed.
Lemma sample_ok : frame_ok d.
Proof.
  constructor; auto.
  - exact sample_bar.
  - intros i j v Hin. destruct (sample_fixed i j v Hin) as (-> & Hj & _). rewrite sample_len. split; [lia|auto].
  - intros i j v Hin. unfold d, fr_sample in Hin. cbn [fr_loads] in Hin. destruct Hin as [Hin|[]]. injection Hin as <- <- _. rewrite sample_len. split; lia.
  - intros i. rewrite sample_len. induction i as [|i IH]; intros Hi; [apply tied_base; exact sample_clamped|].
    apply (tied_elem _ _ [i; S i] i (S i)); [|now left|right; now left|apply IH; lia].
    unfold d, fr_sample. cbn [fr_elements]. apply (in_map (fun p => [p; S p])). apply in_seq. lia.
Qed.

Let dfl := deflection n l P E V a b.
Let slp := slope n l P E a b.
Definition cant : list (list R) := map (fun i => [0; 0; dfl i; 0; - slp i; 0]) (seq 0 (S n)).
Lemma cant_nth i : (i <= n)%nat -> nth i cant [] = [0; 0; dfl i; 0; - slp i; 0].
Proof. intros H. unfold cant. now rewrite (nth_mapseq (fun i => [0; 0; dfl i; 0; - slp i; 0])) by lia. Qed.
Lemma cant_shape : sshape (fr_static d) cant.
Proof.
  intros i j. cbn [fr_static st_x st_m]. rewrite sample_len. unfold in_table. destruct (le_lt_dec i n) as [Hi|Hi].
  - rewrite cant_nth by auto. cbn [length]. assert (length cant = S n) by (unfold cant; now rewrite map_length, seq_length). lia.
  - rewrite (nth_overflow cant) by (unfold cant; rewrite map_length, seq_length; lia). cbn [length]. lia.
Qed.
Lemma bending p : (p < n)%nat -> E * (a * b ^ 3 / 12) / l * (- slp (S p) - - slp p) = - P * l * (INR n - INR p - 1 / 2).
Proof. intros _. unfold slp, slope. cbv zeta. rewrite S_INR. field. pose proof (pow_lt _ 3 Hb). repeat split; lra. Qed.
Lemma shearing p : (p < n)%nat -> 5 / 6 * lame_mu E V * (a * b) / l * (dfl (S p) - dfl p + l * ((- slp p + - slp (S p)) / 2)) = P.
Proof. intros _. unfold dfl, slp, deflection, slope, lame_mu. cbv zeta. rewrite S_INR. field. repeat split; lra. Qed.
Lemma cant_term p y : (p < n)%nat ->
  timoshenko E (lame_mu E V) l a b axis_y axis_z (ends y [p; S p]) (ends (uval cant) [p; S p]) =
  P * (y (S p) 2%nat - y p 2%nat) - P * l * ((INR n - INR (S p)) * y (S p) 4%nat - (INR n - INR p) * y p 4%nat).
Proof.
  intros Hp. pose proof (bending p Hp) as B. pose proof (shearing p Hp) as SH.
  unfold timoshenko, stretch, turn, mean_turn, dot3, cross3, axis_y, axis_z, ends, uval. cbn [bigsum nth Nat.add]. rewrite !cant_nth by lia. cbn [nth].
  rewrite S_INR. set (k1 := E * (a * b ^ 3 / 12) / l) in *. set (k2 := 5 / 6 * lame_mu E V * (a * b) / l) in *.
  transitivity ((k1 * (- slp (S p) - - slp p)) * (y (S p) 4%nat - y p 4%nat) + (k2 * (dfl (S p) - dfl p + l * ((- slp p + - slp (S p)) / 2))) * (y (S p) 2%nat - y p 2%nat + l * ((y p 4%nat + y (S p) 4%nat) / 2))).
  - field. lra.
  - rewrite B, SH. field.
Qed.
Lemma cant_sum y m : (m <= n)%nat -> y 0%nat 2%nat = 0 -> y 0%nat 4%nat = 0 ->
  bigsum m (fun p => timoshenko E (lame_mu E V) l a b axis_y axis_z (ends y [p; S p]) (ends (uval cant) [p; S p])) = P * y m 2%nat - P * l * ((INR n - INR m) * y m 4%nat).
Proof.
  intros Hm H2 H4. induction m as [|m IH]; [cbn [bigsum]; rewrite H2, H4; ring|]. cbn [bigsum]. rewrite IH, cant_term by lia. ring.
Qed.
Lemma cant_work : virtual_work d cant.
Proof.
  split.
  - intros i j v Hv. assert (A : i = O /\ (j < 6)%nat /\ v = 0). { apply sample_fixed. pose proof (last_value_in (fr_fixed d) i j) as Q. now rewrite Hv in Q. }
    destruct A as (-> & Hj & ->). unfold uval. rewrite cant_nth by lia. unfold dfl, slp, deflection, slope. cbv zeta. cbn [INR].
    do 6 (destruct j as [|j]; [cbn [nth]; unfold Rdiv; ring|]). lia.
  - intros W HW y Hy. assert (Y : forall c, (c < 6)%nat -> y 0%nat c = 0) by (intros c Hc; apply Hy; now apply sample_clamped).
    pose proof sample_ok as HD. destruct (frame_elements_fit d HD) as (es & HF & _).
    rewrite (sum_ext _ _ (fun el => timoshenko E (lame_mu E V) l a b axis_y axis_z (ends y el) (ends (uval cant) el))).
    + unfold d, fr_sample. cbn [fr_elements fr_loads]. rewrite sum_over_map, sum_seq, sum_over_cons, sum_over_nil. cbn [fst snd]. rewrite cant_sum by (auto; apply Y; lia). ring.
    + intros el Hel. destruct (HW el Hel) as (l' & d1 & d2 & Hl' & HS' & HQ). rewrite HQ.
      assert (Hp : In (mkPiece sf_2Line Gauss1Line el) (st_pieces (fr_static d))) by (unfold st_pieces, fr_static; cbn [st_s st_q st_elements]; now apply (in_map (mkPiece sf_2Line Gauss1Line))).
      destruct (Forall2_In_l _ _ _ HF _ Hp) as (e & Hin & Hm).
      destruct (bar_made d el e l' d1 d2 Ha Hb HV (sample_bar el Hel) Hl' HS' Hm) as (_ & _ & _ & _ & B1).
      destruct (sample_el el Hel) as (p & Hp' & ->).
      destruct (bar_made d [p; S p] e l axis_y axis_z Ha Hb HV (sample_bar _ Hel) Hl (sample_straight p Hp') Hm) as (_ & _ & _ & _ & B2).
      rewrite <- B1. exact (B2 y (uval cant)).
Qed.
Lemma cant_run solve : spd_solver solve -> exists ur u, fr_run solve d = Ok (ur, u) /\
  forall i, (i <= n)%nat -> nth i ur [] = [0; 0; dfl i; 0; - slp i; 0] /\ nth i u [] = [0; 0; dfl i].
Proof.
  intros HS. destruct (frame_run solve d HS sample_ok) as (ur & u & Er & SH & _ & HU & HL & H3). exists ur, u. split; [exact Er|]. intros i Hi.
  pose proof (HU cant cant_shape cant_work i) as Q. assert (L6 : length (nth i ur []) = 6%nat).
  { pose proof (SH i 5%nat) as [_ A]. pose proof (SH i 6%nat) as [B _]. unfold in_table in A, B. cbn [fr_static st_x st_m] in A, B. rewrite sample_len in A, B. specialize (A ltac:(lia)).
    destruct (le_lt_dec (length (nth i ur [])) 6); [lia|]. specialize (B ltac:(lia)). lia. }
  rewrite sample_len in H3. destruct (H3 i ltac:(lia)) as [L3 V3]. unfold uval in Q, V3. rewrite cant_nth in Q by auto.
  pose proof (Q 0%nat) as Q0. pose proof (Q 1%nat) as Q1. pose proof (Q 2%nat) as Q2. pose proof (Q 3%nat) as Q3. pose proof (Q 4%nat) as Q4. pose proof (Q 5%nat) as Q5.
  pose proof (V3 0%nat ltac:(lia)) as V0. pose proof (V3 1%nat ltac:(lia)) as V1. pose proof (V3 2%nat ltac:(lia)) as V2. clear Q V3 H3 HU SH.
  destruct (nth i ur []) as [|a0 [|a1 [|a2 [|a3 [|a4 [|a5 [|? ?]]]]]]]; try discriminate L6. destruct (nth i u []) as [|b0 [|b1 [|b2 [|? ?]]]]; try discriminate L3.
  cbn [nth] in *. subst. auto.
Qed.
Lemma tip_value : (0 < n)%nat -> dfl n = P * (INR n * l) / (5 / 6 * lame_mu E V * (a * b)) + P * (INR n * l) ^ 3 / (3 * (E * (a * b ^ 3 / 12))) * (1 - 1 / (4 * INR n ^ 2)).
Proof. intros Hn. pose proof (lt_0_INR n Hn). unfold dfl, deflection, lame_mu. cbv zeta. field. repeat split; lra. Qed.
End cantilever.
