(** The run of the advection-diffusion sample. *)
From Coq Require Import List Arith Lia Bool Reals Lra Permutation.
From Verif Require Import Res SumR DenseModel DenseR DenseSpec ShapeModel QuadModel QuadSpec ElemModel ElemSpec SupgSpec SparseModel SparseSpec AssemblyModel AssemblySpec KrylovSpec PatchSpec StableSpec TopSpec StaticModel StaticSpec FrameSpec DriftModel DriftSpec.
From Verif Require Import DenseProof DenseMain AssemblyProof AssemblyProof2 AssemblyProof3 AssemblyMain ElemProof ElemProof2 ElemMain SupgMain PatchProof PatchProof2 StableProof2 StableProof3 StableProof4 StableMain HomMain SpringMain TopProof3 TopProof4 StaticPiece StaticProof FrameProof DriftProof DriftProof2.
Import ListNotations.
Local Open Scope R_scope.

Lemma sides_pair (L : list (list nat)) (g : list nat -> R) : (forall sd, g (rev sd) = - g sd) ->
  sum_over L g = sum_over (filter (fun sd => negb (count_occ dec L sd =? count_occ dec L (rev sd))%nat) L) g.
Proof.
  intros GR. set (fl := fun sd => (count_occ dec L sd =? count_occ dec L (rev sd))%nat). change (sum_over L g = sum_over (filter (fun sd => negb (fl sd)) L) g).
  assert (E : sum_over L g = sum_over (filter fl L) g + sum_over (filter (fun sd => negb (fl sd)) L) g).
  { generalize L at 1 2 3 as l. induction l as [|a l IH]; [cbn [filter]; rewrite !sum_over_nil; lra|]. cbn [filter]. rewrite sum_over_cons, IH. destruct (fl a); cbn [negb]; rewrite !sum_over_cons; lra. }
  assert (P : Permutation (filter fl L) (map (@rev nat) (filter fl L))).
  { apply (Permutation_count_occ dec). intros sd. rewrite count_rev, !count_filterb. unfold fl. rewrite rev_involutive. destruct (Nat.eqb_spec (count_occ dec L sd) (count_occ dec L (rev sd))) as [Q|Q].
    - rewrite Q, Nat.eqb_refl. reflexivity.
    - destruct (Nat.eqb_spec (count_occ dec L (rev sd)) (count_occ dec L sd)); [congruence|reflexivity]. }
  assert (Z : sum_over (filter fl L) g = 0).
  { pose proof (sum_over_perm _ _ g P) as Q. unfold sum_over at 2 in Q. rewrite map_map in Q. fold (sum_over (filter fl L) (fun sd => g (rev sd))) in Q.
    rewrite (sum_ext _ (fun sd => g (rev sd)) (fun sd => -1 * g sd)) in Q by (intros; rewrite GR; lra). rewrite sum_over_scal in Q. lra. }
  rewrite E, Z. apply Rplus_0_l.
Qed.
Lemma sides_nonneg d v : drift_ok d -> (forall k, last_value (dr_fixed d) k 0 <> None -> v k = 0) ->
  0 <= sum_over (flat_map sides (dr_elements d)) (fun sd => outflow d sd * square2 v sd).
Proof.
  intros HD Hv. rewrite sides_pair.
  2:{ intros sd. unfold outflow, square2. destruct sd as [|a [|b [|c sd]]]; [cbn; lra|cbn; lra|cbn [rev app]; lra|].
    destruct (rev (a :: b :: c :: sd)) as [|a' [|b' [|c' l]]] eqn:Er; try lra. exfalso. apply (f_equal (@length nat)) in Er. rewrite rev_length in Er. cbn in Er. lia. }
  apply sum_over_nonneg. intros sd Hin. apply filter_In in Hin. destruct Hin as [Hin Hf]. apply negb_true_iff in Hf. apply Nat.eqb_neq in Hf.
  assert (SQ : 0 <= square2 v sd). { unfold square2. destruct sd as [|a [|b [|c sd]]]; try lra. pose proof (Rle_0_sqr (v a + v b)). pose proof (Rle_0_sqr (v a)). pose proof (Rle_0_sqr (v b)). unfold Rsqr in *. nra. }
  destruct (dk_sides d HD sd Hin) as [Q|[Q|Q]]; [contradiction| |now apply Rmult_le_pos].
  replace (square2 v sd) with 0; [lra|]. unfold square2. destruct sd as [|a [|b [|c sd]]]; auto. rewrite (Hv a), (Hv b); [lra|apply Q; cbn; auto|apply Q; cbn; auto].
Qed.

Lemma drift_elements d : drift_ok d -> exists es, Forall2 (made_by (dr_routine d)) (st_pieces (dr_static d)) es /\ forall e, In e es -> length (e_F e) = mrow (e_K e).
Proof.
  intros [Hk Ha HT _ _ _]. unfold st_pieces, dr_static. cbn [st_s st_q st_elements]. induction (dr_elements d) as [|el els IH]; [exists []; split; [constructor|intros e []]|].
  destruct IH as (es & HF & HL); [intros; apply HT; now right|]. destruct (tri_call d el Hk Ha (HT el (or_introl eq_refl))) as (_ & K & ne & kf & E & _).
  exists (mkElem el ne K (repeat 0 (mrow K)) :: es). split.
  - cbn [map]. constructor; [|exact HF]. split; auto.
  - intros e [<-|Hin]; [apply repeat_length|auto].
Qed.
Lemma tri_made d el e : 0 < dr_k d -> dr_a d <> 0 -> ccw (dr_x d) el -> made_by (dr_routine d) (mkPiece sf_3Triangle Gauss1Triangle el) e ->
  exists kf, e_nodes e = el /\ is_mat (e_K e) (1 * length (e_nodes e)) (1 * length (e_nodes e)) kf /\ numbered 1 (length (e_nodes e)) [0%nat] (e_nte e) /\
    forall v w : nat -> nat -> R, sum_over (e_dofs e) (fun a => sum_over (e_dofs e) (fun b => v (dnode a) (ddof a) * e_k e (dloc a) (dloc b) * w (dnode b) (ddof b))) =
      drift_form d el (corners (fun i => v i 0%nat) el) (corners (fun i => w i 0%nat) el).
Proof.
  intros Hk Ha HC [EN Er]. cbn [p_nodes p_shape p_rule] in EN, Er. destruct (tri_call d el Hk Ha HC) as (_ & K & ne & kf & E & Hm & Hn & HF).
  rewrite E in Er. injection Er as EK Ene. pose proof (proj1 HC) as HL. exists kf. rewrite EN, HL, <- EK, <- Ene. splits; auto.
  intros v w. rewrite EK, Ene in *. rewrite (dform_gen 1 [0%nat] e kf v w); try (rewrite ?EN, ?HL; auto). rewrite HF. reflexivity.
Qed.

Section run.
Variables (d : drift) (es : list elem).
Hypotheses (HD : drift_ok d) (HF : Forall2 (made_by (dr_routine d)) (st_pieces (dr_static d)) es).

Lemma tri_sum (g : elem -> R) (h : list nat -> R) : (forall el e, In el (dr_elements d) -> made_by (dr_routine d) (mkPiece sf_3Triangle Gauss1Triangle el) e -> g e = h el) -> sum_over es g = sum_over (dr_elements d) h.
Proof.
  revert HF. clear HD. unfold st_pieces, dr_static. cbn [st_s st_q st_elements]. revert es. induction (dr_elements d) as [|el els IH]; intros es' HF' HG; inversion HF' as [|? e ? es1 A B]; subst; [reflexivity|].
  rewrite !sum_over_cons, (IH es1); auto.
  - f_equal. apply HG; auto. now left.
  - intros el' e' Hin. apply HG. now right.
Qed.
Lemma in_tri e : In e es -> exists el kf, In el (dr_elements d) /\ ccw (dr_x d) el /\ e_nodes e = el /\ is_mat (e_K e) (1 * length (e_nodes e)) (1 * length (e_nodes e)) kf /\ numbered 1 (length (e_nodes e)) [0%nat] (e_nte e).
Proof.
  intros Hin. destruct (Forall2_In_r _ _ _ HF e Hin) as (p & Hp & Hm). unfold st_pieces, dr_static in Hp. cbn [st_s st_q st_elements] in Hp. apply in_map_iff in Hp. destruct Hp as (el & <- & Hel).
  pose proof (dk_tri d HD el Hel) as HC. destruct (tri_made d el e (dk_k d HD) (dk_a d HD) HC Hm) as (kf & B1 & B2 & B3 & _). exists el, kf. splits; auto.
Qed.
Lemma tri_fits e t : length (e_F e) = mrow (e_K e) -> In e es -> (forall i j, (i < length (dr_x d))%nat -> (j < 1)%nat -> in_table t i j) -> elem_fits t e.
Proof.
  intros HL Hin Ht. destruct (in_tri e Hin) as (el & kf & Hel & HC & EN & Hk & Hn).
  unfold elem_fits. split; [rewrite (proj1 Hn); lia|]. split; [apply Hk|]. assert (HR : mrow (e_K e) = (1 * length (e_nodes e))%nat /\ mcol (e_K e) = (1 * length (e_nodes e))%nat) by (split; apply Hk).
  intros a Ha. destruct (numbered_dofs 1 [0%nat] a _ _ Hn Ha) as (i & j & Hi & Hj & ->). cbn [dnode ddof dloc]. rewrite HL. destruct HR as [-> ->].
  splits; [|nia|nia|nia]. replace j with O by lia. apply Ht; [|cbn; lia]. apply (proj1 (proj2 HC)). rewrite <- EN. now apply nth_In.
Qed.
Lemma total_energy v : sum_over es (fun e => denergy e v) = sum_over (flat_map sides (dr_elements d)) (fun sd => outflow d sd * square2 (fun i => v i 0%nat) sd) +
  sum_over (dr_elements d) (fun el => area2 (dr_x d) el / 2 * (dr_k d * (slope2 (dr_x d) el (corners (fun i => v i 0%nat) el) 0 ^ 2 + slope2 (dr_x d) el (corners (fun i => v i 0%nat) el) 1 ^ 2)
    + tau_supg (dr_ax d) (dr_ay d) (dr_k d) (length2 d el) * along2 d el (corners (fun i => v i 0%nat) el) ^ 2)).
Proof.
  rewrite (tri_sum _ (fun el => drift_form d el (corners (fun i => v i 0%nat) el) (corners (fun i => v i 0%nat) el))).
  2:{ intros el e Hel Hm. destruct (tri_made d el e (dk_k d HD) (dk_a d HD) (dk_tri d HD el Hel) Hm) as (kf & _ & _ & _ & B). unfold denergy. apply B. }
  rewrite (sum_ext _ _ _ (fun el Hel => tri_energy d el (fun i => v i 0%nat) (dk_tri d HD el Hel))). rewrite sum_over_plus. f_equal.
  clear HF. induction (dr_elements d) as [|el els IH]; [reflexivity|]. cbn [flat_map]. rewrite sum_over_cons, sum_over_app, IH. reflexivity.
Qed.
Lemma tri_definite v : (forall k c, last_value (dr_fixed d) k c <> None -> v k c = 0) -> (exists k c, (k < length (dr_x d))%nat /\ (c < 1)%nat /\ v k c <> 0) -> 0 < sum_over es (fun e => denergy e v).
Proof.
  intros Hv (k & c & Hk & Hc & Hne). rewrite total_energy. pose proof (sides_nonneg d (fun i => v i 0%nat) HD (fun k H => Hv k 0%nat H)) as SN.
  set (h := fun el => area2 (dr_x d) el / 2 * (dr_k d * (slope2 (dr_x d) el (corners (fun i => v i 0%nat) el) 0 ^ 2 + slope2 (dr_x d) el (corners (fun i => v i 0%nat) el) 1 ^ 2)
    + tau_supg (dr_ax d) (dr_ay d) (dr_k d) (length2 d el) * along2 d el (corners (fun i => v i 0%nat) el) ^ 2)).
  assert (HP : forall el, In el (dr_elements d) -> 0 <= dr_k d * (slope2 (dr_x d) el (corners (fun i => v i 0%nat) el) 0 ^ 2 + slope2 (dr_x d) el (corners (fun i => v i 0%nat) el) 1 ^ 2)
     /\ 0 <= tau_supg (dr_ax d) (dr_ay d) (dr_k d) (length2 d el) * along2 d el (corners (fun i => v i 0%nat) el) ^ 2).
  { intros el Hel. pose proof (dk_k d HD) as Hk0. destruct (tri_call d el Hk0 (dk_a d HD) (dk_tri d HD el Hel)) as (Hh & _). pose proof (tau_nonneg d el Hk0 Hh).
    split; [apply Rmult_le_pos; [lra|]; apply Rplus_le_le_0_compat; apply pow2_ge_0|apply Rmult_le_pos; [auto|apply pow2_ge_0]]. }
  assert (NN : forall el, In el (dr_elements d) -> 0 <= h el).
  { intros el Hel. destruct (HP el Hel) as [P1 P2]. pose proof (proj2 (proj2 (dk_tri d HD el Hel))). unfold h. apply Rmult_le_pos; lra. }
  destruct (Rle_lt_or_eq_dec _ _ (sum_over_nonneg (dr_elements d) h NN)) as [Hlt|H0]; [lra|]. exfalso. apply Hne. replace c with O by lia. symmetry in H0.
  pose proof (dk_tied d HD k Hk) as HT. clear Hk Hne. induction HT as [k Hb|el k k' Hel Hin Hin' _ IH]; [auto|].
  pose proof (sum_zero_each _ _ NN H0 el Hel) as Z. destruct (HP el Hel) as [P1 P2]. pose proof (dk_tri d HD el Hel) as (HL & _ & HA). pose proof (dk_k d HD) as Hk0.
  unfold h in Z. apply Rmult_integral in Z. destruct Z as [Z|Z]; [lra|].
  assert (Z1 : dr_k d * (slope2 (dr_x d) el (corners (fun i => v i 0%nat) el) 0 ^ 2 + slope2 (dr_x d) el (corners (fun i => v i 0%nat) el) 1 ^ 2) = 0) by lra.
  apply Rmult_integral in Z1. destruct Z1 as [Z1|Z1]; [lra|].
  destruct (flat_tri (dr_x d) el (corners (fun i => v i 0%nat) el)) as [Q0 Q1]; [lra|nra|nra|]. unfold corners in Q0, Q1.
  destruct el as [|n0 [|n1 [|n2 [|? ?]]]]; try discriminate. cbn [nth] in Q0, Q1. cbn [In] in Hin, Hin'.
  destruct Hin as [<-|[<-|[<-|[]]]], Hin' as [<-|[<-|[<-|[]]]]; lra.
Qed.
Lemma force_weak u (y : nat -> R) : sum_over (dr_elements d) (fun el => drift_form d el (corners y el) (corners (fun i => uval u i 0) el)) =
  bigsum (length (dr_x d)) (fun i => y i * internal_force es u i 0).
Proof.
  rewrite <- (tri_sum (fun e => sum_over (e_dofs e) (fun a => sum_over (e_dofs e) (fun b => y (dnode a) * e_k e (dloc a) (dloc b) * uval u (dnode b) (ddof b))))).
  2:{ intros el e Hel Hm. destruct (tri_made d el e (dk_k d HD) (dk_a d HD) (dk_tri d HD el Hel) Hm) as (kf & _ & _ & _ & B). exact (B (fun i _ => y i) (uval u)). }
  unfold internal_force. rewrite (bigsum_ext _ _ (fun i => sum_over es (fun e => sum_over (e_dofs e) (fun a => y i * ind (at_dof i 0 a) (sum_over (e_dofs e) (fun b => e_k e (dloc a) (dloc b) * duval u b)))))).
  2:{ intros i _. rewrite <- sum_over_scal. apply sum_ext. intros e _. now rewrite <- sum_over_scal. }
  rewrite bigsum_over. apply sum_ext. intros e Hin. rewrite bigsum_over. apply sum_ext. intros a Ha.
  destruct (in_tri e Hin) as (el & kf & Hel & HC & EN & Hk & Hn). destruct (numbered_dofs 1 [0%nat] a _ _ Hn Ha) as (i & j & Hi & Hj & ->). replace j with O by lia. cbn [dnode ddof dloc nth].
  assert (Hb : (nth i (e_nodes e) O < length (dr_x d))%nat). { apply (proj1 (proj2 HC)). rewrite <- EN. now apply nth_In. }
  rewrite (bigsum_single _ (nth i (e_nodes e) O)); auto.
  - unfold at_dof. cbn [dnode ddof]. rewrite !Nat.eqb_refl. cbn [andb ind]. rewrite <- sum_over_scal. apply sum_ext. intros b _. unfold duval. ring.
  - intros i' _ Hne. unfold at_dof. cbn [dnode ddof]. replace (nth i (e_nodes e) O =? i')%nat with false by (symmetry; apply Nat.eqb_neq; auto). cbn [andb ind]. ring.
Qed.
Lemma fixed_dr : st_fx (dr_static d) = dr_fixed d.
Proof. unfold st_fx, dr_static. cbn [st_fixed concat]. apply app_nil_r. Qed.
Lemma balanced_weak u : balanced (dr_static d) es u <-> weak_form d u.
Proof.
  unfold balanced, weak_form. rewrite fixed_dr. cbn [dr_static st_x st_m st_loads]. unfold nodal_load. split; intros [H1 H2]; (split; [exact H1|]).
  - intros y Hy. rewrite force_weak. apply bigsum_zero. intros i Hi. destruct (last_value (dr_fixed d) i 0) eqn:E; [rewrite (Hy i) by congruence; ring|]. rewrite H2 by (auto; lia). rewrite sum_over_nil. ring.
  - intros i j Hi Hj Hl. replace j with O in * by lia. set (y := fun i' : nat => if (i =? i')%nat then 1 else 0).
    assert (Hy : forall k, last_value (dr_fixed d) k 0 <> None -> y k = 0). { intros k Hk. unfold y. destruct (Nat.eqb_spec i k); auto. subst. contradiction. }
    pose proof (H2 y Hy) as Q. rewrite force_weak, (bigsum_single _ i) in Q; auto.
    + unfold y in Q. rewrite Nat.eqb_refl in Q. rewrite sum_over_nil. lra.
    + intros i' _ Hne. unfold y. replace (i =? i')%nat with false by (symmetry; apply Nat.eqb_neq; auto). ring.
Qed.
End run.

Lemma drift_run solve d : pd_solver solve -> drift_ok d -> exists T, dr_run solve d = Ok T /\ sshape (dr_static d) T /\ weak_form d T /\
  forall T', sshape (dr_static d) T' -> weak_form d T' -> forall i j, uval T' i j = uval T i j.
Proof.
  intros HS HD. destruct (drift_elements d HD) as (es & HF & HLF).
  destruct (gen_run_pd solve (dr_static d) es HS HF) as (T & E & HL & SH & HB & HU); cbn [dr_static st_x st_m st_loads]; rewrite ?fixed_dr.
  - intros e t He. apply (tri_fits d es HD HF); auto.
  - apply HD.
  - intros i j v [].
  - exact (tri_definite d es HD HF).
  - exists T. splits; auto.
    + now apply (balanced_weak d es HD HF).
    + intros T' S' V'. apply HU; auto. now apply (balanced_weak d es HD HF).
Qed.
(** a linear field that does not change along the flow is returned *)
Lemma linear_slopes xs el g0 gx gy : area2 xs el <> 0 -> let z := corners (fun i => g0 + gx * px xs i + gy * py xs i) el in slope2 xs el z 0 = gx /\ slope2 xs el z 1 = gy.
Proof. intros HA z. unfold z, corners, slope2. unfold area2 in *. split; field; exact HA. Qed.
Lemma diffusion_sides d el gx gy y : ccw (dr_x d) el ->
  area2 (dr_x d) el / 2 * (slope2 (dr_x d) el (corners y el) 0 * gx + slope2 (dr_x d) el (corners y el) 1 * gy) =
  sum_over (sides el) (fun sd => through d gx gy sd * match sd with [i; j] => (y i + y j) / 2 | _ => 0 end).
Proof.
  intros (HL & _ & HA). destruct el as [|a [|b [|c [|? ?]]]]; try discriminate. unfold sides. rewrite !sum_over_cons, sum_over_nil. unfold slope2, corners, through. cbn [nth]. unfold area2 in *. cbn [nth] in *. field. lra.
Qed.
Lemma drift_crosswind solve d g0 gx gy : pd_solver solve -> drift_ok d -> dr_ax d * gx + dr_ay d * gy = 0 ->
  (forall i j v, In (i, j, v) (dr_fixed d) -> v = g0 + gx * px (dr_x d) i + gy * py (dr_x d) i) ->
  (forall sd, In sd (flat_map sides (dr_elements d)) ->
    count_occ (list_eq_dec Nat.eq_dec) (flat_map sides (dr_elements d)) sd = count_occ (list_eq_dec Nat.eq_dec) (flat_map sides (dr_elements d)) (rev sd) \/
    (forall k, In k sd -> last_value (dr_fixed d) k 0 <> None) \/ through d gx gy sd = 0) ->
  exists T, dr_run solve d = Ok T /\ forall i, (i < length (dr_x d))%nat -> uval T i 0 = g0 + gx * px (dr_x d) i + gy * py (dr_x d) i.
Proof.
  intros HS HD HG HC HB. destruct (drift_run solve d HS HD) as (T & E & _ & _ & HU). exists T. split; [exact E|].
  set (t := fun i => g0 + gx * px (dr_x d) i + gy * py (dr_x d) i) in *. set (T' := map (fun i => [t i]) (seq 0 (length (dr_x d)))).
  assert (VT : forall i, (i < length (dr_x d))%nat -> nth i T' [] = [t i]).
  { intros i Hi. unfold T'. rewrite (nth_indep _ [] ([t 0%nat])) by (now rewrite map_length, seq_length). rewrite (map_nth (fun i => [t i])), seq_nth; auto. }
  assert (UT : forall i, (i < length (dr_x d))%nat -> uval T' i 0 = t i) by (intros i Hi; unfold uval; now rewrite VT).
  intros i Hi. rewrite <- (HU T'), UT; auto.
  - intros i' j'. cbn [dr_static st_x st_m]. unfold in_table. destruct (lt_dec i' (length (dr_x d))) as [A|A]; [rewrite VT by auto; cbn [length]; lia|]. rewrite nth_overflow by (unfold T'; rewrite map_length, seq_length; lia). cbn [length]. lia.
  - split.
    + intros i' j' v Hv. pose proof (last_value_in (dr_fixed d) i' j') as Q. rewrite Hv in Q. rewrite (HC _ _ _ Q). destruct (dk_fixed d HD _ _ _ Q) as [A B]. replace j' with O by lia. now apply UT.
    + intros y Hy. set (h := fun sd => through d gx gy sd * match sd with [i; j] => (y i + y j) / 2 | _ => 0 end).
      assert (ES : sum_over (dr_elements d) (fun el => drift_form d el (corners y el) (corners (fun i => uval T' i 0) el)) = dr_k d * sum_over (flat_map sides (dr_elements d)) h).
      { transitivity (sum_over (dr_elements d) (fun el => dr_k d * sum_over (sides el) h)).
        - apply sum_ext. intros el Hel. pose proof (dk_tri d HD el Hel) as HT. pose proof HT as (HL & HN & HA).
          pose proof (diffusion_sides d el gx gy y HT) as DS. fold h in DS. rewrite <- DS. destruct (linear_slopes (dr_x d) el g0 gx gy ltac:(lra)) as [S0 S1].
          assert (EC : slope2 (dr_x d) el (corners (fun i => uval T' i 0) el) 0 = gx /\ slope2 (dr_x d) el (corners (fun i => uval T' i 0) el) 1 = gy).
          { assert (CE : forall l, slope2 (dr_x d) el (corners (fun i => uval T' i 0) el) l = slope2 (dr_x d) el (corners t el) l) by (intros l; unfold slope2, corners; rewrite !UT by (apply HN; apply nth_In; lia); reflexivity). rewrite !CE. split; [exact S0|exact S1]. }
          destruct EC as [C0 C1]. unfold drift_form, along2. rewrite C0, C1, HG. ring.
        - rewrite sum_over_scal. f_equal. clear. induction (dr_elements d) as [|el els IH]; [reflexivity|]. cbn [flat_map]. now rewrite sum_over_cons, sum_over_app, IH. }
      rewrite ES, sides_pair.
      * rewrite sum_over_zero; [ring|]. intros sd Hin. apply filter_In in Hin. destruct Hin as [Hin Hf]. apply negb_true_iff in Hf. apply Nat.eqb_neq in Hf.
        destruct (HB sd Hin) as [Q|[Q|Q]]; [contradiction| |unfold h; rewrite Q; ring].
        unfold h. destruct sd as [|a [|b [|c sd]]]; try ring. rewrite (Hy a), (Hy b); [lra|apply Q; cbn; auto|apply Q; cbn; auto].
      * intros sd. unfold h, through. destruct sd as [|a [|b [|c sd]]]; [cbn; lra|cbn; lra|cbn [rev app]; lra|].
        destruct (rev (a :: b :: c :: sd)) as [|a' [|b' [|c' l]]] eqn:Er; try lra. exfalso. apply (f_equal (@length nat)) in Er. rewrite rev_length in Er. cbn in Er. lia.
Qed.
(** without velocity the program divides by zero at the first triangle *)
Lemma drift_still solve d el els : dr_a d = 0 -> dr_elements d = el :: els -> ccw (dr_x d) el -> (forall i j v, In (i, j, v) (dr_fixed d) -> (i < length (dr_x d))%nat /\ (j < 1)%nat) ->
  dr_run solve d = Fail DivByZero.
Proof.
  intros Ha Hels HC HX. destruct (tri_element _ _ HC) as [He _].
  assert (AX : dr_ax d = 0 /\ dr_ay d = 0) by (unfold dr_ax, dr_ay; rewrite Ha; lra). destruct AX as [AX AY].
  assert (ER : dr_routine d sf_3Triangle Gauss1Triangle el = Fail DivByZero).
  { unfold dr_routine. rewrite AX, AY. destruct (C59_advection_pf sf_3Triangle Gauss1Triangle el [0%nat] (dr_x d) 0 0 He eq_refl) as (K1 & n1 & k1 & E1 & _).
    destruct (proj1 (proj2 (C59_scalar_pf sf_3Triangle Gauss1Triangle el [0%nat] (dr_x d) 0 0 (dr_k d) 0 0 He eq_refl))) as (K2 & n2 & k2 & E2 & _).
    rewrite E1. cbn [bind]. rewrite E2. cbn [bind]. rewrite (C85_zero_velocity_pf sf_3Triangle Gauss1Triangle el [0%nat] (dr_x d) (dr_k d) He eq_refl ltac:(cbn; lia) _ (or_introl eq_refl)). reflexivity. }
  unfold dr_run, st_run. rewrite dirichlet_concat. fold (st_fx (dr_static d)). rewrite fixed_dr. cbn [dr_static st_x st_m st_elements].
  destruct (set_dirichlet_ok (dr_fixed d) (repeat (vnew R_ops 1) (length (dr_x d))) (repeat (repeat (Some 0%nat) 1) (length (dr_x d)))) as (u1 & t1 & E1 & _).
  { intros i j v Hin. split; apply in_rep; exact (HX i j v Hin). }
  rewrite E1. cbn [bind]. destruct (renumber t1) as [t2 n]. rewrite Hels. cbn [foldM]. unfold st_add at 1. cbn [dr_static st_f st_s st_q]. fold (dr_static d). rewrite ER. reflexivity.
Qed.
