(** The run of the beam sample. *)
From Coq Require Import List Arith Lia Bool Reals Lra.
From Verif Require Import Res SumR DenseModel DenseR DenseSpec ShapeModel QuadModel QuadSpec ElemModel ElemSpec BeamModel BeamSpec SparseModel SparseSpec AssemblyModel AssemblySpec KrylovSpec PatchSpec StableSpec TopSpec StaticModel StaticSpec FrameModel FrameSpec.
From Verif Require Import DenseProof DenseMain AssemblyProof AssemblyProof2 AssemblyProof3 AssemblyMain ElemProof ElemProof2 ElemMain PatchProof PatchProof2 PatchProof3 StableProof3 StableProof4 StableMain HomMain TopProof3 TopProof4 StaticPiece StaticProof BeamMain FrameProof.
Import ListNotations.
Local Open Scope R_scope.

Lemma mu_pos E V : 0 < E -> 0 < 1 + V -> 0 < lame_mu E V.
Proof. intros. unfold lame_mu. apply Rmult_lt_0_compat; auto. apply Rinv_0_lt_compat. lra. Qed.

(** the elements with the load vector of matching size *)
Lemma frame_elements_fit d : frame_ok d -> exists es, Forall2 (made_by (fr_routine d)) (st_pieces (fr_static d)) es /\ forall e, In e es -> length (e_F e) = mrow (e_K e).
Proof.
  intros [HE HV Ha Hb HB _ _ _]. unfold st_pieces, fr_static. cbn [st_s st_q st_elements]. induction (fr_elements d) as [|el els IH]; [exists []; split; [constructor|intros e []]|].
  destruct IH as (es & HF & HL); [intros; apply HB; now right|]. pose proof (HB el (or_introl eq_refl)) as HB1. destruct HB1 as (A1 & A2 & A3 & A4 & l & d1 & d2 & Hl & HS).
  destruct (bar_element d el l d1 d2 Ha Hb HV) as (K & ne & kf & E & _); auto. { unfold bar_ok. splits; auto. exists l, d1, d2. auto. }
  exists (mkElem el ne K (repeat 0 (mrow K)) :: es). split.
  - cbn [map]. constructor; [|exact HF]. split; auto.
  - intros e [<-|Hin]; [apply repeat_length|auto].
Qed.

Section run.
Variables (d : frame) (es : list elem).
Hypotheses (HD : frame_ok d) (HF : Forall2 (made_by (fr_routine d)) (st_pieces (fr_static d)) es).
Let G := lame_mu (fr_E d) (fr_V d).

Lemma in_bar e : In e es -> exists el l d1 d2 kf, In el (fr_elements d) /\ bar_ok d el /\ 0 < l /\ straight el (fr_x d) (fr_v1 d) (fr_v2 d) l d1 d2 /\
  e_nodes e = el /\ is_mat (e_K e) (6 * length (e_nodes e)) (6 * length (e_nodes e)) kf /\ numbered 6 (length (e_nodes e)) dou6 (e_nte e) /\
  forall v w, sum_over (e_dofs e) (fun a => sum_over (e_dofs e) (fun b => v (dnode a) (ddof a) * e_k e (dloc a) (dloc b) * w (dnode b) (ddof b))) =
      timoshenko (fr_E d) G l (fr_a d) (fr_b d) d1 d2 (ends v el) (ends w el).
Proof.
  intros Hin. destruct (Forall2_In_r _ _ _ HF e Hin) as (p & Hp & Hm). unfold st_pieces, fr_static in Hp. cbn [st_s st_q st_elements] in Hp. apply in_map_iff in Hp. destruct Hp as (el & <- & Hel).
  pose proof (fk_bar d HD el Hel) as HB. pose proof HB as (A1 & A2 & A3 & A4 & l & d1 & d2 & Hl & HS).
  destruct (bar_made d el e l d1 d2 (fk_a d HD) (fk_b d HD) (fk_V d HD) HB Hl HS Hm) as (kf & B1 & B2 & B3 & B4).
  exists el, l, d1, d2, kf. splits; auto.
Qed.
Lemma bar_sym e : In e es -> esym e.
Proof.
  intros Hin. destruct (in_bar e Hin) as (el & l & d1 & d2 & kf & Hel & HB & Hl & HS & EN & Hk & Hn & _).
  destruct (Forall2_In_r _ _ _ HF e Hin) as (p & Hp & Hm). unfold st_pieces, fr_static in Hp. cbn [st_s st_q st_elements] in Hp. apply in_map_iff in Hp. destruct Hp as (el' & <- & Hel').
  assert (el' = el) as -> by (destruct Hm as [Hm _]; cbn [p_nodes] in Hm; congruence).
  destruct (bar_element d el l d1 d2 (fk_a d HD) (fk_b d HD) (fk_V d HD) HB Hl HS) as (K & ne & k2 & E & Hk2 & Hn2 & HQ).
  destruct Hm as [_ Er]. cbn [p_nodes p_shape p_rule] in Er. rewrite E in Er. injection Er as EK Ene. rewrite EK in Hk2.
  intros a b Ha Hb. destruct (numbered_dofs 6 dou6 a _ _ Hn Ha) as (i & j & Hi & Hj & ->). destruct (numbered_dofs 6 dou6 b _ _ Hn Hb) as (i' & j' & Hi' & Hj' & ->).
  rewrite EN, (proj1 HB) in Hi, Hi'. cbn [dloc]. unfold e_k. rewrite !(mat_entry _ _ _ _ _ _ Hk2) by lia.
  rewrite <- (form_entry 6 2 k2 (6 * i + j) (6 * i' + j')), <- (form_entry 6 2 k2 (6 * i' + j') (6 * i + j)) by lia. rewrite !HQ. apply timoshenko_sym.
Qed.
Lemma bar_energy e v : In e es -> 0 <= denergy e v.
Proof.
  intros Hin. destruct (in_bar e Hin) as (el & l & d1 & d2 & kf & Hel & HB & Hl & HS & EN & Hk & Hn & HQ).
  unfold denergy. rewrite HQ. apply timoshenko_pos; auto; try apply HD. apply mu_pos; apply HD.
Qed.
Lemma bar_fits e t : length (e_F e) = mrow (e_K e) -> In e es -> (forall i j, (i < length (fr_x d))%nat -> (j < 6)%nat -> in_table t i j) -> elem_fits t e.
Proof.
  intros HL Hin Ht. destruct (in_bar e Hin) as (el & l & d1 & d2 & kf & Hel & HB & Hl & HS & EN & Hk & Hn & HQ).
  unfold elem_fits. split; [rewrite (proj1 Hn); lia|]. split; [apply Hk|]. assert (HR : mrow (e_K e) = (6 * length (e_nodes e))%nat /\ mcol (e_K e) = (6 * length (e_nodes e))%nat) by (split; apply Hk).
  intros a Ha. destruct (numbered_dofs 6 dou6 a _ _ Hn Ha) as (i & j & Hi & Hj & ->). cbn [dnode ddof dloc]. rewrite HL. destruct HR as [-> ->].
  splits; [|nia|nia|nia]. rewrite dou6_nth by auto. apply Ht; auto. apply (proj1 (proj2 HB)). rewrite <- EN. now apply nth_In.
Qed.
Lemma bar_held v : (forall k c, last_value (fr_fixed d) k c <> None -> v k c = 0) -> (forall e, In e es -> denergy e v = 0) ->
  forall k c, (k < length (fr_x d))%nat -> (c < 6)%nat -> v k c = 0.
Proof.
  intros Hv He k c Hk. revert c. pose proof (fk_tied d HD k Hk) as HT. clear Hk. induction HT as [k Hb|el k k' Hel Hk Hk' _ IH]; [auto|].
  assert (Hp : In (mkPiece sf_2Line Gauss1Line el) (st_pieces (fr_static d))) by (unfold st_pieces, fr_static; cbn [st_s st_q st_elements]; now apply (in_map (mkPiece sf_2Line Gauss1Line))).
  destruct (Forall2_In_l _ _ _ HF _ Hp) as (e & Hin & Hm). pose proof (fk_bar d HD el Hel) as HB. pose proof HB as (A1 & A2 & A3 & A4 & l & d1 & d2 & Hl & HS).
  destruct (bar_made d el e l d1 d2 (fk_a d HD) (fk_b d HD) (fk_V d HD) HB Hl HS Hm) as (kf & B1 & B2 & B3 & B4).
  pose proof (He e Hin) as H0. unfold denergy in H0. rewrite B4 in H0. destruct HS as (S1 & S2 & S3 & _).
  destruct (In_nth _ _ O Hk) as (i & Hi & Ei). destruct (In_nth _ _ O Hk') as (j & Hj & Ej). rewrite A1 in Hi, Hj. intros c Hc.
  assert (Z : ends v el j c = 0).
  { apply (timoshenko_zero (fr_E d) (lame_mu (fr_E d) (fr_V d)) l (fr_a d) (fr_b d) d1 d2 (ends v el)) with (i := i); auto; try apply HD; [apply mu_pos; apply HD|].
    intros c' Hc'. unfold ends. rewrite Ei. auto. }
  unfold ends in Z. now rewrite Ej in Z.
Qed.
(** the balance of forces as virtual work *)
Lemma force_work u y : sum_over es (fun e => sum_over (e_dofs e) (fun a => sum_over (e_dofs e) (fun b => y (dnode a) (ddof a) * e_k e (dloc a) (dloc b) * uval u (dnode b) (ddof b)))) =
  bigsum (length (fr_x d)) (fun i => bigsum 6 (fun j => y i j * internal_force es u i j)).
Proof.
  unfold internal_force. rewrite (bigsum_ext _ _ (fun i => sum_over es (fun e => sum_over (e_dofs e) (fun a => bigsum 6 (fun j => y i j * ind (at_dof i j a) (sum_over (e_dofs e) (fun b => e_k e (dloc a) (dloc b) * duval u b))))))).
  2:{ intros i _. rewrite (bigsum_ext _ _ (fun j => sum_over es (fun e => sum_over (e_dofs e) (fun a => y i j * ind (at_dof i j a) (sum_over (e_dofs e) (fun b => e_k e (dloc a) (dloc b) * duval u b)))))).
      - rewrite bigsum_over. apply sum_ext. intros e _. now rewrite bigsum_over.
      - intros j _. rewrite <- sum_over_scal. apply sum_ext. intros e _. now rewrite <- sum_over_scal. }
  rewrite bigsum_over. apply sum_ext. intros e Hin. rewrite bigsum_over. apply sum_ext. intros a Ha.
  destruct (in_bar e Hin) as (el & l & d1 & d2 & kf & Hel & HB & Hl & HS & EN & Hk & Hn & HQ).
  destruct (numbered_dofs 6 dou6 a _ _ Hn Ha) as (i & j & Hi & Hj & ->). cbn [dnode ddof dloc]. rewrite dou6_nth by auto.
  assert (Hb : (nth i (e_nodes e) O < length (fr_x d))%nat). { apply (proj1 (proj2 HB)). rewrite <- EN. now apply nth_In. }
  rewrite (bigsum_single _ (nth i (e_nodes e) O)); auto.
  - rewrite (bigsum_single _ j); auto.
    + unfold at_dof. cbn [dnode ddof]. rewrite !Nat.eqb_refl. cbn [andb ind]. rewrite <- sum_over_scal. apply sum_ext. intros b _. unfold duval. ring.
    + intros j' _ Hne. unfold at_dof. cbn [dnode ddof]. replace (j =? j')%nat with false by (symmetry; apply Nat.eqb_neq; auto). rewrite andb_false_r. cbn [ind]. ring.
  - intros i' _ Hne. apply bigsum_zero. intros j' _. unfold at_dof. cbn [dnode ddof]. replace (nth i (e_nodes e) O =? i')%nat with false by (symmetry; apply Nat.eqb_neq; auto). cbn [andb ind]. ring.
Qed.
Lemma load_work L y : (forall i j v, In (i, j, v) L -> (i < length (fr_x d))%nat /\ (j < 6)%nat) ->
  bigsum (length (fr_x d)) (fun i => bigsum 6 (fun j => y i j * nodal_load L i j)) = sum_over L (fun w => snd w * y (fst (fst w)) (snd (fst w))).
Proof.
  intros HL. unfold nodal_load. rewrite (bigsum_ext _ _ (fun i => sum_over L (fun w => bigsum 6 (fun j => y i j * ind ((fst (fst w) =? i) && (snd (fst w) =? j))%nat (snd w))))).
  2:{ intros i _. rewrite <- bigsum_over. apply bigsum_ext. intros j _. now rewrite <- sum_over_scal. }
  rewrite bigsum_over. apply sum_ext. intros [[i j] v] Hin. cbn [fst snd]. destruct (HL i j v Hin) as [Hi Hj]. rewrite (bigsum_single _ i), (bigsum_single _ j); auto.
  - rewrite !Nat.eqb_refl. cbn [andb ind]. ring.
  - intros j' _ Hne. replace (j =? j')%nat with false by (symmetry; apply Nat.eqb_neq; auto). rewrite andb_false_r. cbn [ind]. ring.
  - intros i' _ Hne. apply bigsum_zero. intros j' _. replace (i =? i')%nat with false by (symmetry; apply Nat.eqb_neq; auto). cbn [andb ind]. ring.
Qed.
End run.
