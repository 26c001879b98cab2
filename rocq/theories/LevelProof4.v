(** The diffusion step. *)
From Coq Require Import List Arith Lia Bool Reals Lra.
From Verif Require Import Res SumR DenseModel DenseR DenseSpec ShapeModel QuadModel QuadSpec ElemModel ElemSpec SparseModel SparseSpec AssemblyModel AssemblySpec KrylovSpec PatchSpec StableSpec GenModel GenSpec ThetaModel ThetaSpec TopModel TopSpec LevelModel LevelSpec.
From Verif Require Import DenseProof DenseMain SparseProof AssemblyProof AssemblyProof2 AssemblyProof3 ElemProof ElemProof2 ElemProof3 ElemMain HomMain LoadMain KrylovProof PatchProof PatchProof2 StableProof StableProof2 StableProof3 StableProof4 ThetaProof ThetaProof2 ThetaProof3 ThetaProof4 ThetaProof5 ThetaMain TopProof4 TopProof3 LevelProof LevelProof2 LevelProof3.
Import ListNotations.
Local Open Scope R_scope.

Section Diffuse.
Variables (solve : csr R -> list R -> res (list R)) (l : level) (tdn : list (list R)) (C lambda : R).
Hypothesis (HS : spd_solver solve) (HL : level_ok l) (HN : nodal_field l tdn).
Let N := length (lv_x l).
Definition fM : routine := fun s q el => ReactionDiffusionConsistentMass s q el [0%nat] (lv_x l).
Definition fK : routine := fun s q el => ReactionDiffusionStiffness s q el [0%nat] (lv_x l) (lv_tau l * INR (length (lv_elements l))).
Let load := level_source l tdn C lambda.

Lemma pair_ok : theta_pair [0%nat] (lv_x l) fM fK.
Proof. apply tp_reaction. apply Rmult_lt_0_compat; [apply (lk_tau l HL)|apply (nle_pos l HL)]. Qed.
Lemma tdn_nodes el : In el (lv_elements l) -> nodes_ok 1 el tdn.
Proof. intros Hel k Hk. pose proof (lk_nodes l HL el k Hel Hk) as Hk'. destruct HN as [L H]. rewrite L, (H k Hk'). lia. Qed.
Lemma reaction_call el : In el (lv_elements l) -> exists Fe ne, ReactionDiffusionReaction (lv_s l) (lv_q l) el [0%nat] (lv_x l) tdn (fun u _ => C * (u - lambda)) = Ok (Fe, ne) /\ length Fe = length el /\ numbered 1 (length el) [0%nat] ne.
Proof.
  intros Hel. destruct (lk_piece l HL el Hel) as (_ & He & _). cbn [p_shape p_rule p_nodes] in He.
  destruct (C82_reaction_pf _ _ el [0%nat] _ tdn (fun u _ => C * (u - lambda)) He (tdn_nodes el Hel) eq_refl) as (F & ne & v & E & HV & Hn & _). exists F, ne. splits; auto. apply HV.
Qed.

Lemma scal_one (K : mat R) : mscal R_ops 1 K = K.
Proof. destruct K as [r c v]. unfold mscal. cbn [mrow mcol mval omul R_ops]. f_equal. rewrite <- (map_id v) at 2. apply map_ext. intros x. ring. Qed.
Lemma sub_zero (A K : mat R) r c f g : is_mat A r c f -> is_mat K r c g -> msub R_ops A (mscal R_ops 0 K) = Ok A.
Proof.
  intros HA HK. destruct (Rmsub A (mscal R_ops 0 K) r c f (fun i j => g i j * 0) HA (Rmscal 0 K r c g HK)) as (m & E & Hm). rewrite E. f_equal. apply (mat_eq _ _ _ _ _ _ Hm HA). intros i j _ _. ring.
Qed.

Lemma diffuse_theta phi t acc : (forall i j, (i < N)%nat -> j = O -> in_table phi i j) ->
  foldM (lv_diffuse_add l tdn C lambda phi t) (seq 0 (nle l)) acc = foldM (theta_add fM fK load (lv_s l) (lv_q l) (lv_dt l) 1 phi t) (lv_elements l) acc.
Proof.
  intros HP. assert (EL : lv_elements l = map (lel l) (seq 0 (nle l))).
  { unfold nle, lel. generalize (lv_elements l). intros m. apply (nth_ext _ _ [] []); [now rewrite map_length, seq_length|]. intros i Hi. rewrite (nth_indep (map _ _) [] ((fun i => nth i m []) O)) by (now rewrite map_length, seq_length). now rewrite (map_nth (fun i => nth i m [])), seq_nth. }
  rewrite EL. apply foldM_map. intros s i Hi. apply in_seq in Hi. assert (Hi' : (i < nle l)%nat) by lia. pose proof (lel_in l i Hi') as Hel. destruct (lk_piece l HL _ Hel) as (_ & He & _). cbn [p_shape p_rule p_nodes] in He.
  destruct (reaction_call _ Hel) as (Fe & ne & E3 & LF & Hn).
  destruct (pair_energy [0%nat] (lv_x l) fM fK pair_ok eq_refl) as (HSt & rho & _ & HM). destruct (HM _ _ _ He) as (Me & neM & m & E1 & H1 & N1 & _).
  destruct (StableProof.routine_energy [0%nat] (lv_x l) 2 1 fK HSt eq_refl) as (_ & _ & W & HW & _). destruct (HW _ _ _ He) as (Ke & neK & k & E2 & H2 & N2 & _).
  pose proof (ElemMain.numbered_eq _ _ _ _ _ N1 Hn) as ->. pose proof (ElemMain.numbered_eq _ _ _ _ _ N2 Hn) as ->.
  unfold lv_diffuse_add, theta_add. rewrite (rd_nth _ i []) by exact Hi'. cbn [bind]. fold (lel l i). unfold fM in E1. unfold fK in E2. rewrite E1. cbn [bind]. rewrite E2. cbn [bind]. rewrite E3. cbn [bind].
  change (fK (lv_s l) (lv_q l) (lel l i)) with (ReactionDiffusionStiffness (lv_s l) (lv_q l) (lel l i) [0%nat] (lv_x l) (lv_tau l * INR (length (lv_elements l)))). rewrite E2. cbn [bind].
  change (fM (lv_s l) (lv_q l) (lel l i)) with (ReactionDiffusionConsistentMass (lv_s l) (lv_q l) (lel l i) [0%nat] (lv_x l)). rewrite E1. cbn [bind].
  unfold load, level_source. rewrite E3. cbn [bind]. destruct (element_vector phi ne (lel l i)) as [phie|] eqn:E4; [|reflexivity]. cbn [bind]. unfold theta_element.
  pose proof (lk_dt l HL) as Pdt. destruct (Rmdivs Me _ _ _ (lv_dt l) (Rgt_not_eq _ _ Pdt) H1) as (Md & E5 & H5). rewrite E5. cbn [bind]. rewrite scal_one. replace (1 - 1) with 0 by ring. rewrite (sub_zero Md Ke _ _ _ _ H5 H2).
  destruct (madd R_ops Md Ke) as [Te|]; [|reflexivity]. cbn [bind]. destruct (mmulv R_ops Md phie) as [y|]; [|reflexivity]. cbn [bind]. destruct (vadd R_ops y Fe) as [Ye|]; [|reflexivity]. reflexivity.
Qed.

(** the tables *)
Lemma in_repeat1 {A} (x : A) M i j : in_table (repeat (repeat x 1) M) i j <-> (i < M)%nat /\ j = O.
Proof. unfold in_table. rewrite nth_repeat_in. destruct (Nat.ltb_spec i M); cbn [repeat length]; lia. Qed.
Lemma num_repeat1 M i j : num (repeat (repeat (Some 0%nat) 1) M) i j = if (i <? M)%nat && (j =? 0)%nat then Some 0%nat else None.
Proof. unfold num. rewrite nth_repeat_in. destruct (i <? M)%nat; cbn [repeat andb]; destruct j as [|[|j]]; reflexivity. Qed.
Lemma free_dec i : (i < N)%nat -> free_node l i \/ ~ free_node l i.
Proof.
  intros Hi. pose proof (last_value_in (lv_phifixed l) i 0) as LV. destruct (last_value (lv_phifixed l) i 0) as [v|]; [right; intros [_ H]; exact (H v LV)|left; split; auto].
Qed.
Lemma phi_tables phi : nodal_field l phi -> exists phi0 t0, set_dirichlet (phi, repeat (repeat (Some 0%nat) 1) N) (lv_phifixed l) = Ok (phi0, t0) /\
  zero_edge l phi phi0 /\ (forall i j, in_table t0 i j <-> (i < N)%nat /\ j = O) /\ (forall i j, num t0 i j <> None <-> free_node l i /\ j = O).
Proof.
  intros [LP HP]. destruct (set_dirichlet_ok (lv_phifixed l) phi (repeat (repeat (Some 0%nat) 1) N)) as (phi0 & t0 & E & [S1 S2] & St & Vu & Vt).
  { intros i j v H. destruct (lk_phi l HL i j v H) as (A & -> & _). split; [unfold in_table; rewrite (HP i A); lia|apply in_repeat1; auto]. }
  exists phi0, t0. split; [exact E|]. split; [|split].
  - split; [split; [congruence|intros i Hi; rewrite (S2 i); now apply HP]|]. intros i Hi. rewrite Vu. pose proof (last_value_in (lv_phifixed l) i 0) as LV. destruct (last_value (lv_phifixed l) i 0) as [v|].
    + split; [intros [_ F]; exfalso; exact (F v LV)|]. intros _. apply (lk_phi l HL i O v LV).
    + split; [reflexivity|]. intros F. exfalso. apply F. split; auto.
  - intros i j. rewrite <- (in_repeat1 (Some 0%nat) N i j). apply (same_shape_in t0 _ i j St).
  - intros i j. rewrite Vt, num_repeat1. pose proof (last_value_in (lv_phifixed l) i j) as LV. destruct (last_value (lv_phifixed l) i j) as [v|].
    + split; [congruence|]. intros [[_ F] ->]. exfalso. exact (F v LV).
    + destruct (Nat.ltb_spec i N), (Nat.eqb_spec j 0); cbn [andb]; split; try congruence; intros H'; try (destruct H' as [[? ?] ?]; unfold N in *; lia); try lia. subst j. split; auto. split; auto.
Qed.
Lemma mesh_phi t0 : (forall i j, in_table t0 i j <-> (i < N)%nat /\ j = O) -> (forall i j, num t0 i j <> None <-> free_node l i /\ j = O) -> theta_mesh [0%nat] (lv_x l) (lv_s l) (lv_q l) (lv_elements l) t0.
Proof.
  intros HT HF. split; [reflexivity|apply (lk_piece l HL)| |].
  - intros el k c Hel Hk Hc. apply HT. destruct Hc as [<-|[]]. split; auto. now apply (lk_nodes l HL el).
  - intros i j H. apply HF in H. destruct H as [[Hi _] ->]. split; [now left|]. now apply (lk_cover l HL).
Qed.

Lemma renumber_none t0 t n i j : renumber t0 = (t, n) -> (num t i j = None <-> num t0 i j = None).
Proof. intros ER. destruct (renumber_ok _ _ _ ER) as ((_ & _ & FR) & _). pose proof (FR i j). tauto. Qed.
Lemma Ksym esK : Forall2 (made_by fK) (map (mkPiece (lv_s l) (lv_q l)) (lv_elements l)) esK -> forall e, In e esK -> forall a b, In a (e_dofs e) -> In b (e_dofs e) -> e_k e (dloc a) (dloc b) = e_k e (dloc b) (dloc a).
Proof.
  intros F2 e He. destruct (Forall2_In_r _ _ _ F2 _ He) as (p & Hp & Hm). apply in_map_iff in Hp. destruct Hp as (el & <- & Hel).
  destruct (pair_energy [0%nat] (lv_x l) fM fK pair_ok eq_refl) as (HSt & _).
  apply (element_held [0%nat] (lv_x l) 2 1 fK _ e (fun _ _ => 0) HSt eq_refl (lk_piece l HL el Hel) Hm).
Qed.
Lemma step_least elements ps t n T0 T1 S dt : numbering n t -> (forall c, In c ps -> good_pair [0%nat] elements c) -> 0 < dt ->
  (forall c, In c ps -> forall a b, In a (e_dofs (snd c)) -> In b (e_dofs (snd c)) -> e_k (snd c) (dloc a) (dloc b) = e_k (snd c) (dloc b) (dloc a)) ->
  (forall i j, num t i j = None -> uval S i j = uval T1 i j) ->
  (forall i j, num t i j <> None -> theta_balance (map fst ps) (map snd ps) dt 1 T0 T1 i j) ->
  step_energy (map fst ps) (map snd ps) dt T0 T1 <= step_energy (map fst ps) (map snd ps) dt T0 S.
Proof.
  intros NU HG Hdt KS HF HT. set (D := fun i j => 1 * uval S i j + (-1) * uval T1 i j). set (P := fun i j => 1 * uval T1 i j + (-1) * uval T0 i j).
  assert (V : sum_over ps (fun c => sum_over (e_dofs (fst c)) (fun a => D (dnode a) (ddof a) * bal_row c dt 1 T0 T1 a)) = 0).
  { apply (virtual ps (fun c => e_dofs (fst c)) (fun c a => bal_row c dt 1 T0 T1 a) D n t NU).
    - intros c a _ _ H. unfold D. rewrite (HF _ _ H). ring.
    - intros i j H. exact (balance_rows [0%nat] elements ps dt 1 T0 T1 i j HG (HT i j H)). }
  set (J := fun (c : elem * elem) T => bil (fst c) (e_dofs (fst c)) (fun i j => 1 * uval T i j + (-1) * uval T0 i j) (fun i j => 1 * uval T i j + (-1) * uval T0 i j) / (2 * dt) +
    bil (snd c) (e_dofs (fst c)) (uval T) (uval T) / 2 - sum_over (e_dofs (fst c)) (fun a => e_f (fst c) (dloc a) * duval T a)).
  assert (EJ : forall T, step_energy (map fst ps) (map snd ps) dt T0 T = sum_over ps (fun c => J c T)).
  { intros T. unfold step_energy, cap_dist, J. rewrite !sum_map. unfold Rdiv. rewrite sum_over_minus, sum_over_plus. f_equal. f_equal.
    - rewrite Rmult_comm, <- sum_over_scal. apply sum_ext. intros c Hc. rewrite Rmult_comm. f_equal. unfold bil. apply sum_ext. intros a Ha. rewrite <- sum_over_scal. apply sum_ext. intros b Hb. unfold duval. ring.
    - rewrite Rmult_comm, <- sum_over_scal. apply sum_ext. intros c Hc. rewrite Rmult_comm. f_equal. destruct (HG c Hc) as (ED & _). unfold energy2, bil. rewrite ED. apply sum_ext. intros a Ha. rewrite <- sum_over_scal. apply sum_ext. intros b Hb. unfold duval. ring. }
  rewrite !EJ. enough (0 <= sum_over ps (fun c => J c S) - sum_over ps (fun c => J c T1)) by lra. rewrite <- sum_over_minus.
  enough (X : 0 <= sum_over ps (fun c => (J c S - J c T1) - / dt * sum_over (e_dofs (fst c)) (fun a => D (dnode a) (ddof a) * bal_row c dt 1 T0 T1 a))) by (rewrite (sum_over_minus ps (fun c => J c S - J c T1)), sum_over_scal, V in X; lra).
  apply sum_over_nonneg. intros c Hc. destruct (HG c Hc) as (ED & _ & SY & PO & _). specialize (KS c Hc). rewrite ED in KS. set (Ds := e_dofs (fst c)) in *.
  assert (E1 : sum_over Ds (fun a => D (dnode a) (ddof a) * bal_row c dt 1 T0 T1 a) = bil (fst c) Ds D P - dt * (sum_over Ds (fun a => e_f (fst c) (dloc a) * D (dnode a) (ddof a)) - bil (snd c) Ds D (uval T1))).
  { unfold bil. rewrite <- sum_over_minus, <- sum_over_scal, <- sum_over_minus. apply sum_ext. intros a Ha. unfold bal_row. fold Ds.
    rewrite (sum_ext Ds (fun b => e_k (fst c) (dloc a) (dloc b) * P (dnode b) (ddof b)) (fun b => e_k (fst c) (dloc a) (dloc b) * duval T1 b - e_k (fst c) (dloc a) (dloc b) * duval T0 b)) by (intros; unfold P, duval; ring).
    rewrite sum_over_minus. unfold duval. ring. }
  assert (K0 : 0 <= bil (snd c) Ds D D) by (destruct (PO D) as [_ X]; rewrite <- bil_energy, ED in X; exact X).
  assert (C0 : 0 <= bil (fst c) Ds D D) by (destruct (PO D) as [X _]; rewrite <- bil_energy in X; exact X).
  set (Q := fun i j => 1 * uval S i j + (-1) * uval T0 i j).
  assert (EQ : bil (fst c) Ds Q Q = bil (fst c) Ds P P + 2 * bil (fst c) Ds D P + bil (fst c) Ds D D).
  { assert (A1 : forall v, bil (fst c) Ds Q v = bil (fst c) Ds P v + bil (fst c) Ds D v). { intros v. unfold Q, P, D. rewrite !bil_l. ring. }
    rewrite A1, (bil_sym _ _ P Q SY), (bil_sym _ _ D Q SY), !A1, (bil_sym _ _ P D SY). ring. }
  assert (EK : bil (snd c) Ds (uval S) (uval S) = bil (snd c) Ds (uval T1) (uval T1) + 2 * bil (snd c) Ds D (uval T1) + bil (snd c) Ds D D).
  { unfold D. rewrite !bil_l, !bil_r, (bil_sym _ _ (uval T1) (uval S) KS). ring. }
  assert (EF : sum_over Ds (fun a => e_f (fst c) (dloc a) * D (dnode a) (ddof a)) = sum_over Ds (fun a => e_f (fst c) (dloc a) * duval S a) - sum_over Ds (fun a => e_f (fst c) (dloc a) * duval T1 a)).
  { rewrite <- sum_over_minus. apply sum_ext. intros a Ha. unfold D, duval. ring. }
  rewrite E1, EF. unfold J. fold Ds Q P. rewrite EQ, EK.
  set (x1 := bil (fst c) Ds P P). set (x2 := bil (fst c) Ds D P). set (x3 := bil (fst c) Ds D D) in *. set (x4 := bil (snd c) Ds D D) in *. set (x5 := bil (snd c) Ds D (uval T1)). set (x6 := bil (snd c) Ds (uval T1) (uval T1)).
  set (y1 := sum_over Ds _). set (y2 := sum_over Ds _). clearbody x1 x2 x3 x4 x5 x6 y1 y2.
  replace (_ - _) with (x3 * (/ dt / 2) + x4 / 2) by (field; lra). pose proof (Rinv_0_lt_compat dt Hdt). nra.
Qed.

Lemma diffuse_value phi : nodal_field l phi -> exists phi0 phi1 esM esK, lv_diffuse solve l tdn C lambda phi = Ok phi1 /\ zero_edge l phi phi0 /\ nodal_field l phi1 /\
  diffusion_elems l tdn C lambda esM esK /\ (forall i, (i < N)%nat -> ~ free_node l i -> uval phi1 i 0 = 0) /\
  (forall i, free_node l i -> theta_balance esM esK (lv_dt l) 1 phi0 phi1 i 0) /\
  (forall psi, nodal_field l psi -> (forall i, (i < N)%nat -> ~ free_node l i -> uval psi i 0 = 0) ->
     ((forall i, free_node l i -> theta_balance esM esK (lv_dt l) 1 phi0 psi i 0) -> psi = phi1) /\
     step_energy esM esK (lv_dt l) phi0 phi1 <= step_energy esM esK (lv_dt l) phi0 psi).
Proof.
  intros HP. destruct (phi_tables phi HP) as (phi0 & t0 & E0 & ZE & IT & FT). destruct (renumber t0) as [t n] eqn:ER. destruct (renumber_ok _ _ _ ER) as (SP & _ & _ & NU & _).
  pose proof ZE as [[L0 R0] Z0]. assert (IU : forall i j, in_table t0 i j -> in_table phi0 i j) by (intros i j H; apply IT in H; destruct H as [H ->]; unfold in_table; rewrite (R0 i H); lia).
  pose proof (mesh_phi t0 IT FT) as MP.
  destruct (C107_elements_pf [0%nat] (lv_x l) fM fK load (lv_s l) (lv_q l) (lv_elements l) t0 phi0 pair_ok MP IU) as (esM & esK & F1 & F2 & F3).
  { intros el Hel. destruct (reaction_call el Hel) as (Fe & ne & E & LF & _). exists (Some Fe). unfold load, level_source. rewrite E. cbn [bind]. auto. }
  destruct (theta_solve [0%nat] (lv_x l) fM fK load (lv_s l) (lv_q l) (lv_elements l) (lv_dt l) 1 t0 t n phi0 esM esK pair_ok MP (lk_dt l HL) Rlt_0_1 ER IU F1 F2 F3) as (A & F & E1 & SQ & LF & SY & PD & HX).
  destruct (HS n A F SQ LF SY PD) as (x & Ex & Lx & Sx). destruct (HX x Lx) as (phi1 & ED & IN1 & V1 & _ & BAL). pose proof (proj1 BAL Sx) as B1.
  destruct (C107_step_pf [0%nat] (lv_x l) fM fK load (lv_s l) (lv_q l) (lv_elements l) (lv_dt l) 1 t0 t n phi0 esM esK pair_ok MP (lk_dt l HL) Rlt_0_1 ER IU F1 F2 F3) as (A' & F' & x' & phi1' & E1' & _ & _ & _ & Lx' & Ex' & Ux' & ED' & FIX' & B' & UNI).
  rewrite E1 in E1'. injection E1' as <- <-. pose proof (Ux' x Lx Sx) as Exx. subst x'. rewrite ED in ED'. injection ED' as <-.
  assert (NF1 : nodal_field l phi1).
  { destruct (disassemble_ok phi0 x t) as (u' & Eu & [S1 S2] & _).
    - intros i j H. apply IU. destruct SP as (_ & SL & _). unfold in_table in *. now rewrite SL.
    - intros i j k Hk. destruct NU as (B & _). rewrite Lx. exact (B i j k Hk).
    - rewrite ED in Eu. injection Eu as <-. split; [congruence|]. intros i Hi. rewrite (S2 i). now apply R0. }
  assert (NONE : forall i, (i < N)%nat -> ~ free_node l i -> num t0 i 0 = None). { intros i Hi Hf. destruct (num t0 i 0) as [k|] eqn:Ek; auto. exfalso. apply Hf. apply (FT i O). congruence. }
  exists phi0, phi1, esM, esK. split; [|split; [exact ZE|split; [exact NF1|split; [split; [exact F1|split; [exact F2|exact F3]]|split; [|split]]]]].
  - unfold lv_diffuse. fold N. rewrite E0. cbn [bind]. rewrite ER. fold (nle l). rewrite diffuse_theta.
    + unfold theta_system in E1. destruct (foldM _ (lv_elements l) _) as [[K F0]|]; [|discriminate E1]. cbn [bind] in E1 |- *. destruct (csr_of_lil K) as [[A0 K']|]; [|discriminate E1]. cbn [bind] in E1 |- *. injection E1 as -> ->. rewrite Ex. cbn [bind]. exact ED.
    + intros i j Hi ->. unfold in_table. rewrite (R0 i Hi). lia.
  - intros i Hi Hf. rewrite (FIX' i O (NONE i Hi Hf)). now apply Z0.
  - intros i Hf. apply B'. apply FT. auto.
  - intros psi NP ZP. split.
    + intros HB. assert (EV : forall i j, uval psi i j = uval phi1 i j).
      { apply UNI.
        - intros i j Hn. destruct (Nat.lt_ge_cases i N) as [Hi|Hi].
          + destruct j as [|j]; [|unfold uval; rewrite !nth_overflow; auto; [rewrite (R0 i Hi); lia|destruct NP as [_ HP']; rewrite (HP' i Hi); lia]]. destruct (free_dec i Hi) as [Hf|Hf]; [exfalso; apply (proj2 (FT i O)); auto|]. rewrite (ZP i Hi Hf). symmetry. now apply Z0.
          + unfold uval. destruct NP as [LP' _]. rewrite (nth_overflow psi), (nth_overflow phi0) by (unfold N in Hi; lia). reflexivity.
        - intros i j Hn. apply FT in Hn. destruct Hn as [Hf ->]. now apply HB. }
      destruct NP as [LP' RP'], NF1 as [L1 R1]. apply (nth_ext _ _ [] []); [congruence|]. intros i Hi. rewrite LP' in Hi. rewrite (field_row l psi i (conj LP' RP') Hi), (field_row l phi1 i (conj L1 R1) Hi). now rewrite EV.
    + destruct (pairs [0%nat] (lv_x l) fM fK (lv_s l) (lv_q l) (lv_elements l) esM esK pair_ok eq_refl (lk_piece l HL) F1 F2) as (ps & -> & -> & HG).
      apply (step_least (lv_elements l) ps t n phi0 phi1 psi (lv_dt l) NU HG (lk_dt l HL)).
      * intros c Hc. apply (Ksym (map snd ps) F2 (snd c)). now apply in_map.
      * intros i j Hn. apply (renumber_none t0 t n i j ER) in Hn. destruct (Nat.lt_ge_cases i N) as [Hi|Hi].
        -- destruct j as [|j]; [|unfold uval; rewrite !nth_overflow; auto; [destruct NF1 as [_ HP']; rewrite (HP' i Hi); lia|destruct NP as [_ HP']; rewrite (HP' i Hi); lia]]. destruct (free_dec i Hi) as [Hf|Hf]; [exfalso; apply (proj2 (FT i O)); auto|]. rewrite (ZP i Hi Hf). rewrite (FIX' i O (NONE i Hi Hf)). symmetry. now apply Z0.
        -- unfold uval. destruct NP as [LP' _], NF1 as [L1 _]. rewrite (nth_overflow psi), (nth_overflow phi1) by (unfold N in Hi; lia). reflexivity.
      * intros i j Hn. apply B'. intros X. apply Hn. now apply (renumber_none t0 t n i j ER).
Qed.
End Diffuse.
