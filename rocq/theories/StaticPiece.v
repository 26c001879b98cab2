(** Elements without mechanisms: the assembled matrix of a mesh that is held is
    symmetric and positive definite; bricks have no mechanisms. *)
From Coq Require Import List Arith Lia Bool Reals Lra.
From Verif Require Import Res SumR DenseModel DenseSpec ShapeModel QuadModel QuadSpec ElemModel ElemSpec SparseModel SparseSpec AssemblyModel AssemblySpec KrylovSpec PatchSpec StableSpec StaticModel StaticSpec.
From Verif Require Import DenseProof AssemblyProof AssemblyProof3 ElemProof ElemProof2 ElemProof3 ElemMain HomMain PatchProof PatchProof2 StableProof StableProof2 StableProof3.
Import ListNotations.
Local Open Scope R_scope.

Lemma element_sound dou xs d m f p e v : stiff_routine dou xs d m f -> length dou = m -> sound_piece d m xs p -> made_by f p e ->
  0 <= denergy e v /\ (forall a b, In a (e_dofs e) -> In b (e_dofs e) -> e_k e (dloc a) (dloc b) = e_k e (dloc b) (dloc a)) /\
  (denergy e v = 0 -> forall ks, supports xs m ks -> (forall k, In k ks -> In k (p_nodes p)) -> (forall k c, In k ks -> In c dou -> v k c = 0) ->
     forall k c, In k (p_nodes p) -> In c dou -> v k c = 0).
Proof.
  intros HR HD (He & HQ & HN) [EN Ef]. destruct (routine_energy dou xs d m f HR HD) as (Hd2 & Hm & W & HW & HW0 & HWs & HWz).
  pose proof (HW _ _ _ He) as HSt. pose proof (stiffness_symmetric d m _ _ _ _ _ _ W He Hd2 HSt HWs) as (K1 & ne1 & k1 & E1 & HK1 & Hsy).
  destruct HSt as (K & ne & kf & Er & Hk & Hn & HF). rewrite Er in Ef. injection Ef as EK Ene. rewrite E1 in Er. injection Er as -> ->.
  rewrite EK in Hk, HK1. rewrite Ene in Hn. rewrite <- EN in *.
  set (z := fun i c => v (nth i (e_nodes e) O) (nth c dou O)).
  assert (EF : denergy e v = form m (length (e_nodes e)) kf z z).
  { eapply (denergy_form d m (p_shape p) (p_rule p)); eauto. }
  pose proof (gradients_gradU _ _ _ _ d m z He Hd2) as HG. rewrite (HF z z _ _ HG HG) in EF.
  set (H := fun r => gradU (p_shape p) (nodal (e_nodes e) xs) r z) in *.
  assert (NN : forall g, (g < q_n (p_rule p))%nat -> 0 <= wprod d (nth g (q_weights (p_rule p)) []) * (jac (p_shape p) (nodal (e_nodes e) xs) (pt (p_rule p) g) * W (H (pt (p_rule p) g)) (H (pt (p_rule p) g)))).
  { intros g Hg. destruct (HQ g Hg) as [HJ Hw]. apply Rmult_le_pos; [lra|]. apply Rmult_le_pos; [lra|]. apply HW0. }
  splits.
  - rewrite EF. apply quad_nonneg. exact NN.
  - intros a b Ha Hb. destruct (numbered_dofs m dou a _ _ Hn Ha) as (i & j & Hi & Hj & ->). destruct (numbered_dofs m dou b _ _ Hn Hb) as (i' & j' & Hi' & Hj' & ->).
    cbn [dloc]. unfold e_k. rewrite !(mat_entry _ _ _ _ _ _ HK1) by nia. apply Hsy; nia.
  - intros E0 ks HS Hks Hv k c Hin Hc. rewrite EF in E0.
    assert (ST : forall g, (g < q_n (p_rule p))%nat -> still d m (H (pt (p_rule p) g))).
    { intros g Hg. apply HWz. pose proof (bigsum_nonneg_eq0 _ _ NN E0 g Hg) as Z. cbv beta in Z. destruct (HQ g Hg) as [HJ Hw].
      apply Rmult_integral in Z. destruct Z as [Z|Z]; [lra|]. apply Rmult_integral in Z. destruct Z as [Z|Z]; [lra|exact Z]. }
    destruct (In_nth _ _ O Hin) as (i & Hi & <-). destruct (In_nth _ _ O Hc) as (c' & Hc' & <-). rewrite HD in Hc'. change (z i c' = 0).
    assert (HV : forall k, In k ks -> exists j, (j < length (e_nodes e))%nat /\ nth j (e_nodes e) O = k /\ forall c, (c < m)%nat -> z j c = 0).
    { intros k Hk'. destruct (In_nth _ _ O (Hks k Hk')) as (j & Hj & Ej). exists j. splits; auto. intros c Hc0. unfold z. rewrite Ej. apply Hv; auto. apply nth_In. lia. }
    destruct He as (_ & Hsd & HL & _ & _ & HJ). rewrite HL in *.
    unfold no_mechanism in HN. rewrite <- EN in HN. pose proof (HN z _ HG ST) as HNM. clear HN.
    destruct HS as [k0|k0 k1' HX|k0 k1' k2 HX].
    + destruct (HV k0 ltac:(cbn; auto)) as (j & Hj & _ & Hz). replace c' with O by lia.
      rewrite (HNM i j Hi Hj). apply Hz. lia.
    + destruct (HV k0 ltac:(cbn; auto)) as (j & Hj & Ej & Hz). destruct (HV k1' ltac:(cbn; auto)) as (j1 & Hj1 & Ej1 & Hz1).
      assert (d = 2%nat) as -> by (inversion HR; auto).
      apply (rigid_held2 _ (nodal (e_nodes e) xs) z j j1 HNM); auto.
      unfold nodal. rewrite Ej, Ej1. exact HX.
    + destruct (HV k0 ltac:(cbn; auto)) as (j & Hj & Ej & Hz). destruct (HV k1' ltac:(cbn; auto)) as (j1 & Hj1 & Ej1 & Hz1). destruct (HV k2 ltac:(cbn; auto)) as (j2 & Hj2 & Ej2 & Hz2).
      assert (d = 3%nat) as -> by (inversion HR; auto).
      apply (rigid_held3 _ (nodal (e_nodes e) xs) z j j1 j2 HNM); auto.
      unfold nodal. rewrite Ej, Ej1, Ej2. exact HX.
Qed.

Lemma sound_runs dou xs d m f P : stiff_routine dou xs d m f -> length dou = m -> (forall p, In p P -> sound_piece d m xs p) ->
  exists es, Forall2 (made_by f) P es /\ forall e, In e es -> (forall a, e_f e a = 0) /\ forall t, (forall p k c, In p P -> In k (p_nodes p) -> In c dou -> in_table t k c) -> elem_fits t e.
Proof.
  intros HR HD. destruct (routine_energy dou xs d m f HR HD) as (Hd2 & Hm & W & HS & _).
  induction P as [|p P IH]; intros HP.
  - exists []. split; [constructor|]. intros e [].
  - destruct (IH (fun p' H => HP p' (or_intror H))) as (es & F & HE). destruct (HP p (or_introl eq_refl)) as (He & _ & _).
    destruct (HS _ _ _ He) as (K & ne & k & Er & Hk & Hn & _).
    exists (mkElem (p_nodes p) ne K (repeat 0 (mrow K)) :: es). split.
    + constructor; [|exact F]. split; auto.
    + intros e [<-|Hin].
      * split; [intros a; unfold e_f; cbn [e_F]; apply nth_repeat|]. intros t Ht. unfold elem_fits. cbn [e_nodes e_nte e_K e_F]. split; [rewrite (proj1 Hn); lia|]. split; [apply Hk|].
        assert (HR' : mrow K = (m * length (p_nodes p))%nat /\ mcol K = (m * length (p_nodes p))%nat) by (split; apply Hk).
        intros a Ha. unfold e_dofs in Ha. cbn [e_nodes e_nte] in Ha. rewrite repeat_length.
        destruct (numbered_dofs m dou a _ _ Hn Ha) as (i & j & Hi & Hj & ->). cbn [dnode ddof dloc]. destruct HR' as [-> ->].
        splits; [|nia|nia|nia]. apply (Ht p); [now left|now apply nth_In|]. apply nth_In. lia.
      * destruct (HE e Hin) as [A B]. split; auto. intros t Ht. apply B. intros p' k0 c Hp'. apply Ht. now right.
Qed.

Lemma sound_definite dou xs d m f P es n t u G : stiff_routine dou xs d m f -> length dou = m -> (forall p, In p P -> sound_piece d m xs p) -> Forall2 (made_by f) P es ->
  (forall e, In e es -> elem_ok n t u e) -> numbering n t -> (forall i j, (i < n)%nat -> G i j = sum_over es (fun e => k_contrib t e i j)) ->
  (forall i j, num t i j <> None -> In j dou /\ held xs m (map p_nodes P) (fun k => forall c, In c dou -> num t k c = None) i) ->
  symmetric n G /\ pos_def n G.
Proof.
  intros HR HD HP HF He (B2 & I2 & O2) HG HH. split.
  - intros i j Hi Hj. rewrite !HG by auto. apply sum_ext. intros e Hin. destruct (Forall2_In_r _ _ _ HF e Hin) as (p & Hp & Hm).
    apply k_contrib_sym. apply (element_sound dou xs d m f p e (fun _ _ => 0) HR HD (HP p Hp) Hm).
  - intros x Hx. set (v := fun k c => match num t k c with Some j => x j | None => 0 end).
    assert (EE : dot n x (matvec n G x) = sum_over es (fun e => denergy e v)).
    { unfold dot, matvec. rewrite (sum_ext es _ (fun e => bigsum n (fun i => bigsum n (fun j => x i * k_contrib t e i j * x j)))).
      2:{ intros e Hin. rewrite (energy n t u) by auto. reflexivity. }
      rewrite <- bigsum_over. apply bigsum_ext. intros i Hi. rewrite <- bigsum_over, <- bigsum_scal. apply bigsum_ext. intros j Hj.
      rewrite HG by auto. rewrite (Rmult_comm (sum_over _ _)), <- Rmult_assoc, <- sum_over_scal. apply sum_ext. intros; ring. }
    assert (NN : forall e, In e es -> 0 <= denergy e v).
    { intros e Hin. destruct (Forall2_In_r _ _ _ HF e Hin) as (p & Hp & Hm). apply (element_sound dou xs d m f p e v HR HD (HP p Hp) Hm). }
    rewrite EE. destruct (Rle_lt_or_eq_dec _ _ (sum_over_nonneg es _ NN)) as [Hlt|H0]; [exact Hlt|]. exfalso. symmetry in H0.
    assert (Z : forall k, held xs m (map p_nodes P) (fun k => forall c, In c dou -> num t k c = None) k -> forall c, In c dou -> v k c = 0).
    { intros k Hk. induction Hk as [k Hb|el ks k Hel HS Hks _ IH Hin]; intros c Hc.
      - unfold v. now rewrite (Hb c Hc).
      - apply in_map_iff in Hel. destruct Hel as (p & <- & Hp). destruct (Forall2_In_l _ _ _ HF p Hp) as (e & Hin' & Hm).
        destruct (element_sound dou xs d m f p e v HR HD (HP p Hp) Hm) as (_ & _ & T).
        apply (T (sum_zero_each es _ NN H0 e Hin') ks HS Hks); auto. }
    destruct Hx as (k & Hk & Hne). destruct (O2 k Hk) as (i & j & Eij). destruct (HH i j ltac:(congruence)) as [Hj Hh].
    apply Hne. specialize (Z i Hh j Hj). unfold v in Z. now rewrite Eij in Z.
Qed.

Lemma stable_sound d m xs p : (m = 1 \/ m = d)%nat -> stable_piece d xs p -> sound_piece d m xs p.
Proof.
  intros Hm (HP & He & HQ). split; [exact He|]. split; [exact HQ|]. destruct He as (_ & Hd & _ & _ & _ & HJ). intros y H HG HS. destruct m as [|[|m]].
  - exfalso. destruct Hm as [Hm|Hm]; [discriminate|]. destruct HP as [[E _]|[[E _]|[E _]]]; rewrite E in Hd; cbn in Hd; lia.
  - exact (still_scalar _ _ _ y H d HP Hd HG HS).
  - destruct Hm as [Hm|Hm]; [discriminate|]. rewrite Hm in HG, HS. exact (still_vector _ _ _ y H d HP Hd HG HJ HS).
Qed.
