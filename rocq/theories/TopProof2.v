(** The element matrices of a design. *)
From Coq Require Import List Arith Lia Bool Reals Lra.
From Verif Require Import Res SumR DenseModel DenseR DenseSpec ShapeModel QuadModel QuadSpec ElemModel ElemSpec SparseModel SparseSpec AssemblyModel AssemblySpec KrylovSpec PatchSpec StableSpec OCModel TopModel TopSpec.
From Verif Require Import DenseProof DenseMain AssemblyProof AssemblyProof2 AssemblyProof3 ElemProof ElemProof2 ElemProof3 ElemMain HomMain PatchProof PatchProof2 StableProof StableProof2 StableProof3 ThetaProof ThetaProof5.
Import ListNotations.
Local Open Scope R_scope.

Lemma simp_ok d r : 0 < r -> top_modulus d r = Ok (simp d r).
Proof. intros Hr. unfold top_modulus, cpow. destruct (Rlt_dec 0 r); [|contradiction]. cbn [bind]. f_equal. unfold simp. ring. Qed.
Lemma simp_pos d r : top_ok d -> 0 < r -> 0 < simp d r.
Proof. intros H Hr. destruct (tk_modulus d H). unfold simp. pose proof (exp_pos (tp_p d * ln r)) as P. fold (Rpower r (tp_p d)) in P. assert (0 <= (tp_E1 d - tp_E0 d) * Rpower r (tp_p d)) by (apply Rmult_le_pos; lra). lra. Qed.

(** ** Numberings with several dofs per node *)
Lemma numbered_locs m dou : forall el ne, numbered m (length el) dou ne -> map dloc (dofs el ne) = seq 0 (m * length el).
Proof.
  assert (G : forall el ne' off, length ne' = length el -> (forall i, (i < length el)%nat -> length (nth i ne' []) = m /\ forall j, (j < m)%nat -> nth j (nth i ne' []) (O, O) = (nth j dou O, (m * (off + i) + j)%nat)) ->
    map dloc (dofs el ne') = seq (m * off) (m * length el)).
  { induction el as [|e0 el IHe]; intros [|r ne'] off L N; cbn [length] in L; try lia; cbn [dofs]; [now rewrite Nat.mul_0_r|].
    rewrite map_app, map_map. cbn [dloc]. destruct (N O ltac:(cbn; lia)) as [Lr Nr]. cbn [nth] in Lr, Nr.
    rewrite (IHe ne' (S off)) by (try lia; intros i Hi; destruct (N (S i) ltac:(cbn; lia)) as [A B]; cbn [nth] in A, B; split; auto; intros j Hj; rewrite (B j Hj); f_equal; lia).
    cbn [length]. replace (m * S (length el))%nat with (m + m * length el)%nat by lia. rewrite seq_app. f_equal; [|f_equal; lia].
    apply (nth_ext _ _ O O); [now rewrite map_length, seq_length|]. intros j Hj. rewrite map_length, Lr in Hj.
    rewrite (nth_indep _ O (snd (O, O))) by (now rewrite map_length, Lr). change (fun x : nat * nat => snd x) with (@snd nat nat). rewrite map_nth, Nr, seq_nth by auto. cbn [snd]. f_equal. lia. }
  intros el ne [HL HN]. rewrite (G el ne O HL HN). now rewrite Nat.mul_0_r.
Qed.
Lemma numbered_in m dou el ne i j : numbered m (length el) dou ne -> (i < length el)%nat -> (j < m)%nat -> In (mkDof (nth i el O) (nth j dou O) (m * i + j)) (dofs el ne).
Proof.
  intros Hn Hi Hj. assert (Hs : In (m * i + j)%nat (map dloc (dofs el ne))) by (rewrite (numbered_locs m dou el ne Hn); apply in_seq; nia).
  apply in_map_iff in Hs. destruct Hs as (y & Ey & Hy). destruct (numbered_dofs m dou y _ _ Hn Hy) as (i' & j' & Hi' & Hj' & E). rewrite E in Ey. cbn [dloc] in Ey.
  assert (i' = i /\ j' = j) as [-> ->]; [|now rewrite <- E]. assert (i' = i) by nia. subst i'. split; auto. lia.
Qed.

(** ** The action of an element matrix *)
Lemma action m dou el ne K k T : numbered m (length el) dou ne -> length dou = m -> is_mat K (m * length el) (m * length el) k ->
  (forall a c, In a el -> In c dou -> in_table T a c) ->
  exists ue y, element_vector T ne el = Ok ue /\ mmulv R_ops K ue = Ok y /\ length y = (m * length el)%nat /\
    (forall a, In a (dofs el ne) -> nth (dloc a) y 0 = sum_over (dofs el ne) (fun b => e_k (mkElem el ne K y) (dloc a) (dloc b) * duval T b)) /\
    vdot R_ops ue y = Ok (bil (mkElem el ne K y) (dofs el ne) (uval T) (uval T)).
Proof.
  intros Hn HD Hk HT. set (N := length el) in *. pose proof (numbered_locs m dou el ne Hn) as LO. fold N in LO.
  assert (LD : length (dofs el ne) = (m * N)%nat) by (rewrite <- (map_length dloc), LO; apply seq_length).
  destruct (element_vector_ok T el ne) as (ue & EU & LU & HU); [destruct Hn as [-> _]; fold N; lia| | |].
  { intros a Ha. destruct (numbered_dofs m dou a el ne Hn Ha) as (i & j & Hi & Hj & ->). cbn [dnode ddof dloc]. fold N in Hi. split; [apply HT; apply nth_In; auto; lia|rewrite LD; nia]. }
  { rewrite LO. apply seq_NoDup. }
  rewrite LD in LU. assert (VU : is_vec ue (m * N) (fun i => nth i ue 0)) by (rewrite <- LU; apply is_vec_of_list).
  destruct (Rmmulv K ue _ _ k _ Hk VU) as (y & Ey & Hy). destruct (DenseMain.is_vec_nth y _ _ 0 Hy) as [Ly Vy].
  assert (AC : forall a, In a (dofs el ne) -> nth (dloc a) y 0 = sum_over (dofs el ne) (fun b => e_k (mkElem el ne K y) (dloc a) (dloc b) * duval T b)).
  { intros a Ha. destruct (numbered_dofs m dou a el ne Hn Ha) as (i & j & Hi & Hj & ->). cbn [dloc]. fold N in Hi. rewrite Vy by nia.
    rewrite (numbered_sum m dou el ne _ Hn). fold N. rewrite (Nat.mul_comm m N), bigsum_blocks. apply bigsum_ext. intros i' Hi'. apply bigsum_ext. intros j' Hj'. rewrite (Nat.mul_comm i' m). cbn [dloc].
    unfold e_k. cbn [e_K]. rewrite (mat_entry _ _ _ _ _ _ Hk) by (fold N; nia). f_equal. exact (HU _ (numbered_in m dou el ne i' j' Hn Hi' Hj')). }
  exists ue, y. splits; auto. rewrite (vdot_ok R R_ops ue y (m * N) _ _ VU Hy), gsum_bigsum. f_equal. cbn [omul R_ops]. change (bigsum (m * N) (fun i => nth i ue 0 * bigsum (m * N) (fun l => k i l * nth l ue 0)) = bil (mkElem el ne K y) (dofs el ne) (uval T) (uval T)).
  unfold bil. rewrite (numbered_sum m dou el ne _ Hn). fold N. rewrite (Nat.mul_comm m N), bigsum_blocks. apply bigsum_ext. intros i Hi. apply bigsum_ext. intros j Hj. rewrite (Nat.mul_comm i m). cbn [dloc dnode ddof].
  f_equal; [exact (HU _ (numbered_in m dou el ne i j Hn Hi Hj))|]. pose proof (AC _ (numbered_in m dou el ne i j Hn Hi Hj)) as A1. cbn [dloc] in A1. refine (eq_trans _ A1). rewrite Vy by nia. rewrite (Nat.mul_comm m N). reflexivity.
Qed.

(** ** The matrix is proportional to the modulus *)
Lemma strain_scales d E el : top_ok d -> In el (tp_elements d) -> 0 < E ->
  exists K1 K ne k1 k, top_stiffness d 1 el = Ok (K1, ne) /\ top_stiffness d E el = Ok (K, ne) /\ numbered 2 (length el) [0%nat; 1%nat] ne /\
    is_mat K1 (2 * length el) (2 * length el) k1 /\ is_mat K (2 * length el) (2 * length el) k /\
    forall a b, (a < 2 * length el)%nat -> (b < 2 * length el)%nat -> k a b = E * k1 a b.
Proof.
  intros HT Hel HE. destruct (tk_piece d HT el Hel) as (_ & He & _). cbn [p_shape p_rule p_nodes] in He. pose proof (tk_poisson d HT) as HV.
  assert (NV : (1 - 2 * tp_V d) * (1 + tp_V d) <> 0) by nra.
  destruct (call_strain _ _ el [0%nat; 1%nat] _ 1 (tp_V d) (tp_t d) He eq_refl NV) as (K1 & ne1 & k1 & E1 & H1 & N1 & F1).
  destruct (call_strain _ _ el [0%nat; 1%nat] _ E (tp_V d) (tp_t d) He eq_refl NV) as (K & ne & k & E2 & H2 & N2 & F2).
  rewrite (numbered_eq _ _ _ _ _ N2 N1) in E2. exists K1, K, ne1, k1, k. splits; auto. intros a b Ha Hb.
  rewrite <- (form_entry 2 (length el) k a b), <- (form_entry 2 (length el) k1 a b) by auto.
  pose proof (fun y => gradients_gradU (tp_s d) (tp_q d) el (tp_x d) 2 2 y He ltac:(lia)) as G.
  rewrite (F1 _ _ _ _ (G (unitv 2 a)) (G (unitv 2 b))), (F2 _ _ _ _ (G (unitv 2 a)) (G (unitv 2 b))).
  unfold quad. rewrite <- bigsum_scal. apply bigsum_ext. intros g Hg. unfold hooke, lame_lambda, lame_mu. field. splits; nra.
Qed.
