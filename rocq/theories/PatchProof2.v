(** The patch test: the force of one element, and the sum over the mesh. *)
From Coq Require Import List Arith Lia Bool Reals Lra Permutation.
From Verif Require Import Res SumR DenseModel DenseSpec ShapeModel QuadModel QuadSpec ElemModel ElemSpec AssemblyModel AssemblySpec PatchSpec.
From Verif Require Import DenseProof AssemblyProof AssemblyProof3 ElemProof ElemProof2 ElemProof3 ElemMain HomMain PatchProof.
Import ListNotations.
Local Open Scope R_scope.

Definition jij (s : shape) (q : rule) (i j : nat) : R := quad 2 q (fun r => dshp s r 0 i * dshp s r 1 j - dshp s r 1 i * dshp s r 0 j).
Definition table_of (s : shape) : list (list R) :=
  match sf_n s with 3%nat => coe3T | 6%nat => coe6T | 4%nat => coe4S | _ => coe8S end.
Lemma jij_table s q : plane_pair s q -> forall i j, (i < sf_n s)%nat -> (j < sf_n s)%nat -> jij s q i j = nth j (nth i (table_of s) []) 0.
Proof.
  intros [[-> H]|[[-> H]|[[-> H]|[-> H]]]] i j Hi Hj; unfold jij, table_of; cbn [sf_n sf_3Triangle sf_6Triangle sf_4Square sf_8Square].
  - rewrite (quad_cij q momT (fun i j => (i + j <=? 0)%nat) tab3T_0 tab3T_1 sf_3Triangle); [now apply coe3T_ok| |reflexivity|exact tab3T|auto|auto].
    apply (dom_T q 0); [lia|]. intros [|?] [|?] ?; try lia. exact H.
  - rewrite (quad_cij q momT (fun i j => (i + j <=? 2)%nat) tab6T_0 tab6T_1 sf_6Triangle); [now apply coe6T_ok| |reflexivity|exact tab6T|auto|auto].
    now apply (dom_T q 2).
  - rewrite (quad_cij q momS (fun i j => ((i <=? 1) && (j <=? 1))%nat) tab4S_0 tab4S_1 sf_4Square); [now apply coe4S_ok| |reflexivity|exact tab4S|auto|auto].
    apply (dom_S q 1); [lia|auto].
  - rewrite (quad_cij q momS (fun i j => ((i <=? 3) && (j <=? 3))%nat) tab8S_0 tab8S_1 sf_8Square); [now apply coe8S_ok| |reflexivity|exact tab8S|auto|auto].
    apply (dom_S q 3); [lia|auto].
Qed.
Lemma ind_mul b x : ind b x = ind b 1 * x.
Proof. destruct b; cbn; lra. Qed.
Lemma side_sum s q el : plane_pair s q -> length el = sf_n s -> forall X k,
  bigsum (sf_n s) (fun i => ind (nth i el O =? k)%nat (bigsum (sf_n s) (fun j => jij s q i j * X (nth j el O)))) = sum_over (sides el) (fun sd => phi X sd k).
Proof.
  intros HP HL X k.
  rewrite (bigsum_ext _ _ (fun i => ind (nth i el O =? k)%nat (bigsum (sf_n s) (fun j => nth j (nth i (table_of s) []) 0 * X (nth j el O))))).
  2:{ intros i Hi. f_equal. apply bigsum_ext. intros j Hj. now rewrite (jij_table s q HP). }
  destruct HP as [[-> H]|[[-> H]|[[-> H]|[-> H]]]]; cbn [sf_n sf_3Triangle sf_6Triangle sf_4Square sf_8Square] in *; clear H.
  all: do 8 try (destruct el as [|? el]; [try discriminate HL|]); cbn [length] in HL; try discriminate HL; try (destruct el; [|discriminate HL]).
  all: unfold table_of; cbn [sf_n sf_3Triangle sf_6Triangle sf_4Square sf_8Square].
  all: cbv [sum_over sumlist map fold_right sides phi bigsum nth coe3T coe6T coe4S coe8S].
  all: repeat match goal with |- context [ind ?b ?x] => match x with 1 => fail 1 | _ => rewrite (ind_mul b x) end end; lra || field.
Qed.

(** ** One element *)
Lemma dofs_sum el : forall ne f, length ne = length el ->
  sum_over (dofs el ne) f = bigsum (length el) (fun i => sum_over (nth i ne []) (fun d => f (mkDof (nth i el O) (fst d) (snd d)))).
Proof.
  induction el as [|e el IH]; intros [|r ne] f H; cbn [length] in H; try lia; [reflexivity|].
  cbn [dofs length]. rewrite bigsum_S_l. cbn [nth]. rewrite <- IH by lia.
  unfold sum_over. rewrite map_app, sumlist_app, map_map. reflexivity.
Qed.
Lemma row_sum (r : list (nat * nat)) f : sum_over r f = bigsum (length r) (fun j => f (nth j r (O, O))).
Proof.
  induction r as [|d r IH]; [reflexivity|]. rewrite sum_over_cons, IH. cbn [length]. rewrite bigsum_S_l. reflexivity.
Qed.
Lemma numbered_sum m dou el ne f : numbered m (length el) dou ne ->
  sum_over (dofs el ne) f = bigsum (length el) (fun i => bigsum m (fun j => f (mkDof (nth i el O) (nth j dou O) (m * i + j)))).
Proof.
  intros [HL HN]. rewrite dofs_sum by auto. apply bigsum_ext. intros i Hi. destruct (HN i Hi) as [Hm Hj].
  rewrite row_sum, Hm. apply bigsum_ext. intros j Hlt. now rewrite (Hj j Hlt).
Qed.
Lemma apply_blocks m n k z a : (m <> 0)%nat -> apply_field m n k z a = bigsum n (fun i => bigsum m (fun j => k a (m * i + j)%nat * z i j)).
Proof.
  intros Hm. unfold apply_field. rewrite (Nat.mul_comm m n), bigsum_blocks. apply bigsum_ext. intros i _. apply bigsum_ext. intros j Hj.
  rewrite (Nat.mul_comm i m). destruct (dm m i j Hj) as [-> ->]. reflexivity.
Qed.
(** the gradient of the shape function times the Jacobian *)
Lemma grad_unit s x r m i c l c' : sf_d s = 2%nat -> (m <> 0)%nat -> (i < sf_n s)%nat -> (c < m)%nat -> (c' < m)%nat ->
  gradU s x r (unitv m (m * i + c)) l c' = gradN s x r l i * (if (c' =? c)%nat then 1 else 0).
Proof.
  intros Hd Hm Hi Hc Hc'. unfold gradU. rewrite (bigsum_single _ i); [|auto|].
  - f_equal. unfold unitv. destruct (Nat.eqb_spec (m * i + c') (m * i + c)), (Nat.eqb_spec c' c); auto; lia.
  - intros i' Hi' Hne. unfold unitv. destruct (Nat.eqb_spec (m * i' + c') (m * i + c)); [|ring]. exfalso. apply Hne.
    destruct (dm m i' c' Hc') as [E1 _]. destruct (dm m i c Hc) as [E2 _]. congruence.
Qed.
Lemma jac_gradN s x r i : sf_d s = 2%nat -> jac s x r <> 0 ->
  jac s x r * gradN s x r 0 i = dshp s r 0 i * tangent s x r 1 1 - dshp s r 1 i * tangent s x r 0 1 /\
  jac s x r * gradN s x r 1 i = dshp s r 1 i * tangent s x r 0 0 - dshp s r 0 i * tangent s x r 1 0.
Proof.
  intros Hd HJ. unfold gradN. rewrite Hd. cbn [bigsum]. unfold cof, sgn, DenseProof.skip. cbn. split; field; exact HJ.
Qed.
Lemma quad_gradN s q el xs i : element_ok 2 s q el xs ->
  quad 2 q (fun p => jac s (nodal el xs) p * gradN s (nodal el xs) p 0 i) = bigsum (sf_n s) (fun j => jij s q i j * nodal el xs j 1) /\
  quad 2 q (fun p => jac s (nodal el xs) p * gradN s (nodal el xs) p 1 i) = - bigsum (sf_n s) (fun j => jij s q i j * nodal el xs j 0).
Proof.
  intros (Hs & Hd & HL & Hn & Hq & HJ).
  assert (Q : forall n (f : nat -> (nat -> R) -> R), quad 2 q (fun p => bigsum n (fun j => f j p)) = bigsum n (fun j => quad 2 q (f j))).
  { induction n as [|n IH]; intros f.
    - rewrite (quad_ext _ _ _ (fun _ => 0 * 0)) by (intros; cbn; lra). rewrite quad_scal. cbn. lra.
    - cbn [bigsum]. rewrite <- IH, <- quad_plus. reflexivity. }
  split.
  - rewrite (bigsum_ext _ _ (fun j => quad 2 q (fun r => (dshp s r 0 i * dshp s r 1 j - dshp s r 1 i * dshp s r 0 j) * nodal el xs j 1))) by (intros; now rewrite quad_scal).
    rewrite <- Q. apply quad_ext. intros g Hg. destruct (jac_gradN s (nodal el xs) (pt q g) i Hd (HJ g Hg)) as [-> _].
    unfold tangent. rewrite <- !bigsum_scal, <- bigsum_minus. apply bigsum_ext. intros. ring.
  - rewrite <- bigsum_opp. rewrite (bigsum_ext _ _ (fun j => quad 2 q (fun r => (dshp s r 0 i * dshp s r 1 j - dshp s r 1 i * dshp s r 0 j) * - nodal el xs j 0))) by (intros; rewrite quad_scal; unfold jij; ring).
    rewrite <- Q. apply quad_ext. intros g Hg. destruct (jac_gradN s (nodal el xs) (pt q g) i Hd (HJ g Hg)) as [_ ->].
    unfold tangent. rewrite <- !bigsum_scal, <- bigsum_minus. apply bigsum_ext. intros. ring.
Qed.

(** a form that is linear in the first gradient *)
Definition linear_in (m : nat) (W : (nat -> nat -> R) -> (nat -> nat -> R) -> R) : Prop :=
  forall Z, exists S : nat -> nat -> R, forall H, W H Z = bigsum m (fun c => H 0%nat c * S 0%nat c + H 1%nat c * S 1%nat c).
Lemma element_force s q el dou xs m r W a A u K ne k j : plane_pair s q -> element_ok 2 s q el xs -> (m <> 0)%nat ->
  stiffness_of 2 m s q el dou xs r W -> (forall H, W H A = bigsum m (fun c => H 0%nat c * k 0%nat c + H 1%nat c * k 1%nat c)) ->
  r = Ok (K, ne) -> affine_on m dou xs u a A el -> forall node,
  sum_over (dofs el ne) (fun d => ind (at_dof node j d) (sum_over (dofs el ne) (fun b => nth (dloc d * mcol K + dloc b) (mval K) 0 * duval u b))) =
  bigsum m (fun c => ind (nth c dou O =? j)%nat (k 0%nat c * sum_over (sides el) (fun sd => phi (fun v => nth 1 (nth v xs []) 0) sd node)
    - k 1%nat c * sum_over (sides el) (fun sd => phi (fun v => nth 0 (nth v xs []) 0) sd node))).
Proof.
  intros HP He Hm (K' & ne' & kf & Er & Hk & Hn & HF) HW Er' HA node. assert (K' = K /\ ne' = ne) as [-> ->] by (split; congruence). clear Er'.
  pose proof He as (Hs & Hd & HL & Hnod & Hq & HJ).
  set (z := fun i c => uval u (nth i el O) (nth c dou O)).
  assert (HG : gradients s q (nodal el xs) m z (fun _ => A)).
  { intros g Hg. eapply (affine_gradient s (nodal el xs) (pt q g) Hs m z a). intros i c Hi Hc. unfold z. rewrite HA; [|apply nth_In; lia|auto].
    rewrite Hd. cbn [bigsum]. unfold nodal. ring. }
  assert (C1 : mcol K = (m * length el)%nat) by apply Hk.
  assert (Ek : forall a b, (a < m * length el)%nat -> (b < m * length el)%nat -> nth (a * mcol K + b) (mval K) 0 = kf a b).
  { intros a0 b0 H1 H2. destruct Hk as (_ & R0 & _ & G & _). specialize (G a0 b0 H1 H2). unfold mget in G.
    assert (((a0 <? mrow K) && (b0 <? mcol K))%nat = true) as Hb by (apply andb_true_iff; rewrite !Nat.ltb_lt; lia). rewrite Hb in G. cbn [assert_ bind] in G.
    apply rd_Ok in G. now apply nth_error_nth. }
  rewrite (numbered_sum m dou el ne _ Hn).
  rewrite (bigsum_ext _ _ (fun i => bigsum m (fun c => ind (nth c dou O =? j)%nat (ind (nth i el O =? node)%nat (apply_field m (length el) kf z (m * i + c)))))).
  2:{ intros i Hi. apply bigsum_ext. intros c Hc. unfold at_dof. cbn [dnode ddof dloc]. rewrite andb_comm, ind_and. do 2 f_equal.
      rewrite (numbered_sum m dou el ne _ Hn), apply_blocks by auto. apply bigsum_ext. intros i' Hi'. apply bigsum_ext. intros c' Hc'. cbn [dloc].
      f_equal. apply Ek; nia. }
  rewrite bigsum_swap. apply bigsum_ext. intros c Hc. rewrite bigsum_ind. f_equal.
  rewrite <- !(side_sum s q el HP HL). rewrite HL, <- !bigsum_scal, <- bigsum_minus. apply bigsum_ext. intros i Hi.
  destruct (nth i el O =? node)%nat; cbn [ind]; [|ring].
  rewrite <- form_unit by nia. rewrite <- HL. rewrite (HF _ z _ (fun _ => A) (gradients_gradU s q el xs 2 m _ He (le_n 2)) HG).
  destruct (quad_gradN s q el xs i He) as [Q0 Q1]. fold (nodal el xs). unfold nodal in Q0 at 3, Q1 at 3. rewrite HL, <- Q0.
  replace (bigsum (sf_n s) (fun j0 => jij s q i j0 * nth 0 (nth (nth j0 el O) xs []) 0)) with (- quad 2 q (fun p => jac s (nodal el xs) p * gradN s (nodal el xs) p 1 i)) by (rewrite Q1; ring).
  rewrite <- (Rmult_comm (quad _ _ _)), <- quad_scal. rewrite Ropp_mult_distr_r_reverse. unfold Rminus. rewrite Ropp_involutive, <- (Rmult_comm (quad _ _ _) (k 1%nat c)), <- quad_scal, <- quad_plus.
  apply quad_ext. intros g Hg. rewrite HW. rewrite (bigsum_single m c).
  - rewrite !grad_unit by auto. rewrite Nat.eqb_refl. ring.
  - auto.
  - intros c' Hc' Hne. rewrite !grad_unit by auto. destruct (Nat.eqb_spec c' c); [contradiction|]. ring.
Qed.
Lemma sum_over_app {A} (l l' : list A) f : sum_over (l ++ l') f = sum_over l f + sum_over l' f.
Proof. unfold sum_over. now rewrite map_app, sumlist_app. Qed.
(** ** The routines *)
Lemma routine_linear dou xs m f : plane_routine dou xs m f -> length dou = m -> (m <> 0)%nat /\
  exists W, (forall s q el, element_ok 2 s q el xs -> stiffness_of 2 m s q el dou xs (f s q el) W) /\ linear_in m W.
Proof.
  intros HR HD. destruct HR as [E V t HV|E V t HV|D t Df HDf|alpha t|kap]; (split; [lia|]).
  - exists (fun H Z => t * hooke 2 (lame_lambda E V) (lame_mu E V) (strain H) (strain Z)). split.
    + intros s q el He. apply (C59_plane_pf s q el dou xs E V t He HD). exact HV.
    + intros Z. exists (fun l c => t * ((if (l =? c)%nat then lame_lambda E V * trace 2 (strain Z) else 0) + 2 * lame_mu E V * strain Z l c)).
      intros H. unfold hooke, trace, ddot, strain. cbn [bigsum Nat.eqb]. field.
  - exists (fun H Z => t * hooke 2 (E * V / ((1 - V) * (1 + V))) (lame_mu E V) (strain H) (strain Z)). split.
    + intros s q el He. apply (C59_plane_pf s q el dou xs E V t He HD). exact HV.
    + intros Z. set (la := E * V / ((1 - V) * (1 + V))). exists (fun l c => t * ((if (l =? c)%nat then la * trace 2 (strain Z) else 0) + 2 * lame_mu E V * strain Z l c)).
      intros H. unfold hooke, trace, ddot, strain. cbn [bigsum Nat.eqb]. field.
  - exists (fun H Z => t * bigsum 3 (fun i => bigsum 3 (fun j => eng H i * Df i j * eng Z j))). split.
    + intros s q el He. apply (C59_plane_pf s q el dou xs 0 0 t He HD). exact HDf.
    + intros Z. exists (fun l c => t * bigsum 3 (fun j => Df (if (l =? c)%nat then l else 2%nat) j * eng Z j)).
      intros H. unfold eng, strain. cbn [bigsum Nat.eqb]. field.
  - exists (fun H Z => alpha * t * bigsum 2 (fun l => H l 0%nat * Z l 0%nat)). split.
    + intros s q el He. apply (C59_scalar_pf s q el dou xs alpha t 0 0 0 He HD).
    + intros Z. exists (fun l c => alpha * t * Z l 0%nat). intros H. cbn [bigsum]. ring.
  - exists (fun H Z => kap * bigsum 2 (fun l => H l 0%nat * Z l 0%nat)). split.
    + intros s q el He. apply (C59_scalar_pf s q el dou xs 0 0 kap 0 0 He HD).
    + intros Z. exists (fun l c => kap * Z l 0%nat). intros H. cbn [bigsum]. ring.
Qed.
Lemma patch_runs dou xs m f P : plane_routine dou xs m f -> length dou = m -> (forall p, In p P -> piece_ok xs p) ->
  exists es, Forall2 (made_by f) P es /\ forall e, In e es -> e_F e = repeat 0 (mrow (e_K e)) /\ forall t, (forall p k c, In p P -> In k (p_nodes p) -> In c dou -> in_table t k c) -> elem_fits t e.
Proof.
  intros HR HD. destruct (routine_linear dou xs m f HR HD) as (Hm & W & HS & _).
  induction P as [|p P IH]; intros HP.
  - exists []. split; [constructor|]. intros e [].
  - destruct (IH (fun p' H => HP p' (or_intror H))) as (es & F & HE). destruct (HP p (or_introl eq_refl)) as [_ He].
    destruct (HS _ _ _ He) as (K & ne & k & Er & Hk & Hn & _).
    exists (mkElem (p_nodes p) ne K (repeat 0 (mrow K)) :: es). split.
    + constructor; [|exact F]. split; auto.
    + intros e [<-|Hin].
      * split; [reflexivity|]. intros t Ht. unfold elem_fits. cbn [e_nodes e_nte e_K e_F]. split; [rewrite (proj1 Hn); lia|]. split; [apply Hk|].
        assert (HR' : mrow K = (m * length (p_nodes p))%nat /\ mcol K = (m * length (p_nodes p))%nat) by (split; apply Hk).
        intros a Ha. unfold e_dofs in Ha. cbn [e_nodes e_nte] in Ha. rewrite repeat_length.
        assert (Q : exists i j, (i < length (p_nodes p))%nat /\ (j < m)%nat /\ a = mkDof (nth i (p_nodes p) O) (nth j dou O) (m * i + j)).
        { clear - Ha Hn. destruct Hn as [HL HN]. revert HL HN. 
          assert (G : forall el ne' off, length ne' = length el -> (forall i, (i < length el)%nat -> length (nth i ne' []) = m /\ forall j, (j < m)%nat -> nth j (nth i ne' []) (O, O) = (nth j dou O, (m * (off + i) + j)%nat)) ->
            In a (dofs el ne') -> exists i j, (i < length el)%nat /\ (j < m)%nat /\ a = mkDof (nth i el O) (nth j dou O) (m * (off + i) + j)).
          { induction el as [|e0 el IHe]; intros [|r ne'] off L N HI; cbn [length] in L; try lia; cbn [dofs] in HI; [destruct HI|].
            apply in_app_iff in HI. destruct HI as [HI|HI].
            - destruct (N O ltac:(cbn; lia)) as [Lr Nr]. cbn [nth] in Lr, Nr. apply in_map_iff in HI. destruct HI as (d & <- & Hd).
              destruct (In_nth r d (O, O) Hd) as (j & Hj & <-). exists O, j. rewrite Lr in Hj. cbn [length nth]. splits; [lia|auto|]. now rewrite (Nr j Hj).
            - destruct (IHe ne' (S off) ltac:(lia)) as (i & j & Hi & Hj & ->); auto.
              + intros i Hi. destruct (N (S i) ltac:(cbn; lia)) as [A B]. cbn [nth] in A, B. split; auto. intros j Hj. rewrite (B j Hj). f_equal. lia.
              + exists (S i), j. cbn [length nth]. splits; [lia|auto|]. f_equal. lia. }
          intros HL HN. destruct (G (p_nodes p) ne O HL HN Ha) as (i & j & A & B & C). exists i, j. auto. }
        destruct Q as (i & j & Hi & Hj & ->). cbn [dnode ddof dloc]. destruct HR' as [-> ->].
        splits; [|nia|nia|nia]. apply (Ht p); [now left|now apply nth_In|]. apply nth_In. lia.
      * destruct (HE e Hin) as [A B]. split; auto. intros t Ht. apply B. intros p' k0 c Hp'. apply Ht. now right.
Qed.
Lemma patch_zero dou xs m f P es u a A i j : plane_routine dou xs m f -> length dou = m -> (forall p, In p P -> piece_ok xs p) ->
  Forall2 (made_by f) P es -> (forall p, In p P -> affine_on m dou xs u a A (p_nodes p)) -> inner (map p_nodes P) i ->
  internal_force es u i j = 0.
Proof.
  intros HR HD HP HF HA HI. destruct (routine_linear dou xs m f HR HD) as (Hm & W & HS & HL). destruct (HL A) as (S & HW).
  assert (E : internal_force es u i j = bigsum m (fun c => ind (nth c dou O =? j)%nat
    (S 0%nat c * sum_over (flat_map sides (map p_nodes P)) (fun sd => phi (fun v => nth 1 (nth v xs []) 0) sd i)
     - S 1%nat c * sum_over (flat_map sides (map p_nodes P)) (fun sd => phi (fun v => nth 0 (nth v xs []) 0) sd i)))).
  { clear HI. unfold internal_force. induction HF as [|p e P es [Hn Hk] HF IH].
    - cbn [map flat_map]. rewrite sum_over_nil. symmetry. apply bigsum_zero. intros c _. rewrite !sum_over_nil. destruct (nth c dou O =? j)%nat; cbn [ind]; lra.
    - rewrite sum_over_cons, IH by (intros; auto with datatypes). cbn [map flat_map]. destruct (HP p (or_introl eq_refl)) as [Hq He].
      unfold e_dofs, e_k. rewrite Hn.
      rewrite (element_force _ _ _ dou xs m _ W a A u (e_K e) (e_nte e) S j Hq He Hm (HS _ _ _ He) HW Hk (HA p (or_introl eq_refl)) i).
      rewrite <- bigsum_plus. apply bigsum_ext. intros c _. rewrite !(sum_over_app (sides (p_nodes p))). destruct (nth c dou O =? j)%nat; cbn [ind]; ring. }
  rewrite E. apply bigsum_zero. intros c _. rewrite !inner_zero by exact HI. destruct (nth c dou O =? j)%nat; cbn [ind]; ring.
Qed.
