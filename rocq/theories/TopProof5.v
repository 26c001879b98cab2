(** The objective of a design and its sensitivities. *)
From Coq Require Import List Arith Lia Bool Reals Lra.
From Verif Require Import Res SumR DenseModel DenseR DenseSpec ShapeModel QuadModel QuadSpec ElemModel ElemSpec SparseModel SparseSpec AssemblyModel AssemblySpec KrylovSpec PatchSpec StableSpec OCModel TopModel TopSpec.
From Verif Require Import DenseProof DenseMain SparseMain AssemblyProof AssemblyProof2 AssemblyProof3 AssemblyMain ElemProof ElemProof2 ElemProof3 ElemMain HomMain PatchProof PatchProof2 StableProof StableProof2 StableProof3 StableProof4 ThetaProof ThetaProof3 ThetaProof4 ThetaProof5 TopProof TopProof2 TopProof3 TopProof4.
Import ListNotations.
Local Open Scope R_scope.

Definition field := nat -> nat -> R.
Definition comb (p : R) (u : field) (q : R) (u' : field) : field := fun i j => p * u i j + q * u' i j.
Definition kk (d : top) (i : nat) : field -> field -> R := bil (unit_el d i) (e_dofs (unit_el d i)).
Definition lw (d : top) (w : field) : R := sum_over (tp_qfixed d) (fun q => snd q * w (fst (fst q)) (snd (fst q))).
Definition vs (t : table) (w : field) : Prop := forall i j, num t i j = None -> w i j = 0.
Definition nel (d : top) : nat := length (tp_elements d).
Definition es_of (d : top) (rho : list R) (i : nat) : R := simp d (nth i rho 0).
Definition solves (d : top) (t : table) (rho : list R) (u : field) : Prop := sol field (nel d) (kk d) (lw d) (vs t) (es_of d rho) u.

Lemma kk_l d i p u q u' v : (i < nel d)%nat -> kk d i (comb p u q u') v = p * kk d i u v + q * kk d i u' v.
Proof. intros _. apply bil_l. Qed.
Lemma unit_held d i v : top_ok d -> (i < nel d)%nat ->
  0 <= denergy (unit_el d i) v /\ (forall a b, In a (e_dofs (unit_el d i)) -> In b (e_dofs (unit_el d i)) -> e_k (unit_el d i) (dloc a) (dloc b) = e_k (unit_el d i) (dloc b) (dloc a)).
Proof.
  intros HT Hi. pose proof (unit_el_ok d i HT Hi) as UK.
  destruct (element_held [0%nat; 1%nat] (tp_x d) 2 2 _ (mkPiece (tp_s d) (tp_q d) (del d i)) (unit_el d i) v (sr_strain [0%nat; 1%nat] (tp_x d) 1 (tp_V d) (tp_t d) ltac:(lra) (tk_poisson d HT) (tk_thick d HT)) eq_refl) as (A & B & _).
  - apply (tk_piece d HT). now apply del_in.
  - exact (dk_made _ _ _ _ _ UK).
  - auto.
Qed.
Lemma kk_s d i u v : top_ok d -> (i < nel d)%nat -> kk d i u v = kk d i v u.
Proof. intros HT Hi. apply bil_sym. apply (unit_held d i u HT Hi). Qed.
Lemma kk_p d i u : top_ok d -> (i < nel d)%nat -> 0 <= kk d i u u.
Proof. intros HT Hi. unfold kk. rewrite bil_energy. apply (unit_held d i u HT Hi). Qed.
Lemma lw_l d p u q u' : lw d (comb p u q u') = p * lw d u + q * lw d u'.
Proof. unfold lw, comb. rewrite <- !sum_over_scal, <- sum_over_plus. apply sum_ext. intros; ring. Qed.
Lemma vs_l t p u q u' : vs t u -> vs t u' -> vs t (comb p u q u').
Proof. intros H H' i j Hn. unfold comb. rewrite (H i j Hn), (H' i j Hn). ring. Qed.
Lemma sum_app {A} (l l' : list A) g : sum_over (l ++ l') g = sum_over l g + sum_over l' g.
Proof. induction l as [|a l IH]; cbn [app]; [rewrite sum_over_nil; ring|]. rewrite !sum_over_cons, IH. ring. Qed.
Lemma sum_seq n (g : nat -> R) : sum_over (seq 0 n) g = bigsum n g.
Proof. induction n as [|n IH]; [reflexivity|]. rewrite seq_S, sum_app, sum_over_cons, sum_over_nil, IH. cbn [bigsum Nat.add]. ring. Qed.

(** the energy of a design *)
Lemma design_bil d rho w v : top_ok d -> design_ok d rho -> sum_over (rho_els d rho) (fun e => bil e (e_dofs e) w v) = aform field (nel d) (kk d) (es_of d rho) w v.
Proof.
  intros HT HD. unfold rho_els. rewrite sum_map, sum_seq. apply bigsum_ext. intros i Hi. pose proof (rho_el_ok d rho i HT HD Hi) as RK. unfold kk, bil. rewrite (dk_dofs _ _ _ _ _ RK).
  rewrite <- sum_over_scal. apply sum_ext. intros a Ha. rewrite <- Rmult_assoc, (Rmult_comm (es_of d rho i)), Rmult_assoc. f_equal. rewrite <- sum_over_scal. apply sum_ext. intros b Hb. rewrite (dk_scale _ _ _ _ _ RK a b Ha Hb). unfold es_of. ring.
Qed.
Lemma design_solves d rho t n u : top_ok d -> design_ok d rho -> numbering n t -> (forall i j, num t i j = None -> uval u i j = 0) ->
  (forall i j, num t i j <> None -> internal_force (rho_els d rho) u i j = nodal_load (tp_qfixed d) i j) -> solves d t rho (uval u).
Proof.
  intros HT HD NU HZ HE. split; [exact HZ|]. intros w Hw. rewrite <- design_bil by auto.
  set (ty := (elem + (nat * nat * R))%type). set (LL := map (fun e => inl e : ty) (rho_els d rho) ++ map (fun q => inr q : ty) (tp_qfixed d)).
  set (D := fun x : ty => match x with inl e => e_dofs e | inr q => [mkDof (fst (fst q)) (snd (fst q)) 0] end).
  set (g := fun (x : ty) a => match x with inl e => sum_over (e_dofs e) (fun b => e_k e (dloc a) (dloc b) * duval u b) | inr q => - snd q end).
  pose proof (virtual LL D g w n t NU) as VW. assert (V1 : sum_over LL (fun e => sum_over (D e) (fun a => w (dnode a) (ddof a) * g e a)) = 0).
  { apply VW.
    - intros e a _ _ H. now apply Hw.
    - intros i j H. unfold LL. rewrite sum_app, !sum_map. cbn [D g]. specialize (HE i j H). unfold internal_force in HE. rewrite HE. unfold nodal_load.
      rewrite (sum_ext (tp_qfixed d) (fun x => sum_over [mkDof (fst (fst x)) (snd (fst x)) 0] (fun a => ind (at_dof i j a) (- snd x))) (fun x => (-1) * ind ((fst (fst x) =? i) && (snd (fst x) =? j))%nat (snd x))).
      + rewrite sum_over_scal. ring.
      + intros x _. rewrite sum_over_cons, sum_over_nil. unfold at_dof. cbn [dnode ddof]. destruct ((fst (fst x) =? i) && (snd (fst x) =? j))%nat; cbn [ind]; ring. }
  unfold LL in V1. rewrite sum_app, !sum_map in V1. cbn [D g] in V1.
  assert (V2 : sum_over (tp_qfixed d) (fun x => sum_over [mkDof (fst (fst x)) (snd (fst x)) 0] (fun a => w (dnode a) (ddof a) * - snd x)) = (-1) * lw d w).
  { unfold lw. rewrite <- sum_over_scal. apply sum_ext. intros x _. rewrite sum_over_cons, sum_over_nil. cbn [dnode ddof]. ring. }
  rewrite V2 in V1. unfold bil. unfold duval in V1. lra.
Qed.

(** ** The inner product of two fields *)
Lemma row_two {A} (u : list (list A)) N i : (forall i j, in_table u i j <-> (i < N)%nat /\ (j < 2)%nat) -> (i < N)%nat -> length (nth i u []) = 2%nat.
Proof. intros H Hi. pose proof (proj2 (H i 1%nat) ltac:(lia)) as A1. pose proof (proj1 (H i 2%nat)) as A2. unfold in_table in *. destruct (Nat.lt_ge_cases 2 (length (nth i u []))); [specialize (A2 ltac:(auto)); lia|lia]. Qed.
Lemma fold_sum (f : nat -> res R) g : forall n, (forall i, (i < n)%nat -> f i = Ok (g i)) -> foldM (fun s i => x <- f i ;; Ok (s + x)) (seq 0 n) 0 = Ok (bigsum n g).
Proof.
  assert (G : forall m off s, (forall i, (off <= i < off + m)%nat -> f i = Ok (g i)) -> foldM (fun s i => x <- f i ;; Ok (s + x)) (seq off m) s = Ok (s + sum_over (seq off m) g)).
  { induction m as [|m IH]; intros off s H; cbn [seq foldM]; [rewrite sum_over_nil, Rplus_0_r; reflexivity|]. rewrite H by lia. cbn [bind]. rewrite IH by (intros; apply H; lia). rewrite sum_over_cons. f_equal. ring. }
  intros n H. rewrite G by (intros; apply H; lia). rewrite sum_seq. f_equal. ring.
Qed.
Lemma field_product_ok u r N : length u = N -> length r = N -> (forall i j, in_table u i j <-> (i < N)%nat /\ (j < 2)%nat) -> (forall i j, in_table r i j <-> (i < N)%nat /\ (j < 2)%nat) ->
  field_product u r = Ok (bigsum N (fun i => bigsum 2 (fun j => uval u i j * uval r i j))).
Proof.
  intros LU LR HU HR. unfold field_product. rewrite LU.
  rewrite (foldM_map (fun s i => ui <- rd u i ;; ri <- rd r i ;; x <- vdot R_ops ui ri ;; Ok (s + x)) (fun s i => x <- (ui <- rd u i ;; ri <- rd r i ;; vdot R_ops ui ri) ;; Ok (s + x)) (fun i => i)).
  2:{ intros s i _. destruct (rd u i); cbn [bind]; auto. destruct (rd r i); cbn [bind]; auto. }
  rewrite map_id. apply fold_sum. intros i Hi. rewrite (rd_nth u i []), (rd_nth r i []) by lia. cbn [bind].
  rewrite (vdot_ok R R_ops (nth i u []) (nth i r []) 2 (fun j => nth j (nth i u []) 0) (fun j => nth j (nth i r []) 0)).
  - now rewrite gsum_bigsum.
  - rewrite <- (row_two u N i HU Hi). apply is_vec_of_list.
  - rewrite <- (row_two r N i HR Hi). apply is_vec_of_list.
Qed.
Lemma pick N i0 j0 x : (i0 < N)%nat -> (j0 < 2)%nat -> bigsum N (fun i => bigsum 2 (fun j => ind ((i0 =? i) && (j0 =? j))%nat x)) = x.
Proof.
  intros Hi Hj. rewrite (bigsum_single N i0); auto.
  - rewrite (bigsum_single 2 j0); auto; [now rewrite !Nat.eqb_refl|]. intros j _ Hne. destruct (Nat.eqb_spec j0 j); [congruence|]. now rewrite andb_false_r.
  - intros i _ Hne. apply bigsum_zero. intros j _. destruct (Nat.eqb_spec i0 i); [congruence|]. reflexivity.
Qed.
Lemma work_internal es (w : field) (v : list (list R)) N : (forall e a, In e es -> In a (e_dofs e) -> (dnode a < N)%nat /\ (ddof a < 2)%nat) ->
  bigsum N (fun i => bigsum 2 (fun j => w i j * internal_force es v i j)) = sum_over es (fun e => bil e (e_dofs e) w (uval v)).
Proof.
  intros H. rewrite (bigsum_ext N _ (fun i => sum_over es (fun e => bigsum 2 (fun j => w i j * sum_over (e_dofs e) (fun a => ind (at_dof i j a) (sum_over (e_dofs e) (fun b => e_k e (dloc a) (dloc b) * duval v b))))))).
  2:{ intros i Hi. rewrite <- bigsum_over. apply bigsum_ext. intros j Hj. unfold internal_force. now rewrite <- sum_over_scal. }
  rewrite bigsum_over. apply sum_ext. intros e He. unfold bil.
  rewrite (bigsum_ext N _ (fun i => sum_over (e_dofs e) (fun a => bigsum 2 (fun j => ind (at_dof i j a) (w (dnode a) (ddof a) * sum_over (e_dofs e) (fun b => e_k e (dloc a) (dloc b) * duval v b)))))).
  2:{ intros i Hi. rewrite <- bigsum_over. apply bigsum_ext. intros j Hj. rewrite <- sum_over_scal. apply sum_ext. intros a Ha. unfold at_dof. destruct (Nat.eqb_spec (dnode a) i) as [<-|]; cbn [andb ind]; [|ring]. destruct (Nat.eqb_spec (ddof a) j) as [<-|]; cbn [ind]; ring. }
  rewrite bigsum_over. apply sum_ext. intros a Ha. destruct (H e a He Ha) as [H1 H2]. apply (pick N (dnode a) (ddof a)); auto.
Qed.

(** ** The sensitivities *)
Lemma mapM_seq {B} (f : nat -> res B) (g : nat -> B) n : (forall i, (i < n)%nat -> f i = Ok (g i)) -> mapM f (seq 0 n) = Ok (map g (seq 0 n)).
Proof.
  intros H. assert (G : forall l, (forall i, In i l -> f i = Ok (g i)) -> mapM f l = Ok (map g l)).
  { induction l as [|a l IH]; intros Hl; [reflexivity|]. cbn [mapM map]. rewrite Hl by (now left). cbn [bind]. rewrite IH by (intros; apply Hl; now right). reflexivity. }
  apply G. intros i Hi. apply in_seq in Hi. apply H. lia.
Qed.
Lemma sensitivity_ok d rho u i : top_ok d -> design_ok d rho -> (i < nel d)%nat -> (forall i j, in_table u i j <-> (i < length (tp_x d))%nat /\ (j < 2)%nat) ->
  top_sensitivity d rho u i = Ok (- tp_scale0 d * tp_p d * (- tp_E0 d + tp_E1 d) * Rpower (nth i rho 0) (tp_p d - 1) * kk d i (uval u) (uval u)).
Proof.
  intros HT HD Hi HU. pose proof (unit_el_ok d i HT Hi) as UK. destruct (rho_pos d rho i HT HD Hi) as (P1 & P2 & P3). destruct (dk_mat _ _ _ _ _ UK) as (k & Hk).
  destruct (action 2 [0%nat; 1%nat] (del d i) (e_nte (unit_el d i)) (e_K (unit_el d i)) k u (dk_num _ _ _ _ _ UK) eq_refl Hk) as (ue & y & E1 & E2 & _ & _ & E3).
  { intros a c Ha Hc. apply HU. split; [apply (tk_nodes d HT (del d i)); auto; now apply del_in|destruct Hc as [<-|[<-|[]]]; lia]. }
  unfold top_sensitivity. rewrite (rd_nth _ i []) by auto. cbn [bind]. fold (del d i). rewrite (dk_call _ _ _ _ _ UK). cbn [bind]. rewrite E1. cbn [bind]. rewrite E2. cbn [bind]. rewrite E3. cbn [bind]. rewrite P3. cbn [bind].
  unfold cpow. destruct (Rlt_dec 0 (nth i rho 0)); [|contradiction]. cbn [bind]. unfold kk, e_dofs. rewrite (dk_nodes _ _ _ _ _ UK). reflexivity.
Qed.

(** ** The analysis *)
Definition df_of (d : top) (rho : list R) (u : list (list R)) (i : nat) : R :=
  - tp_scale0 d * tp_p d * (- tp_E0 d + tp_E1 d) * Rpower (nth i rho 0) (tp_p d - 1) * kk d i (uval u) (uval u).
Lemma analysis_ok solve d rho u1 t n : spd_solver solve -> top_ok d -> design_ok d rho -> tables d u1 t n ->
  exists a, top_analysis solve d rho = Ok a /\ solves d t rho (uval (an_u a)) /\
    (forall i j, in_table (an_u a) i j <-> (i < length (tp_x d))%nat /\ (j < 2)%nat) /\ (forall i j, in_table (an_r a) i j <-> (i < length (tp_x d))%nat /\ (j < 2)%nat) /\
    (forall i j, (i < length (tp_x d))%nat -> (j < 2)%nat -> uval (an_r a) i j = internal_force (rho_els d rho) (an_u a) i j) /\
    (forall i j, num t i j <> None -> uval (an_r a) i j = nodal_load (tp_qfixed d) i j) /\
    an_f a = tp_scale0 d * lw d (uval (an_u a)) /\ an_df a = map (df_of d rho (an_u a)) (seq 0 (nel d)).
Proof.
  intros HS HT HD TB. destruct (displacement_ok solve d rho u1 t n HS HT HD TB) as (u & E1 & LU & IU & ZU & EU).
  destruct (reaction_ok d rho u t HT HD (tb_in _ _ _ _ TB) IU) as (r & E2 & LR & IR & VR).
  pose proof (design_solves d rho t n u HT HD (tb_num _ _ _ _ TB) ZU EU) as SO.
  eexists. split.
  - unfold top_analysis. rewrite E1. cbn [bind]. rewrite E2. cbn [bind]. rewrite (field_product_ok u r _ LU LR IU IR). cbn [bind].
    rewrite (mapM_seq _ (df_of d rho u)); [cbn [bind]; reflexivity|]. intros i Hi. now apply sensitivity_ok.
  - cbn [an_u an_r an_f an_df]. splits; auto.
    + intros i j Hn. rewrite VR; [now apply EU| |]; rewrite (tb_none _ _ _ _ TB) in Hn; destruct (Nat.lt_ge_cases i (length (tp_x d))), (Nat.lt_ge_cases j 2); auto; exfalso; apply Hn; right; lia.
    + f_equal. rewrite (bigsum_ext _ _ (fun i => bigsum 2 (fun j => uval u i j * internal_force (rho_els d rho) u i j))) by (intros i Hi; apply bigsum_ext; intros j Hj; now rewrite VR).
      rewrite (work_internal _ (uval u)).
      * rewrite design_bil by auto. apply (proj2 SO). exact ZU.
      * intros e a He Ha. unfold rho_els in He. apply in_map_iff in He. destruct He as (i & <- & Hi). apply in_seq in Hi. destruct (dk_in _ _ _ _ _ (rho_el_ok d rho i HT HD ltac:(lia)) a Ha) as [A B]. split; auto.
        apply (tk_nodes d HT (del d i)); auto. apply del_in. lia.
Qed.

(** ** Balance *)
Lemma kk_rigid d i (w u : field) : top_ok d -> (i < nel d)%nat -> rigid_motion 2 (length (del d i)) (nodal (del d i) (tp_x d)) (fun k c => w (nth k (del d i) O) c) -> kk d i u w = 0.
Proof.
  intros HT Hi HR. pose proof (unit_el_ok d i HT Hi) as UK. destruct (tk_piece d HT (del d i) (del_in d i Hi)) as (_ & He & _). cbn [p_shape p_rule p_nodes] in He. pose proof (tk_poisson d HT) as HV.
  destruct (proj1 (C36_rigid_pf (tp_s d) (tp_q d) (del d i) [0%nat; 1%nat] (tp_x d) 1 (tp_V d) (tp_t d) _ He eq_refl HR) ltac:(nra)) as (K & ne & k & E & Hk & Z).
  pose proof (dk_call _ _ _ _ _ UK) as E'. unfold top_stiffness in E'. rewrite E in E'. injection E' as EK EN. pose proof (dk_num _ _ _ _ _ UK) as Hn. rewrite <- EN in Hn.
  unfold kk, bil, e_dofs. rewrite (dk_nodes _ _ _ _ _ UK), <- EN. apply AssemblyProof.sum_zero. intros a Ha.
  destruct (numbered_dofs 2 _ a _ _ Hn Ha) as (x & y & Hx & Hy & ->). cbn [dloc].
  enough (X : sum_over (dofs (del d i) ne) (fun b => e_k (unit_el d i) (2 * x + y) (dloc b) * w (dnode b) (ddof b)) = 0) by (rewrite X; ring).
  rewrite <- (Z (2 * x + y)%nat ltac:(nia)). unfold apply_field. rewrite (numbered_sum 2 _ _ _ _ Hn), (Nat.mul_comm 2 (length (del d i))), bigsum_blocks. apply bigsum_ext. intros x' Hx'. apply bigsum_ext. intros y' Hy'.
  cbn [dloc dnode ddof]. rewrite (Nat.mul_comm x' 2). destruct (dm 2 x' y' Hy') as [-> ->]. f_equal.
  - unfold e_k. rewrite <- EK. apply (mat_entry _ _ _ _ _ _ Hk); nia.
  - f_equal. destruct y' as [|[|]]; cbn; lia.
Qed.
Lemma balance d rho u (w : field) : top_ok d -> design_ok d rho ->
  (forall i, (i < nel d)%nat -> rigid_motion 2 (length (del d i)) (nodal (del d i) (tp_x d)) (fun k c => w (nth k (del d i) O) c)) ->
  bigsum (length (tp_x d)) (fun i => bigsum 2 (fun j => w i j * internal_force (rho_els d rho) u i j)) = 0.
Proof.
  intros HT HD HR. rewrite work_internal.
  - rewrite design_bil by auto. apply bigsum_zero. intros i Hi. rewrite kk_s, kk_rigid by auto. ring.
  - intros e a He Ha. unfold rho_els in He. apply in_map_iff in He. destruct He as (i & <- & Hi). apply in_seq in Hi. destruct (dk_in _ _ _ _ _ (rho_el_ok d rho i HT HD ltac:(lia)) a Ha) as [A B]. split; auto.
    apply (tk_nodes d HT (del d i)); auto. apply del_in. lia.
Qed.
