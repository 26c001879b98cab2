(** Property C108: the analysis of the topology optimisation samples: the proofs. *)
From Coq Require Import List Arith Lia Bool Reals Lra.
From Verif Require Import Res SumR DenseModel DenseR DenseSpec ShapeModel QuadModel QuadSpec ElemModel ElemSpec SparseModel SparseSpec KrylovModel KrylovSpec AssemblyModel AssemblySpec PatchSpec StableSpec StableMain OCModel TopModel TopSpec.
Import ListNotations.
Local Open Scope R_scope.
From Verif Require Import ElemProof2 ElemProof3 ElemMain KrylovMain AssemblyProof StableProof StableProof2 StableProof3 StableProof4 TopProof TopProof2 TopProof3 TopProof4 TopProof5.

(** ** The solver *)
Lemma forallb_zero n (f : nat -> R) : forallb (fun i => if Req_EM_T (f i) 0 then true else false) (seq 0 n) = true <-> forall i, (i < n)%nat -> f i = 0.
Proof.
  rewrite forallb_forall. split; intros H i Hi.
  - specialize (H i). rewrite in_seq in H. specialize (H ltac:(lia)). destruct (Req_EM_T (f i) 0); [auto|discriminate].
  - apply in_seq in Hi. rewrite (H i) by lia. destruct (Req_EM_T 0 0); [auto|contradiction].
Qed.
Lemma cg_exact_reaches n A (tr : nat -> cg_state) m : (forall k, (k < m)%nat -> cg_step A (tr k) = Ok (tr (S k))) ->
  (forall k, (k < m)%nat -> nonzero n (ix (cg_r (tr k)))) -> (forall i, (i < n)%nat -> ix (cg_r (tr m)) i = 0) ->
  forall j k fuel, (j + k = m)%nat -> (j <= fuel)%nat -> cg_exact_loop fuel n A (tr k) = Ok (map (ix (cg_x (tr m))) (seq 0 n)).
Proof.
  intros HS HN HZ. induction j as [|j IH]; intros k fuel E F.
  - cbn in E. subst k. destruct fuel; cbn [cg_exact_loop]; rewrite (proj2 (forallb_zero n _) HZ); reflexivity.
  - destruct fuel as [|fuel]; [lia|]. cbn [cg_exact_loop].
    destruct (forallb (fun i => if Req_EM_T (ix (cg_r (tr k)) i) 0 then true else false) (seq 0 n)) eqn:Z.
    + exfalso. rewrite forallb_zero in Z. destruct (HN k ltac:(lia)) as (i & Hi & H). apply H. now apply Z.
    + rewrite HS by lia. cbn [bind]. apply IH; lia.
Qed.

(** ** Derivatives of functions that agree nearby *)
Lemma lim_local (f g : R -> R) z l r : 0 < r -> (forall h, Rabs h < r -> f (z + h) = g (z + h)) -> derivable_pt_lim f z l -> derivable_pt_lim g z l.
Proof.
  intros Hr E D eps He. destruct (D eps He) as [del Hd]. exists (mkposreal (Rmin del r) (Rmin_pos _ _ (cond_pos del) Hr)). intros h H0 Hh. cbn in Hh.
  rewrite <- (E h) by (pose proof (Rmin_r del r); lra). rewrite <- (Rplus_0_r z) at 2. rewrite <- (E 0) by (now rewrite Rabs_R0). rewrite Rplus_0_r. apply Hd; auto. pose proof (Rmin_l del r). lra.
Qed.
Lemma simp_lim d (f : R -> R) z l : 0 < f z -> derivable_pt_lim f z l ->
  derivable_pt_lim (fun y => simp d (f y)) z ((tp_E1 d - tp_E0 d) * (tp_p d * Rpower (f z) (tp_p d - 1) * l)).
Proof.
  intros Hp D. unfold simp. rewrite <- (Rplus_0_l ((tp_E1 d - tp_E0 d) * _)). apply (derivable_pt_lim_plus (fun _ => tp_E0 d) (fun y => (tp_E1 d - tp_E0 d) * Rpower (f y) (tp_p d))); [apply derivable_pt_lim_const|].
  apply (derivable_pt_lim_scal (fun y => Rpower (f y) (tp_p d))). apply (derivable_pt_lim_comp f (fun x => Rpower x (tp_p d))); [exact D|]. now apply derivable_pt_lim_power.
Qed.
Lemma es_pos d rho i : top_ok d -> design_ok d rho -> (i < nel d)%nat -> 0 < es_of d rho i.
Proof. intros HT HD Hi. apply (rho_pos d rho i HT HD Hi). Qed.
Lemma nth_map_seq (f : nat -> R) n i : (i < n)%nat -> nth i (map f (seq 0 n)) 0 = f i.
Proof. intros H. rewrite (nth_indep _ 0 (f 0%nat)) by (now rewrite map_length, seq_length). rewrite map_nth, seq_nth by auto. reflexivity. Qed.
Lemma nth_upd_in (l : list R) i j a : (i < length l)%nat -> nth j (upd l i a) 0 = if (j =? i)%nat then a else nth j l 0.
Proof. intros H. rewrite nth_upd, (proj2 (Nat.ltb_lt _ _) H), Bool.andb_true_r, Nat.eqb_sym. reflexivity. Qed.


Lemma C108_analysis_pf : forall solve d rho, spd_solver solve -> top_ok d -> design_ok d rho ->
  exists a es, top_analysis solve d rho = Ok a /\
    length es = length (tp_elements d) /\
    (forall i e el r, nth_error es i = Some e -> nth_error (tp_elements d) i = Some el -> nth_error rho i = Some r ->
       made_by (fun s q el => PlaneStrainStiffness s q el [0; 1]%nat (tp_x d) (simp d r) (tp_V d) (tp_t d)) (mkPiece (tp_s d) (tp_q d) el) e) /\
    (forall i j, (i < length (tp_x d))%nat -> (j < 2)%nat -> uval (an_r a) i j = internal_force es (an_u a) i j) /\
    (forall i j v, In (i, j, v) (tp_ufixed d) -> uval (an_u a) i j = 0) /\
    (forall i j, (i < length (tp_x d))%nat -> (j < 2)%nat -> (forall v, ~ In (i, j, v) (tp_ufixed d)) -> uval (an_r a) i j = nodal_load (tp_qfixed d) i j) /\
    an_f a = tp_scale0 d * load_work (tp_qfixed d) (an_u a) /\ (0 <= tp_scale0 d -> 0 <= an_f a) /\
    length (an_df a) = length (tp_elements d).
Proof.
  intros solve d rho HS HT HD. destruct (tables_exist d HT) as (u1 & t & n & TB). destruct (analysis_ok solve d rho u1 t n HS HT HD TB) as (a & E & SO & IU & IR & VR & VL & VF & VD).
  exists a, (rho_els d rho). split; [exact E|]. split; [unfold rho_els; now rewrite map_length, seq_length|]. split; [|split; [exact VR|split; [|split; [|split; [|split]]]]].
  - intros i e el r He Hel Hr. assert (Hi : (i < length (tp_elements d))%nat) by (apply nth_error_Some; rewrite Hel; discriminate).
    unfold rho_els in He. rewrite nth_error_map in He. rewrite (nth_error_nth' _ O) in He by (now rewrite seq_length). rewrite seq_nth in He by auto. cbn in He. injection He as <-.
    pose proof (dk_made _ _ _ _ _ (rho_el_ok d rho i HT HD Hi)) as M. apply (nth_error_nth _ _ []) in Hel. apply (nth_error_nth _ _ 0) in Hr. unfold del in M. rewrite Hel, Hr in M. exact M.
  - intros i j v Hv. apply (proj1 SO). apply (tb_none _ _ _ _ TB). left. now exists v.
  - intros i j Hi Hj Hf. apply VL. intros Hn. apply (tb_none _ _ _ _ TB) in Hn. destruct Hn as [[v Hv]|Hn]; [now apply (Hf v)|tauto].
  - exact VF.
  - intros H0. rewrite VF. apply Rmult_le_pos; [auto|]. apply (work_nonneg field (nel d) (kk d) (lw d) (vs t) (fun i u Hi => kk_p d i u HT Hi) (es_of d rho) (uval (an_u a))).
    + intros i Hi. apply Rlt_le. now apply es_pos.
    + exact SO.
  - rewrite VD, map_length, seq_length. reflexivity.
Qed.

Lemma C108_balance_pf : forall solve d rho a, spd_solver solve -> top_ok d -> design_ok d rho -> top_analysis solve d rho = Ok a ->
  let N := length (tp_x d) in let x := fun i c => nth c (nth i (tp_x d) []) 0 in
  bigsum N (fun i => uval (an_r a) i 0) = 0 /\ bigsum N (fun i => uval (an_r a) i 1) = 0 /\
  bigsum N (fun i => x i 0%nat * uval (an_r a) i 1 - x i 1%nat * uval (an_r a) i 0) = 0.
Proof.
  intros solve d rho a HS HT HD E N x. destruct (tables_exist d HT) as (u1 & t & n & TB). destruct (analysis_ok solve d rho u1 t n HS HT HD TB) as (a' & E' & _ & _ & _ & VR & _). rewrite E in E'. injection E' as <-.
  assert (B : forall (b : nat -> R) (W : nat -> nat -> R), (forall l c, W l c = - W c l) ->
    bigsum N (fun i => bigsum 2 (fun j => (b j + bigsum 2 (fun l => x i l * W l j)) * uval (an_r a) i j)) = 0).
  { intros b W HW. rewrite <- (balance d rho (an_u a) (fun i j => b j + bigsum 2 (fun l => x i l * W l j)) HT HD).
    - apply bigsum_ext. intros i Hi. apply bigsum_ext. intros j Hj. now rewrite VR.
    - intros i Hi. exists b, W. split; [exact HW|]. intros k c Hk Hc. unfold nodal, x. reflexivity. }
  splits.
  - rewrite <- (B (fun j => if (j =? 0)%nat then 1 else 0) (fun _ _ => 0)) by (intros; ring). apply bigsum_ext. intros i Hi. cbn. ring.
  - rewrite <- (B (fun j => if (j =? 1)%nat then 1 else 0) (fun _ _ => 0)) by (intros; ring). apply bigsum_ext. intros i Hi. cbn. ring.
  - rewrite <- (B (fun _ => 0) (fun l c => if (l =? 0)%nat && (c =? 1)%nat then 1 else if (l =? 1)%nat && (c =? 0)%nat then -1 else 0)).
    + apply bigsum_ext. intros i Hi. cbn. ring.
    + intros l c. destruct l as [|[|]], c as [|[|]]; cbn; ring.
Qed.

Lemma C108_sensitivity_pf : forall solve d (rho : R -> list R) (D : nat -> R) z r a, spd_solver solve -> top_ok d -> 0 < r ->
  (forall h, Rabs h < r -> design_ok d (rho (z + h))) ->
  (forall j, (j < length (tp_elements d))%nat -> derivable_pt_lim (fun y => nth j (rho y) 0) z (D j)) ->
  top_analysis solve d (rho z) = Ok a ->
  derivable_pt_lim (fun y => objective (top_analysis solve d (rho y))) z (bigsum (length (tp_elements d)) (fun j => nth j (an_df a) 0 * D j)).
Proof.
  intros solve d rho D z r a HS HT Hr HD HJ E. destruct (tables_exist d HT) as (u1 & t & n & TB).
  assert (HD0 : design_ok d (rho z)). { rewrite <- (Rplus_0_r z). apply HD. now rewrite Rabs_R0. }
  destruct (analysis_ok solve d (rho z) u1 t n HS HT HD0 TB) as (a' & E' & SO & _ & _ & _ & _ & VF & VD). rewrite E in E'. injection E' as <-.
  set (c := fun y => match top_analysis solve d (rho y) with Ok b => lw d (uval (an_u b)) | Fail _ => 0 end).
  assert (W : derivable_pt_lim c z (- bigsum (nel d) (fun j => (tp_E1 d - tp_E0 d) * (tp_p d * Rpower (nth j (rho z) 0) (tp_p d - 1) * D j) * kk d j (uval (an_u a)) (uval (an_u a))))).
  { apply (work_derivative field comb (nel d) (kk d) (lw d) (vs t) (fun i p u q u' v Hi => kk_l d i p u q u' v Hi) (fun i u v Hi => kk_s d i u v HT Hi) (fun i u Hi => kk_p d i u HT Hi) (fun p u q u' => vs_l t p u q u')
      (fun y => es_of d (rho y)) (fun j => (tp_E1 d - tp_E0 d) * (tp_p d * Rpower (nth j (rho z) 0) (tp_p d - 1) * D j)) z (uval (an_u a)) c r Hr).
    - intros h j Hh Hj. apply es_pos; auto.
    - intros j Hj. unfold es_of. apply (simp_lim d (fun y => nth j (rho y) 0)); [apply (rho_pos d (rho z) j HT HD0 Hj)|]. now apply HJ.
    - exact SO.
    - unfold c. now rewrite E.
    - intros h Hh. destruct (analysis_ok solve d (rho (z + h)) u1 t n HS HT (HD h Hh) TB) as (b & Eb & SB & _). exists (uval (an_u b)). split; [exact SB|]. unfold c. now rewrite Eb. }
  apply (lim_local (fun y => tp_scale0 d * c y) _ z _ r Hr).
  - intros h Hh. destruct (analysis_ok solve d (rho (z + h)) u1 t n HS HT (HD h Hh) TB) as (b & Eb & _ & _ & _ & _ & _ & VB & _). unfold c, objective. now rewrite Eb, VB.
  - replace (bigsum (length (tp_elements d)) (fun j => nth j (an_df a) 0 * D j)) with (tp_scale0 d * - bigsum (nel d) (fun j => (tp_E1 d - tp_E0 d) * (tp_p d * Rpower (nth j (rho z) 0) (tp_p d - 1) * D j) * kk d j (uval (an_u a)) (uval (an_u a)))).
    + apply derivable_pt_lim_scal. exact W.
    + fold (nel d). replace (tp_scale0 d * - bigsum (nel d) (fun j => (tp_E1 d - tp_E0 d) * (tp_p d * Rpower (nth j (rho z) 0) (tp_p d - 1) * D j) * kk d j (uval (an_u a)) (uval (an_u a))))
        with (- tp_scale0 d * bigsum (nel d) (fun j => (tp_E1 d - tp_E0 d) * (tp_p d * Rpower (nth j (rho z) 0) (tp_p d - 1) * D j) * kk d j (uval (an_u a)) (uval (an_u a)))) by ring.
      rewrite <- bigsum_scal. apply bigsum_ext. intros j Hj. rewrite VD, nth_map_seq by auto. unfold df_of. ring.
Qed.

Lemma C108_gradient_pf : forall solve d rho i a, spd_solver solve -> top_ok d -> design_ok d rho -> (i < length rho)%nat -> top_analysis solve d rho = Ok a ->
  derivable_pt_lim (fun z => objective (top_analysis solve d (upd rho i z))) (nth i rho 0) (nth i (an_df a) 0).
Proof.
  intros solve d rho i a HS HT HD Hi E. destruct HD as [L P]. assert (Hp : 0 < nth i rho 0) by (apply P; now apply nth_In).
  replace (nth i (an_df a) 0) with (bigsum (length (tp_elements d)) (fun j => nth j (an_df a) 0 * delta j i)).
  - apply (C108_sensitivity_pf solve d (fun z => upd rho i z) _ (nth i rho 0) (nth i rho 0) a HS HT Hp).
    + intros h Hh. split; [now rewrite upd_length|]. intros x Hx. apply (In_nth _ _ 0) in Hx. destruct Hx as (j & Hj & <-). rewrite upd_length in Hj. rewrite nth_upd_in by auto. destruct (Nat.eqb_spec j i).
      * apply Rabs_def2 in Hh. lra.
      * apply P. now apply nth_In.
    + intros j Hj. destruct (Nat.eq_dec i j) as [<-|Hn]; [rewrite delta_refl|rewrite delta_ne by congruence].
      * apply (lim_local (fun y => y) _ _ _ 1 ltac:(lra)); [|apply derivable_pt_lim_id]. intros h _. rewrite nth_upd_in by auto. now rewrite Nat.eqb_refl.
      * apply (lim_local (fun y => nth j rho 0) _ _ _ 1 ltac:(lra)); [|apply derivable_pt_lim_const]. intros h _. rewrite nth_upd_in by auto. destruct (Nat.eqb_spec j i); [congruence|reflexivity].
    + replace (upd rho i (nth i rho 0)) with rho; [exact E|]. apply (nth_ext _ _ 0 0); [now rewrite upd_length|]. intros j Hj. rewrite nth_upd_in by auto. destruct (Nat.eqb_spec j i); congruence.
  - apply (bigsum_delta_r _ i (fun j => nth j (an_df a) 0)). lia.
Qed.

Lemma C108_monotone_pf : forall solve d rho rho' a a', spd_solver solve -> top_ok d -> design_ok d rho -> design_ok d rho' -> 0 <= tp_p d -> 0 <= tp_scale0 d ->
  (forall i, (i < length rho)%nat -> nth i rho 0 <= nth i rho' 0) -> top_analysis solve d rho = Ok a -> top_analysis solve d rho' = Ok a' ->
  an_f a' <= an_f a /\ forall x, In x (an_df a) -> x <= 0.
Proof.
  intros solve d rho rho' a a' HS HT HD HD' Hp H0 HL E E'. destruct (tables_exist d HT) as (u1 & t & n & TB).
  destruct (analysis_ok solve d rho u1 t n HS HT HD TB) as (b & Eb & SO & _ & _ & _ & _ & VF & VD). rewrite E in Eb. injection Eb as <-.
  destruct (analysis_ok solve d rho' u1 t n HS HT HD' TB) as (b & Eb & SO' & _ & _ & _ & _ & VF' & _). rewrite E' in Eb. injection Eb as <-. destruct (tk_modulus d HT) as [M0 M1]. split.
  - rewrite VF, VF'. apply Rmult_le_compat_l; [auto|].
    apply (work_mono field comb (nel d) (kk d) (lw d) (vs t) (fun i p u q u' v Hi => kk_l d i p u q u' v Hi) (fun i u v Hi => kk_s d i u v HT Hi) (fun i u Hi => kk_p d i u HT Hi) (es_of d rho) (es_of d rho')); auto.
    intros i Hi. split; [apply Rlt_le; now apply es_pos|]. unfold es_of, simp. apply Rplus_le_compat_l. apply Rmult_le_compat_l; [lra|]. apply Rle_Rpower_l; [auto|]. split; [apply (proj2 HD); apply nth_In; unfold nel in Hi; destruct HD; lia|]. apply HL. unfold nel in Hi. destruct HD. lia.
  - intros x Hx. rewrite VD in Hx. apply in_map_iff in Hx. destruct Hx as (i & <- & Hi). apply in_seq in Hi. unfold df_of. pose proof (kk_p d i (uval (an_u a)) HT ltac:(lia)) as K. pose proof (exp_pos ((tp_p d - 1) * ln (nth i rho 0))) as P. fold (Rpower (nth i rho 0) (tp_p d - 1)) in P.
    set (w := Rpower (nth i rho 0) (tp_p d - 1)) in *. set (k := kk d i (uval (an_u a)) (uval (an_u a))) in *.
    assert (0 <= tp_scale0 d * tp_p d * (tp_E1 d - tp_E0 d) * w * k) by (repeat apply Rmult_le_pos; lra). lra.
Qed.

Lemma C108_solver_pf : spd_solver cg_exact.
Proof.
  intros n A b HA Hb Hs Hp. destruct (C24_cg_trace_pf n A b HA Hb Hs Hp) as (m & tr & Hm & E0 & HS & HN & HZ & HX & _).
  exists (map (ix (cg_x (tr m))) (seq 0 n)). unfold cg_exact. rewrite E0. cbn [bind]. rewrite Hb. split; [|split; [now rewrite map_length, seq_length|]].
  - apply (cg_exact_reaches n A tr m HS HN HZ m 0 n); lia.
  - apply (mulvec_rows n A _ b HA); [now rewrite map_length, seq_length|auto|]. intros i Hi. rewrite <- (HX i Hi). unfold matvec. apply bigsum_ext. intros j Hj. f_equal. unfold ix. now rewrite nth_map_seq.
Qed.

Lemma C108_weight_pf : forall d rho, length rho = length (tp_elements d) -> tp_elements d <> [] -> tp_limit d <> 0 ->
  exists g dg, top_weight d rho = Ok (g, dg) /\
    g = tp_scale1 d * (bigsum (length rho) (fun i => nth i rho 0) / INR (length rho) / tp_limit d - 1) /\
    length dg = length rho /\ (forall i, (i < length rho)%nat -> nth i dg 0 = tp_scale1 d / (tp_limit d * INR (length rho))) /\
    (forall rho' g' dg', length rho' = length rho -> top_weight d rho' = Ok (g', dg') -> g' - g = bigsum (length rho) (fun i => nth i dg 0 * (nth i rho' 0 - nth i rho 0))) /\
    (0 < tp_scale1 d -> 0 < tp_limit d -> (g <= 0 <-> bigsum (length rho) (fun i => nth i rho 0) / INR (length rho) <= tp_limit d)).
Proof.
  intros d rho HL HE HV. assert (Hn : INR (length rho) <> 0). { rewrite HL. apply not_0_INR. destruct (tp_elements d); [congruence|discriminate]. }
  assert (Hp : 0 < INR (length rho)) by (pose proof (pos_INR (length rho)); lra).
  assert (RUN : forall r, length r = length rho -> exists dg, top_weight d r = Ok (bigsum (length rho) (fun i => tp_scale1 d * nth i r 0 / (tp_limit d * INR (length rho))) - 1 * tp_scale1 d, dg) /\ length dg = length rho /\ forall i, (i < length rho)%nat -> nth i dg 0 = tp_scale1 d / (tp_limit d * INR (length rho))).
  { intros r Hr. unfold top_weight. rewrite <- HL.
    set (f := fun (s : R * list R) i => let '(g, dg) := s in ri <- rd r i ;; a <- Rdiv_res (tp_scale1 d * ri) (tp_limit d * INR (length rho)) ;; b <- Rdiv_res (tp_scale1 d) (tp_limit d * INR (length rho)) ;; dg <- wr dg i b ;; Ok (g + a, dg)).
    assert (G : forall k, (k <= length rho)%nat -> exists dg, foldM f (seq 0 k) (0, repeat 0 (length rho)) = Ok (bigsum k (fun i => tp_scale1 d * nth i r 0 / (tp_limit d * INR (length rho))), dg) /\ length dg = length rho /\ forall i, (i < k)%nat -> nth i dg 0 = tp_scale1 d / (tp_limit d * INR (length rho))).
    { induction k as [|k IH]; intros Hk.
      - eexists. split; [reflexivity|]. split; [apply repeat_length|]. intros; lia.
      - destruct IH as (dg & E & L & V); [lia|]. rewrite seq_S, foldM_app, E. cbn [bind foldM plus f]. rewrite (rd_nth r k 0) by lia. cbn [bind].
        assert (NZ : tp_limit d * INR (length rho) <> 0) by (now apply Rmult_integral_contrapositive). unfold Rdiv_res. destruct (Req_EM_T (tp_limit d * INR (length rho)) 0); [contradiction|]. cbn [bind].
        unfold wr. destruct (Nat.ltb_spec k (length dg)); [|lia]. cbn [bind]. eexists. split; [reflexivity|]. split; [now rewrite upd_length|]. intros i Hi. rewrite nth_upd_in by lia. destruct (Nat.eqb_spec i k); [reflexivity|]. apply V. lia. }
    destruct (G (length rho) (le_n _)) as (dg & E & L & V). rewrite E. cbn [bind]. exists dg. auto. }
  assert (SUM : forall r, bigsum (length rho) (fun i => tp_scale1 d * nth i r 0 / (tp_limit d * INR (length rho))) = tp_scale1 d / (tp_limit d * INR (length rho)) * bigsum (length rho) (fun i => nth i r 0)).
  { intros r. rewrite <- bigsum_scal. apply bigsum_ext. intros i Hi. field. auto. }
  destruct (RUN rho eq_refl) as (dg & E & L & V). rewrite SUM in E. eexists _, dg. split; [exact E|]. set (S := bigsum (length rho) (fun i => nth i rho 0)) in *. splits.
  - field. auto.
  - exact L.
  - exact V.
  - intros rho' g' dg' HL' E'. destruct (RUN rho' HL') as (dg'' & E'' & _). rewrite E' in E''. injection E'' as -> ->. rewrite SUM.
    rewrite (bigsum_ext _ (fun i => nth i dg 0 * (nth i rho' 0 - nth i rho 0)) (fun i => tp_scale1 d / (tp_limit d * INR (length rho)) * (nth i rho' 0 - nth i rho 0))) by (intros i Hi; now rewrite V). rewrite bigsum_scal, bigsum_minus. fold S. ring.
  - intros H1 H2. replace (tp_scale1 d / (tp_limit d * INR (length rho)) * S - 1 * tp_scale1 d) with (tp_scale1 d / tp_limit d * (S / INR (length rho) - tp_limit d)) by (field; auto).
    assert (0 < tp_scale1 d / tp_limit d) by (now apply Rdiv_lt_0_compat). split; intros H3; nra.
Qed.
