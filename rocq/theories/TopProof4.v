(** The displacements and the reactions of a design. *)
From Coq Require Import List Arith Lia Bool Reals Lra.
From Verif Require Import Res SumR DenseModel DenseR DenseSpec ShapeModel QuadModel QuadSpec ElemModel ElemSpec SparseModel SparseSpec AssemblyModel AssemblySpec KrylovSpec PatchSpec StableSpec OCModel TopModel TopSpec.
From Verif Require Import DenseProof DenseMain SparseMain AssemblyProof AssemblyProof2 AssemblyProof3 AssemblyMain ElemProof ElemProof2 ElemProof3 ElemMain HomMain PatchProof PatchProof2 StableProof StableProof2 StableProof3 StableProof4 ThetaProof ThetaProof3 ThetaProof4 ThetaProof5 TopProof2 TopProof3.
Import ListNotations.
Local Open Scope R_scope.

Definition made_some (dou : list nat) (xs : list (list R)) (d m : nat) (p : piece) (e : elem) : Prop := exists f, stiff_routine dou xs d m f /\ made_by f p e.
Lemma held_definite2 dou xs d m P es n t u G : length dou = m -> (forall p, In p P -> stable_piece d xs p) -> Forall2 (made_some dou xs d m) P es ->
  (forall e, In e es -> elem_ok n t u e) -> numbering n t -> (forall i j, (i < n)%nat -> G i j = sum_over es (fun e => k_contrib t e i j)) ->
  (forall i j, num t i j <> None -> In j dou /\ held xs m (map p_nodes P) (fun k => forall c, In c dou -> num t k c = None) i) ->
  symmetric n G /\ pos_def n G.
Proof.
  intros HD HP HF He (B2 & I2 & O2) HG HH. split.
  - intros i j Hi Hj. rewrite !HG by auto. apply sum_ext. intros e Hin. destruct (Forall2_In_r _ _ _ HF e Hin) as (p & Hp & f & HR & Hm).
    apply k_contrib_sym. apply (element_held dou xs d m f p e (fun _ _ => 0) HR HD (HP p Hp) Hm).
  - intros x Hx. set (v := fun k c => match num t k c with Some j => x j | None => 0 end).
    assert (EE : dot n x (matvec n G x) = sum_over es (fun e => denergy e v)).
    { unfold dot, matvec. rewrite (sum_ext es _ (fun e => bigsum n (fun i => bigsum n (fun j => x i * k_contrib t e i j * x j)))).
      2:{ intros e Hin. rewrite (energy n t u) by auto. reflexivity. }
      rewrite <- bigsum_over. apply bigsum_ext. intros i Hi. rewrite <- bigsum_over, <- bigsum_scal. apply bigsum_ext. intros j Hj.
      rewrite HG by auto. rewrite (Rmult_comm (sum_over _ _)), <- Rmult_assoc, <- sum_over_scal. apply sum_ext. intros; ring. }
    assert (NN : forall e, In e es -> 0 <= denergy e v).
    { intros e Hin. destruct (Forall2_In_r _ _ _ HF e Hin) as (p & Hp & f & HR & Hm). apply (element_held dou xs d m f p e v HR HD (HP p Hp) Hm). }
    rewrite EE. destruct (Rle_lt_or_eq_dec _ _ (sum_over_nonneg es _ NN)) as [Hlt|H0]; [exact Hlt|]. exfalso. symmetry in H0.
    assert (Z : forall k, held xs m (map p_nodes P) (fun k => forall c, In c dou -> num t k c = None) k -> forall c, In c dou -> v k c = 0).
    { intros k Hk. induction Hk as [k Hb|el ks k Hel HS Hks _ IH Hin]; intros c Hc.
      - unfold v. now rewrite (Hb c Hc).
      - apply in_map_iff in Hel. destruct Hel as (p & <- & Hp). destruct (Forall2_In_l _ _ _ HF p Hp) as (e & Hin' & f & HR & Hm).
        destruct (element_held dou xs d m f p e v HR HD (HP p Hp) Hm) as (_ & _ & T).
        apply (T (sum_zero_each es _ NN H0 e Hin') ks HS Hks); auto. }
    destruct Hx as (k & Hk & Hne). destruct (O2 k Hk) as (i & j & Eij). destruct (HH i j ltac:(congruence)) as [Hj Hh].
    apply Hne. specialize (Z i Hh j Hj). unfold v in Z. now rewrite Eij in Z.
Qed.

(** ** The tables *)
Lemma last_value_in fx i j : match last_value fx i j with Some v => In (i, j, v) fx | None => forall v, ~ In (i, j, v) fx end.
Proof.
  unfold last_value. induction fx as [|[[i' j'] v] fx IH]; [cbn; auto|]. rewrite last_write_cons. destruct (last_write fx i j) as [w|]; [now right|].
  destruct (Nat.eqb_spec i' i) as [->|N1]; [destruct (Nat.eqb_spec j' j) as [->|N2]|]; cbn [andb]; [now left| |]; intros w [E|H]; try (exact (IH w H)); injection E; intros; congruence.
Qed.
Lemma nth_repeat_in {A} (x d : A) N i : nth i (repeat x N) d = if (i <? N)%nat then x else d.
Proof. revert i. induction N as [|N IH]; intros [|i]; auto. cbn [repeat nth]. rewrite IH. destruct (Nat.ltb_spec i N), (Nat.ltb_spec (S i) (S N)); auto; lia. Qed.
Lemma in_table_repeat {A} (x : A) N i j : in_table (repeat (repeat x 2) N) i j <-> (i < N)%nat /\ (j < 2)%nat.
Proof. unfold in_table. rewrite nth_repeat_in. destruct (Nat.ltb_spec i N); [rewrite repeat_length|cbn [length]]; lia. Qed.
Lemma num_repeat N i j : num (repeat (repeat (Some 0%nat) 2) N) i j = if (i <? N)%nat && (j <? 2)%nat then Some 0%nat else None.
Proof. unfold num. rewrite nth_repeat_in. destruct (i <? N)%nat; cbn [andb]; [apply nth_repeat_in|destruct j; auto]. Qed.
Lemma uval_zero N i j : uval (repeat (vnew R_ops 2) N) i j = 0.
Proof. unfold uval. rewrite nth_repeat_in. destruct (i <? N)%nat; [unfold vnew; apply nth_repeat|destruct j; auto]. Qed.

Definition fixed_in (d : top) (i j : nat) : Prop := exists v, In (i, j, v) (tp_ufixed d).
Record tables (d : top) (u1 : list (list R)) (t : table) (n : nat) : Prop := mkTables {
  tb_run : exists t1, set_dirichlet (repeat (vnew R_ops 2) (length (tp_x d)), repeat (repeat (Some 0%nat) 2) (length (tp_x d))) (tp_ufixed d) = Ok (u1, t1) /\ renumber t1 = (t, n);
  tb_num : numbering n t;
  tb_none : forall i j, num t i j = None <-> fixed_in d i j \/ ~ ((i < length (tp_x d))%nat /\ (j < 2)%nat);
  tb_in : forall i j, in_table t i j <-> (i < length (tp_x d))%nat /\ (j < 2)%nat;
  tb_inu : forall i j, in_table u1 i j <-> (i < length (tp_x d))%nat /\ (j < 2)%nat;
  tb_len : length u1 = length (tp_x d);
  tb_zero : forall i j, uval u1 i j = 0 }.
Lemma tables_exist d : top_ok d -> exists u1 t n, tables d u1 t n.
Proof.
  intros HT. set (N := length (tp_x d)).
  destruct (set_dirichlet_ok (tp_ufixed d) (repeat (vnew R_ops 2) N) (repeat (repeat (Some 0%nat) 2) N)) as (u1 & t1 & E1 & Su & St & Vu & Vt).
  { intros i j v Hin. destruct (tk_fixed d HT i j v Hin) as (A & B & _). split; apply in_table_repeat; auto. }
  destruct (renumber t1) as [t n] eqn:E2. destruct (renumber_ok _ _ _ E2) as ((L2 & L2' & P2) & _ & _ & NU & _).
  exists u1, t, n. split; fold N; auto.
  - eauto.
  - intros i j. rewrite <- P2, Vt. pose proof (last_value_in (tp_ufixed d) i j) as LV. unfold fixed_in. destruct (last_value (tp_ufixed d) i j) as [v|].
    + split; auto. intros _. left. eauto.
    + rewrite num_repeat. destruct (Nat.ltb_spec i N), (Nat.ltb_spec j 2); cbn [andb]; split; intros X; try discriminate; try (right; lia); auto.
      destruct X as [[v Hv]|X]; [exfalso; exact (LV v Hv)|exfalso; apply X; auto].
  - intros i j. rewrite <- (in_table_repeat (Some 0%nat) N i j). rewrite <- (same_shape_in t1 _ i j St). unfold in_table. rewrite (L2' i). tauto.
  - intros i j. rewrite <- (in_table_repeat 0 N i j). apply (same_shape_in u1 _ i j Su).
  - rewrite (proj1 Su). apply repeat_length.
  - intros i j. rewrite Vu. pose proof (last_value_in (tp_ufixed d) i j) as LV. destruct (last_value (tp_ufixed d) i j) as [v|]; [apply (tk_fixed d HT i j v LV)|]. apply uval_zero.
Qed.

(** ** The displacements *)
Lemma Forall2_seq {A} (P : A -> elem -> Prop) (l : list A) (h : nat -> elem) d0 : (forall i, (i < length l)%nat -> P (nth i l d0) (h i)) -> Forall2 P l (map h (seq 0 (length l))).
Proof.
  revert h. induction l as [|a l IH]; intros h H; cbn [length seq map]; [constructor|]. constructor; [apply (H O); cbn; lia|]. rewrite <- seq_shift, map_map. apply IH. intros i Hi. apply (H (S i)). cbn; lia.
Qed.
Lemma rho_fits d rho t : top_ok d -> design_ok d rho -> (forall i j, in_table t i j <-> (i < length (tp_x d))%nat /\ (j < 2)%nat) -> forall e, In e (rho_els d rho) -> elem_fits t e.
Proof.
  intros HT HD Ht e He. unfold rho_els in He. apply in_map_iff in He. destruct He as (i & <- & Hi). apply in_seq in Hi. apply (dk_fits _ _ _ _ _ (rho_el_ok d rho i HT HD ltac:(lia))).
  intros k c Hk Hc. apply Ht. split; auto. apply (tk_nodes d HT (del d i)); auto. apply del_in. lia.
Qed.
Lemma displacement_ok solve d rho u1 t n : spd_solver solve -> top_ok d -> design_ok d rho -> tables d u1 t n ->
  exists u, top_displacement solve d rho = Ok (u, t) /\ length u = length (tp_x d) /\ (forall i j, in_table u i j <-> (i < length (tp_x d))%nat /\ (j < 2)%nat) /\
    (forall i j, num t i j = None -> uval u i j = 0) /\ (forall i j, num t i j <> None -> internal_force (rho_els d rho) u i j = nodal_load (tp_qfixed d) i j).
Proof.
  intros HS HT HD TB. pose proof (tb_num _ _ _ _ TB) as NU.
  destruct (kf_system n t u1 (rho_els d rho) (tp_qfixed d) NU) as (K & F & F' & Kc & K' & E1 & E2 & E3 & SQ & LF & EN & OK & X).
  { intros i j H. apply (tb_inu _ _ _ _ TB), (tb_in _ _ _ _ TB), H. }
  { apply rho_fits; auto. apply TB. }
  { intros i j v H. apply (tb_in _ _ _ _ TB). exact (tk_loads d HT i j v H). }
  assert (SPD : symmetric n (entry Kc) /\ pos_def n (entry Kc)).
  { apply (held_definite2 [0%nat; 1%nat] (tp_x d) 2 2 (map (mkPiece (tp_s d) (tp_q d)) (tp_elements d)) (rho_els d rho) n t u1); auto.
    - intros p Hp. apply in_map_iff in Hp. destruct Hp as (el & <- & Hel). now apply (tk_piece d HT).
    - unfold rho_els. rewrite <- (map_length (mkPiece (tp_s d) (tp_q d)) (tp_elements d)). apply (Forall2_seq _ _ _ (mkPiece (tp_s d) (tp_q d) [])). intros i Hi. rewrite map_length in Hi.
      rewrite map_nth. fold (del d i). pose proof (rho_el_ok d rho i HT HD Hi) as RK. destruct (rho_pos d rho i HT HD Hi) as (_ & P2 & _).
      eexists. split; [|exact (dk_made _ _ _ _ _ RK)]. apply sr_strain; auto; [apply (tk_poisson d HT)|apply (tk_thick d HT)].
    - intros i j Hij. rewrite (tb_none _ _ _ _ TB) in Hij.
      assert (A : (i < length (tp_x d))%nat /\ (j < 2)%nat) by (destruct (Nat.lt_ge_cases i (length (tp_x d))), (Nat.lt_ge_cases j 2); try (split; auto; fail); exfalso; apply Hij; right; lia).
      split; [destruct j as [|[|]]; cbn; auto; lia|]. rewrite map_map. cbn [p_nodes]. rewrite map_id.
      assert (B : forall v, ~ In (i, j, v) (tp_ufixed d)) by (intros v Hv; apply Hij; left; exists v; auto).
      pose proof (tk_held d HT i j (proj1 A) (proj2 A) B) as HH. clear - HH TB. induction HH as [k Hb|el ks k Hel HS Hks _ IH Hin]; [apply held_base|eapply held_elem; eauto].
      intros c Hc. apply (tb_none _ _ _ _ TB). left. apply Hb. destruct Hc as [<-|[<-|[]]]; lia. }
  destruct (HS n Kc F' SQ LF (proj1 SPD) (proj2 SPD)) as (x & Ex & Lx & Sx). destruct (X x Lx) as (u & E4 & IU & LU & VU & EQ).
  exists u. splits.
  - unfold top_displacement. destruct (tb_run _ _ _ _ TB) as (t1 & R1 & R2). rewrite R1. cbn [bind]. rewrite R2, (add_design d rho u1 t _ HT HD), E1. cbn [bind]. rewrite E2. cbn [bind]. rewrite E3. cbn [bind]. rewrite Ex. cbn [bind]. rewrite E4. reflexivity.
  - rewrite LU. apply TB.
  - intros i j. rewrite IU. apply TB.
  - intros i j Hn. rewrite VU, Hn. apply TB.
  - intros i j Hn. destruct (num t i j) as [k|] eqn:Ek; [|congruence]. pose proof (EQ i j k Ek) as Q.
    assert (residual n Kc F' x k = 0); [|lra]. unfold residual. pose proof (proj1 (mulvec_rows n Kc x F' SQ Lx LF) Sx k (proj1 NU _ _ _ Ek)). lra.
Qed.

(** ** The reactions *)
Lemma removed_table (t : table) N : (forall i j, in_table t i j <-> (i < N)%nat /\ (j < 2)%nat) -> forall i j, in_table (remove_bc t) i j <-> (i < N)%nat /\ (j < 2)%nat.
Proof.
  intros H i j. rewrite <- H. unfold in_table, remove_bc. change (@nil (option nat)) with (map (fun _ : option nat => Some 0%nat) []) at 1. rewrite map_nth, map_length. tauto.
Qed.
Lemma removed_num t i j : num (remove_bc t) i j = None <-> ~ in_table t i j.
Proof.
  unfold num, in_table, remove_bc. change (@nil (option nat)) with (map (fun _ : option nat => Some 0%nat) []) at 1. rewrite map_nth. generalize (nth i t []). intros l. revert j.
  induction l as [|x l IH]; intros [|j]; cbn [map nth length]; try (split; intros; auto; lia); [split; intros; [discriminate|lia]|]. rewrite IH. lia.
Qed.
Definition act_elem (d : top) (rho : list R) (u : list (list R)) (i : nat) (e : elem) : Prop :=
  e_nodes e = del d i /\ e_nte e = e_nte (rho_el d rho i) /\ e_K e = e_K (rho_el d rho i) /\ (forall t RF, top_react d rho u t RF i = assemble_F RF (e_F e) t (e_nte e) (e_nodes e)) /\
  (forall t, (forall k c, In k (del d i) -> (c < 2)%nat -> in_table t k c) -> elem_fits t e) /\
  forall a, In a (e_dofs e) -> e_f e (dloc a) = sum_over (e_dofs e) (fun b => e_k e (dloc a) (dloc b) * duval u b).
Lemma act_exists d rho u i : top_ok d -> design_ok d rho -> (i < length (tp_elements d))%nat -> (forall i j, in_table u i j <-> (i < length (tp_x d))%nat /\ (j < 2)%nat) ->
  exists e, act_elem d rho u i e.
Proof.
  intros HT HD Hi HU. pose proof (rho_el_ok d rho i HT HD Hi) as RK. destruct (rho_pos d rho i HT HD Hi) as (P1 & P2 & P3).
  destruct (dk_mat _ _ _ _ _ RK) as (k & Hk). set (e := rho_el d rho i) in *. set (el := del d i) in *.
  destruct (action 2 [0%nat; 1%nat] el (e_nte e) (e_K e) k u (dk_num _ _ _ _ _ RK) eq_refl Hk) as (ue & y & E1 & E2 & Ly & Hy & _).
  { intros a c Ha Hc. apply HU. split; [apply (tk_nodes d HT el); auto; now apply del_in|destruct Hc as [<-|[<-|[]]]; lia]. }
  exists (mkElem el (e_nte e) (e_K e) y). unfold act_elem, e_dofs. cbn [e_nodes e_nte e_K e_F]. splits; auto.
  - intros t RF. unfold top_react. rewrite P3. cbn [bind]. rewrite simp_ok by auto. cbn [bind]. rewrite (rd_nth _ i []) by lia. cbn [bind]. fold (del d i). fold el. rewrite (dk_call _ _ _ _ _ RK). cbn [bind]. rewrite E1. cbn [bind]. rewrite E2. reflexivity.
  - intros t Ht. destruct (dk_fits _ _ _ _ _ RK t Ht) as (F1 & F2 & F3). unfold elem_fits, e_dofs in *. cbn [e_nodes e_nte e_K e_F]. rewrite (dk_nodes _ _ _ _ _ RK) in *. splits; auto. intros a Ha. destruct (F3 a Ha) as (A & B & C & _).
    splits; auto. rewrite Ly. destruct Hk as (_ & MR & _). rewrite <- MR. exact B.
Qed.
Lemma loads_ok n t u es : forall F H, (forall e, In e es -> elem_ok n t u e) -> vec_is n F H ->
  exists F', foldM (fun F e => assemble_F F (e_F e) t (e_nte e) (e_nodes e)) es F = Ok F' /\ vec_is n F' (fun i => H i + sum_over es (fun e => f_contrib t e i)).
Proof.
  induction es as [|e es IH]; intros F H He HF.
  - exists F. split; auto. revert HF; apply vec_is_ext. intros; rewrite sum_over_nil; lra.
  - cbn [foldM]. destruct (assemble_F_ok n t u e (He e (or_introl eq_refl)) F H HF) as (F1 & E1 & HF1). rewrite E1. cbn [bind].
    destruct (IH F1 _ (fun e' H' => He e' (or_intror H')) HF1) as (F' & E' & HF'). exists F'. split; auto. revert HF'; apply vec_is_ext. intros; rewrite sum_over_cons; lra.
Qed.
Lemma list_choice {A} (P : nat -> A -> Prop) n : (forall i, (i < n)%nat -> exists a, P i a) -> exists l, length l = n /\ forall i d, (i < n)%nat -> P i (nth i l d).
Proof.
  induction n as [|n IH]; intros H; [exists []; split; auto; lia|]. destruct IH as (l & L & Hl); [intros; apply H; lia|]. destruct (H n ltac:(lia)) as (a & Ha).
  exists (l ++ [a]). split; [rewrite app_length; cbn; lia|]. intros i d Hi. destruct (Nat.eq_dec i n) as [->|Hne]; [rewrite app_nth2, L, Nat.sub_diag by lia; exact Ha|rewrite app_nth1 by lia; apply Hl; lia].
Qed.
Lemma reaction_ok d rho u t : top_ok d -> design_ok d rho -> (forall i j, in_table t i j <-> (i < length (tp_x d))%nat /\ (j < 2)%nat) -> (forall i j, in_table u i j <-> (i < length (tp_x d))%nat /\ (j < 2)%nat) ->
  exists r, top_reaction d rho u t = Ok r /\ length r = length (tp_x d) /\ (forall i j, in_table r i j <-> (i < length (tp_x d))%nat /\ (j < 2)%nat) /\
    forall i j, (i < length (tp_x d))%nat -> (j < 2)%nat -> uval r i j = internal_force (rho_els d rho) u i j.
Proof.
  intros HT HD Ht HU. set (N := length (tp_x d)) in *. set (m := length (tp_elements d)).
  destruct (list_choice (act_elem d rho u) m) as (es & Les & Hes). { intros i Hi. now apply act_exists. }
  unfold top_reaction. destruct (renumber (remove_bc t)) as [t' n'] eqn:E0. destruct (renumber_ok _ _ _ E0) as ((L2 & L2' & P2) & _ & _ & (B2 & I2 & O2) & _).
  assert (Ht' : forall i j, in_table t' i j <-> (i < N)%nat /\ (j < 2)%nat). { intros i j. rewrite <- (removed_table t N Ht i j). unfold in_table. rewrite (L2' i). tauto. }
  assert (HN : forall i j, (i < N)%nat -> (j < 2)%nat -> exists k, num t' i j = Some k).
  { intros i j Hi Hj. destruct (num t' i j) as [k|] eqn:Ek; [eauto|]. apply P2, removed_num in Ek. exfalso. apply Ek, Ht. auto. }
  assert (OK : forall e, In e es -> elem_ok n' t' u e).
  { intros e He. destruct (In_nth es e e He) as (i & Hi & Ei). rewrite Les in Hi. pose proof (Hes i e Hi) as AE. rewrite Ei in AE. destruct AE as (_ & _ & _ & _ & FI & _).
    apply (elem_fits_ok n' t' t' u e); auto.
    - apply FI. intros k c Hk Hc. apply Ht'. split; auto. apply (tk_nodes d HT (del d i)); auto. now apply del_in.
    - split; auto.
    - intros i' j' H. apply HU, Ht', H. }
  set (e0 := mkElem [] [] (mnew R_ops 0 0) []).
  rewrite (foldM_map (top_react d rho u t') (fun F e => assemble_F F (e_F e) t' (e_nte e) (e_nodes e)) (fun i => nth i es e0) (seq 0 m)).
  2:{ intros s i Hi. apply in_seq in Hi. destruct (Hes i e0 ltac:(lia)) as (_ & _ & _ & AC & _). apply AC. }
  assert (ME : map (fun i => nth i es e0) (seq 0 m) = es).
  { apply (nth_ext _ _ e0 e0); [now rewrite map_length, seq_length|]. intros i Hi. rewrite map_length, seq_length in Hi. rewrite (nth_indep _ e0 (nth 0 es e0)) by (now rewrite map_length, seq_length).
    change (nth 0 es e0) with ((fun i => nth i es e0) 0%nat). rewrite map_nth, seq_nth by auto. reflexivity. }
  rewrite ME. destruct (loads_ok n' t' u es (repeat 0 n') _ OK (vec_zero_is n')) as (RF & E1 & LRF & VRF). rewrite E1. cbn [bind].
  destruct (disassemble_ok (repeat (vnew R_ops 2) N) RF t') as (r & E2 & SH & VR).
  { intros i j H. apply in_table_repeat. now apply Ht'. } { intros i j k Hk. rewrite LRF. eauto. }
  exists r. splits; auto.
  - rewrite (proj1 SH). apply repeat_length.
  - intros i j. rewrite (same_shape_in r _ i j SH). apply (in_table_repeat 0).
  - intros i j Hi Hj. destruct (HN i j Hi Hj) as (k & Ek). rewrite VR. unfold dis_val. rewrite Ek, VRF by eauto. rewrite Rplus_0_l.
    assert (Hat : forall a, is_eq (dnum t' a) k = at_dof i j a).
    { intros a. unfold at_dof. destruct (dnum t' a) as [k'|] eqn:Ea; cbn [is_eq].
      - destruct (Nat.eqb_spec k' k).
        + subst k'. destruct (I2 _ _ _ _ _ Ea Ek) as [-> ->]. now rewrite !Nat.eqb_refl.
        + destruct (Nat.eqb_spec (dnode a) i); auto. destruct (Nat.eqb_spec (ddof a) j); auto. subst. unfold dnum in Ea. congruence.
      - destruct (Nat.eqb_spec (dnode a) i); auto. destruct (Nat.eqb_spec (ddof a) j); auto. subst. unfold dnum in Ea. congruence. }
    unfold internal_force, rho_els. rewrite <- ME. fold m. rewrite !sum_map. apply sum_ext. intros e He. apply in_seq in He. destruct (Hes e e0 ltac:(lia)) as (A1 & A2 & A3 & _ & _ & A6). set (x := nth e es e0) in *.
    assert (ED : e_dofs (rho_el d rho e) = e_dofs x) by (unfold e_dofs; rewrite A1, A2, (dk_nodes _ _ _ _ _ (rho_el_ok d rho e HT HD ltac:(unfold m in *; lia))); reflexivity).
    rewrite ED. apply sum_ext. intros a Ha. rewrite Hat. f_equal. rewrite A6 by auto. apply sum_ext. intros b Hb. unfold e_k. now rewrite A3.
Qed.
