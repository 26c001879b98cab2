(** The residual, the test and the step of one pass. *)
From Coq Require Import List Arith Lia Bool Reals Lra.
From Verif Require Import Res SumR DenseModel DenseR DenseSpec ShapeModel QuadModel QuadSpec ElemModel ElemSpec SparseModel SparseSpec AssemblyModel AssemblySpec KrylovSpec NewtonModel NewtonSpec.
From Verif Require Import DenseProof DenseMain SparseMain AssemblyProof AssemblyProof2 AssemblyProof3 AssemblyMain KrylovProof PatchProof2 StableProof3 StableProof4 TopProof4 NewtonProof.
Import ListNotations.
Local Open Scope R_scope.

Lemma sum_map {A B} (g : A -> B) l f : sum_over (map g l) f = sum_over l (fun x => f (g x)).
Proof. unfold sum_over. now rewrite map_map. Qed.
Lemma is_vec_of (v : list R) n : length v = n -> is_vec v n (fun j => nth j v 0).
Proof. intros <-. apply (is_vec_self R_ops). Qed.
Lemma at_number d t n i j k a : ntables d t n -> num t i j = Some k -> is_eq (dnum t a) k = at_dof i j a.
Proof.
  intros TB E. destruct (nt_num _ _ _ TB) as (_ & I2 & _). unfold at_dof. destruct (dnum t a) as [k'|] eqn:Ea; cbn [is_eq].
  - destruct (Nat.eqb_spec k' k).
    + subst k'. destruct (I2 _ _ _ _ _ Ea E) as [-> ->]. now rewrite !Nat.eqb_refl.
    + destruct (Nat.eqb_spec (dnode a) i); auto. destruct (Nat.eqb_spec (ddof a) j); auto. subst. unfold dnum in Ea. congruence.
  - destruct (Nat.eqb_spec (dnode a) i); auto. destruct (Nat.eqb_spec (ddof a) j); auto. subst. unfold dnum in Ea. congruence.
Qed.
Lemma dof_range d u t n el a : newton_ok d -> ntables d t n -> nshape d u -> In el (nw_elements d) -> In a (e_dofs (nel d u el)) -> (dnode a < length (nw_x d))%nat /\ (ddof a < 3)%nat.
Proof. intros HT TB HU Hel Ha. destruct (nel_ok d u t n el HT TB HU Hel) as (_ & _ & (_ & _ & OK) & _). destruct (OK a Ha) as (A & _). now apply (nt_in _ _ _ TB). Qed.
Lemma ind_sum {A} (l : list A) b f : sum_over l (fun x => ind b (f x)) = ind b (sum_over l f).
Proof. destruct b; [apply sum_ext; auto|]. apply sum_zero. auto. Qed.
Lemma scaled_loads d t n s i j k : ntables d t n -> num t i j = Some k -> n_contrib t (map (fun f => (fst f, snd f * s)) (nw_qfixed d)) k = s * nodal_load (nw_qfixed d) i j.
Proof.
  intros TB E. unfold n_contrib, nodal_load. rewrite sum_map, <- sum_over_scal. apply sum_ext. intros [[i' j'] v] _. cbn [fst snd].
  pose proof (at_number d t n i j k (mkDof i' j' 0) TB E) as X. unfold at_dof, dnum in X. cbn [dnode ddof] in X. rewrite X. unfold ind. destruct (_ && _)%bool; ring.
Qed.
Lemma row_value d u t n s i j k : newton_ok d -> ntables d t n -> nshape d u -> num t i j = Some k ->
  0 + sum_over (nels d u) (fun e => f_contrib t e k - d_contrib t u e k) + n_contrib t (map (fun f => (fst f, snd f * s)) (nw_qfixed d)) k = out d s u i j - held_share d u i j.
Proof.
  intros HT TB HU E. rewrite (scaled_loads d t n s i j k TB E). unfold out, held_share, element_load. fold (nels d u).
  assert (X : sum_over (nels d u) (fun e => f_contrib t e k - d_contrib t u e k) =
    sum_over (nels d u) (fun e => sum_over (e_dofs e) (fun a => ind (at_dof i j a) (e_f e (dloc a)))) - sum_over (nels d u) (fun e => sum_over (e_dofs e) (fun a => ind (at_dof i j a)
    (sum_over (e_dofs e) (fun b => ind (held d (dnode b) (ddof b)) (e_k e (dloc a) (dloc b) * duval u b)))))).
  { rewrite <- (Rplus_0_r (sum_over (nels d u) (fun e => f_contrib t e k - d_contrib t u e k))).
    enough (Y : sum_over (nels d u) (fun e => f_contrib t e k - d_contrib t u e k) + sum_over (nels d u) (fun e => sum_over (e_dofs e) (fun a => ind (at_dof i j a)
    (sum_over (e_dofs e) (fun b => ind (held d (dnode b) (ddof b)) (e_k e (dloc a) (dloc b) * duval u b))))) = sum_over (nels d u) (fun e => sum_over (e_dofs e) (fun a => ind (at_dof i j a) (e_f e (dloc a))))) by lra.
    rewrite <- sum_over_plus. apply sum_ext. intros e He. apply in_map_iff in He. destruct He as (el & <- & Hel). set (e := nel d u el).
    assert (F : f_contrib t e k = sum_over (e_dofs e) (fun a => ind (at_dof i j a) (e_f e (dloc a)))). { unfold f_contrib. apply sum_ext. intros a _. now rewrite (at_number d t n i j k a TB E). }
    assert (D : d_contrib t u e k = sum_over (e_dofs e) (fun a => ind (at_dof i j a) (sum_over (e_dofs e) (fun b => ind (held d (dnode b) (ddof b)) (e_k e (dloc a) (dloc b) * duval u b))))).
    { unfold d_contrib. apply sum_ext. intros a Ha. rewrite <- ind_sum. apply sum_ext. intros b Hb. rewrite (at_number d t n i j k a TB E).
      destruct (dof_range d u t n el b HT TB HU Hel Hb) as [B1 B2]. pose proof (nt_none _ _ _ TB (dnode b) (ddof b) B1 B2) as NN. fold (dnum t b) in NN.
      destruct (dnum t b) as [k'|], (held d (dnode b) (ddof b)); cbn [ind andb]; try (exfalso; destruct NN as [N1 N2]; (discriminate (N1 eq_refl) || discriminate (N2 eq_refl))); destruct (at_dof i j a); reflexivity. }
    rewrite F, D. ring. }
  rewrite X. ring.
Qed.

(** ** Sums of squares *)
Lemma squares_from l : forall a, fold_left (fun a r => a + r * r) l a = a + bigsum (length l) (fun k => nth k l 0 * nth k l 0).
Proof. induction l as [|x l IH]; intros a; [cbn; ring|]. cbn [fold_left length]. rewrite IH, bigsum_S_l. cbn [nth]. ring. Qed.
Lemma squares_norm l : forall a, fold_left (fun a (w : nat * nat * R) => a + snd w * snd w) l a = a + sum_over l (fun w => snd w * snd w).
Proof. induction l as [|x l IH]; intros a; [cbn; unfold sum_over; cbn; ring|]. cbn [fold_left]. rewrite IH, sum_over_cons. ring. Qed.
Lemma norm_scaled d f : (0 < f)%nat -> (0 < nw_steps d)%nat -> sqrt (nw_norm (nw_loads d f)) = INR f / INR (nw_steps d) * load_norm d.
Proof.
  intros Hf Hs. assert (0 < INR f / INR (nw_steps d)). { apply Rdiv_lt_0_compat; apply lt_0_INR; lia. } set (s := INR f / INR (nw_steps d)) in *.
  unfold nw_norm, nw_loads, load_norm. fold s. rewrite squares_norm, Rplus_0_l, sum_map.
  rewrite (sum_ext _ _ (fun w => (s * s) * (snd w * snd w))) by (intros; cbn [snd]; ring). rewrite sum_over_scal.
  rewrite sqrt_mult; [rewrite sqrt_square by lra; reflexivity|nra|]. apply sum_over_nonneg. intros w _. apply Rle_0_sqr.
Qed.

(** ** The step *)
Lemma move_ok d u du : nshape d u -> nshape d du -> exists u', nw_move u du = Ok u' /\ nshape d u' /\ forall i j, (i < length (nw_x d))%nat -> (j < 3)%nat -> uval u' i j = uval u i j + uval du i j.
Proof.
  intros (LU & HU) (LD & HD). unfold nw_move. set (N := length (nw_x d)) in *. rewrite LU.
  assert (G : forall k, (k <= N)%nat -> exists u', foldM (fun u i => a <- rd u i ;; b <- rd du i ;; c <- vadd R_ops a b ;; wr u i c) (seq 0 k) u = Ok u' /\ length u' = N /\
    (forall i, (i < k)%nat -> length (nth i u' []) = 3%nat /\ forall j, (j < 3)%nat -> uval u' i j = uval u i j + uval du i j) /\ (forall i, (k <= i)%nat -> nth i u' [] = nth i u [])).
  { induction k as [|k IH]; intros Hk.
    - exists u. split; [reflexivity|]. split; [exact LU|]. split; [intros; lia|]. auto.
    - destruct IH as (v & E & LV & A & B); [lia|]. rewrite seq_S, foldM_app, E. cbn [bind foldM plus]. rewrite (rd_nth v k []) by lia. cbn [bind]. rewrite (rd_nth du k []) by lia. cbn [bind]. rewrite (B k) by lia.
      assert (V1 : is_vec (nth k u []) 3 (fun j => uval u k j)) by (apply (is_vec_of (nth k u [])); apply HU; lia). assert (V2 : is_vec (nth k du []) 3 (fun j => uval du k j)) by (apply (is_vec_of (nth k du [])); apply HD; lia).
      destruct (proj1 (C19_vectors_pf R R_ops _ 3 _ V1) _ _ V2) as ((z & Ez & Vz) & _). rewrite Ez. cbn [bind]. rewrite wr_Ok by lia. cbn [bind].
      destruct (is_vec_nth z 3 _ 0 Vz) as [Lz Nz]. eexists. split; [reflexivity|]. split; [now rewrite upd_length|]. split.
      + intros i Hi. unfold uval. destruct (Nat.eq_dec i k) as [->|Hne]; [rewrite (nth_upd _ k k), Nat.eqb_refl, (proj2 (Nat.ltb_lt _ _)) by lia; cbn [andb]|rewrite (nth_upd _ k i), (proj2 (Nat.eqb_neq _ _)) by lia; cbn [andb]].
        * split; [exact Lz|]. intros j Hj. rewrite Nz by auto. reflexivity.
        * destruct (A i) as (A1 & A2); [lia|]. split; auto.
      + intros i Hi. rewrite (nth_upd _ k i), (proj2 (Nat.eqb_neq _ _)) by lia. cbn [andb]. apply B. lia. }
  destruct (G N (le_n N)) as (u' & E & L & A & _). exists u'. split; [exact E|]. split; [split; [exact L|]; intros i Hi; now apply A|]. intros i j Hi Hj. now apply A.
Qed.

(** ** One pass *)
Definition after (d : newton) (t : table) (u : list (list R)) (x : list R) : res (list (list R) * bool) :=
  du <- disassemble (repeat (vnew R_ops 3) (length (nw_x d))) x t ;; u <- nw_move u du ;; Ok (u, false).
Lemma after_ok d t n u x : ntables d t n -> nshape d u -> length x = n -> exists u', after d t u x = Ok (u', false) /\ nshape d u' /\
  forall i j, (i < length (nw_x d))%nat -> (j < 3)%nat -> uval u' i j = uval u i j + match num t i j with Some k => nth k x 0 | None => 0 end.
Proof.
  intros TB HU HX. destruct (nt_num _ _ _ TB) as (B2 & _). destruct (disassemble_ok (repeat (vnew R_ops 3) (length (nw_x d))) x t) as (du & E & SH & V).
  { intros i j H. apply in_repeat3. now apply (nt_in _ _ _ TB). } { intros i j k Hk. rewrite HX. eauto. }
  destruct (move_ok d u du HU (same_nshape d du _ (zero_shape d) SH)) as (u' & E' & HU' & V'). exists u'. unfold after. rewrite E. cbn [bind]. rewrite E'. split; [reflexivity|]. split; [exact HU'|].
  intros i j Hi Hj. rewrite V', V by auto. unfold dis_val. destruct (num t i j); [reflexivity|]. rewrite uval_zero3. reflexivity.
Qed.
Lemma pass_ok solve d t n f u : newton_ok d -> ntables d t n -> nshape d u -> (0 < f)%nat -> (0 < nw_steps d)%nat ->
  exists A b, square_csr n A /\ length b = n /\
    (forall i j k, num t i j = Some k -> nth k b 0 = out d (INR f / INR (nw_steps d)) u i j - held_share d u i j) /\
    (forall i j, (i < n)%nat -> entry A i j = sum_over (nels d u) (fun e => k_contrib t e i j)) /\
    (load_norm d = 0 -> nw_pass solve d t n f u = Fail DivByZero) /\
    (0 < load_norm d -> nw_pass solve d t n f u =
      if Rlt_dec (free_squares d (fun i j => out d (INR f / INR (nw_steps d)) u i j - held_share d u i j)) (nw_tol d * (INR f / INR (nw_steps d) * load_norm d)) then Ok (u, true)
      else x <- solve A b ;; after d t u x).
Proof.
  intros HT TB HU Hf Hs. assert (SP : 0 < INR f / INR (nw_steps d)). { apply Rdiv_lt_0_compat; apply lt_0_INR; lia. }
  destruct (add_ok d u t n HT TB HU (nw_elements d) (lil_new n n) (repeat 0 n) _ _ (incl_refl _) (lil_new_is n) (vec_zero_is n)) as (K & F & E1 & HK & HF).
  destruct (nt_num _ _ _ TB) as (B2 & I2 & O2).
  edestruct (assemble_N_ok n t (nw_loads d f) F) as (b & E2 & (Lb & Vb)).
  2:{ exact HF. }
  { intros i j v Hin. unfold nw_loads in Hin. apply in_map_iff in Hin. destruct Hin as ([[i' j'] v'] & EQ & Hin). cbn [fst snd] in EQ. injection EQ as <- <- _. destruct (no_loads d HT _ _ _ Hin). split; [now apply (nt_in _ _ _ TB)|apply B2]. }
  destruct HK as (HK1 & HK2 & HK3 & HK4 & HK5). destruct (csr_of_lil_cols K HK1 HK4) as (A & K' & E3 & W & C & R1 & C1 & G1).
  assert (ROW : forall i j k, num t i j = Some k -> nth k b 0 = out d (INR f / INR (nw_steps d)) u i j - held_share d u i j).
  { intros i j k Hk. rewrite Vb by eauto. rewrite <- (row_value d u t n _ i j k HT TB HU Hk). reflexivity. }
  assert (SQ : fold_left (fun a r => a + r * r) b 0 = free_squares d (fun i j => out d (INR f / INR (nw_steps d)) u i j - held_share d u i j)).
  { rewrite squares_from, Rplus_0_l, Lb, (by_number d t n _ TB). unfold free_squares. apply bigsum_ext. intros i Hi. apply bigsum_ext. intros j Hj. pose proof (nt_none _ _ _ TB i j Hi Hj) as NN.
    destruct (num t i j) as [k|] eqn:E, (held d i j); try (exfalso; destruct NN as [N1 N2]; (discriminate (N1 eq_refl) || discriminate (N2 eq_refl))); auto. now rewrite (ROW i j k E). }
  exists A, b. split; [unfold square_csr; splits; auto; congruence|]. split; [exact Lb|]. split; [exact ROW|]. split.
  { intros i j Hi. unfold entry, csr_entry. rewrite G1 by lia. rewrite HK5 by auto. apply Rplus_0_l. }
  split; intros HL; unfold nw_pass; rewrite E1; cbn [bind]; rewrite E2; cbn [bind]; rewrite SQ, (norm_scaled d f Hf Hs); unfold Rdiv_res.
  - rewrite HL, Rmult_0_r. destruct (Req_EM_T 0 0); [reflexivity|congruence].
  - assert (NZ : 0 < INR f / INR (nw_steps d) * load_norm d) by (now apply Rmult_lt_0_compat). set (T := free_squares d _) in *. set (q := INR f / INR (nw_steps d) * load_norm d) in *.
    destruct (Req_EM_T q 0) as [Z|_]; [lra|]. cbn [bind].
    assert (IFF : T / q < nw_tol d <-> T < nw_tol d * q). { split; intros H. - apply (Rmult_lt_reg_r (/ q)); [now apply Rinv_0_lt_compat|]. replace (nw_tol d * q * / q) with (nw_tol d) by (field; lra). exact H. - apply (Rmult_lt_reg_r q); auto. replace (T / q * q) with T by (field; lra). exact H. }
    destruct (Rlt_dec (T / q) (nw_tol d)), (Rlt_dec T (nw_tol d * q)); try tauto. rewrite E3. cbn [bind]. reflexivity.
Qed.
