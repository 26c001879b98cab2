(** Volume, multiplier, bounds and structure. *)
From Coq Require Import List Arith Lia Bool Reals Lra.
From Verif Require Import Res SumR DenseModel DenseR DenseSpec ShapeModel QuadModel QuadSpec ElemModel ElemSpec SparseModel SparseSpec AssemblyModel AssemblySpec KrylovSpec PatchSpec StableSpec GenModel GenSpec TopModel TopSpec LevelModel LevelSpec.
From Verif Require Import DenseProof DenseMain AssemblyProof AssemblyProof2 AssemblyProof3 GenMain LanczosProof LevelProof LevelProof2.
Import ListNotations.
Local Open Scope R_scope.

Lemma fold_plus l : forall a, fold_left Rplus l a = a + sumlist l.
Proof. induction l as [|x l IH]; intros a; cbn [fold_left]; [unfold sumlist; cbn; ring|]. rewrite IH. unfold sumlist. cbn [fold_right]. ring. Qed.
Lemma nle_pos l : level_ok l -> 0 < INR (nle l).
Proof. intros HL. apply lt_0_INR. apply (lk_some l HL). Qed.
Definition volume (l : level) (str : list R) : R := bigsum (nle l) (fun i => nth i str 0) / INR (nle l).
Lemma volume_value l str : level_ok l -> length str = nle l -> lv_volume l str = Ok (volume l str).
Proof.
  intros HL LS. pose proof (nle_pos l HL). unfold lv_volume. fold (nle l). rewrite Rdiv_res_ok by lra. rewrite fold_plus, Rplus_0_l, sumlist_bigsum, LS. reflexivity.
Qed.
Lemma volume_range l str : level_ok l -> shares l str -> 0 <= volume l str <= 1.
Proof.
  intros HL [LS HS]. pose proof (nle_pos l HL) as P. unfold volume. set (S := bigsum (nle l) (fun i => nth i str 0)).
  assert (A : 0 <= S) by (apply bigsum_nonneg; intros i Hi; apply HS; exact Hi).
  assert (B : S <= INR (nle l)). { replace (INR (nle l)) with (bigsum (nle l) (fun _ => 1)); [apply bigsum_le; intros i Hi; apply HS; exact Hi|]. clear. induction (nle l) as [|m IH]; [reflexivity|]. cbn [bigsum]. rewrite IH, S_INR. ring. }
  split; [apply Rmult_le_pos; [exact A|apply Rlt_le, Rinv_0_lt_compat, P]|]. apply (Rmult_le_reg_r (INR (nle l))); auto. unfold Rdiv. rewrite Rmult_assoc, Rinv_l by lra. lra.
Qed.
Definition target (l : level) (vi : R) (t : nat) : R := lv_Vmax l + (vi - lv_Vmax l) * Rmax 0 (1 - (INR t + 1) / lv_nvol l).
Lemma target_value l vi t : level_ok l -> lv_target l vi t = Ok (target l vi t).
Proof. intros HL. unfold lv_target. pose proof (lk_nvol l HL). rewrite Rdiv_res_ok by lra. reflexivity. Qed.
Lemma ramp l t : level_ok l -> 0 <= Rmax 0 (1 - (INR t + 1) / lv_nvol l) < 1.
Proof.
  intros HL. pose proof (lk_nvol l HL) as P. split; [apply Rmax_l|]. apply Rmax_lub_lt; [lra|]. pose proof (pos_INR t). assert (0 < (INR t + 1) / lv_nvol l) by (apply Rdiv_lt_0_compat; lra). lra.
Qed.
Lemma target_pos l vi t : level_ok l -> 0 <= vi -> 0 < target l vi t.
Proof. intros HL Hv. pose proof (ramp l t HL) as [A B]. pose proof (lk_Vmax l HL). unfold target. set (m := Rmax _ _) in *. assert (0 <= vi * m) by (apply Rmult_le_pos; lra). nra. Qed.

Lemma nodes_pos l : level_ok l -> (0 < length (lv_x l))%nat.
Proof.
  intros HL. pose proof (lk_some l HL) as P. destruct (lv_elements l) as [|el els] eqn:E; [cbn in P; lia|].
  assert (Hel : In el (lv_elements l)) by (rewrite E; now left). destruct (lk_piece l HL el Hel) as (SP & (_ & _ & Ln & _) & _). cbn [p_shape p_rule p_nodes] in *.
  destruct el as [|k el]; [exfalso; destruct SP as [[SP _]|[[SP _]|[SP _]]]; rewrite SP in Ln; discriminate Ln|]. pose proof (lk_nodes l HL _ k Hel (or_introl eq_refl)). lia.
Qed.
Lemma el_nonempty l el : level_ok l -> In el (lv_elements l) -> el <> [].
Proof. intros HL Hel ->. destruct (lk_piece l HL [] Hel) as (SP & (_ & _ & Ln & _) & _). cbn [p_shape p_rule p_nodes] in *. destruct SP as [[SP _]|[[SP _]|[SP _]]]; rewrite SP in Ln; discriminate Ln. Qed.

(** one value per node *)
Lemma row_one (v : list R) : length v = 1%nat -> v = [nth 0 v 0].
Proof. destruct v as [|a [|b v]]; cbn; intros H; try discriminate; auto. Qed.
Lemma field_row l phi i : nodal_field l phi -> (i < length (lv_x l))%nat -> nth i phi [] = [uval phi i 0].
Proof. intros [_ H] Hi. apply row_one, H, Hi. Qed.
Definition nodal_sum (l : level) (tdn : list (list R)) : R := bigsum (length (lv_x l)) (fun k => uval tdn k 0).
Lemma accumulate_rows rows : forall a, (forall v, In v rows -> length v = 1%nat) -> foldM (fun s v => vadd R_ops s v) rows [a] = Ok [a + sumlist (map (fun v => nth 0 v 0) rows)].
Proof.
  induction rows as [|v rows IH]; intros a H; [cbn; unfold sumlist; cbn; now rewrite Rplus_0_r|]. cbn [foldM]. rewrite (row_one v) by (apply H; now left).
  change (vadd R_ops [a] [nth 0 v 0]) with (Ok [a + nth 0 v 0]). cbn [bind]. rewrite IH by (intros w Hw; apply H; now right). do 2 f_equal. unfold sumlist. cbn [map fold_right nth]. ring.
Qed.
Lemma sum_rows l tdn : nodal_field l tdn -> sumlist (map (fun v => nth 0 v 0) tdn) = nodal_sum l tdn.
Proof. intros [L H]. rewrite sumlist_bigsum, map_length, L. unfold nodal_sum. apply bigsum_ext. intros i Hi. unfold uval. rewrite (nth_indep _ 0 (nth 0 (@nil R) 0)) by (now rewrite map_length, L). now rewrite (map_nth (fun v => nth 0 v 0)). Qed.
Definition multiplier (l : level) (tdn : list (list R)) (vol ex : R) : R := nodal_sum l tdn / INR (length (lv_x l)) * exp (lv_p l * ((vol - ex) / ex + lv_d l)).
Lemma lambda_value l tdn vol ex : level_ok l -> nodal_field l tdn -> ex <> 0 -> lv_lambda l tdn vol ex = Ok (multiplier l tdn vol ex).
Proof.
  intros HL HN Hex. unfold lv_lambda. change (vnew R_ops 1) with [0]. rewrite accumulate_rows.
  - cbn [bind]. change (vget [0 + sumlist (map (fun v => nth 0 v 0) tdn)] 0) with (Ok (0 + sumlist (map (fun v => nth 0 v 0) tdn))). cbn [bind]. pose proof (lt_0_INR _ (nodes_pos l HL)). rewrite Rdiv_res_ok by lra. cbn [bind]. rewrite Rdiv_res_ok by auto. cbn [bind].
    rewrite Rplus_0_l, (sum_rows l tdn HN). reflexivity.
  - intros v Hv. destruct HN as [L H]. destruct (In_nth _ _ [] Hv) as (i & Hi & <-). apply H. lia.
Qed.
Lemma foldM_ext_seq (f : R -> nat -> res R) g : forall n a, (forall C i, (i < n)%nat -> f C i = Ok (C + g i)) -> foldM f (seq 0 n) a = Ok (a + bigsum n g).
Proof.
  induction n as [|n IH]; intros a H; [cbn; now rewrite Rplus_0_r|]. rewrite seq_S, foldM_app, IH by (intros C i Hi; apply H; lia). cbn [bind foldM Nat.add]. rewrite H by lia. cbn [bind bigsum]. f_equal. ring.
Qed.
Definition nodal_abs (l : level) (tdn : list (list R)) : R := bigsum (length (lv_x l)) (fun k => Rabs (uval tdn k 0)).
Lemma scale_value l tdn : nodal_field l tdn -> lv_scale l tdn = Rdiv_res (INR (nle l)) (nodal_abs l tdn).
Proof.
  intros HN. unfold lv_scale. rewrite (foldM_ext_seq (fun C i => v <- rd tdn i ;; x <- vget v 0 ;; Ok (C + Rabs x)) (fun i => Rabs (uval tdn i 0)) (length (lv_x l)) 0).
  - cbn [bind]. rewrite Rplus_0_l. reflexivity.
  - intros C i Hi. rewrite (rd_nth tdn i []) by (destruct HN as [-> _]; lia). cbn [bind]. rewrite (field_row l tdn i HN Hi). reflexivity.
Qed.

(** ** Bounds *)
Definition clamped (x : R) : R := Rmax (Rmin 1 x) (-1).
Lemma clamp_value l phi : nodal_field l phi -> exists phi', lv_clamp l phi = Ok phi' /\ nodal_field l phi' /\ forall i, (i < length (lv_x l))%nat -> uval phi' i 0 = clamped (uval phi i 0).
Proof.
  intros HN. destruct HN as [L H].
  destruct (foldM_range (fun phi i => v <- rd phi i ;; x <- vget v 0 ;; uset phi i 0 (Rmax (Rmin 1 x) (-1)))
    (fun k p => nodal_field l p /\ forall i, (i < length (lv_x l))%nat -> uval p i 0 = if (i <? k)%nat then clamped (uval phi i 0) else uval phi i 0) (length (lv_x l)) 0 phi) as (phi' & E & HF & HV).
  - split; [split; auto|]. intros i Hi. reflexivity.
  - intros k p Hk [[Lp Hp] HV]. assert (Hk' : (k < length (lv_x l))%nat) by lia. rewrite (rd_nth p k []) by lia. cbn [bind]. rewrite (field_row l p k (conj Lp Hp) Hk'). change (vget [uval p k 0] 0) with (Ok (uval p k 0)). cbn [bind].
    destruct (uset_ok p k 0 (Rmax (Rmin 1 (uval p k 0)) (-1))) as (p' & E & [S1 S2] & V). { unfold in_table. rewrite (Hp k Hk'). lia. }
    exists p'. split; [exact E|]. split; [split; [congruence|]; intros i Hi; rewrite (S2 i); now apply Hp|]. intros i Hi. rewrite V. destruct (Nat.eqb_spec k i) as [->|N]; cbn [andb Nat.eqb].
    + rewrite (HV i Hi), Nat.ltb_irrefl. replace (i <? S i)%nat with true by (symmetry; apply Nat.ltb_lt; lia). reflexivity.
    + rewrite (HV i Hi). destruct (Nat.ltb_spec i k), (Nat.ltb_spec i (S k)); auto; lia.
  - exists phi'. unfold lv_clamp. rewrite E. splits; auto. intros i Hi. rewrite (HV i Hi). cbn [Nat.add]. apply Nat.ltb_lt in Hi. now rewrite Hi.
Qed.
Lemma clamped_range x : -1 <= clamped x <= 1.
Proof. unfold clamped, Rmax, Rmin. destruct (Rle_dec 1 x), (Rle_dec _ (-1)); lra. Qed.

(** ** The structure *)
Definition el_mean (l : level) (phi : list (list R)) (i : nat) : R := mean_with 0 (map (fun k => uval phi k 0) (lel l i)).
Lemma structure_value l phi str : level_ok l -> nodal_field l phi -> length str = nle l ->
  exists str', lv_structure l phi str = Ok str' /\ length str' = nle l /\ forall i, (i < nle l)%nat -> nth i str' 0 = if Rlt_dec (el_mean l phi i) 0 then 0 else 1.
Proof.
  intros HL [LP HP] LS. destruct C95_elemental_mean_pf as (_ & EM). destruct (EM 1%nat (vnew R_ops 1) phi (lv_elements l)) as (pe & E1 & LE & HE).
  { rewrite LP. now apply mesh_of. } { intros e He. now apply (el_nonempty l). } { reflexivity. } { apply Forall_forall. intros v Hv. destruct (In_nth _ _ [] Hv) as (i & Hi & <-). apply HP. lia. }
  unfold lv_structure. rewrite E1. cbn [bind]. fold (nle l) in *.
  destruct (foldM_range (fun str i => v <- rd pe i ;; x <- vget v 0 ;; wr str i (if Rlt_dec x 0 then 0 else 1))
    (fun k s => length s = nle l /\ forall i, (i < k)%nat -> nth i s 0 = if Rlt_dec (el_mean l phi i) 0 then 0 else 1) (nle l) 0 str) as (str' & E2 & L2 & V2).
  - split; auto. intros i Hi. lia.
  - intros k s Hk [Ls Vs]. destruct (HE k ltac:(lia)) as [L1 V1]. specialize (V1 O ltac:(lia)). rewrite (rd_nth pe k []) by lia. cbn [bind]. rewrite (row_one (nth k pe []) L1). rewrite V1.
    change (vget [mean_with (nth 0 (vnew R_ops 1) 0) (map (fun n => nth 0 (nth n phi []) 0) (nth k (lv_elements l) []))] 0) with (Ok (el_mean l phi k)). cbn [bind]. rewrite wr_Ok by lia. eexists. split; [reflexivity|]. split; [now rewrite upd_length|].
    intros i Hi. rewrite nth_upd. destruct (Nat.eqb_spec k i) as [->|N]; cbn [andb]; [replace (i <? length s)%nat with true by (symmetry; apply Nat.ltb_lt; lia); reflexivity|apply Vs; lia].
  - exists str'. splits; auto.
Qed.
