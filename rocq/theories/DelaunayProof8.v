(** The area and the positions under the smoothing. *)
From Coq Require Import List Arith ZArith Lia Bool Reals Lra Psatz Permutation.
From Verif Require Import Res DenseModel DenseR LUModel DelaunayModel DelaunaySpec DelaunaySpec2 DelaunayProof DelaunayProof2 DelaunayProof6 DelaunayProof7.
Import ListNotations.
Local Open Scope R_scope.

Definition isum (f : nat -> R) (l : list nat) : R := fold_right (fun a s => f a + s) 0 l.
Lemma isum_app f l l' : isum f (l ++ l') = isum f l + isum f l'.
Proof. unfold isum. induction l as [|a l IH]; cbn; [lra|]. rewrite IH. lra. Qed.
Lemma isum_ext f g l : (forall a, In a l -> f a = g a) -> isum f l = isum g l.
Proof. unfold isum. induction l as [|a l IH]; intros H; cbn; [reflexivity|]. rewrite H, IH; cbn; auto. intros; apply H; cbn; auto. Qed.
Lemma isum_minus f g l : isum (fun a => f a - g a) l = isum f l - isum g l.
Proof. unfold isum. induction l as [|a l IH]; cbn; [lra|]. rewrite IH. lra. Qed.
Lemma isum_perm f l l' : Permutation l l' -> isum f l = isum f l'.
Proof. unfold isum. induction 1; cbn; lra. Qed.
Lemma isum_map f (g : nat -> nat) l : isum f (map g l) = isum (fun a => f (g a)) l.
Proof. unfold isum. induction l as [|a l IH]; cbn; [reflexivity|]. now rewrite IH. Qed.
Lemma isum_filter f (p : nat -> bool) l : (forall a, In a l -> p a = false -> f a = 0) -> isum f l = isum f (filter p l).
Proof.
  unfold isum. induction l as [|a l IH]; intros H; [reflexivity|]. cbn [fold_right filter]. destruct (p a) eqn:E; cbn [fold_right].
  - rewrite IH; auto. intros; apply H; cbn; auto.
  - rewrite (H a), IH; cbn; auto; [lra|]. intros; apply H; cbn; auto.
Qed.
Definition el (es : list delem) (a : nat) : delem := nth a es (elem3 0 0 0).
Lemma total2_isum ns es : total2 ns es = isum (fun a => area2 ns (el es a)) (seq 0 (length es)).
Proof.
  unfold el. assert (G : forall pre es, isum (fun a => area2 ns (nth a (pre ++ es) (elem3 0 0 0))) (seq (length pre) (length es)) = total2 ns es).
  { intros pre es0. revert pre. induction es0 as [|e es0 IH]; intros pre; [reflexivity|].
    cbn [length seq]. unfold isum. cbn [fold_right]. fold (isum (fun a => area2 ns (nth a (pre ++ e :: es0) (elem3 0 0 0))) (seq (S (length pre)) (length es0))).
    assert (Q := IH (pre ++ [e])). rewrite app_length in Q. cbn [length] in Q. replace (length pre + 1)%nat with (S (length pre)) in Q by lia.
    rewrite <- app_assoc in Q. cbn [app] in Q. rewrite Q. rewrite app_nth2, Nat.sub_diag by lia. reflexivity. }
  symmetry. exact (G [] es).
Qed.
Lemma NoDup_map_on (g : nat -> nat) l : NoDup l -> (forall a b, In a l -> In b l -> g a = g b -> a = b) -> NoDup (map g l).
Proof.
  induction 1 as [|a l H ND IH]; intros Hg; cbn; constructor.
  - intros Hin. apply in_map_iff in Hin. destruct Hin as (b & E & Hb). assert (b = a) by (apply Hg; cbn; auto). now subst.
  - apply IH. intros; apply Hg; cbn; auto.
Qed.
Lemma has_node_ok e i : has_node e i = true <-> exists j, (j < 3)%nat /\ at3 (en e) j = i.
Proof.
  unfold has_node. rewrite !orb_true_iff, !Nat.eqb_eq. split.
  - intros [[H|H]|H]; [exists 0%nat|exists 1%nat|exists 2%nat]; auto.
  - intros (j & Hj & E). case3 j Hj; auto.
Qed.

Section Area.
Variables (ns ns' : list dnode) (es : list delem) (i : nat).
Hypothesis OK : topo_ok ns es.
Hypothesis Cl : forall e j, In e es -> (j < 3)%nat -> (fst (side e j) = i \/ snd (side e j) = i) -> at3 (enb e) j <> None.
Hypothesis Same : forall a, a <> i -> xy ns' a = xy ns a.

Lemma move_total : total2 ns' es = total2 ns es.
Proof.
  rewrite !total2_isum. set (L := filter (fun a => has_node (el es a) i) (seq 0 (length es))).
  assert (Lat : forall a, In a L -> exists e j, nth_error es a = Some e /\ el es a = e /\ (j < 3)%nat /\ at3 (en e) j = i /\ proper e).
  { intros a Ha. apply filter_In in Ha. destruct Ha as [Ha Hh]. apply in_seq in Ha. apply has_node_ok in Hh. destruct Hh as (j & Hj & E).
    exists (el es a), j. splits; auto. apply nth_error_nth'; lia. apply (tp_proper _ _ OK). apply nth_In. lia. }
  set (vx := fst (xy ns' i) - fst (xy ns i)). set (vy := snd (xy ns' i) - snd (xy ns i)).
  set (g := fun a => vx * snd (xy ns (after (el es a) i)) - vy * fst (xy ns (after (el es a) i))).
  assert (D : forall a, In a L -> area2 ns' (el es a) - area2 ns (el es a) = g a - g (spin es i a)).
  { intros a Ha. destruct (Lat a Ha) as (e & j & He & Ee & Hj & E & P).
    destruct (spin_at ns es i OK Cl a) as (f & j' & Hf & Hj' & E'). { exists e, j. auto. }
    assert (Pf : proper f) by (apply (tp_proper _ _ OK); eapply nth_error_In; eauto).
    assert (Q := spin_corner ns es i OK Cl a e j f j' He Hj E Hf Hj' E').
    unfold g. assert (Ef : el es (spin es i a) = f) by (unfold el; now rewrite (nth_error_nth _ _ _ Hf)). rewrite Ef, Ee.
    rewrite (after_proper e i j P Hj E), (after_proper f i j' Pf Hj' E'), Q.
    rewrite !(area2_rot _ e j Hj), E.
    rewrite (Same (at3 (en e) (nx3 j))) by (rewrite <- E; apply proper_ne; auto; apply nx_ne; auto).
    rewrite (Same (at3 (en e) (pv3 j))) by (rewrite <- E; apply proper_ne; auto; apply pv_ne; auto).
    unfold tri2, vx, vy. ring. }
  assert (Perm : Permutation (map (spin es i) L) L).
  { apply NoDup_Permutation_bis.
    - apply NoDup_map_on. { apply NoDup_filter, seq_NoDup. }
      intros a b Ha Hb. destruct (Lat a Ha) as (e & j & He & _ & Hj & E & _). destruct (Lat b Hb) as (f & j' & Hf & _ & Hj' & E' & _).
      apply (spin_inj ns es i OK Cl); [exists e, j|exists f, j']; auto.
    - now rewrite map_length.
    - intros b Hb. apply in_map_iff in Hb. destruct Hb as (a & <- & Ha). destruct (Lat a Ha) as (e & j & He & _ & Hj & E & _).
      destruct (spin_at ns es i OK Cl a) as (f & j' & Hf & Hj' & E'). { exists e, j. auto. }
      apply filter_In. split. { apply in_seq. apply nth_error_lt in Hf. lia. }
      apply has_node_ok. exists j'. split; auto. unfold el. now rewrite (nth_error_nth _ _ _ Hf). }
  apply Rminus_diag_uniq. rewrite <- isum_minus.
  rewrite (isum_filter _ (fun a => has_node (el es a) i)).
  - fold L. rewrite (isum_ext _ (fun a => g a - g (spin es i a)) L D), isum_minus.
    assert (Q := isum_perm g _ _ Perm). rewrite isum_map in Q. rewrite Q. lra.
  - intros a Ha Hh. assert (N : forall j, (j < 3)%nat -> at3 (en (el es a)) j <> i).
    { intros j Hj E. assert (T : has_node (el es a) i = true) by (apply has_node_ok; eauto). congruence. }
    unfold area2. rewrite !Same by (apply N; lia). lra.
Qed.
End Area.

(** the new position of one node *)
Lemma upd_upd {A} (l : list A) i x y : upd (upd l i x) i y = upd l i y.
Proof. revert i. induction l as [|z l IH]; intros [|i]; cbn; auto. now rewrite IH. Qed.
Lemma xy_upd_ne ns i n a : a <> i -> xy (upd ns i n) a = xy ns a.
Proof.
  intros Ne. unfold xy. f_equal. destruct (nth_error ns a) as [x|] eqn:E.
  - rewrite (nth_error_nth _ _ _ E). apply nth_error_nth. now rewrite nth_error_upd_ne by auto.
  - rewrite !nth_overflow; auto. now apply nth_error_None. rewrite upd_length. now apply nth_error_None.
Qed.
Lemma xy_upd_eq ns i n : (i < length ns)%nat -> xy (upd ns i n) i = nxy n.
Proof. intros H. unfold xy. f_equal. apply nth_error_nth. now apply nth_error_upd_eq. Qed.
Lemma afters_cons es i a l : afters es i (a :: l) = after (el es a) i :: afters es i l.
Proof. reflexivity. Qed.
Lemma upd_same {A} (l : list A) i x : nth_error l i = Some x -> upd l i x = l.
Proof. revert i. induction l as [|y l IH]; intros [|i] H; cbn in *; try discriminate; [now inversion H|]. now rewrite IH. Qed.

Section Move.
Variables (ns : list dnode) (es : list delem) (i : nat) (n : dnode).
Hypothesis Fl : flat ns.
Hypothesis Ids : forall e, In e es -> ids_ok (length ns) e.
Hypothesis Pr : forall e, In e es -> proper e.
Hypothesis Hn : nth_error ns i = Some n.

Lemma move_sum : forall st, (forall a, In a st -> exists e j, nth_error es a = Some e /\ (j < 3)%nat /\ at3 (en e) j = i) -> forall sx sy,
  foldM (fun ns j =>
          e <- rd es j ;; n <- rd ns (at3 (en e) (next_of e i)) ;;
          c <- rd ns i ;; x <- vadd R_ops (dx c) (dx n) ;; set_x ns i x) st (upd ns i (mkNode [sx; sy] (isset n) (isonb n))) =
  Ok (upd ns i (mkNode [sx + fold_right (fun p s => fst p + s) 0 (map (xy ns) (afters es i st)); sy + fold_right (fun p s => snd p + s) 0 (map (xy ns) (afters es i st))] (isset n) (isonb n))).
Proof.
  assert (Li := nth_error_lt _ _ _ Hn).
  induction st as [|a st IH]; intros Hst sx sy.
  - cbn [foldM afters map fold_right]. rewrite !Rplus_0_r. reflexivity.
  - destruct (Hst a (or_introl eq_refl)) as (e & j & He & Hj & E).
    assert (Ie := nth_error_In _ _ He). assert (P := Pr e Ie).
    rewrite foldM_cons. rewrite (rd_nth_error _ _ _ He). cbn [bind]. rewrite (next_proper e i j P Hj E).
    destruct (flat_rd ns (at3 (en e) (nx3 j)) Fl (Ids e Ie _ (nx3_lt j))) as (m & Rm & Lm & Xm).
    assert (Ne : at3 (en e) (nx3 j) <> i) by (rewrite <- E; apply proper_ne; auto; apply nx_ne; auto).
    assert (Rm' : rd (upd ns i (mkNode [sx; sy] (isset n) (isonb n))) (at3 (en e) (nx3 j)) = Ok m).
    { unfold rd in Rm |- *. rewrite nth_error_upd_ne by auto. exact Rm. }
    rewrite Rm'. cbn [bind].
    assert (Ri : forall z, rd (upd ns i z) i = Ok z) by (intros z; apply rd_nth_error; now apply nth_error_upd_eq).
    rewrite Ri. cbn [bind dx]. destruct m as [xm sm bm]. cbn [dx] in Lm |- *. destruct xm as [|m0 [|m1 [|]]]; try discriminate Lm.
    change (vadd R_ops [sx; sy] [m0; m1]) with (Ok [sx + m0; sy + m1]). cbn [bind]. unfold set_x at 1. rewrite Ri. cbn [bind].
    rewrite wr_lt by (rewrite upd_length; exact Li). cbn [bind isset isonb]. rewrite upd_upd.
    rewrite IH by (intros b Hb; apply Hst; cbn; auto).
    rewrite afters_cons. cbn [map fold_right]. assert (Ee : el es a = e) by (unfold el; now rewrite (nth_error_nth _ _ _ He)).
    rewrite Ee, (after_proper e i j P Hj E), <- Xm. unfold nxy at 1 2. cbn [dx nth fst snd].
    do 4 f_equal; [|f_equal]; lra.
Qed.
Lemma move_node_ok st : st <> [] -> (forall a, In a st -> exists e j, nth_error es a = Some e /\ (j < 3)%nat /\ at3 (en e) j = i) ->
  exists n', move_node ns es i st = Ok (upd ns i n') /\ length (dx n') = 2%nat /\ isset n' = isset n /\ isonb n' = isonb n /\ nxy n' = mean (map (xy ns) (afters es i st)).
Proof.
  intros Ne Hst. assert (Li := nth_error_lt _ _ _ Hn).
  assert (Ri : forall z, rd (upd ns i z) i = Ok z) by (intros z; apply rd_nth_error; now apply nth_error_upd_eq).
  assert (NZ : INR (length st) <> 0). { destruct st; [congruence|]. apply not_0_INR. discriminate. }
  unfold move_node, set_x at 1. rewrite (rd_nth_error _ _ _ Hn). cbn [bind]. rewrite wr_lt by exact Li. cbn [bind].
  change (vnew R_ops 2) with [0; 0]. rewrite (move_sum st Hst). cbn [bind]. rewrite Ri. cbn [bind dx].
  set (X := 0 + _). set (Y := 0 + _).
  assert (Dv : vdiv R_ops [X; Y] (INR (length st)) = Ok [X / INR (length st); Y / INR (length st)]).
  { unfold vdiv. cbn [mapM odiv R_ops]. now rewrite !Rdiv_res_ok by exact NZ. }
  rewrite Dv. cbn [bind]. unfold set_x. rewrite Ri. cbn [bind isset isonb]. rewrite wr_lt by (rewrite upd_length; exact Li). rewrite upd_upd.
  eexists. split; [reflexivity|]. cbn [dx isset isonb length]. splits; auto.
  unfold nxy, mean. cbn [dx nth]. unfold afters. rewrite !map_length. unfold X, Y, afters. f_equal; f_equal; lra.
Qed.
End Move.
