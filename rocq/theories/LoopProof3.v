(** The optimiser inside the loop. *)
From Coq Require Import List Arith Lia Bool Reals Lra.
From Verif Require Import Res SumR DenseR LUModel FilterModel FilterSpec OCModel TopModel TopSpec LoopModel LoopSpec.
From Verif Require Import FilterMain OCMain LoopProof.
Import ListNotations.
Local Open Scope R_scope.

Section O.
Variables (o : oc) (xk df dg : list R) (g : list R -> R).
Let n := oc_n o.
Hypothesis Lx : length xk = n.
Hypothesis Lf : length df = n.
Hypothesis Lg : length dg = n.
Hypothesis Hx : forall i, (i < n)%nat -> 0 <= nth i xk 0 <= 1.
Hypothesis Hs : forall i, (i < n)%nat -> nth i df 0 <= 0 /\ 0 < nth i dg 0.
Hypothesis Hi0 : 0 < oc_iota o.
Hypothesis Hm : 0 <= oc_move o < 1.

Definition pw (q : R) : R := if Rlt_dec 0 q then Rpower q (oc_iota o) else 0.
Definition quo (l : R) (i : nat) : R := - nth i df 0 / (nth i dg 0 * l).
Definition lo (i : nat) : R := Rmax 0 ((1 - oc_move o) * nth i xk 0).
Definition hi (i : nat) : R := Rmin 1 ((1 + oc_move o) * nth i xk 0).
Definition clip (l h x : R) : R := if Rltb x l then l else if Rltb h x then h else x.
Definition cval (l : R) (i : nat) : R := clip (lo i) (hi i) (pw (quo l i) * nth i xk 0).

Lemma lo_hi i : (i < n)%nat -> lo i <= hi i.
Proof. intros H. pose proof (Hx i H). unfold lo, hi. apply Rmax_lub; apply Rmin_glb; try lra; nra. Qed.
Lemma clip_in l h x : l <= h -> l <= clip l h x <= h.
Proof. apply clamp_between. Qed.
Lemma clip_mono l h x y : l <= h -> x <= y -> clip l h x <= clip l h y.
Proof.
  intros H E. unfold clip. destruct (Rltb x l) eqn:A, (Rltb y l) eqn:B, (Rltb h x) eqn:C, (Rltb h y) eqn:D;
    repeat match goal with H : Rltb _ _ = true |- _ => apply Rltb_true in H | H : Rltb _ _ = false |- _ => apply Rltb_false in H end; lra.
Qed.
Lemma clip_low l h x : l <= h -> x <= l -> clip l h x = l.
Proof.
  intros H E. unfold clip. destruct (Rltb x l) eqn:A; [auto|]. apply Rltb_false in A. destruct (Rltb h x) eqn:B; [apply Rltb_true in B; lra|]. lra.
Qed.
Lemma clip_high l h x : l <= h -> h <= x -> clip l h x = h.
Proof.
  intros H E. unfold clip. destruct (Rltb x l) eqn:A; [apply Rltb_true in A; lra|]. destruct (Rltb h x) eqn:B; [auto|]. apply Rltb_false in B. lra.
Qed.
Lemma pw_nonneg q : 0 <= pw q.
Proof. unfold pw. destruct (Rlt_dec 0 q); [|lra]. left. apply exp_pos. Qed.
Lemma pw_mono p q : p <= q -> pw p <= pw q.
Proof.
  intros H. unfold pw at 1. destruct (Rlt_dec 0 p) as [P|P]; [|apply pw_nonneg]. unfold pw. destruct (Rlt_dec 0 q); [|lra]. apply Rle_Rpower_l; lra.
Qed.
Lemma quo_nonneg l i : 0 < l -> (i < n)%nat -> 0 <= quo l i.
Proof. intros Hl Hi. destruct (Hs i Hi) as [A B]. unfold quo. apply Rmult_le_pos; [lra|]. left. apply Rinv_0_lt_compat. nra. Qed.
Lemma quo_mono l l' i : 0 < l <= l' -> (i < n)%nat -> quo l' i <= quo l i.
Proof.
  intros Hl Hi. destruct (Hs i Hi) as [A B]. unfold quo, Rdiv. apply Rmult_le_compat_l; [lra|]. apply Rinv_le_contravar; nra.
Qed.
Lemma cand_vals l : 0 < l -> oc_candidate o xk df dg l = Ok (map (cval l) (seq 0 n)).
Proof.
  intros Hl. unfold oc_candidate. fold n.
  apply mapM_seq_ok. intros i Hi. destruct (Hs i Hi) as [A B].
  rewrite (rd_nth df i 0), (rd_nth dg i 0), (rd_nth xk i 0) by lia. cbn [bind]. rewrite Rdiv_res_ok by nra. cbn [bind]. fold (quo l i).
  assert (EP : cpow (quo l i) (oc_iota o) = Ok (pw (quo l i))).
  { pose proof (quo_nonneg l i Hl Hi). unfold cpow, pw. destruct (Rlt_dec 0 (quo l i)); [reflexivity|]. destruct (Req_EM_T (quo l i) 0); [|lra]. destruct (Rlt_dec 0 (oc_iota o)); [reflexivity|lra]. }
  rewrite EP. reflexivity.
Qed.
Lemma cval_mono l l' i : 0 < l <= l' -> (i < n)%nat -> cval l' i <= cval l i.
Proof.
  intros Hl Hi. unfold cval. apply clip_mono; [now apply lo_hi|]. apply Rmult_le_compat_r; [apply Hx; auto|]. apply pw_mono. now apply quo_mono.
Qed.
Lemma cval_in l i : (i < n)%nat -> lo i <= cval l i <= hi i.
Proof. intros Hi. apply clip_in. now apply lo_hi. Qed.
Lemma cval_unit l i : (i < n)%nat -> 0 < nth i xk 0 -> 0 < cval l i <= 1.
Proof.
  intros Hi Hp. pose proof (cval_in l i Hi) as [A B]. unfold lo, hi in *. pose proof (Rmax_r 0 ((1 - oc_move o) * nth i xk 0)). pose proof (Rmin_l 1 ((1 + oc_move o) * nth i xk 0)).
  assert (0 < (1 - oc_move o) * nth i xk 0) by (apply Rmult_lt_0_compat; lra). lra.
Qed.
Definition big (i : nat) : R := if Rlt_dec (nth i df 0) 0 then hi i else lo i.
Lemma big_is : largest_step o xk df = map big (seq 0 n).
Proof. reflexivity. Qed.
Lemma cval_big l i : 0 < l -> (i < n)%nat -> cval l i <= big i.
Proof.
  intros Hl Hi. unfold big. destruct (Rlt_dec (nth i df 0) 0) as [H|H]; [apply cval_in; auto|]. unfold cval.
  assert (Z : quo l i = 0). { destruct (Hs i Hi). assert (nth i df 0 = 0) as E by lra. unfold quo. rewrite E. unfold Rdiv. ring. }
  rewrite Z. assert (P : pw 0 = 0) by (unfold pw; destruct (Rlt_dec 0 0); [lra|auto]). rewrite P, Rmult_0_l. rewrite clip_low; [lra|now apply lo_hi|]. apply Rmax_l.
Qed.
Lemma cval_small : exists l0, 0 < l0 /\ forall l i, 0 < l <= l0 -> (i < n)%nat -> cval l i = big i.
Proof.
  (* the threshold of one entry *)
  assert (ONE : forall i, (i < n)%nat -> exists l0, 0 < l0 /\ forall l, 0 < l <= l0 -> cval l i = big i).
  { intros i Hi. unfold big. destruct (Rlt_dec (nth i df 0) 0) as [H|H].
    - destruct (Hs i Hi) as [_ B]. set (c := Rpower (1 + oc_move o) (/ oc_iota o)). assert (Hc : 0 < c) by apply exp_pos.
      exists (- nth i df 0 / (nth i dg 0 * c)). split; [apply Rdiv_lt_0_compat; nra|]. intros l Hl. unfold cval. apply clip_high; [now apply lo_hi|].
      apply Rle_trans with ((1 + oc_move o) * nth i xk 0); [apply Rmin_r|]. apply Rmult_le_compat_r; [apply Hx; auto|].
      assert (Q : c <= quo l i).
      { unfold quo. apply Rmult_le_reg_r with (nth i dg 0 * l); [nra|]. unfold Rdiv. rewrite Rmult_assoc, Rinv_l, Rmult_1_r by nra.
        assert (l * (nth i dg 0 * c) <= - nth i df 0 / (nth i dg 0 * c) * (nth i dg 0 * c)) by (apply Rmult_le_compat_r; nra). replace (- nth i df 0 / (nth i dg 0 * c) * (nth i dg 0 * c)) with (- nth i df 0) in H0 by (field; split; lra). lra. }
      unfold pw. destruct (Rlt_dec 0 (quo l i)); [|lra]. replace (1 + oc_move o) with (Rpower c (oc_iota o)); [apply Rle_Rpower_l; lra|]. unfold c. rewrite Rpower_mult, Rinv_l, Rpower_1; lra.
    - exists 1. split; [lra|]. intros l Hl. apply Rle_antisym; [|apply cval_in; auto].
      pose proof (cval_big l i ltac:(lra) Hi) as G. unfold big in G. destruct (Rlt_dec (nth i df 0) 0); [contradiction|exact G]. }
  assert (ALL : forall m, (m <= n)%nat -> exists l0, 0 < l0 /\ forall l i, 0 < l <= l0 -> (i < m)%nat -> cval l i = big i).
  { induction m as [|m IH]; intros Hm'; [exists 1; split; [lra|lia]|]. destruct IH as (a & Ha & A); [lia|]. destruct (ONE m ltac:(lia)) as (b & Hb & B).
    exists (Rmin a b). split; [now apply Rmin_pos|]. intros l i Hl Hi. pose proof (Rmin_l a b). pose proof (Rmin_r a b). destruct (Nat.eq_dec i m) as [-> |]; [apply B; lra|apply A; [lra|lia]]. }
  apply ALL. lia.
Qed.
(** the loop can only run out of fuel *)
Lemma loop_safe fuel : forall l0 l1 lam x, 0 <= l0 < l1 -> (exists r, oc_loop o xk df dg g fuel l0 l1 lam x = Ok r) \/ oc_loop o xk df dg g fuel l0 l1 lam x = Fail OutOfFuel.
Proof.
  induction fuel as [|fuel IH]; intros l0 l1 lam x Hl; cbn [oc_loop]; rewrite Rdiv_res_ok by lra; cbn [bind]; destruct (Rltb (oc_leps o) ((l1 - l0) / (l1 + l0))); eauto.
  rewrite cand_vals by lra. cbn [bind]. destruct (Rltb 0 (g (map (cval (5/10 * (l1 + l0))) (seq 0 n)))); apply IH; lra.
Qed.
Lemma loop_moves fuel l0 l1 x r : 0 <= l0 < l1 -> oc_leps o < (l1 - l0) / (l1 + l0) -> oc_loop o xk df dg g fuel l0 l1 None x = Ok r -> exists l, fst r = Some l.
Proof.
  intros Hl He E. destruct fuel as [|fuel]; cbn [oc_loop] in E; rewrite Rdiv_res_ok in E by lra; cbn [bind] in E; rewrite (Rltb_t _ _ He) in E; [discriminate|].
  rewrite cand_vals in E by lra. cbn [bind] in E. destruct (Rltb 0 _); eapply loop_some; exact E.
Qed.
Lemma loop_value fuel : forall l0 l1 lam x r, 0 <= l0 < l1 -> (exists l, 0 < l /\ x = map (cval l) (seq 0 n)) -> oc_loop o xk df dg g fuel l0 l1 (Some lam) x = Ok r -> exists l, 0 < l /\ snd r = map (cval l) (seq 0 n).
Proof.
  induction fuel as [|fuel IH]; intros l0 l1 lam x r Hl Hv E; cbn [oc_loop] in E; rewrite Rdiv_res_ok in E by lra; cbn [bind] in E; destruct (Rltb (oc_leps o) ((l1 - l0) / (l1 + l0))); try discriminate.
  - injection E as <-. exact Hv.
  - rewrite cand_vals in E by lra. cbn [bind] in E. destruct (Rltb 0 _); apply IH in E; try lra; auto; eexists; (split; [|reflexivity]); lra.
  - injection E as <-. exact Hv.
Qed.
Lemma loop_first fuel l0 l1 x r : 0 <= l0 < l1 -> oc_leps o < (l1 - l0) / (l1 + l0) -> oc_loop o xk df dg g fuel l0 l1 None x = Ok r -> exists l, 0 < l /\ snd r = map (cval l) (seq 0 n).
Proof.
  intros Hl He E. destruct fuel as [|fuel]; cbn [oc_loop] in E; rewrite Rdiv_res_ok in E by lra; cbn [bind] in E; rewrite (Rltb_t _ _ He) in E; [discriminate|].
  rewrite cand_vals in E by lra. cbn [bind] in E. destruct (Rltb 0 _); apply loop_value in E; try lra; auto; eexists; (split; [|reflexivity]); lra.
Qed.
Lemma update_safe fuel f : 0 <= oc_lmin o < oc_lmax o -> oc_leps o < (oc_lmax o - oc_lmin o) / (oc_lmax o + oc_lmin o) ->
  (exists o' l, 0 < l /\ oc_update o fuel xk f df dg g = Ok (o', map (cval l) (seq 0 n)) /\
     o' = mkOC (S (oc_k o)) (oc_n o) f (oc_eps o) (oc_xmin o) (oc_xmax o) (oc_iota o) (oc_lmin o) (oc_lmax o) (oc_leps o) (oc_move o)) \/ oc_update o fuel xk f df dg g = Fail OutOfFuel.
Proof.
  intros Hl He. unfold oc_update. destruct (loop_safe fuel (oc_lmin o) (oc_lmax o) None (repeat 0 (oc_n o)) Hl) as [[[lam x] E]|E]; [|right; now rewrite E].
  destruct (loop_moves _ _ _ _ _ Hl He E) as (l & El). destruct (loop_first _ _ _ _ _ Hl He E) as (l' & Hl' & Ex). cbn in El, Ex. subst lam x. rewrite E. cbn [bind]. left. eauto.
Qed.

(** ** Termination with lambdamin = 0 *)
Hypothesis Hmono : forall x y, length x = n -> length y = n -> (forall i, (i < n)%nat -> nth i x 0 <= nth i y 0) -> g x <= g y.
Hypothesis He : 0 < oc_leps o < 1.
Lemma vals_len l : length (map (cval l) (seq 0 n)) = n.
Proof. now rewrite map_length, seq_length. Qed.
Lemma never fuel : g (largest_step o xk df) <= 0 -> forall l1 lam x, 0 < l1 -> oc_loop o xk df dg g fuel 0 l1 lam x = Fail OutOfFuel.
Proof.
  intros Hg. induction fuel as [|fuel IH]; intros l1 lam x Hl; cbn [oc_loop]; rewrite Rdiv_res_ok by lra; cbn [bind]; replace ((l1 - 0) / (l1 + 0)) with 1 by (field; lra); rewrite (Rltb_t _ _ (proj2 He)); [reflexivity|].
  rewrite cand_vals by lra. cbn [bind]. rewrite (Rltb_f 0); [apply IH; lra|]. apply Rle_trans with (g (largest_step o xk df)); [|exact Hg].
  rewrite big_is. apply Hmono; try (now rewrite map_length, seq_length). intros i Hi. rewrite !nth_map_seq' by auto. apply cval_big; [lra|auto].
Qed.
Lemma reaches : 0 < g (largest_step o xk df) -> forall l1 lam x, 0 < l1 -> exists r fuel, oc_loop o xk df dg g fuel 0 l1 lam x = Ok r.
Proof.
  intros Hg l1 lam x Hl. destruct cval_small as (ls & Hls & SM). destruct (pow_half_small l1 ls Hls) as (k & Hk). revert l1 lam x Hl Hk.
  induction k as [|k IH]; intros l1 lam x Hl Hk.
  - cbn [pow] in Hk. assert (E : map (cval (5/10 * (l1 + 0))) (seq 0 n) = largest_step o xk df). { rewrite big_is. apply map_ext_in. intros i Hi. apply in_seq in Hi. apply SM; [lra|lia]. }
    destruct (pow_half_small (l1 - 5/10 * (l1 + 0)) (oc_leps o * (2 * (5/10 * (l1 + 0))))) as (m & Hm'); [nra|].
    destruct (loop_terminates o xk df dg g (proj1 He) m (5/10 * (l1 + 0)) l1 (Some (5/10 * (l1 + 0))) (largest_step o xk df)) as (r & Hr).
    + intros l Hl'. rewrite cand_vals by lra. eauto.
    + lra.
    + exact Hm'.
    + exists r, (S m). cbn [oc_loop]. rewrite Rdiv_res_ok by lra. cbn [bind]. replace ((l1 - 0) / (l1 + 0)) with 1 by (field; lra). rewrite (Rltb_t _ _ (proj2 He)). rewrite cand_vals by lra. cbn [bind]. rewrite E, (Rltb_t _ _ Hg). apply Hr. lia.
  - destruct (Rltb 0 (g (map (cval (5/10 * (l1 + 0))) (seq 0 n)))) eqn:Eg.
    + destruct (pow_half_small (l1 - 5/10 * (l1 + 0)) (oc_leps o * (2 * (5/10 * (l1 + 0))))) as (m & Hm'); [nra|].
      destruct (loop_terminates o xk df dg g (proj1 He) m (5/10 * (l1 + 0)) l1 (Some (5/10 * (l1 + 0))) (map (cval (5/10 * (l1 + 0))) (seq 0 n))) as (r & Hr).
      * intros l Hl'. rewrite cand_vals by lra. eauto.
      * lra.
      * exact Hm'.
      * exists r, (S m). cbn [oc_loop]. rewrite Rdiv_res_ok by lra. cbn [bind]. replace ((l1 - 0) / (l1 + 0)) with 1 by (field; lra). rewrite (Rltb_t _ _ (proj2 He)). rewrite cand_vals by lra. cbn [bind]. rewrite Eg. apply Hr. lia.
    + destruct (IH (5/10 * (l1 + 0)) (Some (5/10 * (l1 + 0))) (map (cval (5/10 * (l1 + 0))) (seq 0 n))) as (r & fuel & Hr); [lra|cbn [pow] in Hk; replace (5/10 * (l1 + 0) * (1/2) ^ k) with (l1 * (1/2 * (1/2) ^ k)) by field; exact Hk|].
      exists r, (S fuel). cbn [oc_loop]. rewrite Rdiv_res_ok by lra. cbn [bind]. replace ((l1 - 0) / (l1 + 0)) with 1 by (field; lra). rewrite (Rltb_t _ _ (proj2 He)). rewrite cand_vals by lra. cbn [bind]. rewrite Eg. exact Hr.
Qed.
Lemma update_iff f : oc_lmin o = 0 -> 0 < oc_lmax o -> (exists fuel r, oc_update o fuel xk f df dg g = Ok r) <-> 0 < g (largest_step o xk df).
Proof.
  intros H0 H1. split.
  - intros (fuel & r & E). destruct (Rlt_dec 0 (g (largest_step o xk df))) as [H|H]; [exact H|]. exfalso. apply Rnot_lt_le in H. unfold oc_update in E. rewrite H0 in E. rewrite (never fuel H (oc_lmax o) None _ H1) in E. discriminate.
  - intros H. destruct (reaches H (oc_lmax o) None (repeat 0 (oc_n o)) H1) as (r & fuel & E). exists fuel.
    assert (W : oc_leps o < (oc_lmax o - 0) / (oc_lmax o + 0)) by (replace ((oc_lmax o - 0) / (oc_lmax o + 0)) with 1 by (field; lra); lra).
    destruct (loop_moves fuel 0 (oc_lmax o) _ _ (conj (Rle_refl 0) H1) W E) as (l & El). destruct r as [lam x]. cbn in El. subst lam. unfold oc_update. rewrite H0, E. cbn [bind]. eauto.
Qed.
End O.
