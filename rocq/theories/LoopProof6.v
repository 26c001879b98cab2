(** The filtered sensitivities and the gradient. *)
From Coq Require Import List Arith Lia Bool Reals Lra.
From Verif Require Import Res SumR DenseR FilterModel FilterSpec OCModel TopModel TopSpec LoopModel LoopSpec.
From Verif Require Import FilterMain TopMain TopProof4 LoopProof LoopProof2 LoopProof4.
Import ListNotations.
Local Open Scope R_scope.

Lemma deriv_pos (f : R -> R) l : derivable_pt_lim f 0 l -> 0 < f 0 -> exists r, 0 < r /\ forall h, Rabs h < r -> 0 < f h.
Proof.
  intros D P. assert (C : continuity_pt f 0) by (apply derivable_continuous_pt; exists l; exact D).
  destruct (C (f 0) P) as (r & Hr & H). exists r. split; [exact Hr|]. intros h Hh. destruct (Req_dec h 0) as [->|N]; [exact P|].
  specialize (H h). cbn in H. unfold R_dist, D_x, no_cond in H. rewrite Rminus_0_r in H. specialize (H (conj (conj I (not_eq_sym N)) Hh)). apply Rabs_def2 in H. lra.
Qed.
Lemma deriv_pos_all n (f : nat -> R -> R) l : (forall k, (k < n)%nat -> derivable_pt_lim (f k) 0 (l k) /\ 0 < f k 0) -> exists r, 0 < r /\ forall h k, Rabs h < r -> (k < n)%nat -> 0 < f k h.
Proof.
  induction n as [|n IH]; intros H; [exists 1; split; [lra|lia]|]. destruct IH as (r & Hr & A); [intros; apply H; lia|]. destruct (H n ltac:(lia)) as [D P]. destruct (deriv_pos (f n) (l n) D P) as (r' & Hr' & B).
  exists (Rmin r r'). split; [now apply Rmin_glb_lt|]. intros h k Hh Hk. pose proof (Rmin_l r r'). pose proof (Rmin_r r r'). destruct (Nat.eq_dec k n) as [->|]; [apply B; lra|apply A; [lra|lia]].
Qed.
Lemma gradient_unique n F s g1 g2 : length s = n -> gradient_at n F s g1 -> gradient_at n F s g2 -> forall i, (i < n)%nat -> nth i g1 0 = nth i g2 0.
Proof.
  intros L G1 G2 i Hi. set (c := fun e : R => map (fun k => nth k s 0 + e * (if (k =? i)%nat then 1 else 0)) (seq 0 n)). set (v := fun k => if (k =? i)%nat then 1 else 0 : R).
  assert (C0 : c 0 = s). { unfold c. apply (nth_ext _ _ 0 0); [now rewrite map_length, seq_length|]. intros k Hk. rewrite map_length, seq_length in Hk. rewrite nth_map_seq' by auto. ring. }
  assert (CD : forall k, (k < n)%nat -> derivable_pt_lim (fun e => nth k (c e) 0) 0 (v k)).
  { intros k Hk. apply (lim_local (fun e => nth k s 0 + e * v k) _ 0 _ 1 ltac:(lra)); [intros h _; unfold c; now rewrite nth_map_seq' by auto|].
    assert (Ev : v k = 0 + (1 * v k + 0 * 0)) by ring. apply (eq_ind_r (fun l => derivable_pt_lim (fun e => nth k s 0 + e * v k) 0 l)) with (2 := Ev). apply (derivable_pt_lim_plus (fun _ => nth k s 0) (fun e => e * v k)); [apply derivable_pt_lim_const|]. apply (derivable_pt_lim_mult (fun e => e) (fun _ => v k)); [apply derivable_pt_lim_id|apply derivable_pt_lim_const]. }
  assert (CL : forall e, length (c e) = n) by (intros e; unfold c; now rewrite map_length, seq_length).
  pose proof (uniqueness_limite _ _ _ _ (G1 c v C0 CD CL) (G2 c v C0 CD CL)) as E. unfold v in E.
  assert (S : forall g : list R, bigsum n (fun k => nth k g 0 * (if (k =? i)%nat then 1 else 0)) = nth i g 0).
  { intros g. rewrite (bigsum_single n i) by (auto; intros k Hk N; apply Nat.eqb_neq in N; rewrite N; ring). rewrite Nat.eqb_refl. ring. }
  now rewrite !S in E.
Qed.

Section P.
Variables (solve : SparseModel.csr R -> list R -> res (list R)) (d : top) (nbs : list (list nat)) (w : list (list R)).
Let n := length (tp_elements d).
Hypothesis HS : spd_solver solve.
Hypothesis HT : top_ok d.
Hypothesis HC : loop_consts d.
Hypothesis Hok : filter_ok n nbs w.
Hypothesis Hw : weights_nonneg nbs w.

(** the objective as a function of the densities *)
Lemma objective_gradient rho a : design_ok d rho -> top_analysis solve d rho = Ok a -> gradient_at n (fun r => objective (top_analysis solve d r)) rho (an_df a).
Proof.
  intros HD E c v C0 CD CL. destruct HD as [L P].
  destruct (deriv_pos_all n (fun k e => nth k (c e) 0) v) as (r & Hr & A). { intros k Hk. split; [now apply CD|]. rewrite C0. apply P. apply nth_In. now rewrite L. }
  apply (C108_sensitivity_pf solve d c v 0 r a HS HT Hr).
  - intros h Hh. rewrite Rplus_0_l. split; [apply CL|]. intros x Hx. apply (In_nth _ _ 0) in Hx. destruct Hx as (k & Hk & <-). apply A; auto. rewrite CL in Hk. exact Hk.
  - exact CD.
  - now rewrite C0.
Qed.
(** the weight as a function of the densities *)
Lemma weight_gradient rho : length rho = n -> gradient_at n (fun r => tp_scale1 d * (bigsum n (fun i => nth i r 0) / INR n / tp_limit d - 1)) rho (repeat (tp_scale1 d / (tp_limit d * INR n)) n).
Proof.
  intros L c v C0 CD CL. destruct HC as (HE & _ & _ & _ & HL). assert (N : 0 < INR n). { apply lt_0_INR. unfold n. destruct (tp_elements d); [congruence|cbn; lia]. }
  set (q := tp_scale1 d / (tp_limit d * INR n)).
  assert (D : derivable_pt_lim (fun e => bigsum n (fun i => q * nth i (c e) 0)) 0 (bigsum n (fun i => q * v i))).
  { clear - CD. clearbody q. induction n as [|m IH]; [apply derivable_pt_lim_const|]. cbn [bigsum]. apply (derivable_pt_lim_plus (fun e => bigsum m (fun i => q * nth i (c e) 0)) (fun e => q * nth m (c e) 0)); [apply IH; intros; apply CD; lia|]. apply (derivable_pt_lim_scal (fun e => nth m (c e) 0)). apply CD. lia. }
  rewrite (bigsum_ext n _ (fun i => q * v i)).
  2: { intros i Hi. rewrite nth_repeat_in. now rewrite (proj2 (Nat.ltb_lt i n) Hi). }
  apply (lim_local (fun e => bigsum n (fun i => q * nth i (c e) 0) + - tp_scale1 d) _ 0 _ 1 ltac:(lra)).
  - intros h _. rewrite bigsum_scal. unfold q. field. lra.
  - replace (bigsum n (fun i => q * v i)) with (bigsum n (fun i => q * v i) + 0) by ring. apply (derivable_pt_lim_plus _ (fun _ => - tp_scale1 d)); [exact D|apply derivable_pt_lim_const].
Qed.

Lemma gradient_ext F F' s g : (forall v, length v = n -> F v = F' v) -> gradient_at n F s g -> gradient_at n F' s g.
Proof. intros H G c v C0 CD CL. apply (lim_local (fun e => F (c e)) _ 0 _ 1 ltac:(lra)); [intros h _; now apply H|]. now apply G. Qed.

Definition hk (beta : R) (s c : list R) (k : nat) : R := at_ c k * slope beta (mean nbs w (at_ s) k).
Definition grad (beta : R) (s c : list R) : list R := map (fun i => bigsum n (fun k => link_weight nbs w k i / weight_sum nbs w k * hk beta s c k)) (seq 0 n).
Lemma filter_gradient beta s F c : 0 < beta -> length s = n -> gradient_at n F (rho_of d nbs w beta s) c -> gradient_at n (fun v => F (rho_of d nbs w beta v)) s (grad beta s c).
Proof.
  intros Hb L G. apply (gradient_ext (fun v => F (variables_of (heaviside_variables n nbs w beta v)))).
  { intros v Lv. unfold n. rewrite (rho_run d nbs w Hok beta v Hb Lv). reflexivity. }
  replace (grad beta s c) with (map (fun i => bigsum n (fun k => share nbs w k i * (nth k c 0 *
       (beta * (1 - tanh (beta * (mean nbs w (fun j => nth j s 0) k - 1/2)) ^ 2) / (2 * tanh (beta / 2)))))) (seq 0 n)).
  - apply C45_heaviside_gradient_pf; auto; [lra|]. unfold n. rewrite (rho_run d nbs w Hok beta s Hb L). exact G.
  - unfold grad. apply map_ext. intros i. apply bigsum_ext. intros k Hk. unfold share, mean at 1, link_weight, weight_sum, hk, at_, slope. f_equal. f_equal. pose proof (tanh_half beta Hb).
    replace (5 / 10 * beta) with (beta / 2) in * by field. replace (1 / 2) with (5 / 10) by field. field. lra.
Qed.
(** what the filter returns *)
Lemma returned beta s c i : (i < n)%nat -> weight_sum nbs w i * mean nbs w (hk beta s c) i = bigsum n (fun k => link_weight nbs w i k * hk beta s c k).
Proof.
  intros Hi. rewrite (mean_shares n nbs w Hok) by auto. rewrite <- bigsum_scal. apply bigsum_ext. intros k Hk. unfold share, mean, link_weight.
  pose proof (wsum_pos n nbs w Hok Hw i Hi) as P. unfold weight_sum in *. field. lra.
Qed.
Lemma lw_nonneg i k : 0 <= link_weight nbs w i k.
Proof.
  unfold link_weight. pose proof (Hw i) as H. unfold total. induction (links nbs w i) as [|[j v] l IH]; [cbn; lra|]. cbn [map sumlist fold_right fst snd]. unfold sumlist in IH.
  assert (0 <= v) by (apply (H j); now left). assert (0 <= fold_right Rplus 0 (map (fun kv : nat * R => snd kv * (if (fst kv =? k)%nat then 1 else 0)) l)) by (apply IH; intros a b Hab; apply (H a); now right). destruct (j =? k)%nat; lra.
Qed.
Hypothesis Hsym : forall i k, (i < n)%nat -> (k < n)%nat -> link_weight nbs w i k = link_weight nbs w k i.

Section B.
Variables (h : nat -> R) (i : nat) (a b : R).
Hypothesis Hi : (i < n)%nat.
Hypothesis HW : forall k, (k < n)%nat -> 0 < link_weight nbs w i k -> a <= weight_sum nbs w k <= b.
Lemma term k : (k < n)%nat -> exists t, 0 <= t /\ link_weight nbs w i k = t * weight_sum nbs w k /\ link_weight nbs w k i / weight_sum nbs w k = t /\ a * t <= link_weight nbs w i k <= b * t /\ (0 < link_weight nbs w i k -> 0 < t).
Proof.
  intros Hk. rewrite <- (Hsym i k Hi Hk). pose proof (wsum_pos n nbs w Hok Hw k Hk) as P. pose proof (lw_nonneg i k) as L. exists (link_weight nbs w i k / weight_sum nbs w k).
  assert (T : 0 <= link_weight nbs w i k / weight_sum nbs w k) by (apply Rmult_le_pos; [auto|left; now apply Rinv_0_lt_compat]). assert (E : link_weight nbs w i k = link_weight nbs w i k / weight_sum nbs w k * weight_sum nbs w k) by (field; lra).
  splits; auto.
  - destruct L as [L|L]; [|rewrite <- L; unfold Rdiv; lra]. destruct (HW k Hk L). rewrite E at 2. rewrite Rmult_comm. apply Rmult_le_compat_l; auto.
  - destruct L as [L|L]; [|rewrite <- L; unfold Rdiv; lra]. destruct (HW k Hk L). rewrite E at 1. rewrite (Rmult_comm b). apply Rmult_le_compat_l; auto.
  - intros Q. apply Rmult_lt_0_compat; auto. now apply Rinv_0_lt_compat.
Qed.
Lemma bounds_nonneg : (forall k, (k < n)%nat -> 0 <= h k) ->
  a * bigsum n (fun k => link_weight nbs w k i / weight_sum nbs w k * h k) <= bigsum n (fun k => link_weight nbs w i k * h k) <= b * bigsum n (fun k => link_weight nbs w k i / weight_sum nbs w k * h k).
Proof.
  intros Hh. rewrite <- !bigsum_scal. split; apply bigsum_le; intros k Hk; destruct (term k Hk) as (t & T & E & -> & [A B] & _); specialize (Hh k Hk); rewrite <- Rmult_assoc; apply Rmult_le_compat_r; auto.
Qed.
Lemma strict_nonneg : (forall k, (k < n)%nat -> 0 < h k) -> (exists k, (k < n)%nat /\ 0 < link_weight nbs w i k /\ a < weight_sum nbs w k) ->
  a * bigsum n (fun k => link_weight nbs w k i / weight_sum nbs w k * h k) < bigsum n (fun k => link_weight nbs w i k * h k).
Proof.
  intros Hh (k0 & Hk0 & P & Q). rewrite <- bigsum_scal.
  assert (D : 0 < bigsum n (fun k => link_weight nbs w i k * h k - a * (link_weight nbs w k i / weight_sum nbs w k * h k))).
  { apply Rlt_le_trans with (link_weight nbs w i k0 * h k0 - a * (link_weight nbs w k0 i / weight_sum nbs w k0 * h k0)).
    - destruct (term k0 Hk0) as (t & T & E & -> & _ & PT). specialize (PT P). specialize (Hh k0 Hk0). rewrite E. replace (t * weight_sum nbs w k0 * h k0 - a * (t * h k0)) with ((t * h k0) * (weight_sum nbs w k0 - a)) by ring. apply Rmult_lt_0_compat; [now apply Rmult_lt_0_compat|lra].
    - rewrite <- (bigsum_delta n k0 (fun k => link_weight nbs w i k * h k - a * (link_weight nbs w k i / weight_sum nbs w k * h k))) by auto.
      apply bigsum_le. intros k Hk. destruct (term k Hk) as (t & T & E & ET & [A B] & _). rewrite ET. specialize (Hh k Hk). assert (a * (t * h k) <= link_weight nbs w i k * h k) by (rewrite <- Rmult_assoc; apply Rmult_le_compat_r; lra). destruct (Nat.eq_dec k k0) as [->|NE]; [rewrite delta_refl; lra|rewrite delta_ne by auto; lra]. }
  rewrite bigsum_minus in D. lra.
Qed.
End B.
Lemma bounds_nonpos h i a b : (i < n)%nat -> (forall k, (k < n)%nat -> 0 < link_weight nbs w i k -> a <= weight_sum nbs w k <= b) -> (forall k, (k < n)%nat -> h k <= 0) ->
  b * bigsum n (fun k => link_weight nbs w k i / weight_sum nbs w k * h k) <= bigsum n (fun k => link_weight nbs w i k * h k) <= a * bigsum n (fun k => link_weight nbs w k i / weight_sum nbs w k * h k).
Proof.
  intros Hi HW Hh. pose proof (bounds_nonneg (fun k => -1 * h k) i a b Hi HW ltac:(intros k Hk; specialize (Hh k Hk); lra)) as B. cbv beta in B.
  rewrite (bigsum_ext n (fun k => link_weight nbs w k i / weight_sum nbs w k * (-1 * h k)) (fun k => -1 * (link_weight nbs w k i / weight_sum nbs w k * h k))) in B by (intros; ring).
  rewrite (bigsum_ext n (fun k => link_weight nbs w i k * (-1 * h k)) (fun k => -1 * (link_weight nbs w i k * h k))) in B by (intros; ring). rewrite !bigsum_scal in B. lra.
Qed.
End P.
