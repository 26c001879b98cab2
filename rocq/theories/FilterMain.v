(** Properties C44-C46 and C68: filters: the proofs. *)
From Coq Require Import List Arith Lia Bool Reals Lra.
From Verif Require Import Res SumR DenseR FilterModel FilterSpec.
Import ListNotations.
Local Open Scope R_scope.
From Coq Require Import FunctionalExtensionality.
From Verif Require Import AssemblyProof.

Lemma sums_ok nbs i num den x y : (i < length nbs)%nat -> (forall j, (j < length (nth i nbs []))%nat -> num j = Ok (x j) /\ den j = Ok (y j)) ->
  sums nbs i num den = Ok (bigsum (length (nth i nbs [])) x, bigsum (length (nth i nbs [])) y).
Proof.
  intros Hi H. unfold sums. rewrite (rd_nth _ _ [] Hi). cbn [bind].
  assert (G : forall m, (m <= length (nth i nbs []))%nat -> foldM (fun '(a, b) j => x <- num j ;; y <- den j ;; Ok (a + x, b + y)) (seq 0 m) (0, 0) = Ok (bigsum m x, bigsum m y)).
  { induction m as [|m IH]; intros Hm; [reflexivity|]. rewrite seq_S, foldM_app, IH by lia. cbn [bind Nat.add foldM]. destruct (H m) as [-> ->]; [lia|]. reflexivity. }
  now apply G.
Qed.
Lemma total_sum l f : total l f = bigsum (length l) (fun j => snd (nth j l (O, 0)) * f (fst (nth j l (O, 0)))).
Proof.
  unfold total. rewrite sumlist_bigsum, map_length. apply bigsum_ext. intros j Hj.
  rewrite (nth_indep _ 0 ((fun kv : nat * R => snd kv * f (fst kv)) (O, 0))) by now rewrite map_length. now rewrite (map_nth (fun kv : nat * R => snd kv * f (fst kv))).
Qed.
Lemma total_ext l f g : (forall k v, In (k, v) l -> f k = g k) -> total l f = total l g.
Proof. intros H. unfold total. f_equal. apply map_ext_in. intros [k v] Hk. cbn. now rewrite (H k v). Qed.
Lemma total_plus l f g : total l (fun k => f k + g k) = total l f + total l g.
Proof. unfold total, sumlist. induction l as [|[k v] l IH]; cbn in *; [ring|]. rewrite IH. ring. Qed.
Lemma total_scal l c f : total l (fun k => c * f k) = c * total l f.
Proof. unfold total, sumlist. induction l as [|[k v] l IH]; cbn in *; [ring|]. rewrite IH. ring. Qed.
Lemma total_le l f g : (forall k v, In (k, v) l -> 0 <= v /\ f k <= g k) -> total l f <= total l g.
Proof.
  unfold total, sumlist. induction l as [|[k v] l IH]; cbn in *; intros H; [lra|]. destruct (H k v (or_introl eq_refl)).
  pose proof (IH (fun a b Hab => H a b (or_intror Hab))). assert (v * f k <= v * g k) by (now apply Rmult_le_compat_l). lra.
Qed.
Lemma total_const l c : total l (fun _ => c) = c * total l (fun _ => 1).
Proof. rewrite <- total_scal. apply total_ext. intros. ring. Qed.
Lemma total_bigsum l n (f : nat -> nat -> R) : total l (fun k => bigsum n (f k)) = bigsum n (fun i => total l (fun k => f k i)).
Proof.
  induction n as [|n IH]; [unfold total, sumlist; induction l as [|[k v] l IH]; cbn in *; [reflexivity|rewrite IH; ring]|].
  cbn [bigsum]. now rewrite total_plus, IH.
Qed.
Lemma total_shift l : (forall k v, In (k, v) l -> 0 <= v) -> 0 <= total l (fun _ => 1).
Proof. intros H. rewrite <- (Rmult_0_l (total l (fun _ => 1))), <- total_const. apply total_le. intros k v Hk. split; [now apply (H k v)|lra]. Qed.

Lemma nth_map_seq' (g : nat -> R) n i : (i < n)%nat -> nth i (map g (seq 0 n)) 0 = g i.
Proof. intros H. rewrite (nth_indep _ 0 (g O)) by now rewrite map_length, seq_length. now rewrite (map_nth g), seq_nth by auto. Qed.

Section F.
Variables (n : nat) (nbs : list (list nat)) (w : list (list R)).
Hypothesis Hok : filter_ok n nbs w.

Lemma link_len i : (i < n)%nat -> length (links nbs w i) = length (nth i nbs []).
Proof. intros Hi. unfold links. rewrite combine_length. destruct Hok as (_ & _ & H). destruct (H i Hi) as (H1 & _). lia. Qed.
Lemma link_nth i j : (i < n)%nat -> (j < length (nth i nbs []))%nat -> nth j (links nbs w i) (O, 0) = (nth j (nth i nbs []) O, nth j (nth i w []) 0).
Proof.
  intros Hi Hj. unfold links. destruct Hok as (_ & _ & H). destruct (H i Hi) as (H1 & _).
  revert H1 Hj. generalize (nth i nbs []) (nth i w []). intros a b. revert b j. induction a as [|x a IH]; intros [|y b] [|j] H1 Hj; cbn in *; try lia; auto. apply IH; lia.
Qed.
Lemma links_in i k v : (i < n)%nat -> In (k, v) (links nbs w i) -> (k < n)%nat.
Proof. intros Hi Hk. destruct Hok as (_ & _ & H). destruct (H i Hi) as (_ & H2 & _). apply H2. now apply in_combine_l in Hk. Qed.
Lemma tot_ne i : (i < n)%nat -> total (links nbs w i) (fun _ => 1) <> 0.
Proof. intros Hi. destruct Hok as (_ & _ & H). now destruct (H i Hi) as (_ & _ & H2). Qed.
Lemma link_sum i f : (i < n)%nat -> bigsum (length (nth i nbs [])) (fun j => nth j (nth i w []) 0 * f (nth j (nth i nbs []) O)) = total (links nbs w i) f.
Proof. intros Hi. rewrite total_sum, link_len by auto. apply bigsum_ext. intros j Hj. now rewrite link_nth. Qed.
Lemma wij_ok i j : (i < n)%nat -> (j < length (nth i nbs []))%nat -> rd2 w i j = Ok (nth j (nth i w []) 0).
Proof. intros Hi Hj. destruct Hok as (H0 & H1 & H). destruct (H i Hi) as (H2 & _). unfold rd2. rewrite (rd_nth w i []) by lia. cbn [bind]. apply rd_nth. lia. Qed.
Lemma nb_ok v i j : (n <= length v)%nat -> (i < n)%nat -> (j < length (nth i nbs []))%nat -> at_nb nbs v i j = Ok (nth (nth j (nth i nbs []) O) v 0).
Proof.
  intros Hv Hi Hj. destruct Hok as (H0 & H1 & H). destruct (H i Hi) as (H2 & H3 & _). unfold at_nb, rd2. rewrite (rd_nth nbs i []) by lia. cbn [bind].
  rewrite (rd_nth _ j O) by lia. cbn [bind]. apply rd_nth. pose proof (H3 _ (nth_In _ O Hj)). lia.
Qed.
Lemma each_ok (f : nat -> res R) g : (forall i, (i < n)%nat -> f i = Ok (g i)) -> mapM f (seq 0 n) = Ok (map g (seq 0 n)).
Proof.
  intros H. assert (G : forall l, (forall i, In i l -> (i < n)%nat) -> mapM f l = Ok (map g l)).
  { induction l as [|i l IH]; intros Hl; [reflexivity|]. cbn [mapM map]. rewrite H by (apply Hl; now left). cbn [bind]. rewrite IH by (intros; apply Hl; now right). reflexivity. }
  apply G. intros i Hi%in_seq. lia.
Qed.
Lemma wsum1 i : (i < n)%nat -> bigsum (length (nth i nbs [])) (fun j => nth j (nth i w []) 0) = total (links nbs w i) (fun _ => 1).
Proof. intros Hi. rewrite <- link_sum by auto. apply bigsum_ext. intros. ring. Qed.

Definition at_ (v : list R) k := nth k v 0.
Lemma sums_mean i s : (n <= length s)%nat -> (i < n)%nat ->
  sums nbs i (fun j => wij <- rd2 w i j ;; sj <- at_nb nbs s i j ;; Ok (wij * sj)) (fun j => rd2 w i j) =
  Ok (total (links nbs w i) (at_ s), total (links nbs w i) (fun _ => 1)).
Proof.
  intros Hs Hi. rewrite <- wsum1, <- link_sum by auto. apply sums_ok; [destruct Hok as (H & _); lia|]. intros j Hj. rewrite wij_ok, nb_ok by auto. auto.
Qed.
Lemma density_variables_ok s : (n <= length s)%nat -> density_variables n nbs w s = Ok (map (mean nbs w (at_ s)) (seq 0 n)).
Proof.
  intros Hs. unfold density_variables. apply each_ok. intros i Hi. rewrite sums_mean by auto. cbn [bind]. now rewrite Rdiv_res_ok by now apply tot_ne.
Qed.
Lemma density_sensitivities_ok s c : (n <= length c)%nat -> density_sensitivities n nbs w s c = Ok (map (mean nbs w (at_ c)) (seq 0 n)).
Proof.
  intros Hs. unfold density_sensitivities. apply each_ok. intros i Hi.
  rewrite (sums_ok _ _ _ _ (fun j => nth j (nth i w []) 0 * at_ c (nth j (nth i nbs []) O)) (fun j => nth j (nth i w []) 0)).
  - cbn [bind]. rewrite link_sum, wsum1 by auto. now rewrite Rdiv_res_ok by now apply tot_ne.
  - destruct Hok; lia.
  - intros j Hj. rewrite wij_ok, nb_ok by auto. cbn [bind]. split; auto. f_equal. unfold at_. ring.
Qed.
Definition project (beta q : R) : R := 5/10 * (tanh (5/10 * beta) + tanh (beta * (q - 5/10))) / tanh (5/10 * beta).
Definition slope (beta q : R) : R := 5/10 * beta * (1 - tanh (beta * (q - 5/10)) * tanh (beta * (q - 5/10))) / tanh (5/10 * beta).
Lemma heaviside_variables_ok beta s : (n <= length s)%nat -> tanh (5/10 * beta) <> 0 ->
  heaviside_variables n nbs w beta s = Ok (map (fun i => project beta (mean nbs w (at_ s) i)) (seq 0 n)).
Proof.
  intros Hs Hb. unfold heaviside_variables. apply each_ok. intros i Hi. rewrite sums_mean by auto. cbn [bind]. rewrite Rdiv_res_ok by now apply tot_ne.
  cbn [bind]. now rewrite Rdiv_res_ok.
Qed.
Lemma heaviside_sensitivities_ok beta s c : (n <= length s)%nat -> (n <= length c)%nat -> tanh (5/10 * beta) <> 0 ->
  heaviside_sensitivities n nbs w beta s c = Ok (map (mean nbs w (fun k => at_ c k * slope beta (mean nbs w (at_ s) k))) (seq 0 n)).
Proof.
  intros Hs Hc Hb. unfold heaviside_sensitivities.
  assert (E : heaviside_slopes n nbs w beta s = Ok (map (fun i => slope beta (mean nbs w (at_ s) i)) (seq 0 n))).
  { unfold heaviside_slopes. apply each_ok. intros i Hi. rewrite sums_mean by auto. cbn [bind]. rewrite Rdiv_res_ok by now apply tot_ne. cbn [bind]. now rewrite Rdiv_res_ok. }
  rewrite E. cbn [bind]. apply each_ok. intros i Hi.
  rewrite (sums_ok _ _ _ _ (fun j => nth j (nth i w []) 0 * (fun k => at_ c k * slope beta (mean nbs w (at_ s) k)) (nth j (nth i nbs []) O)) (fun j => nth j (nth i w []) 0)).
  - cbn [bind]. rewrite (link_sum i (fun k => at_ c k * slope beta (mean nbs w (at_ s) k))), wsum1 by auto. now rewrite Rdiv_res_ok by now apply tot_ne.
  - destruct Hok; lia.
  - intros j Hj. rewrite wij_ok, !nb_ok by (rewrite ?map_length, ?seq_length; auto). cbn [bind]. split; auto. f_equal. unfold at_.
    assert (Hk : (nth j (nth i nbs []) O < n)%nat) by (destruct Hok as (_ & _ & H); destruct (H i Hi) as (_ & H3 & _); apply H3; now apply nth_In).
    rewrite (nth_map_seq' (fun i => slope beta (mean nbs w (at_ s) i))) by auto. unfold at_. ring.
Qed.
Lemma sigmund_ok s c : (n <= length s)%nat -> (n <= length c)%nat -> (forall i, (i < n)%nat -> nth i s 0 <> 0) ->
  sigmund_sensitivities n nbs w s c = Ok (map (fun i => total (links nbs w i) (fun k => at_ s k * at_ c k) / (total (links nbs w i) (fun _ => 1) * nth i s 0)) (seq 0 n)).
Proof.
  intros Hs Hc H0. unfold sigmund_sensitivities. apply each_ok. intros i Hi.
  rewrite (sums_ok _ _ _ _ (fun j => nth j (nth i w []) 0 * (fun k => at_ s k * at_ c k) (nth j (nth i nbs []) O)) (fun j => nth j (nth i w []) 0)).
  - cbn [bind]. rewrite (link_sum i (fun k => at_ s k * at_ c k)), wsum1 by auto. rewrite (rd_nth s i 0) by lia. cbn [bind]. apply Rdiv_res_ok.
    apply Rmult_integral_contrapositive_currified; [now apply tot_ne|auto].
  - destruct Hok; lia.
  - intros j Hj. rewrite wij_ok, !nb_ok by auto. cbn [bind]. split; auto. f_equal. unfold at_. ring.
Qed.
Lemma borrvall_ok s c : (n <= length s)%nat -> (n <= length c)%nat -> (forall i, (i < n)%nat -> total (links nbs w i) (at_ s) <> 0) ->
  borrvall_sensitivities n nbs w s c = Ok (map (fun i => total (links nbs w i) (fun k => at_ s k * at_ c k) / total (links nbs w i) (at_ s)) (seq 0 n)).
Proof.
  intros Hs Hc H0. unfold borrvall_sensitivities. apply each_ok. intros i Hi.
  rewrite (sums_ok _ _ _ _ (fun j => nth j (nth i w []) 0 * (fun k => at_ s k * at_ c k) (nth j (nth i nbs []) O)) (fun j => nth j (nth i w []) 0 * at_ s (nth j (nth i nbs []) O))).
  - cbn [bind]. rewrite (link_sum i (fun k => at_ s k * at_ c k)), (link_sum i (at_ s)) by auto. apply Rdiv_res_ok. auto.
  - destruct Hok; lia.
  - intros j Hj. rewrite wij_ok, !nb_ok by auto. cbn [bind]. split; auto. f_equal. unfold at_. ring.
Qed.

Lemma mean_shares f i : (i < n)%nat -> mean nbs w f i = bigsum n (fun k => share nbs w i k * f k).
Proof.
  intros Hi. unfold share, mean, Rdiv. rewrite (bigsum_ext _ _ (fun k => total (links nbs w i) (fun k' => f k * if (k' =? k)%nat then 1 else 0) * / total (links nbs w i) (fun _ => 1))).
  - rewrite bigsum_scal_r, <- total_bigsum. f_equal. apply total_ext. intros k v Hk. symmetry.
    rewrite (bigsum_single n k); [rewrite Nat.eqb_refl; ring|now apply (links_in i k v)|]. intros j Hj Hne. destruct (Nat.eqb_spec k j); [congruence|ring].
  - intros k Hk. rewrite total_scal. ring.
Qed.
Lemma mean_bounds f i lo hi : (i < n)%nat -> weights_nonneg nbs w -> (forall k, In k (nth i nbs []) -> lo <= f k <= hi) -> lo <= mean nbs w f i <= hi.
Proof.
  intros Hi Hw Hf. pose proof (tot_ne i Hi) as Ht. assert (Hp : 0 < total (links nbs w i) (fun _ => 1)).
  { pose proof (total_shift (links nbs w i) (fun k v => Hw i k v)). lra. }
  unfold mean. split.
  - apply Rmult_le_reg_r with (total (links nbs w i) (fun _ => 1)); auto. unfold Rdiv. rewrite Rmult_assoc, Rinv_l, Rmult_1_r by auto.
    rewrite <- total_const. apply total_le. intros k v Hk. split; [eapply Hw; eauto|]. apply Hf. now apply in_combine_l in Hk.
  - apply Rmult_le_reg_r with (total (links nbs w i) (fun _ => 1)); auto. unfold Rdiv. rewrite Rmult_assoc, Rinv_l, Rmult_1_r by auto.
    rewrite <- total_const. apply total_le. intros k v Hk. split; [eapply Hw; eauto|]. apply Hf. now apply in_combine_l in Hk.
Qed.
Lemma mean_le f g i : (i < n)%nat -> weights_nonneg nbs w -> (forall k, In k (nth i nbs []) -> f k <= g k) -> mean nbs w f i <= mean nbs w g i.
Proof.
  intros Hi Hw Hf. pose proof (tot_ne i Hi) as Ht. assert (Hp : 0 < total (links nbs w i) (fun _ => 1)).
  { pose proof (total_shift (links nbs w i) (fun k v => Hw i k v)). lra. }
  unfold mean, Rdiv. apply Rmult_le_compat_r; [left; now apply Rinv_0_lt_compat|]. apply total_le. intros k v Hk. split; [eapply Hw; eauto|]. apply Hf. now apply in_combine_l in Hk.
Qed.
Lemma mean_const c i : (i < n)%nat -> mean nbs w (fun _ => c) i = c.
Proof. intros Hi. unfold mean. rewrite total_const. field. now apply tot_ne. Qed.
Lemma mean_ext f g i : (i < n)%nat -> (forall k, (k < n)%nat -> f k = g k) -> mean nbs w f i = mean nbs w g i.
Proof. intros Hi H. unfold mean. f_equal. apply total_ext. intros k v Hk. apply H. now apply (links_in i k v). Qed.
End F.

Lemma deriv_ext' f g x l : (forall e, f e = g e) -> derivable_pt_lim g x l -> derivable_pt_lim f x l.
Proof. intros H. now rewrite (functional_extensionality f g H). Qed.
Lemma deriv_val f x l l' : l = l' -> derivable_pt_lim f x l -> derivable_pt_lim f x l'.
Proof. now intros <-. Qed.
Lemma deriv_bigsum n (f : nat -> R -> R) x l : (forall k, (k < n)%nat -> derivable_pt_lim (f k) x (l k)) -> derivable_pt_lim (fun e => bigsum n (fun k => f k e)) x (bigsum n l).
Proof.
  induction n as [|n IH]; intros H; cbn [bigsum]; [apply derivable_pt_lim_const|].
  apply (derivable_pt_lim_plus (fun e => bigsum n (fun k => f k e)) (f n)); [apply IH; intros; apply H; lia|apply H; lia].
Qed.
Lemma deriv_scal c f x l : derivable_pt_lim f x l -> derivable_pt_lim (fun e => c * f e) x (c * l).
Proof. intros H. exact (derivable_pt_lim_scal f c x l H). Qed.
Lemma mean_deriv n nbs w (curve : R -> list R) v i : filter_ok n nbs w -> (i < n)%nat ->
  (forall k, (k < n)%nat -> derivable_pt_lim (fun e => nth k (curve e) 0) 0 (v k)) ->
  derivable_pt_lim (fun e => mean nbs w (at_ (curve e)) i) 0 (mean nbs w v i).
Proof.
  intros Hok Hi H. rewrite (mean_shares n nbs w Hok v i Hi).
  apply (deriv_ext' _ (fun e => bigsum n (fun k => share nbs w i k * nth k (curve e) 0))); [intros; now rewrite (mean_shares n nbs w Hok)|].
  apply deriv_bigsum. intros k Hk. now apply deriv_scal, H.
Qed.

(** hyperbolic tangent *)
Lemma cosh_pos x : 0 < cosh x.
Proof. unfold cosh. pose proof (exp_pos x). pose proof (exp_pos (- x)). lra. Qed.
Lemma cosh_sinh x : cosh x * cosh x - sinh x * sinh x = 1.
Proof. unfold cosh, sinh. assert (exp x * exp (- x) = 1) by (rewrite <- exp_plus, Rplus_opp_r; apply exp_0). nra. Qed.
Lemma tanh_opp x : tanh (- x) = - tanh x.
Proof. pose proof (cosh_pos x). unfold tanh. assert (cosh (- x) = cosh x) by (unfold cosh; rewrite Ropp_involutive; lra). assert (sinh (- x) = - sinh x) by (unfold sinh; rewrite Ropp_involutive; lra). rewrite H0, H1. field. lra. Qed.
Lemma tanh_0 : tanh 0 = 0.
Proof. unfold tanh. rewrite sinh_0. field. pose proof (cosh_pos 0). lra. Qed.
Lemma tanh_deriv x : derivable_pt_lim tanh x (1 - tanh x * tanh x).
Proof.
  pose proof (cosh_pos x). pose proof (cosh_sinh x).
  replace (1 - tanh x * tanh x) with ((cosh x * cosh x - sinh x * sinh x) / Rsqr (cosh x)) by (unfold tanh, Rsqr; field; lra).
  apply (derivable_pt_lim_div sinh cosh); [apply derivable_pt_lim_sinh|apply derivable_pt_lim_cosh|lra].
Qed.
Lemma tanh_sqr x : tanh x * tanh x < 1.
Proof.
  pose proof (cosh_pos x). pose proof (cosh_sinh x). unfold tanh.
  replace (sinh x / cosh x * (sinh x / cosh x)) with (1 - / (cosh x * cosh x)).
  - assert (0 < / (cosh x * cosh x)) by (apply Rinv_0_lt_compat; nra). lra.
  - assert (sinh x * sinh x = cosh x * cosh x - 1) by lra.
    transitivity ((sinh x * sinh x) / (cosh x * cosh x)); [rewrite H1; field; lra|field; lra].
Qed.
Lemma tanh_lt x y : x < y -> tanh x < tanh y.
Proof.
  intros H. unfold tanh. pose proof (cosh_pos x). pose proof (cosh_pos y).
  apply Rmult_lt_reg_r with (cosh x * cosh y); [nra|]. replace (sinh x / cosh x * (cosh x * cosh y)) with (sinh x * cosh y) by (field; lra).
  replace (sinh y / cosh y * (cosh x * cosh y)) with (sinh y * cosh x) by (field; lra).
  assert (0 < sinh y * cosh x - sinh x * cosh y); [|lra].
  replace (sinh y * cosh x - sinh x * cosh y) with ((exp (y - x) - exp (x - y)) / 2).
  - assert (exp (x - y) < exp (y - x)) by (apply exp_increasing; lra). lra.
  - unfold sinh, cosh, Rminus. rewrite !exp_plus. field.
Qed.
Lemma tanh_le x y : x <= y -> tanh x <= tanh y.
Proof. intros [H| ->]; [left; now apply tanh_lt|lra]. Qed.
Lemma tanh_pos x : 0 < x -> 0 < tanh x.
Proof. intros H. rewrite <- tanh_0. now apply tanh_lt. Qed.
Lemma tanh_ne x : x <> 0 -> tanh x <> 0.
Proof. intros H. destruct (Rdichotomy _ _ H) as [H1|H1]; [|pose proof (tanh_pos x H1); lra]. pose proof (tanh_lt x 0 H1). rewrite tanh_0 in H0. lra. Qed.
Lemma project_deriv beta q : beta <> 0 -> derivable_pt_lim (project beta) q (slope beta q).
Proof.
  intros Hb. assert (Ht : tanh (5/10 * beta) <> 0) by (apply tanh_ne; lra). unfold slope.
  apply (deriv_ext' _ (fun q => 5/10 / tanh (5/10 * beta) * (tanh (5/10 * beta) + tanh (beta * (q - 5/10))))).
  - intros. unfold project. field. auto.
  - replace (5/10 * beta * (1 - tanh (beta * (q - 5/10)) * tanh (beta * (q - 5/10))) / tanh (5/10 * beta))
      with (5/10 / tanh (5/10 * beta) * (0 + (1 - tanh (beta * (q - 5/10)) * tanh (beta * (q - 5/10))) * (beta * (1 - 0)))) by (field; auto).
    apply deriv_scal. apply (derivable_pt_lim_plus (fun _ => tanh (5/10 * beta)) (fun q => tanh (beta * (q - 5/10)))); [apply derivable_pt_lim_const|].
    apply (derivable_pt_lim_comp (fun q => beta * (q - 5/10)) tanh).
    + apply deriv_scal. apply (derivable_pt_lim_minus (fun q => q) (fun _ => 5/10)); [apply derivable_pt_lim_id|apply derivable_pt_lim_const].
    + apply tanh_deriv.
Qed.
Lemma project_mono beta q q' : 0 < beta -> q <= q' -> project beta q <= project beta q'.
Proof.
  intros Hb Hq. unfold project, Rdiv. apply Rmult_le_compat_r; [left; apply Rinv_0_lt_compat, tanh_pos; lra|].
  assert (tanh (beta * (q - 5/10)) <= tanh (beta * (q' - 5/10))) by (apply tanh_le; nra).  lra.
Qed.
Lemma project_0 beta : 0 < beta -> project beta 0 = 0.
Proof. intros Hb. unfold project. replace (beta * (0 - 5/10)) with (- (5/10 * beta)) by ring. rewrite tanh_opp. field. apply tanh_ne. lra. Qed.
Lemma project_1 beta : 0 < beta -> project beta 1 = 1.
Proof. intros Hb. unfold project. replace (beta * (1 - 5/10)) with (5/10 * beta) by field. field. apply tanh_ne. lra. Qed.
Lemma project_half beta : 0 < beta -> project beta (1/2) = 1/2.
Proof. intros Hb. unfold project. replace (beta * (1/2 - 5/10)) with 0 by field. rewrite tanh_0. field. apply tanh_ne. lra. Qed.

(** three elements in a row *)
Definition row_nbs : list (list nat) := [[0; 1]; [0; 1; 2]; [1; 2]]%nat.
Definition row_w : list (list R) := [[2; 1]; [1; 2; 1]; [1; 2]].
Lemma row_ok : filter_ok 3 row_nbs row_w.
Proof.
  split; [cbn; lia|]. split; [cbn; lia|]. intros i Hi. destruct i as [|[|[|i]]]; try lia; cbn; (split; [lia|split; [intros k Hk; decompose [or] Hk; subst; try lia; contradiction|lra]]).
Qed.
Lemma row_nonneg : weights_nonneg row_nbs row_w.
Proof. intros i k v H. destruct i as [|[|[|[|i]]]]; cbn in H; decompose [or] H; try contradiction; match goal with E : (_, _) = _ |- _ => inversion E; lra end. Qed.
Lemma first_gradient n r : (0 < n)%nat -> gradient_at n (fun v => nth 0 v 0) r (map (fun k => if (k =? 0)%nat then 1 else 0) (seq 0 n)).
Proof.
  intros Hn curve v E0 Hd Hl. rewrite (bigsum_single n 0); auto.
  - rewrite nth_map_seq' by auto. cbn [Nat.eqb]. rewrite Rmult_1_l. now apply Hd.
  - intros i Hi Hne. rewrite nth_map_seq' by auto. destruct (Nat.eqb_spec i 0); [congruence|ring].
Qed.
Lemma line_curve (s d : list R) n : length s = n -> length d = n ->
  let curve := fun e : R => map (fun k => nth k s 0 + e * nth k d 0) (seq 0 n) in
  curve 0 = s /\ (forall k, (k < n)%nat -> derivable_pt_lim (fun e => nth k (curve e) 0) 0 (nth k d 0)) /\ (forall e, length (curve e) = n).
Proof.
  intros Hs Hd curve. splits.
  - unfold curve. apply nth_ext with 0 0; [now rewrite map_length, seq_length|]. intros k Hk. rewrite map_length, seq_length in Hk. rewrite nth_map_seq' by auto. ring.
  - intros k Hk. apply (deriv_ext' _ (fun e => nth k s 0 + e * nth k d 0)); [intros; unfold curve; now rewrite nth_map_seq'|].
    apply (deriv_val _ _ (0 + nth k d 0 * 1)); [ring|].
    apply (derivable_pt_lim_plus (fun _ => nth k s 0) (fun e => e * nth k d 0)); [apply derivable_pt_lim_const|].
    apply (deriv_ext' _ (fun e => nth k d 0 * e)); [intros; ring|]. apply deriv_scal, derivable_pt_lim_id.
  - intros e. unfold curve. now rewrite map_length, seq_length.
Qed.


Lemma C44_average_pf : forall n nbs w s, filter_ok n nbs w -> length s = n ->
  exists rho, density_variables n nbs w s = Ok rho /\ length rho = n /\
    (forall i, (i < n)%nat -> nth i rho 0 = mean nbs w (fun k => nth k s 0) i) /\
    (weights_nonneg nbs w -> forall i lo hi, (i < n)%nat -> (forall k, In k (nth i nbs []) -> lo <= nth k s 0 <= hi) -> lo <= nth i rho 0 <= hi) /\
    (forall c, (forall k, (k < n)%nat -> nth k s 0 = c) -> forall i, (i < n)%nat -> nth i rho 0 = c).
Proof.
  intros n nbs w s Hok Hs. eexists. split; [apply density_variables_ok; auto; lia|]. split; [now rewrite map_length, seq_length|]. splits.
  - intros i Hi. now rewrite nth_map_seq'.
  - intros Hw i lo hi Hi Hb. rewrite nth_map_seq' by auto. now apply (mean_bounds n).
  - intros c Hc i Hi. rewrite nth_map_seq' by auto. rewrite (mean_ext n nbs w Hok _ (fun _ => c)) by auto. now apply (mean_const n).
Qed.

Lemma C44_linear_pf : forall n nbs w s t a b, filter_ok n nbs w -> length s = n -> length t = n ->
  exists rs rt r, density_variables n nbs w s = Ok rs /\ density_variables n nbs w t = Ok rt /\
    density_variables n nbs w (map (fun k => a * nth k s 0 + b * nth k t 0) (seq 0 n)) = Ok r /\
    forall i, (i < n)%nat -> nth i r 0 = a * nth i rs 0 + b * nth i rt 0.
Proof.
  intros n nbs w s t a b Hok Hs Ht. do 3 eexists. split; [apply density_variables_ok; auto; lia|]. split; [apply density_variables_ok; auto; lia|].
  split; [apply density_variables_ok; auto; rewrite map_length, seq_length; lia|]. intros i Hi. rewrite !nth_map_seq' by auto.
  rewrite (mean_ext n nbs w Hok _ (fun k => a * at_ s k + b * at_ t k) i Hi).
  - unfold mean. rewrite total_plus, !total_scal. field. now apply (tot_ne n).
  - intros k Hk. unfold at_ at 1. now rewrite nth_map_seq'.
Qed.

Lemma C45_gradient_pf : forall n nbs w s F c, filter_ok n nbs w -> length s = n ->
  gradient_at n F (variables_of (density_variables n nbs w s)) c ->
  gradient_at n (fun v => F (variables_of (density_variables n nbs w v))) s (map (fun i => bigsum n (fun k => share nbs w k i * nth k c 0)) (seq 0 n)).
Proof.
  intros n nbs w s F c Hok Hs HF curve v E0 Hd Hl.
  rewrite (bigsum_ext n _ (fun i => bigsum n (fun k => share nbs w k i * nth k c 0 * v i))).
  2:{ intros i Hi. rewrite nth_map_seq' by auto. now rewrite bigsum_scal_r. }
  rewrite bigsum_swap.
  rewrite (bigsum_ext n _ (fun k => nth k c 0 * mean nbs w v k)).
  2:{ intros k Hk. rewrite (mean_shares n nbs w Hok) by auto. rewrite <- bigsum_scal. apply bigsum_ext. intros. ring. }
  apply (HF (fun e => variables_of (density_variables n nbs w (curve e)))).
  - now rewrite E0.
  - intros k Hk. apply (deriv_ext' _ (fun e => mean nbs w (at_ (curve e)) k)).
    + intros e. rewrite (density_variables_ok n nbs w Hok) by (rewrite Hl; lia). cbn [variables_of]. now rewrite nth_map_seq'.
    + now apply (mean_deriv n).
  - intros e. rewrite (density_variables_ok n nbs w Hok) by (rewrite Hl; lia). cbn [variables_of]. now rewrite map_length, seq_length.
Qed.

Lemma C45_density_partial_pf : forall n nbs w s F c, filter_ok n nbs w -> length s = n -> length c = n ->
  (forall i k, (i < n)%nat -> (k < n)%nat -> share nbs w i k = share nbs w k i) ->
  gradient_at n F (variables_of (density_variables n nbs w s)) c ->
  exists g, density_sensitivities n nbs w s c = Ok g /\ gradient_at n (fun v => F (variables_of (density_variables n nbs w v))) s g.
Proof.
  intros n nbs w s F c Hok Hs Hc Hsym HF. eexists. split; [apply density_sensitivities_ok; auto; lia|].
  replace (map (mean nbs w (at_ c)) (seq 0 n)) with (map (fun i => bigsum n (fun k => share nbs w k i * nth k c 0)) (seq 0 n)); [now apply C45_gradient_pf|].
  apply map_ext_in. intros i Hi%in_seq. rewrite (mean_shares n nbs w Hok) by lia. apply bigsum_ext. intros k Hk. rewrite Hsym by lia. reflexivity.
Qed.

Lemma C45_density_refuted_pf : exists n nbs w s F c g, filter_ok n nbs w /\ weights_nonneg nbs w /\ length s = n /\
  gradient_at n F (variables_of (density_variables n nbs w s)) c /\ density_sensitivities n nbs w s c = Ok g /\
  ~ gradient_at n (fun v => F (variables_of (density_variables n nbs w v))) s g.
Proof.
  exists 3%nat, row_nbs, row_w, [0; 0; 0], (fun v => nth 0 v 0), [1; 0; 0]. eexists.
  split; [exact row_ok|]. split; [exact row_nonneg|]. split; [reflexivity|].
  assert (GF : gradient_at 3 (fun v => nth 0 v 0) (variables_of (density_variables 3 row_nbs row_w [0; 0; 0])) [1; 0; 0])
    by (exact (first_gradient 3 _ ltac:(lia))).
  split; [exact GF|]. split; [apply density_sensitivities_ok; [exact row_ok|cbn; lia]|]. intros HG.
  destruct (line_curve [0; 0; 0] [0; 1; 0] 3 eq_refl eq_refl) as (L0 & L1 & L2).
  pose proof (HG _ _ L0 L1 L2) as D1. pose proof (C45_gradient_pf 3 row_nbs row_w [0; 0; 0] (fun v => nth 0 v 0) [1; 0; 0] row_ok eq_refl GF _ _ L0 L1 L2) as D2.
  pose proof (uniqueness_limite _ _ _ _ D1 D2) as E. cbn in E. unfold mean, share, mean, total, at_ in E. cbn in E. lra.
Qed.

Lemma C45_heaviside_gradient_pf : forall n nbs w beta s F c, filter_ok n nbs w -> length s = n -> beta <> 0 ->
  gradient_at n F (variables_of (heaviside_variables n nbs w beta s)) c ->
  gradient_at n (fun v => F (variables_of (heaviside_variables n nbs w beta v))) s
    (map (fun i => bigsum n (fun k => share nbs w k i * (nth k c 0 *
       (beta * (1 - tanh (beta * (mean nbs w (fun j => nth j s 0) k - 1/2)) ^ 2) / (2 * tanh (beta / 2)))))) (seq 0 n)).
Proof.
  intros n nbs w beta s F c Hok Hs Hb HF curve v E0 Hd Hl. assert (Ht : tanh (5/10 * beta) <> 0) by (apply tanh_ne; lra).
  assert (SL : forall k, beta * (1 - tanh (beta * (mean nbs w (fun j => nth j s 0) k - 1/2)) ^ 2) / (2 * tanh (beta / 2)) = slope beta (mean nbs w (at_ s) k)).
  { intros k. unfold slope, at_. replace (5/10 * beta) with (beta / 2) in * by field. replace (5/10) with (1/2) by field. field. auto. }
  rewrite (bigsum_ext n _ (fun i => bigsum n (fun k => share nbs w k i * (nth k c 0 * slope beta (mean nbs w (at_ s) k)) * v i))).
  2:{ intros i Hi. rewrite nth_map_seq' by auto. rewrite <- bigsum_scal_r. apply bigsum_ext. intros k Hk. now rewrite SL. }
  rewrite bigsum_swap.
  rewrite (bigsum_ext n _ (fun k => nth k c 0 * (slope beta (mean nbs w (at_ s) k) * mean nbs w v k))).
  2:{ intros k Hk. rewrite (mean_shares n nbs w Hok v) by auto. rewrite <- !bigsum_scal. apply bigsum_ext. intros. ring. }
  apply (HF (fun e => variables_of (heaviside_variables n nbs w beta (curve e)))).
  - now rewrite E0.
  - intros k Hk. apply (deriv_ext' _ (fun e => project beta (mean nbs w (at_ (curve e)) k))).
    + intros e. rewrite (heaviside_variables_ok n nbs w Hok) by (rewrite ?Hl; auto; lia). cbn [variables_of]. now rewrite nth_map_seq' by auto.
    + apply (derivable_pt_lim_comp (fun e => mean nbs w (at_ (curve e)) k) (project beta)); [now apply (mean_deriv n)|].
      rewrite E0. now apply project_deriv.
  - intros e. rewrite (heaviside_variables_ok n nbs w Hok) by (rewrite ?Hl; auto; lia). cbn [variables_of]. now rewrite map_length, seq_length.
Qed.

Lemma C45_heaviside_partial_pf : forall n nbs w beta s F c, filter_ok n nbs w -> length s = n -> length c = n -> beta <> 0 ->
  (forall i k, (i < n)%nat -> (k < n)%nat -> share nbs w i k = share nbs w k i) ->
  gradient_at n F (variables_of (heaviside_variables n nbs w beta s)) c ->
  exists g, heaviside_sensitivities n nbs w beta s c = Ok g /\ gradient_at n (fun v => F (variables_of (heaviside_variables n nbs w beta v))) s g.
Proof.
  intros n nbs w beta s F c Hok Hs Hc Hb Hsym HF. assert (Ht : tanh (5/10 * beta) <> 0) by (apply tanh_ne; lra).
  eexists. split; [apply heaviside_sensitivities_ok; auto; lia|].
  match goal with |- gradient_at _ _ _ ?g => assert (E : g = map (fun i => bigsum n (fun k => share nbs w k i * (nth k c 0 *
       (beta * (1 - tanh (beta * (mean nbs w (fun j => nth j s 0) k - 1/2)) ^ 2) / (2 * tanh (beta / 2)))))) (seq 0 n)) end;
    [|rewrite E; now apply (C45_heaviside_gradient_pf n nbs w beta s F c)].
  apply map_ext_in. intros i Hi%in_seq. rewrite (mean_shares n nbs w Hok) by lia. apply bigsum_ext. intros k Hk. rewrite Hsym by lia. unfold slope, at_.
  replace (5/10 * beta) with (beta / 2) in * by field. replace (5/10) with (1/2) by field. field. auto.
Qed.

Lemma C45_heaviside_refuted_pf : exists n nbs w beta s F c g, filter_ok n nbs w /\ weights_nonneg nbs w /\ length s = n /\ 0 < beta /\
  gradient_at n F (variables_of (heaviside_variables n nbs w beta s)) c /\ heaviside_sensitivities n nbs w beta s c = Ok g /\
  ~ gradient_at n (fun v => F (variables_of (heaviside_variables n nbs w beta v))) s g.
Proof.
  exists 3%nat, row_nbs, row_w, 1, [1/2; 1/2; 1/2], (fun v => nth 0 v 0), [1; 0; 0]. eexists.
  assert (Ht : 0 < tanh (5/10 * 1)) by (apply tanh_pos; lra).
  split; [exact row_ok|]. split; [exact row_nonneg|]. split; [reflexivity|]. split; [lra|].
  assert (GF : gradient_at 3 (fun v => nth 0 v 0) (variables_of (heaviside_variables 3 row_nbs row_w 1 [1/2; 1/2; 1/2])) [1; 0; 0])
    by (exact (first_gradient 3 _ ltac:(lia))).
  split; [exact GF|]. split; [apply heaviside_sensitivities_ok; [exact row_ok|cbn; lia|cbn; lia|lra]|]. intros HG.
  destruct (line_curve [1/2; 1/2; 1/2] [0; 1; 0] 3 eq_refl eq_refl) as (L0 & L1 & L2).
  pose proof (HG _ _ L0 L1 L2) as D1. pose proof (C45_heaviside_gradient_pf 3 row_nbs row_w 1 [1/2; 1/2; 1/2] (fun v => nth 0 v 0) [1; 0; 0] row_ok eq_refl ltac:(lra) GF _ _ L0 L1 L2) as D2.
  pose proof (uniqueness_limite _ _ _ _ D1 D2) as E.
  assert (M : forall k, (k < 3)%nat -> mean row_nbs row_w (fun j => nth j [1/2; 1/2; 1/2] 0) k = 1/2).
  { intros k Hk. rewrite (mean_ext 3 _ _ row_ok _ (fun _ => 1/2)) by (auto; intros [|[|[|j]]] Hj; cbn; auto; lia). now apply (mean_const 3 _ _ row_ok). }
  assert (SH : slope 1 (1/2) <> 0).
  { unfold slope. replace (1 * (1/2 - 5/10)) with 0 by field. rewrite tanh_0. intros Z. apply Rmult_integral in Z as [Z|Z]; [lra|]. pose proof (Rinv_0_lt_compat _ Ht). lra. }
  assert (GL : mean row_nbs row_w (fun k => at_ [1; 0; 0] k * slope 1 (mean row_nbs row_w (at_ [1/2; 1/2; 1/2]) k)) 1 = 1/4 * slope 1 (1/2)).
  { rewrite (mean_ext 3 _ _ row_ok _ (fun k => slope 1 (1/2) * at_ [1; 0; 0] k)); [|lia|intros k Hk; unfold at_; rewrite M by auto; ring].
    unfold mean. rewrite total_scal. unfold total, at_. cbn. field. }
  assert (GR : bigsum 3 (fun k => share row_nbs row_w k 1 * (nth k [1; 0; 0] 0 * (1 * (1 - tanh (1 * (mean row_nbs row_w (fun j => nth j [1/2; 1/2; 1/2] 0) k - 1/2)) ^ 2) / (2 * tanh (1 / 2))))) = 1/3 * slope 1 (1/2)).
  { cbn [bigsum nth]. rewrite !M by lia. replace (share row_nbs row_w 0 1) with (1/3) by (unfold share, mean, total; cbn; field).
    unfold slope. replace (5/10 * 1) with (1/2) in * by field. replace (5/10) with (1/2) by field. field. lra. }
  rewrite (bigsum_single 3 1), nth_map_seq' in E; [|lia|lia|intros i Hi Hne; destruct i as [|[|[|i]]]; cbn; try ring; lia].
  rewrite (bigsum_single 3 1), nth_map_seq' in E; [|lia|lia|intros i Hi Hne; destruct i as [|[|[|i]]]; cbn; try ring; lia].
  rewrite GL, GR in E. cbn [nth] in E. lra.
Qed.

Lemma C46_heaviside_pf : forall n nbs w beta s, filter_ok n nbs w -> weights_nonneg nbs w -> 0 < beta -> length s = n ->
  exists rho, heaviside_variables n nbs w beta s = Ok rho /\ length rho = n /\
    ((forall k, (k < n)%nat -> 0 <= nth k s 0 <= 1) -> forall i, (i < n)%nat -> 0 <= nth i rho 0 <= 1) /\
    (forall t r, length t = n -> heaviside_variables n nbs w beta t = Ok r -> (forall k, (k < n)%nat -> nth k s 0 <= nth k t 0) ->
       forall i, (i < n)%nat -> nth i rho 0 <= nth i r 0) /\
    (forall c, c = 0 \/ c = 1/2 \/ c = 1 -> (forall k, (k < n)%nat -> nth k s 0 = c) -> forall i, (i < n)%nat -> nth i rho 0 = c).
Proof.
  intros n nbs w beta s Hok Hw Hb Hs. assert (Ht : tanh (5/10 * beta) <> 0) by (apply tanh_ne; lra).
  assert (IN : forall i k, (i < n)%nat -> In k (nth i nbs []) -> (k < n)%nat) by (intros i k Hi; destruct Hok as (_ & _ & H); now apply H).
  eexists. split; [apply heaviside_variables_ok; auto; lia|]. split; [now rewrite map_length, seq_length|]. splits.
  - intros H01 i Hi. rewrite nth_map_seq' by auto. destruct (mean_bounds n nbs w Hok (at_ s) i 0 1 Hi Hw) as [M0 M1].
    + intros k Hk. apply H01. eauto.
    + pose proof (project_mono beta _ _ Hb M0) as P0. pose proof (project_mono beta _ _ Hb M1) as P1. rewrite (project_0 beta Hb) in P0. rewrite (project_1 beta Hb) in P1. split; assumption.
  - intros t r Hl E Hle i Hi. rewrite (heaviside_variables_ok n nbs w Hok) in E by (auto; lia). injection E as <-. rewrite !nth_map_seq' by auto.
    apply project_mono; auto. apply (mean_le n nbs w Hok); auto. intros k Hk. apply Hle. eauto.
  - intros c Hc Hk i Hi. rewrite nth_map_seq' by auto. rewrite (mean_ext n nbs w Hok _ (fun _ => c)) by auto. rewrite (mean_const n nbs w Hok) by auto.
    destruct Hc as [->|[->| ->]]; [now apply project_0|now apply project_half|now apply project_1].
Qed.

Lemma C68_sigmund_pf : forall n nbs w s c, filter_ok n nbs w -> weights_nonneg nbs w -> length s = n -> length c = n -> (forall k, (k < n)%nat -> 0 < nth k s 0) ->
  exists g, sigmund_sensitivities n nbs w s c = Ok g /\ length g = n /\
    (forall i, (i < n)%nat -> nth i g 0 * nth i s 0 = mean nbs w (fun k => nth k s 0 * nth k c 0) i) /\
    (forall i, (i < n)%nat -> (forall k, In k (nth i nbs []) -> nth k c 0 <= 0) -> nth i g 0 <= 0) /\
    (forall i lo hi, (i < n)%nat -> (forall k, In k (nth i nbs []) -> nth k s 0 = nth i s 0 /\ lo <= nth k c 0 <= hi) -> lo <= nth i g 0 <= hi).
Proof.
  intros n nbs w s c Hok Hw Hs Hc Hp. eexists. split; [apply sigmund_ok; auto; try lia; intros i Hi; specialize (Hp i Hi); lra|]. split; [now rewrite map_length, seq_length|].
  assert (IN : forall i k, (i < n)%nat -> In k (nth i nbs []) -> (k < n)%nat) by (intros i k Hi; destruct Hok as (_ & _ & H); now apply H).
  assert (EQ : forall i, (i < n)%nat -> total (links nbs w i) (fun k => at_ s k * at_ c k) / (total (links nbs w i) (fun _ => 1) * nth i s 0) * nth i s 0 = mean nbs w (fun k => nth k s 0 * nth k c 0) i).
  { intros i Hi. unfold mean, at_. specialize (Hp i Hi). pose proof (tot_ne n nbs w Hok i Hi). field. repeat split; first [assumption|lra]. }
  splits.
  - intros i Hi. rewrite nth_map_seq' by auto. now apply EQ.
  - intros i Hi Hn. rewrite nth_map_seq' by auto. specialize (EQ i Hi). specialize (Hp i Hi) as Hpi.
    assert (mean nbs w (fun k => nth k s 0 * nth k c 0) i <= 0).
    { apply Rle_trans with (mean nbs w (fun _ => 0) i); [|right; now apply (mean_const n)]. apply (mean_le n); auto. intros k Hk. specialize (Hn k Hk). specialize (Hp k (IN i k Hi Hk)). nra. }
    set (g := _ / _) in *. nra.
  - intros i lo hi Hi Hb. rewrite nth_map_seq' by auto. specialize (EQ i Hi). specialize (Hp i Hi) as Hpi.
    assert (lo * nth i s 0 <= mean nbs w (fun k => nth k s 0 * nth k c 0) i <= hi * nth i s 0).
    { apply (mean_bounds n); auto. intros k Hk. destruct (Hb k Hk) as [-> ?]. nra. }
    set (g := _ / _) in *. split; apply Rmult_le_reg_r with (nth i s 0); lra.
Qed.

Lemma C68_borrvall_pf : forall n nbs w s c, filter_ok n nbs w -> weights_nonneg nbs w -> length s = n -> length c = n -> (forall k, (k < n)%nat -> 0 < nth k s 0) ->
  exists g, borrvall_sensitivities n nbs w s c = Ok g /\ length g = n /\
    (forall i, (i < n)%nat -> nth i g 0 * mean nbs w (fun k => nth k s 0) i = mean nbs w (fun k => nth k s 0 * nth k c 0) i) /\
    (forall i lo hi, (i < n)%nat -> (forall k, In k (nth i nbs []) -> lo <= nth k c 0 <= hi) -> lo <= nth i g 0 <= hi).
Proof.
  intros n nbs w s c Hok Hw Hs Hc Hp.
  assert (IN : forall i k, (i < n)%nat -> In k (nth i nbs []) -> (k < n)%nat) by (intros i k Hi; destruct Hok as (_ & _ & H); now apply H).
  assert (TP : forall i, (i < n)%nat -> 0 < total (links nbs w i) (at_ s)).
  { intros i Hi. pose proof (tot_ne n nbs w Hok i Hi) as Ht. pose proof (total_shift (links nbs w i) (fun k v => Hw i k v)) as H0.
    assert (ML : exists eps, 0 < eps /\ forall k v, In (k, v) (links nbs w i) -> eps <= at_ s k).
    { assert (G : forall l : list (nat * R), (forall k v, In (k, v) l -> 0 < at_ s k) -> exists eps, 0 < eps /\ forall k v, In (k, v) l -> eps <= at_ s k).
      { induction l as [|[k v] l IH]; intros Hl; [exists 1; split; [lra|intros ? ? []]|]. destruct IH as (e & He & H); [intros; eapply Hl; right; eauto|].
        exists (Rmin e (at_ s k)). split; [apply Rmin_glb_lt; auto; apply (Hl k v); now left|].
        intros k' v' [E|E]; [inversion E; subst; apply Rmin_r|]. eapply Rle_trans; [apply Rmin_l|]. eapply H; eauto. }
      apply G. intros k v Hk. apply Hp. now apply (links_in n nbs w Hok i k v). }
    destruct ML as (eps & He & HL). assert (total (links nbs w i) (fun _ => eps) <= total (links nbs w i) (at_ s)).
    { apply total_le. intros k v Hk. split; [eapply Hw; eauto|eapply HL; eauto]. }
    rewrite total_const in H. nra. }
  eexists. split; [apply borrvall_ok; auto; try lia; intros i Hi; specialize (TP i Hi); lra|]. split; [now rewrite map_length, seq_length|]. splits.
  - intros i Hi. rewrite nth_map_seq' by auto. unfold mean. specialize (TP i Hi). pose proof (tot_ne n nbs w Hok i Hi). fold (at_ s). change (fun k => nth k s 0) with (at_ s) in *.
    unfold at_ in *. field. repeat split; first [assumption|lra].
  - intros i lo hi Hi Hb. rewrite nth_map_seq' by auto. specialize (TP i Hi).
    assert (B : lo * total (links nbs w i) (at_ s) <= total (links nbs w i) (fun k => at_ s k * at_ c k) <= hi * total (links nbs w i) (at_ s)).
    { rewrite <- !total_scal. split; apply total_le; intros k v Hk; (split; [eapply Hw; eauto|]); pose proof (Hb k (in_combine_l _ _ _ _ Hk)); pose proof (Hp k (links_in n nbs w Hok i k v Hi Hk)); unfold at_; nra. }
    split; (apply Rmult_le_reg_r with (total (links nbs w i) (at_ s)); [auto|]; unfold Rdiv; rewrite Rmult_assoc, Rinv_l, Rmult_1_r by lra; apply B).
Qed.
