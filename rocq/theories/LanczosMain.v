(** Properties C88-C93: the eigenvalue solvers: the proofs. *)
From Coq Require Import List Arith Lia Bool Reals Lra.
From Verif Require Import Res SumR SparseModel SparseSpec DenseR LUModel KrylovModel KrylovSpec LanczosSpec LanczosModel LanczosExample LanczosExample2.
Import ListNotations.
Local Open Scope R_scope.
From Verif Require Import DenseModel LUProof KrylovProof KrylovProof2 CGMath SturmMath SturmMath2 LanczosProof LanczosProof2 LanczosProof3 LanczosProof4 LanczosProof5 LanczosProof6.

Lemma eig_ext m M M' t : (forall i j, (i < m)%nat -> (j < m)%nat -> M i j = M' i j) -> eigenvalue m M t -> eigenvalue m M' t.
Proof.
  intros H (v & N & HV). exists v. split; auto. intros i Hi. rewrite <- HV by auto. apply bigsum_ext. intros j Hj. now rewrite H.
Qed.
Lemma spectrum_ext m M M' r : (forall i j, (i < m)%nat -> (j < m)%nat -> M i j = M' i j) -> ordered_spectrum m M r -> ordered_spectrum m M' r.
Proof.
  intros H (H1 & H2). split; auto. intros x. rewrite <- H2. split; apply eig_ext; auto. intros i j Hi Hj. now rewrite H.
Qed.
Lemma matvec_mat m M M' v i : (forall i j, (i < m)%nat -> (j < m)%nat -> M i j = M' i j) -> (i < m)%nat -> matvec m M v i = matvec m M' v i.
Proof. intros H Hi. apply bigsum_ext. intros j Hj. now rewrite H. Qed.
Lemma minors alpha beta x : (forall k, (S k < length alpha)%nat -> ix beta k <> 0) -> (forall k, (1 <= k <= length alpha)%nat -> ~ eigenvalue k (tri (ix alpha) (ix beta)) x) ->
  forall k, (1 <= k <= length alpha)%nat -> chp (ix alpha) (ix beta) k x <> 0.
Proof. intros NZ H k Hk C. apply (H k Hk). apply eigen_chp; auto; [lia|]. intros j Hj. apply NZ. lia. Qed.

(** the consequences of the power identity *)
Section PowerFacts.
Variables (m : nat) (a b : nat -> R) (x : R) (y : nat -> R) (c : R) (K : nat).
Hypothesis Hm : (0 < m)%nat.
Hypothesis NZ : forall k, (S k < m)%nat -> b k <> 0.
Hypothesis Uy : dot m y y = 1.
Hypothesis Pc : 0 < c.
Hypothesis HE : forall u r, (forall i, (i < m)%nat -> matvec m (tri a b) u i = r * u i) -> (r - x) ^ K * dot m y u = c * u 0%nat.
Lemma unit_dot u : dot m u u = 1 -> Rabs (dot m y u) <= 1.
Proof. intros U. rewrite <- (Rmult_1_l 1). apply abs_dot; unfold norm2; rewrite ?U, ?Uy, sqrt_1; lra. Qed.
Lemma c_bound u t : (forall i, (i < m)%nat -> matvec m (tri a b) u i = t * u i) -> dot m u u = 1 -> c * Rabs (u 0%nat) <= Rabs (t - x) ^ K.
Proof.
  intros Hu U. rewrite <- (Rabs_right c) at 1 by lra. rewrite <- Rabs_mult, <- (HE u t Hu), Rabs_mult, <- RPow_abs. pose proof (unit_dot u U). pose proof (pow_le (Rabs (t - x)) K (Rabs_pos _)). nra.
Qed.
Lemma gap_bound r B : row_bound m a b B -> ordered_spectrum m (tri a b) r -> forall u t g, (forall i, (i < m)%nat -> matvec m (tri a b) u i = t * u i) -> dot m u u = 1 -> 0 < g ->
  (forall t', eigenvalue m (tri a b) t' -> t' <> t -> g <= Rabs (t' - x)) -> (1 - dot m y u ^ 2) * u 0%nat ^ 2 <= (Rabs (t - x) / g) ^ (2 * K).
Proof.
  intros RB HS u t g Hu U Pg Hg. set (e := uv a b m r). pose proof (uv_orth a b m Hm NZ r HS) as HO. fold e in HO.
  assert (Eig : forall i k, (i < m)%nat -> (k < m)%nat -> matvec m (tri a b) (e i) k = r i * e i k) by (intros; apply uv_eig; auto).
  assert (Nu : nonzero m u) by (apply (dot_pos_inv m u u); lra).
  assert (Et : eigenvalue m (tri a b) t) by (exists u; auto). pose proof (proj1 (proj2 HS t) Et) as (j & Hj & Etj).
  assert (Orth : forall i, (i < m)%nat -> i <> j -> dot m u (e i) = 0).
  { intros i Hi N. pose proof (matvec_sym m (tri a b) u (e i) (tri_symmetric m a b)) as S.
    rewrite (dot_ext m u u (matvec m (tri a b) (e i)) (fun k => r i * e i k + 0 * e i k)) in S by (intros k Hk; auto; rewrite Eig by auto; ring).
    rewrite (dot_ext m (matvec m (tri a b) u) (fun k => t * u k + 0 * u k) (e i) (e i)) in S by (intros k Hk; auto; rewrite Hu by auto; ring).
    rewrite dot_lin_l, dot_lin_r in S. assert (D : r i <> r j). { destruct HS as (Mo & _). destruct (lt_eq_lt_dec i j) as [[C|C]|C]; [pose proof (Mo i j C Hj); lra|lia|pose proof (Mo j i C Hi); lra]. }
    assert (Z : (r i - r j) * dot m u (e i) = 0) by (rewrite <- Etj; lra). apply Rmult_integral in Z as [Z|Z]; auto. lra. }
  assert (Uj : dot m u (e j) ^ 2 = 1). { pose proof (parseval m e HO u u) as Q. rewrite U, (bigsum_single m j) in Q; auto; [rewrite Q; ring|]. intros i Hi N. rewrite (Orth i Hi N). ring. }
  assert (Yj : dot m y u ^ 2 = dot m y (e j) ^ 2). { rewrite (parseval m e HO y u), (bigsum_single m j); auto; [rewrite Rpow_mult_distr, Uj; ring|]. intros i Hi N. rewrite (Orth i Hi N). ring. }
  assert (S1 : bigsum m (fun i => dot m y (e i) * dot m y (e i)) = 1) by (rewrite <- (parseval m e HO y y); auto).
  assert (S0 : bigsum m (fun i => e i 0%nat * e i 0%nat) = 1).
  { set (d := fun i => delta 0 i). assert (De : forall v, dot m d v = v 0%nat). { intros v. unfold dot, d. rewrite (bigsum_single m 0); auto; [rewrite delta_refl; ring|]. intros i Hi N. rewrite delta_ne by auto. ring. }
    pose proof (parseval m e HO d d) as Q. rewrite De in Q. unfold d in Q at 1. rewrite delta_refl in Q. rewrite Q. apply bigsum_ext. intros. now rewrite De. }
  pose proof (pow_lt g (2 * K) Pg) as PgK.
  assert (Rest : g ^ (2 * K) * (1 - dot m y u ^ 2) <= c ^ 2).
  { rewrite Yj, <- S1. replace (bigsum m (fun i => dot m y (e i) * dot m y (e i)) - dot m y (e j) ^ 2) with (bigsum m (fun i => (if (i =? j)%nat then 0 else 1) * (dot m y (e i) * dot m y (e i)))).
    2:{ rewrite (bigsum_ext m (fun i => (if (i =? j)%nat then 0 else 1) * (dot m y (e i) * dot m y (e i))) (fun i => dot m y (e i) * dot m y (e i) - delta i j * (dot m y (e i) * dot m y (e i)))) by (intros i Hi; unfold delta; destruct (i =? j)%nat; ring).
        rewrite bigsum_minus. f_equal. rewrite (bigsum_single m j); auto; [rewrite delta_refl; ring|]. intros i Hi N. rewrite delta_ne by auto. ring. }
    rewrite <- bigsum_scal. replace (c ^ 2) with (bigsum m (fun i => c ^ 2 * (e i 0%nat * e i 0%nat))) by (rewrite bigsum_scal, S0; ring). apply bigsum_le. intros i Hi.
    destruct (Nat.eqb_spec i j) as [->|N]; [nra|]. pose proof (HE (e i) (r i) (fun k Hk => Eig i k Hi Hk)) as H.
    assert (G : g <= Rabs (r i - x)). { apply Hg; [apply HS; eauto|]. rewrite Etj. destruct HS as (Mo & _). destruct (lt_eq_lt_dec i j) as [[C|C]|C]; [pose proof (Mo i j C Hj); lra|lia|pose proof (Mo j i C Hi); lra]. }
    replace (c ^ 2 * (e i 0%nat * e i 0%nat)) with ((c * e i 0%nat) ^ 2) by ring. rewrite <- H. rewrite Rpow_mult_distr.
    assert (G2 : g ^ (2 * K) <= ((r i - x) ^ K) ^ 2). { rewrite <- pow_mult, Nat.mul_comm, (Nat.mul_comm K 2), !pow_mult. apply pow_incr. split; [apply pow2_ge_0|]. rewrite <- (pow2_abs (r i - x)). apply pow_incr. split; lra. }
    pose proof (pow2_ge_0 (dot m y (e i))) as P0. replace (g ^ (2 * K) * (1 * (dot m y (e i) * dot m y (e i)))) with (g ^ (2 * K) * dot m y (e i) ^ 2) by ring. apply Rmult_le_compat_r; auto. }
  pose proof (c_bound u t Hu U) as CB. pose proof (Rabs_pos (u 0%nat)) as Pu.
  assert (CB2 : c ^ 2 * u 0%nat ^ 2 <= Rabs (t - x) ^ (2 * K)). { rewrite <- (pow2_abs (u 0%nat)), <- Rpow_mult_distr, Nat.mul_comm, pow_mult. apply pow_incr. split; auto. apply Rmult_le_pos; lra. }
  unfold Rdiv. rewrite Rpow_mult_distr, Rfunctions.pow_inv. apply (Rmult_le_reg_l (g ^ (2 * K))); auto. replace (g ^ (2 * K) * (Rabs (t - x) ^ (2 * K) * / g ^ (2 * K))) with (Rabs (t - x) ^ (2 * K)) by (field; lra).
  pose proof (pow2_ge_0 (u 0%nat)). nra.
Qed.
End PowerFacts.

(** everything about one run *)
Lemma lanczos_run fuel n A m l : square_csr n A -> (0 < n)%nat -> symmetric n (entry A) -> lanczos fuel A m = Ok l ->
  exists alpha beta q P, (0 < m)%nat /\ shape n m (alpha, beta, q) /\ dot n (qr q 0) (qr q 0) = 1 /\ rec n m (entry A) (ix alpha) (ix beta) (qr q) P m /\
    (norm2 n (fun i => entry A i i) <> 0 /\ forall i, (i < n)%nat -> qr q 0 i = entry A i i / norm2 n (fun i => entry A i i)) /\ length l = m /\
    forall k, (k < m)%nat -> exists y, bisection_method fuel alpha beta k = Ok (fst (nth k l (0, []))) /\ inverse_power alpha beta (fst (nth k l (0, []))) = Ok y /\ reconvert y q = Ok (snd (nth k l (0, []))).
Proof.
  intros SQ Hn SY E. unfold lanczos in E. apply bind_Ok in E as ([[alpha beta] q] & EP & E).
  destruct (process_rec n A SQ Hn m alpha beta q EP) as (Hm & Sh & U & (P & HR) & (d & Ed & Nd & Vd)).
  exists alpha, beta, q, P. splits; auto.
  - destruct (get_diagonal_ok n A SQ) as (D & ED & LD & VD). rewrite Ed in ED. injection ED as <-. unfold norm2 in *. rewrite <- (dot_ext n (ix d) (fun i => entry A i i) (ix d) (fun i => entry A i i)) by auto. auto.
  - destruct (get_diagonal_ok n A SQ) as (D & ED & LD & VD). rewrite Ed in ED. injection ED as <-. intros i Hi. rewrite Vd by auto. unfold norm2. rewrite <- (dot_ext n (ix d) (fun i => entry A i i) (ix d) (fun i => entry A i i)) by auto. rewrite VD by auto. reflexivity.
  - apply mapM_length in E. rewrite seq_length in E. exact E.
  - intros k Hk. assert (Ek : (fun k => e <- bisection_method fuel alpha beta k ;; y <- inverse_power alpha beta e ;; x <- reconvert y q ;; Ok (e, x)) k = Ok (nth k l (0, []))).
    { apply mapM_Forall2 in E. assert (G : forall (f : nat -> res (R * list R)) lo len l, Forall2 (fun x y => f x = Ok y) (seq lo len) l -> forall k, (k < len)%nat -> f (lo + k)%nat = Ok (nth k l (0, []))).
      { intros f lo len. revert lo. induction len as [|len IH]; intros lo l' F j Hj; [lia|]. cbn [seq] in F. inversion F; subst. destruct j as [|j]; [rewrite Nat.add_0_r; auto|]. cbn [nth]. rewrite Nat.add_succ_r. apply (IH (S lo)); auto. lia. }
      apply (G _ 0%nat m l E k Hk). }
    cbv beta in Ek. apply bind_Ok in Ek as (e & E1 & Ek). apply bind_Ok in Ek as (y & E2 & Ek). apply bind_Ok in Ek as (x & E3 & Ek). injection Ek as Ek. rewrite <- Ek. cbn [fst snd]. exists y. auto.
Qed.
Lemma tri_of_rec n m M a b q P : symmetric n M -> dot n (q 0%nat) (q 0%nat) = 1 -> (0 < m)%nat -> rec n m M a b q P m ->
  forall i j, (i < m)%nat -> (j < m)%nat -> tri a b i j = dot n (q i) (matvec n M (q j)).
Proof.
  intros SY U Hm HR. pose proof (orth_m n m M a b q P SY U Hm HR) as HO.
  assert (G : forall i j, (i <= j)%nat -> (j < m)%nat -> tri a b i j = dot n (q i) (matvec n M (q j))).
  { intros i j Hij Hj. rewrite matvec_sym by auto. destruct (Nat.eq_dec (S i) m) as [L|L].
    - assert (j = i) as -> by lia. unfold tri. rewrite Nat.eqb_refl. pose proof HR as (H1 & H2). destruct (H2 i Hj) as (Ea & _). rewrite Ea, (dot_sym n (matvec n M (q i))).
      rewrite (dot_ext n (q i) (q i) (fun l => P i l - prev b q i l) (fun l => 1 * P i l + (-1) * prev b q i l)) by (intros; auto; ring). rewrite dot_lin_r, dot_prev.
      rewrite (dot_ext n (q i) (q i) (P i) (matvec n M (q i))) by auto. destruct i as [|i]; [ring|]. rewrite (HO (S i) i), delta_ne by lia. ring.
    - rewrite (dot_ext n (matvec n M (q i)) (fun l => 1 * (fun l => 1 * prev b q i l + a i * q i l) l + b i * q (S i) l) (q j) (q j)); auto.
      2:{ intros l Hl. rewrite (three_term n m M a b q P m i) by (auto; lia). ring. }
      rewrite !dot_lin_l, (dot_sym n (prev b q i)), dot_prev, (HO i j), (HO (S i) j) by lia.
      replace (match i with O => 0 | S k' => b k' * dot n (q j) (q k') end) with 0. 2:{ destruct i as [|i]; auto. rewrite (HO j i), delta_ne by lia. ring. }
      unfold tri, delta. destruct (Nat.eqb_spec i j) as [->|N]; [assert (Y : (S j =? j)%nat = false) by (apply Nat.eqb_neq; lia); rewrite Y; ring|].
      destruct (Nat.eqb_spec j (S i)) as [->|N2]; [rewrite Nat.eqb_refl; ring|]. destruct (Nat.eqb_spec (S i) j); [lia|]. destruct (Nat.eqb_spec i (S j)); [lia|]. ring. }
  intros i j Hi Hj. destruct (le_lt_dec i j) as [L|L]; auto. rewrite (tri_symmetric m a b i j Hi Hj). rewrite G by lia. rewrite matvec_sym by auto. now rewrite dot_sym.
Qed.

Lemma decoupled_run fuel : 1 <= 2 ^ fuel * (1 / 10 ^ 13) -> exists x, bisection_method (S fuel) [0; -1] [0; 0] 0 = Ok x /\ 0 <= x.
Proof.
  intros Hf.
  assert (SC0 : sign_count [0; -1] [0; 0] 0 = Ok 0%nat).
  { unfold sign_count. cbn [rd nth_error bind length Nat.sub seq foldM Nat.add]. destruct (Rltb_spec (1 * (0 - 0)) 0); [lra|]. cbn [bind]. destruct (Rltb_spec (1 * ((-1 - 0) * (0 - 0) - 0 ^ 2 * 1)) 0); [lra|]. reflexivity. }
  assert (SC : forall x, 0 < x -> sign_count [0; -1] [0; 0] x = Ok 2%nat).
  { intros x Px. unfold sign_count. cbn [rd nth_error bind length Nat.sub seq foldM Nat.add]. destruct (Rltb_spec (1 * (0 - x)) 0); [|lra]. cbn [bind]. destruct (Rltb_spec (1 * -1 * ((-1 - x) * (0 - x) - 0 ^ 2 * 1)) 0) as [|L]; [reflexivity|]. exfalso. apply L. nra. }
  assert (Pos : forall fuel a2 l, 0 < a2 -> a2 <= 2 ^ fuel * (1 / 10 ^ 13) -> (exists x, l = Ok x /\ 0 <= x) -> exists x, bisect fuel [0; -1] [0; 0] 0 1 0 a2 l = Ok x /\ 0 <= x).
  { clear fuel Hf. induction fuel as [|fuel IH]; intros a2 l H1 H2 H3.
    - cbn [pow] in H2. cbn [bisect]. destruct (Rltb_spec (1 / 10 ^ 13 * 1) (a2 - 0)); [lra|]. exact H3.
    - cbn [bisect]. destruct (Rltb_spec (1 / 10 ^ 13 * 1) (a2 - 0)) as [L|L]; [|exact H3]. rewrite SC by lra. cbn [bind Nat.leb]. apply IH; [lra| |exists (1 / 2 * (0 + a2)); split; auto; lra]. cbn [pow] in *. lra. }
  assert (EB : bis_bound [0; -1] [0; 0] = Ok 1).
  { unfold bis_bound. cbn [rd nth_error bind length Nat.sub seq foldM]. rewrite Rabs_R0, (Rabs_left (-1)) by lra. destruct (Rltb_spec (0 + 0) (0 + - -1 + 0)); [|lra]. f_equal. ring. }
  destruct (Pos fuel 1 (Ok 0)) as (x & Ex & Px); [lra|exact Hf|exists 0; split; auto; lra|].
  exists x. split; auto. unfold bisection_method. rewrite EB. cbn [bind bisect]. destruct (Rltb_spec (1 / 10 ^ 13 * 1) (1 - - (1))) as [L|L]; [|cbn [pow] in L; lra].
    match goal with |- context[sign_count _ _ ?z] => replace z with 0 by field end. rewrite SC0. cbn [bind Nat.leb]. exact Ex.
Qed.


Lemma C88_sign_count_pf : forall alpha beta x r, (0 < length alpha <= length beta)%nat -> (forall k, (S k < length alpha)%nat -> ix beta k <> 0) ->
  ordered_spectrum (length alpha) (tri (ix alpha) (ix beta)) r ->
  exists N, sign_count alpha beta x = Ok N /\ (N <= length alpha)%nat /\ (forall i, (i < length alpha)%nat -> (r i < x <-> (i < N)%nat)).
Proof.
  intros alpha beta x r (Hm & Hb) NZ HS. exists (changes (ix alpha) (ix beta) (length alpha) x). split; [now apply sign_count_ok|]. now apply changes_spec.
Qed.

Lemma C88_bisection_pf : forall fuel alpha beta mode, (mode < length alpha <= length beta)%nat -> (forall k, (S k < length alpha)%nat -> ix beta k <> 0) ->
  (exists i, (i < length alpha)%nat /\ (ix alpha i <> 0 \/ ix beta i <> 0)) -> (45 <= fuel)%nat ->
  exists r lambda, ordered_spectrum (length alpha) (tri (ix alpha) (ix beta)) r /\ bisection_method fuel alpha beta mode = Ok lambda /\
    forall B, row_bound (length alpha) (ix alpha) (ix beta) B -> Rabs (lambda - r mode) <= 1 / 10 ^ 13 * B.
Proof.
  intros fuel alpha beta mode (Hmode & Hb) NZ N0 Hf. destruct (bis_bound_ok alpha beta ltac:(lia) Hb) as (B & _ & RB & _).
  destruct (spectrum_ex (ix alpha) (ix beta) (length alpha) ltac:(lia) NZ B RB) as (r & s & _ & HS).
  destruct (bisection_ok alpha beta fuel mode Hmode Hb NZ N0 Hf r HS) as (x & E & HX). exists r, x. auto.
Qed.

Lemma C88_bisection_zero_refuted_pf : exists alpha beta, length alpha = 1%nat /\ length beta = 1%nat /\ eigenvalue 1 (tri (ix alpha) (ix beta)) 0 /\
  forall fuel, bisection_method fuel alpha beta 0 = Fail Uninit.
Proof.
  exists [0], [0]. splits; auto.
  - exists (fun _ => 1). split; [exists 0%nat; split; [lia|lra]|]. intros i Hi. assert (i = 0)%nat as -> by lia. unfold matvec, tri. cbn. ring.
  - intros fuel. unfold bisection_method, bis_bound. cbn [rd nth_error bind length Nat.sub seq foldM]. rewrite Rabs_R0, Rplus_0_r.
    destruct fuel; cbn [bisect]; destruct (Rltb_spec (1 / 10 ^ 13 * 0) (0 - - 0)) as [L|L]; try lra; reflexivity.
Qed.

Lemma C88_bisection_decoupled_refuted_pf : exists alpha beta lambda, length alpha = 2%nat /\ length beta = 2%nat /\ bisection_method 45 alpha beta 0 = Ok lambda /\ 0 <= lambda /\
  ordered_spectrum 2 (tri (ix alpha) (ix beta)) (fun i => match i with O => -1 | _ => 0 end).
Proof.
  destruct (decoupled_run 44 ltac:(cbn [pow]; lra)) as (x & Ex & Px). exists [0; -1], [0; 0], x. splits; auto.
  - split.
    + intros [|[|i]] [|[|j]] H1 H2; try lia. lra.
    + intros t. split.
      * intros (v & (i & Hi & N) & HV). pose proof (HV 0%nat ltac:(lia)) as H0. pose proof (HV 1%nat ltac:(lia)) as H1. unfold matvec, tri, ix in H0, H1. cbn in H0, H1.
        destruct i as [|[|i]]; [| |lia]; [exists 1%nat; split; auto; apply (Rmult_eq_reg_r (v 0%nat)); auto; lra|exists 0%nat; split; auto; apply (Rmult_eq_reg_r (v 1%nat)); auto; lra].
      * intros (i & Hi & ->). exists (fun k => delta k (1 - i)). split.
        -- exists (1 - i)%nat. split; [lia|]. rewrite delta_refl. lra.
        -- intros k Hk. unfold matvec, tri, ix, delta. destruct i as [|[|i]]; [| |lia]; destruct k as [|[|k]]; try lia; cbn; ring.
Qed.

Lemma C89_inverse_power_pf : forall alpha beta lambda, (0 < length alpha <= length beta)%nat -> (forall k, (S k < length alpha)%nat -> ix beta k <> 0) ->
  (forall k, (1 <= k <= length alpha)%nat -> ~ eigenvalue k (tri (ix alpha) (ix beta)) lambda) ->
  exists y, inverse_power alpha beta lambda = Ok y /\ length y = length alpha /\ norm2 (length alpha) (ix y) = 1 /\
    forall u t, (forall i, (i < length alpha)%nat -> matvec (length alpha) (tri (ix alpha) (ix beta)) u i = t * u i) -> norm2 (length alpha) u = 1 ->
      norm2 (length alpha) (fun i => matvec (length alpha) (tri (ix alpha) (ix beta)) (ix y) i - lambda * ix y i) ^ (100 * 100) * Rabs (u 0%nat) <= Rabs (t - lambda) ^ (100 * 100) /\
      forall g, 0 < g -> (forall t', eigenvalue (length alpha) (tri (ix alpha) (ix beta)) t' -> t' <> t -> g <= Rabs (t' - lambda)) ->
        (1 - dot (length alpha) (ix y) u ^ 2) * u 0%nat ^ 2 <= (Rabs (t - lambda) / g) ^ (2 * (100 * 100)).
Proof.
  intros alpha beta x (Hm & Hb) NZ MN. destruct (inverse_power_ok alpha beta x Hm Hb (minors alpha beta x NZ MN)) as (y & E & L & U & c & Pc & HN & HE).
  remember (100 * 100)%nat as K eqn:HK. clear HK. exists y. splits; auto.
  - unfold norm2. rewrite U. apply sqrt_1.
  - intros u t Hu Uu. assert (Uu' : dot (length alpha) u u = 1) by (rewrite <- norm_sq, Uu; ring). pose proof (c_bound (length alpha) (ix alpha) (ix beta) x (ix y) c K U Pc HE u t Hu Uu') as CB. split.
    + eapply Rle_trans; [|exact CB]. apply Rmult_le_compat_r; [apply Rabs_pos|exact HN].
    + intros g Pg Hg. destruct (bis_bound_ok alpha beta ltac:(lia) Hb) as (B & _ & RB & _). destruct (spectrum_ex (ix alpha) (ix beta) (length alpha) ltac:(lia) NZ B RB) as (r & s & _ & HS).
      apply (gap_bound (length alpha) (ix alpha) (ix beta) x (ix y) c K Hm NZ U Pc HE r B RB HS u t g Hu Uu' Pg Hg).
Qed.

Lemma C90_process_pf : forall re n A m alpha beta q, square_csr n A -> (0 < n)%nat -> symmetric n (entry A) -> process (Amul A) re A m = Ok (alpha, beta, q) ->
  (0 < m <= n)%nat /\ length alpha = m /\ length beta = m /\ length q = m /\ (forall j, (j < m)%nat -> length (nth j q []) = n) /\
  (forall i j, (i < m)%nat -> (j < m)%nat -> dot n (ix (nth i q [])) (ix (nth j q [])) = delta i j) /\
  (forall i, (i < n)%nat -> ix (nth 0 q []) i * norm2 n (fun i => entry A i i) = entry A i i) /\
  (forall i j, (i < m)%nat -> (j < m)%nat -> dot n (ix (nth i q [])) (matvec n (entry A) (ix (nth j q []))) = tri (ix alpha) (ix beta) i j) /\
  (forall k, (S k < m)%nat -> 0 < ix beta k).
Proof.
  intros re n A m alpha beta q SQ Hn SY E. assert (E' : process (Amul A) false A m = Ok (alpha, beta, q)) by (destruct re; auto; rewrite <- (process_restart n A SQ Hn SY); auto).
  destruct (process_rec n A SQ Hn m alpha beta q E') as (Hm & (L1 & L2 & L3 & L4) & U & (P & HR) & (d & Ed & Nd & Vd)).
  pose proof (orth_m n m (entry A) (ix alpha) (ix beta) (qr q) P SY U Hm HR) as HO. pose proof (le_n n m (entry A) (ix alpha) (ix beta) (qr q) P SY U Hm HR) as LN.
  destruct (get_diagonal_ok n A SQ) as (D & ED & LD & VD). rewrite Ed in ED. injection ED as <-.
  assert (ND : norm2 n (ix d) = norm2 n (fun i => entry A i i)) by (unfold norm2; f_equal; now apply dot_ext).
  splits; auto.
  - intros i Hi. specialize (Vd i Hi). rewrite <- ND. unfold qr in Vd. rewrite Vd, <- VD by auto. field. auto.
  - intros i j Hi Hj. symmetry. apply (tri_of_rec n m (entry A) (ix alpha) (ix beta) (qr q) P SY U Hm HR i j Hi Hj).
  - intros k Hk. pose proof (beta_nz n m (entry A) (ix alpha) (ix beta) (qr q) P Hm HR k Hk). pose proof (beta_nonneg n m (entry A) (ix alpha) (ix beta) (qr q) P HR k ltac:(lia)). lra.
Qed.

Lemma C90_lanczos_pf : forall fuel n A m l, square_csr n A -> (0 < n)%nat -> symmetric n (entry A) -> lanczos fuel A m = Ok l ->
  (0 < m <= n)%nat /\ length l = m /\ exists (q : nat -> nat -> R) (r : nat -> R),
    (forall i j, (i < m)%nat -> (j < m)%nat -> dot n (q i) (q j) = delta i j) /\
    (forall i, (i < n)%nat -> q 0%nat i * norm2 n (fun i => entry A i i) = entry A i i) /\
    ordered_spectrum m (fun i j => dot n (q i) (matvec n (entry A) (q j))) r /\
    forall k, (k < m)%nat -> let '(e, x) := nth k l (0, []) in
      (forall N, (forall v, norm2 n (matvec n (entry A) v) <= N * norm2 n v) -> Rabs (e - r k) <= 3 / 10 ^ 13 * N) /\
      length x = n /\ norm2 n (ix x) = 1 /\
      exists y, (forall i, (i < n)%nat -> ix x i = bigsum m (fun j => y j * q j i)) /\ norm2 m y = 1 /\
        (forall u t, (forall i, (i < m)%nat -> matvec m (fun i j => dot n (q i) (matvec n (entry A) (q j))) u i = t * u i) -> norm2 m u = 1 ->
           norm2 m (fun i => matvec m (fun i j => dot n (q i) (matvec n (entry A) (q j))) y i - e * y i) ^ (100 * 100) * Rabs (u 0%nat) <= Rabs (t - e) ^ (100 * 100)).
Proof.
  intros fuel n A m l SQ Hn SY E. destruct (lanczos_run fuel n A m l SQ Hn SY E) as (alpha & beta & q & P & Hm & (L1 & L2 & L3 & L4) & U & HR & (ND & VD) & Ll & HL).
  pose proof (orth_m n m (entry A) (ix alpha) (ix beta) (qr q) P SY U Hm HR) as HO. pose proof (le_n n m (entry A) (ix alpha) (ix beta) (qr q) P SY U Hm HR) as LN.
  pose proof (beta_nz n m (entry A) (ix alpha) (ix beta) (qr q) P Hm HR) as NZ. pose proof (tri_of_rec n m (entry A) (ix alpha) (ix beta) (qr q) P SY U Hm HR) as HT.
  destruct (bis_bound_ok alpha beta ltac:(lia) ltac:(lia)) as (B & _ & RB & _). rewrite L1 in RB.
  destruct (spectrum_ex (ix alpha) (ix beta) m Hm NZ B RB) as (r & s & _ & HS).
  splits; auto. exists (qr q), r. splits; auto.
  - intros i Hi. rewrite VD by auto. field. auto.
  - apply (spectrum_ext m (tri (ix alpha) (ix beta))); auto.
  - intros k Hk. destruct (HL k Hk) as (y & E1 & E2 & E3). destruct (nth k l (0, [])) as [e x]. cbn [fst snd] in *.
    destruct (inverse_power_inv alpha beta e y ltac:(lia) E2) as (_ & MN). destruct (inverse_power_ok alpha beta e ltac:(lia) ltac:(lia) MN) as (y' & E2' & Ly & Uy & c & Pc & HN & HE).
    rewrite E2 in E2'. injection E2' as <-. destruct (reconvert_ok n y q ltac:(lia) ltac:(lia)) as (x' & E3' & Lx & Vx); [intros j Hj; apply L4; lia|]. rewrite E3 in E3'. injection E3' as <-.
    rewrite L1 in *. rewrite Ly in Vx.
    remember (100 * 100)%nat as K eqn:HK. clear HK. splits; auto.
    + intros N HNm. pose proof (entries_bound n m (entry A) (ix alpha) (ix beta) (qr q) P N SY U Hm HR HNm) as RBN.
      pose proof (bisection_inv alpha beta fuel k e) as BI. rewrite L1 in BI. specialize (BI Hk ltac:(lia) NZ E1 r HS (3 * N) RBN). unfold Rdiv in *. lra.
    + unfold norm2. rewrite (dot_ext n (ix x) (comb m (qr q) (ix y)) (ix x) (comb m (qr q) (ix y))) by exact Vx. rewrite (comb_dot n m (entry A) (ix alpha) (ix beta) (qr q) P SY U Hm HR), Uy. apply sqrt_1.
    + exists (ix y). splits; auto; [unfold norm2; rewrite Uy; apply sqrt_1|]. intros u t Hu Uu. assert (Uu' : dot m u u = 1) by (rewrite <- norm_sq, Uu; ring).
      assert (Hu' : forall i, (i < m)%nat -> matvec m (tri (ix alpha) (ix beta)) u i = t * u i). { intros i Hi. rewrite <- Hu by auto. apply matvec_mat; auto. }
      pose proof (c_bound m (ix alpha) (ix beta) e (ix y) c K Uy Pc HE u t Hu' Uu') as CB. eapply Rle_trans; [|exact CB]. apply Rmult_le_compat_r; [apply Rabs_pos|].
      eapply Rle_trans; [|exact HN]. apply Req_le. f_equal. unfold norm2. f_equal. apply dot_ext; intros i Hi; cbv beta; f_equal; apply matvec_mat; auto; intros; symmetry; auto.
Qed.

Lemma C90_lanczos_full_pf : forall fuel n A l, square_csr n A -> (0 < n)%nat -> symmetric n (entry A) -> lanczos fuel A n = Ok l ->
  length l = n /\ exists r, ordered_spectrum n (entry A) r /\
    forall k, (k < n)%nat -> let '(e, x) := nth k l (0, []) in
      (forall N, (forall v, norm2 n (matvec n (entry A) v) <= N * norm2 n v) -> Rabs (e - r k) <= 3 / 10 ^ 13 * N) /\
      length x = n /\ norm2 n (ix x) = 1 /\
      (forall v t, (forall i, (i < n)%nat -> matvec n (entry A) v i = t * v i) -> norm2 n v = 1 ->
         norm2 n (fun i => matvec n (entry A) (ix x) i - e * ix x i) ^ (100 * 100) * Rabs (dot n v (fun i => entry A i i)) <= Rabs (t - e) ^ (100 * 100) * norm2 n (fun i => entry A i i)).
Proof.
  intros fuel n A l SQ Hn SY E. destruct (lanczos_run fuel n A n l SQ Hn SY E) as (alpha & beta & q & P & Hm & (L1 & L2 & L3 & L4) & U & HR & (ND & VD) & Ll & HL).
  pose proof (orth_m n n (entry A) (ix alpha) (ix beta) (qr q) P SY U Hm HR) as HO.
  pose proof (beta_nz n n (entry A) (ix alpha) (ix beta) (qr q) P Hm HR) as NZ. pose proof (tri_of_rec n n (entry A) (ix alpha) (ix beta) (qr q) P SY U Hm HR) as HT.
  destruct (bis_bound_ok alpha beta ltac:(lia) ltac:(lia)) as (B & _ & RB & _). rewrite L1 in RB.
  destruct (spectrum_ex (ix alpha) (ix beta) n Hm NZ B RB) as (r & s & _ & HS).
  split; auto. exists r. split.
  - destruct HS as (S1 & S2). split; auto. intros t. rewrite <- S2. symmetry. apply (eig_iff n n (entry A) (ix alpha) (ix beta) (qr q) P SY U Hm HR eq_refl).
  - intros k Hk. destruct (HL k Hk) as (y & E1 & E2 & E3). destruct (nth k l (0, [])) as [e x]. cbn [fst snd] in *.
    destruct (inverse_power_inv alpha beta e y ltac:(lia) E2) as (_ & MN). destruct (inverse_power_ok alpha beta e ltac:(lia) ltac:(lia) MN) as (y' & E2' & Ly & Uy & c & Pc & HN & HE).
    rewrite E2 in E2'. injection E2' as <-. destruct (reconvert_ok n y q ltac:(lia) ltac:(lia)) as (x' & E3' & Lx & Vx); [intros j Hj; apply L4; lia|]. rewrite E3 in E3'. injection E3' as <-.
    rewrite L1 in *. rewrite Ly in Vx. change (fun i => bigsum n (fun k => ix y k * qr q k i)) with (comb n (qr q) (ix y)) in Vx.
    remember (100 * 100)%nat as K eqn:HK. clear HK. splits; auto.
    + intros N HNm. pose proof (entries_bound n n (entry A) (ix alpha) (ix beta) (qr q) P N SY U Hm HR HNm) as RBN.
      pose proof (bisection_inv alpha beta fuel k e) as BI. rewrite L1 in BI. specialize (BI Hk ltac:(lia) NZ E1 r HS (3 * N) RBN). unfold Rdiv in *. lra.
    + unfold norm2. rewrite (dot_ext n (ix x) (comb n (qr q) (ix y)) (ix x) (comb n (qr q) (ix y))) by exact Vx. rewrite (comb_dot n n (entry A) (ix alpha) (ix beta) (qr q) P SY U Hm HR), Uy. apply sqrt_1.
    + intros v t Hv Uv. set (d := fun i => entry A i i) in *. assert (Uv' : dot n v v = 1) by (rewrite <- norm_sq, Uv; ring).
      pose proof (eig_down n n (entry A) (ix alpha) (ix beta) (qr q) P SY U Hm HR eq_refl t v Hv) as HD. set (u := fun k => dot n v (qr q k)) in *.
      assert (Uu : dot n u u = 1). { rewrite <- (comb_dot n n (entry A) (ix alpha) (ix beta) (qr q) P SY U Hm HR). rewrite <- Uv'. apply dot_ext; intros i Hi; symmetry; apply (comb_of n n (entry A) (ix alpha) (ix beta) (qr q) P SY U Hm HR eq_refl v i Hi). }
      pose proof (c_bound n (ix alpha) (ix beta) e (ix y) c K Uy Pc HE u t HD Uu) as CB.
      assert (Eu : u 0%nat * norm2 n d = dot n v d).
      { unfold u. rewrite (dot_ext n v v (qr q 0) (fun i => / norm2 n d * d i + 0 * d i)) by (intros i Hi; auto; rewrite VD by auto; fold (norm2 n d); unfold d; field; auto). rewrite dot_lin_r. field. exact ND. }
      pose proof (norm_nonneg n d) as Pd. rewrite <- Eu, Rabs_mult, (Rabs_right (norm2 n d)) by lra. rewrite <- Rmult_assoc. apply Rmult_le_compat_r; auto.
      eapply Rle_trans; [|exact CB]. apply Rmult_le_compat_r; [apply Rabs_pos|]. eapply Rle_trans; [|exact HN]. apply Req_le. f_equal.
      unfold norm2. f_equal. rewrite (dot_ext n _ (fun i => matvec n (entry A) (comb n (qr q) (ix y)) i - e * comb n (qr q) (ix y) i) _ (fun i => matvec n (entry A) (comb n (qr q) (ix y)) i - e * comb n (qr q) (ix y) i)).
      2,3: intros i Hi; cbv beta; rewrite (matvec_ext n _ (ix x) (comb n (qr q) (ix y)) i Vx), (Vx i Hi); reflexivity.
      rewrite (ritz_residual n n (entry A) (ix alpha) (ix beta) (qr q) P SY U Hm HR (ix y) e). rewrite (beta_last n n (entry A) (ix alpha) (ix beta) (qr q) P SY U Hm HR eq_refl). rewrite Rmult_0_l, pow_i by lia. apply Rplus_0_r.
Qed.

Lemma C90_zero_diagonal_refuted_pf : exists A, square_csr 2 A /\ symmetric 2 (entry A) /\ (exists t, eigenvalue 2 (entry A) t) /\ forall fuel, lanczos fuel A 1 = Fail DivByZero.
Proof.
  exists exX. split; [exact exX_square|]. split; [intros i j Hi Hj; destruct i as [|[|i]], j as [|[|j]]; try lia; reflexivity|]. split; [|apply zero_diagonal].
  exists 1, (fun _ => 1). split; [exists 0%nat; split; [lia|lra]|]. intros i Hi. unfold matvec. cbn [bigsum]. destruct i as [|[|i]]; [| |lia].
  - change (entry exX 0 0) with 0. change (entry exX 0 1) with 1. ring.
  - change (entry exX 1 0) with 1. change (entry exX 1 1) with 0. ring.
Qed.

Lemma C90_breakdown_refuted_pf : exists A, square_csr 2 A /\ symmetric 2 (entry A) /\ pos_def 2 (entry A) /\ forall fuel, lanczos fuel A 2 = Fail DivByZero.
Proof.
  exists exId. split; [exact exId_square|]. split; [intros i j Hi Hj; destruct i as [|[|i]], j as [|[|j]]; try lia; reflexivity|]. split; [|apply repeated].
  intros u (i & Hi & N). unfold dot, matvec. cbn [bigsum]. change (entry exId 0 0) with 1. change (entry exId 0 1) with 0. change (entry exId 1 0) with 0. change (entry exId 1 1) with 1.
  destruct i as [|[|i]]; [| |lia]; pose proof (Rsqr_pos_lt _ N) as P; unfold Rsqr in P; nra.
Qed.

Lemma C91_restart_lanczos_pf : forall fuel n A m, square_csr n A -> (0 < n)%nat -> symmetric n (entry A) -> restart_lanczos fuel A m = lanczos fuel A m.
Proof. intros fuel n A m SQ Hn SY. unfold restart_lanczos, lanczos. now rewrite (process_restart n A SQ Hn SY). Qed.

Lemma C92_shift_pf : forall n A sigma, square_csr n A -> exists B, shift_identity A sigma = Ok B /\ square_csr n B /\ forall i j, (i < n)%nat -> (j < n)%nat -> entry B i j = entry A i j - sigma * delta i j.
Proof. exact shift_identity_ok. Qed.

Lemma C92_shifted_invert_pf : forall fuel n A m sigma l, square_csr n A -> (0 < n)%nat -> symmetric n (entry A) -> pos_def n (fun i j => entry A i j - sigma * delta i j) ->
  shifted_invert fuel A m sigma = Ok l ->
  (0 < m)%nat /\ length l = m /\ exists (a b : nat -> R) (q : nat -> nat -> R) (w r : nat -> R),
    let M := fun i j => entry A i j - sigma * delta i j in
    (forall j, (j < m)%nat -> norm2 n (q j) = 1) /\
    (forall j, (S j < m)%nat -> 0 < b j /\ dot n (q j) (q (S j)) = 0) /\
    (forall i, (i < n)%nat -> q 0%nat i * norm2 n (fun i => M i i) = M i i) /\
    b (m - 1)%nat = norm2 n w /\ dot n (q (m - 1)%nat) w = 0 /\
    (forall j, (j < m)%nat -> norm2 n (fun i => matvec n M (fun i => bigsum m (fun k => tri a b j k * q k i) + (if (S j =? m)%nat then w i else 0)) i - q j i) < 1 / 10 ^ 10) /\
    ordered_spectrum m (tri a b) r /\
    forall k, (k < m)%nat -> let '(e, x) := nth k l (0, []) in
      exists theta y, theta <> 0 /\ e = sigma + 1 / theta /\ (forall B, row_bound m a b B -> Rabs (theta - r (m - k - 1)%nat) <= 1 / 10 ^ 13 * B) /\
        length x = n /\ (forall i, (i < n)%nat -> ix x i = bigsum m (fun j => y j * q j i)) /\ norm2 m y = 1 /\
        (forall u t, (forall i, (i < m)%nat -> matvec m (tri a b) u i = t * u i) -> norm2 m u = 1 ->
           norm2 m (fun i => matvec m (tri a b) y i - theta * y i) ^ (100 * 100) * Rabs (u 0%nat) <= Rabs (t - theta) ^ (100 * 100)) /\
        norm2 n (fun i => matvec n M (fun i => theta * ix x i + bigsum m (fun j => (matvec m (tri a b) y j - theta * y j) * q j i) + y (m - 1)%nat * w i) i - ix x i) <= 1 / 10 ^ 10 * bigsum m (fun j => Rabs (y j)).
Proof.
  intros fuel n A m sigma l SQ Hn SY PD E. destruct (shifted_run fuel n A m sigma l SQ Hn SY PD E) as (alpha & beta & q & w & (Hm & (L1 & L2 & L3 & L4) & Ll & Un & Nb & Q0 & Bw & Ow & Acc & HL)).
  split; [exact Hm|]. split; [exact Ll|]. assert (NZ : forall k, (S k < m)%nat -> ix beta k <> 0) by (intros k Hk; destruct (Nb k Hk); lra).
  destruct (bis_bound_ok alpha beta ltac:(lia) ltac:(lia)) as (B & _ & RB & _). rewrite L1 in RB. destruct (spectrum_ex (ix alpha) (ix beta) m Hm NZ B RB) as (r & s & _ & HS).
  exists (ix alpha), (ix beta), (qr q), w, r. cbv zeta. splits; auto.
  intros k Hk. destruct (HL k Hk) as (theta & y & E1 & N0 & E2 & E3 & E4). destruct (nth k l (0, [])) as [e x]. cbn [fst snd] in *.
  destruct (inverse_power_inv alpha beta theta y ltac:(lia) E3) as (_ & MN). destruct (inverse_power_ok alpha beta theta ltac:(lia) ltac:(lia) MN) as (y' & E3' & Ly & Uy & c & Pc & HN & HE).
  rewrite E3 in E3'. injection E3' as <-. destruct (reconvert_ok n y q ltac:(lia) ltac:(lia)) as (x' & E4' & Lx & Vx); [intros j Hj; apply L4; lia|]. rewrite E4 in E4'. injection E4' as <-.
  rewrite L1 in *. rewrite Ly in Vx. remember (100 * 100)%nat as K eqn:HK. clear HK. exists theta, (ix y). splits; auto.
  - intros B' RB'. pose proof (bisection_inv alpha beta fuel (m - k - 1) theta) as BI. rewrite L1 in BI. apply (BI ltac:(lia) ltac:(lia) NZ E1 r HS B' RB').
  - unfold norm2. rewrite Uy. apply sqrt_1.
  - intros u t Hu Uu. assert (Uu' : dot m u u = 1) by (rewrite <- norm_sq, Uu; ring). pose proof (c_bound m (ix alpha) (ix beta) theta (ix y) c K Uy Pc HE u t Hu Uu') as CB. eapply Rle_trans; [|exact CB]. apply Rmult_le_compat_r; [apply Rabs_pos|exact HN].
  - set (M := fun i j => entry A i j - sigma * delta i j) in *. set (T := tri (ix alpha) (ix beta)) in *.
    set (z := fun j i => bigsum m (fun k => T j k * qr q k i) + (if (S j =? m)%nat then w i else 0)).
    assert (EZ : agree n (fun i => theta * ix x i + bigsum m (fun j => (matvec m T (ix y) j - theta * ix y j) * qr q j i) + ix y (m - 1)%nat * w i) (fun i => bigsum m (fun j => ix y j * z j i))).
    { intros i Hi. rewrite Vx by auto. unfold z. rewrite (bigsum_ext m (fun j => ix y j * (bigsum m (fun k => T j k * qr q k i) + (if (S j =? m)%nat then w i else 0))) (fun j => bigsum m (fun k => ix y j * (T j k * qr q k i)) + ix y j * (if (S j =? m)%nat then w i else 0))) by (intros j Hj; rewrite bigsum_scal; ring).
      rewrite bigsum_plus, (bigsum_single m (m - 1) (fun j => ix y j * (if (S j =? m)%nat then w i else 0))); [|lia|intros j Hj N; assert (Y : (S j =? m)%nat = false) by (apply Nat.eqb_neq; lia); rewrite Y; ring].
      assert (Y : (S (m - 1) =? m)%nat = true) by (apply Nat.eqb_eq; lia). rewrite Y. f_equal. rewrite bigsum_swap, <- bigsum_scal, <- bigsum_plus. apply bigsum_ext. intros j Hj. unfold matvec.
      rewrite (bigsum_ext m (fun j0 => ix y j0 * (T j0 j * qr q j i)) (fun j0 => (T j j0 * ix y j0) * qr q j i)) by (intros k' Hk'; unfold T; rewrite (tri_symmetric m (ix alpha) (ix beta) k' j Hk' Hj); ring). rewrite bigsum_scal_r. ring. }
    rewrite (norm_ext n _ (fun i => bigsum m (fun j => ix y j * (matvec n M (z j) i - qr q j i)))).
    + apply (norm_sum n m (ix y) (fun j i => matvec n M (z j) i - qr q j i)). intros j Hj. apply Rlt_le, (Acc j Hj).
    + intros i Hi. rewrite (matvec_ext n M _ _ i EZ), matvec_bigsum, Vx by auto. rewrite <- bigsum_minus. apply bigsum_ext. intros j Hj. ring.
Qed.

Lemma C93_general_refuted_pf : exists A B, square_csr 1 A /\ square_csr 1 B /\ symmetric 1 (entry A) /\ symmetric 1 (entry B) /\ pos_def 1 (entry A) /\ pos_def 1 (entry B) /\
  (forall mu, (exists v, nonzero 1 v /\ forall i, (i < 1)%nat -> matvec 1 (entry A) v i = mu * matvec 1 (entry B) v i) <-> mu = 1 / 4) /\
  forall fuel re, (45 <= fuel)%nat -> exists e x, general_shifted_invert fuel re A B 1 0 = Ok [(e, x)] /\ Rabs (e - 1 / 16) <= 1 / 10 ^ 9.
Proof.
  exists (one_by_one 1), (one_by_one 4). split; [apply one_square|]. split; [apply one_square|]. split; [apply one_sym|]. split; [apply one_sym|]. split; [apply one_pos; lra|]. split; [apply one_pos; lra|]. split; [apply general_true|]. intros fuel re Hf. now apply general_example.
Qed.
