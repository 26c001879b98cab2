(** Runs of the shifted solvers on matrices of order one. *)
From Coq Require Import List Arith Lia Bool ZArith Reals Lra.
From Coquelicot Require Rcomplements.
From Verif Require Import Res SumR SparseModel SparseSpec DenseModel DenseR LUModel KrylovModel KrylovSpec KrylovProof KrylovMain LanczosSpec LanczosModel SturmMath SturmMath2 LanczosProof LanczosProof2 LanczosProof5 LanczosProof6 LanczosExample.
Import ListNotations.
Local Open Scope R_scope.

(** the matrix of order one with the entry a *)
Definition one_by_one (a : R) : csr R := mkCsr 1 1 [0; 1]%nat [0]%nat [a].
Lemma one_square a : square_csr 1 (one_by_one a).
Proof.
  ex_square [[(0%nat, a)]].
Qed.
Lemma one_entry a : entry (one_by_one a) 0 0 = a.
Proof. reflexivity. Qed.
Lemma one_sym a : symmetric 1 (entry (one_by_one a)).
Proof. intros i j Hi Hj. now assert (i = 0)%nat as -> by lia; assert (j = 0)%nat as -> by lia. Qed.
Lemma one_pos a : 0 < a -> pos_def 1 (entry (one_by_one a)).
Proof.
  intros Pa u (i & Hi & N). assert (i = 0)%nat as -> by lia. unfold dot, matvec. cbn [bigsum]. rewrite one_entry. assert (0 < u 0%nat * u 0%nat) by (apply Rsqr_pos_lt; auto). nra.
Qed.
Lemma one_solve a v itr : 0 < a -> 0 < v -> (1 <= itr)%nat -> exists w, solve (one_by_one a) itr [v] = Ok [w] /\ Rabs (v - a * w) < 1 / 10 ^ 10 * v.
Proof.
  intros Pa Pv Hi. destruct (C24_scaling_cg_pf 1 (one_by_one a) [v] itr (1 / 10 ^ 10) (one_square a) eq_refl (one_sym a) (one_pos a Pa)) as (x & E & (L & AC)); auto.
  - exists 0%nat. split; [lia|]. cbn. lra.
  - apply Rdiv_lt_0_compat; [lra|apply pow_lt; lra].
  - destruct x as [|w [|]]; try discriminate. exists w. unfold solve. rewrite E. cbn [bind]. split; auto.
    unfold norm2, dot, residual, matvec in AC. cbn [bigsum] in AC. rewrite one_entry in AC. unfold ix in AC. cbn [nth] in AC.
    replace (0 + (v - (0 + a * w)) * (v - (0 + a * w))) with (Rsqr (v - a * w)) in AC by (unfold Rsqr; ring). replace (0 + v * v) with (Rsqr v) in AC by (unfold Rsqr; ring). rewrite !sqrt_Rsqr_abs, (Rabs_right v) in AC by lra. exact AC.
Qed.
Lemma bisect_scaled alpha beta mode b c fuel : forall a1 a2 l x, (exists d, dyadic d /\ a1 = c * d) -> (exists d, dyadic d /\ a2 = c * d) -> (forall y, l = Ok y -> exists d, dyadic d /\ y = c * d) ->
  bisect fuel alpha beta mode b a1 a2 l = Ok x -> exists d, dyadic d /\ x = c * d.
Proof.
  induction fuel as [|fuel IH]; intros a1 a2 l x H1 H2 HL E; cbn [bisect] in E; destruct (Rltb _ _); auto; try discriminate.
  apply bind_Ok in E as (n & _ & E). assert (HM : exists d, dyadic d /\ 1 / 2 * (a1 + a2) = c * d).
  { destruct H1 as (d1 & D1 & ->), H2 as (d2 & D2 & ->). exists (1 / 2 * (d1 + d2)). split; [now apply dyadic_mid|ring]. }
  destruct (n <=? mode)%nat; eapply IH in E; auto; intros y [= <-]; auto.
Qed.
Lemma bisect_inside alpha beta mode b lo hi fuel : forall a1 a2 l x, lo <= a1 -> a2 <= hi -> a1 < a2 -> (forall y, l = Ok y -> lo < y < hi) -> bisect fuel alpha beta mode b a1 a2 l = Ok x -> lo < x < hi.
Proof.
  induction fuel as [|fuel IH]; intros a1 a2 l x H1 H2 H3 HL E; cbn [bisect] in E; destruct (Rltb _ _); auto; try discriminate.
  apply bind_Ok in E as (n & _ & E). destruct (n <=? mode)%nat; eapply IH in E; auto; try lra; intros y [= <-]; lra.
Qed.
Lemma one_bisection fuel a b : (45 <= fuel)%nat -> a <> 0 -> exists x, bisection_method fuel [a] [b] 0 = Ok x /\ Rabs (x - a) <= 1 / 10 ^ 13 * (Rabs a + Rabs b).
Proof.
  intros Hf Na. assert (NZ : forall k, (S k < 1)%nat -> ix [b] k <> 0) by (intros; lia).
  assert (HS : ordered_spectrum 1 (tri (ix [a]) (ix [b])) (fun _ => a)).
  { split; [intros; lia|]. intros x. split.
    - intros (v & (i & Hi & N) & HV). assert (i = 0)%nat as -> by lia. exists 0%nat. split; auto. specialize (HV 0%nat Hi). unfold matvec, tri, ix in HV. cbn in HV. apply (Rmult_eq_reg_r (v 0%nat)); auto. lra.
    - intros (i & Hi & ->). exists (fun _ => 1). split; [exists 0%nat; split; [lia|lra]|]. intros j Hj. assert (j = 0)%nat as -> by lia. unfold matvec, tri, ix. cbn. ring. }
  destruct (bisection_ok [a] [b] fuel 0 (le_n 1) (le_n 1) NZ ltac:(exists 0%nat; split; [cbn; lia|left; exact Na]) Hf _ HS) as (x & Ex & HX). exists x. split; auto. apply HX.
  intros i Hi. cbn in Hi. assert (i = 0)%nat as -> by lia. unfold ix. cbn [nth]. lra.
Qed.
Lemma one_vector a b x : x <> a -> exists y, inverse_power [a] [b] x = Ok y /\ length y = 1%nat.
Proof.
  intros N. destruct (inverse_power_ok [a] [b] x (le_n 1) (le_n 1)) as (y & E & L & _); eauto.
  intros k Hk. cbn in Hk. assert (k = 1)%nat as -> by lia. rewrite chp_1. unfold ix. cbn [nth]. lra.
Qed.
Lemma one_ritz fuel a b q sigma x : bisection_method fuel [a] [b] 0 = Ok x -> x <> 0 -> x <> a -> exists v, inverted_ritz fuel [a] [b] [[q]] 1 sigma = Ok [(sigma + 1 / x, v)].
Proof.
  intros Ex N0 Na. unfold inverted_ritz. cbn [seq mapM Nat.sub]. rewrite Ex. cbn [bind]. rewrite Rdiv_nz by auto. cbn [bind]. destruct (one_vector a b x Na) as (y & Ey & Ly). rewrite Ey. cbn [bind].
  destruct (reconvert_ok 1 y [[q]]) as (v & Ev & _); [rewrite Ly; cbn; lia|cbn; lia|intros [|j] Hj; cbn in *; auto; lia|]. rewrite Ev. cbn [bind]. exists v. reflexivity.
Qed.
Lemma one_start a : 0 < a -> start (one_by_one a) 1 = Ok [[1]].
Proof.
  intros Pa. unfold start. change (get_diagonal (one_by_one a)) with (Ok [a]). cbn [bind crows one_by_one repeat wr upd length Nat.ltb Nat.leb]. unfold inner. cbn [inner_from bind].
  replace (0 + a * a) with (Rsqr a) by (unfold Rsqr; ring). rewrite sqrt_Rsqr by lra. unfold xexda. cbn [mapM]. rewrite Rdiv_nz by lra. cbn [bind]. unfold Rdiv. rewrite Rinv_r by lra. reflexivity.
Qed.

(** ShiftedInvertLanczos on the matrix (3) with the shift 1 *)
Lemma shifted_example fuel : (45 <= fuel)%nat -> exists l, shifted_invert fuel (one_by_one 3) 1 1 = Ok l.
Proof.
  intros Hf. assert (ES : shift_identity (one_by_one 3) 1 = Ok (one_by_one (3 - 1))) by reflexivity. unfold shifted_invert. rewrite ES. cbn [bind].
  assert (Hi : (1 <= Nat.max (crows (one_by_one 3)) 1000)%nat) by lia. remember (Nat.max (crows (one_by_one 3)) 1000) as itr eqn:Eitr. clear Eitr.
  destruct (one_solve (3 - 1) 1 itr ltac:(lra) ltac:(lra) Hi) as (w & Ew & Aw). assert (Pw : 0 < w). { apply Rabs_def2 in Aw. cbn [pow] in Aw. lra. }
  assert (EP : process (solve (one_by_one (3 - 1)) itr) false (one_by_one (3 - 1)) 1 = Ok ([w], [0], [[1]])).
  { unfold process. rewrite one_start by lra. cbn [bind repeat seq foldM]. unfold lanczos_step. cbn [rd nth_error bind]. rewrite Ew. cbn [bind Nat.eqb]. unfold inner at 1. cbn [inner_from bind]. replace (0 + 1 * w) with w by ring.
    cbn [wr upd length Nat.ltb Nat.leb bind]. unfold xexpay. cbn [walk2 bind]. replace (w + - w * 1) with 0 by ring. unfold inner. cbn [inner_from bind]. replace (0 + 0 * 0) with 0 by ring. rewrite sqrt_0. reflexivity. }
  rewrite EP. cbn [bind]. destruct (one_bisection fuel w 0 Hf ltac:(lra)) as (x & Ex & HX). rewrite Rabs_R0, (Rabs_right w) in HX by lra.
  assert (Lx : x < w). { unfold bisection_method, bis_bound in Ex. cbn [rd nth_error bind length Nat.sub seq foldM] in Ex. rewrite Rabs_R0, (Rabs_right w), Rplus_0_r in Ex by lra. apply (bisect_inside _ _ _ _ (- w) w) in Ex; try lra. discriminate. }
  assert (Px : 0 < x). { apply Rcomplements.Rabs_le_between in HX. cbn [pow] in HX. lra. }
  destruct (one_ritz fuel w 0 1 1 x Ex ltac:(lra) ltac:(lra)) as (v & Ev). rewrite Ev. eexists. reflexivity.
Qed.

Lemma no_fifth k : forall z : Z, (5 * z <> 2 ^ Z.of_nat k)%Z.
Proof.
  induction k as [|k IH]; intros z H; [change (2 ^ Z.of_nat 0)%Z with 1%Z in H; lia|]. rewrite Nat2Z.inj_succ, Z.pow_succ_r in H by lia. apply (IH (2 ^ Z.of_nat k - 2 * z)%Z). lia.
Qed.
Lemma dyadic_fifth x : dyadic x -> 5 * x <> 2.
Proof.
  intros (z & k & ->) H. apply (no_fifth (S k) z). apply eq_IZR. rewrite mult_IZR, <- pow_IZR. rewrite <- tech_pow_Rmult. assert (P : 0 < 2 ^ k) by (apply pow_lt; lra).
  replace (5 * IZR z) with (5 * (IZR z / 2 ^ k) * 2 ^ k) by (field; lra). rewrite H. reflexivity.
Qed.
(** the general problem A = (1), B = (4) *)
Lemma general_example fuel re : (45 <= fuel)%nat -> exists e x, general_shifted_invert fuel re (one_by_one 1) (one_by_one 4) 1 0 = Ok [(e, x)] /\ Rabs (e - 1 / 16) <= 1 / 10 ^ 9.
Proof.
  intros Hf. unfold general_shifted_invert. assert (ES : csr_zip 0 Rminus (one_by_one 1) (csr_map (fun v => v * 0) (one_by_one 4)) = Ok (one_by_one (1 - 4 * 0))) by reflexivity. rewrite ES. cbn [bind].
  replace (1 - 4 * 0) with 1 by ring. assert (Hi : (1 <= Nat.max (crows (one_by_one 1)) (100 * 100))%nat) by (apply Nat.le_max_l). remember (Nat.max (crows (one_by_one 1)) (100 * 100)) as itr eqn:Eitr. clear Eitr.
  destruct (one_solve 1 4 itr ltac:(lra) ltac:(lra) Hi) as (w & Ew & Aw). apply Rabs_def2 in Aw. assert (Bw : 4 - 4 / 10 ^ 10 < w < 4 + 4 / 10 ^ 10) by (unfold Rdiv in *; split; lra). clear Aw. assert (Pw : 0 < w) by (cbn [pow] in Bw; lra).
  assert (EP : general_process (one_by_one 1) (one_by_one 4) itr re 1 = Ok ([4 * w], [6 * w], [[1]])).
  { unfold general_process. rewrite one_start by lra. cbn [bind rd nth_error]. assert (EB : forall x, Amul (one_by_one 4) [x] = Ok [4 * x]). { intros x. unfold csr_mulvec. cbn. do 2 f_equal. ring. }
    rewrite EB. cbn [bind repeat seq foldM]. replace (4 * 1) with 4 by ring. unfold general_step. cbn [bind]. rewrite Ew. cbn [bind Nat.sub seq foldM]. replace (if re then Ok [w] else Ok [w]) with (Ok [w]) by now destruct re. cbn [bind Nat.eqb].
    unfold inner at 1. cbn [inner_from bind wr upd length Nat.ltb Nat.leb rd nth_error]. unfold xexpay. cbn [walk2 bind]. rewrite EB. cbn [bind]. unfold inner. cbn [inner_from bind].
    replace (0 + 4 * w) with (4 * w) by ring. replace (0 + 4 * (w + - (4 * w) * 1) * (w + - (4 * w) * 1)) with (Rsqr (6 * w)) by (unfold Rsqr; ring). rewrite sqrt_Rsqr by lra. cbn [wr upd length Nat.ltb Nat.leb bind]. reflexivity. }
  rewrite EP. cbn [bind]. destruct (one_bisection fuel (4 * w) (6 * w) Hf ltac:(lra)) as (x & Ex & HX). rewrite (Rabs_right (4 * w)), (Rabs_right (6 * w)) in HX by lra.
  assert (Nx : x <> 4 * w).
  { unfold bisection_method, bis_bound in Ex. cbn [rd nth_error bind length Nat.sub seq foldM] in Ex. rewrite !Rabs_right in Ex by lra. apply (bisect_scaled _ _ _ _ (10 * w)) in Ex.
    - destruct Ex as (d & D & ->). intros H. apply (dyadic_fifth d D). apply (Rmult_eq_reg_l (2 * w)); lra.
    - exists (-1). split; [exists (-1)%Z, 0%nat; cbn [pow]; field|ring].
    - exists 1. split; [exists 1%Z, 0%nat; cbn [pow]; field|ring].
    - discriminate. }
  apply Rcomplements.Rabs_le_between in HX. assert (Bx : 16 - 32 / 10 ^ 10 <= x <= 16 + 32 / 10 ^ 10) by (cbn [pow] in *; split; lra). assert (Px : 0 < x) by (cbn [pow] in Bx; lra).
  destruct (one_ritz fuel (4 * w) (6 * w) 1 0 x Ex ltac:(lra) Nx) as (v & Ev). rewrite Ev. exists (0 + 1 / x), v. split; [reflexivity|].
  replace (0 + 1 / x - 1 / 16) with ((16 - x) * (/ x * / 16)) by (field; lra). rewrite Rabs_mult.
  assert (Ix : 0 < / x * / 16 <= 1 / 16). { split; [apply Rmult_lt_0_compat; [apply Rinv_0_lt_compat; lra|lra]|]. assert (/ x <= / 1) by (apply Rinv_le_contravar; [lra|cbn [pow] in Bx; lra]). lra. }
  rewrite (Rabs_right (/ x * / 16)) by lra. assert (D : Rabs (16 - x) <= 32 / 10 ^ 10) by (apply Rabs_le; lra). pose proof (Rabs_pos (16 - x)). cbn [pow] in *. nra.
Qed.
Lemma general_true mu : (exists v, nonzero 1 v /\ forall i, (i < 1)%nat -> matvec 1 (entry (one_by_one 1)) v i = mu * matvec 1 (entry (one_by_one 4)) v i) <-> mu = 1 / 4.
Proof.
  split.
  - intros (v & (i & Hi & N) & HV). assert (i = 0)%nat as -> by lia. specialize (HV 0%nat Hi). unfold matvec in HV. cbn [bigsum] in HV. rewrite !one_entry in HV. apply (Rmult_eq_reg_r (4 * v 0%nat)); lra.
  - intros ->. exists (fun _ => 1). split; [exists 0%nat; split; [lia|lra]|]. intros i Hi. assert (i = 0)%nat as -> by lia. unfold matvec. cbn [bigsum]. rewrite !one_entry. field.
Qed.

(** the matrices of LanczosExample *)
Lemma exH_square : square_csr 2 exH.
Proof. ex_square [[(0%nat, 1); (1%nat, 1)]; [(0%nat, 1); (1%nat, -1)]]. Qed.
Lemma exX_square : square_csr 2 exX.
Proof. ex_square [[(1%nat, 1)]; [(0%nat, 1)]]. Qed.
Lemma exId_square : square_csr 2 exId.
Proof. ex_square [[(0%nat, 1)]; [(1%nat, 1)]]. Qed.
Lemma exH_sym : symmetric 2 (entry exH).
Proof. intros i j Hi Hj. destruct i as [|[|i]], j as [|[|j]]; try lia; reflexivity. Qed.
Lemma exH_mul v i : (i < 2)%nat -> matvec 2 (entry exH) v i = if (i =? 0)%nat then v 0%nat + v 1%nat else v 0%nat - v 1%nat.
Proof.
  intros Hi. unfold matvec. cbn [bigsum]. destruct i as [|[|i]]; [| |lia]; cbn [Nat.eqb].
  - change (entry exH 0 0) with 1. change (entry exH 0 1) with 1. ring.
  - change (entry exH 1 0) with 1. change (entry exH 1 1) with (-1). ring.
Qed.
Lemma exH_norm v : norm2 2 (matvec 2 (entry exH) v) <= 2 * norm2 2 v.
Proof.
  unfold norm2, dot. cbn [bigsum]. rewrite !exH_mul by lia. cbn [Nat.eqb]. replace 2 with (sqrt (2 * 2)) at 1 by (apply sqrt_square; lra). rewrite <- sqrt_mult_alt by lra. apply sqrt_le_1_alt. nra.
Qed.
Lemma exH_spectrum r : ordered_spectrum 2 (entry exH) r -> forall i, (i < 2)%nat -> r i = if (i =? 0)%nat then - sqrt 2 else sqrt 2.
Proof.
  intros HS. assert (S2 : sqrt 2 * sqrt 2 = 2) by (apply sqrt_sqrt; lra). assert (P2 : 0 < sqrt 2) by (apply sqrt_lt_R0; lra).
  apply (ordered_unique 2 (entry exH) r (fun i => if (i =? 0)%nat then - sqrt 2 else sqrt 2) HS). split.
  - intros [|[|i]] [|[|j]] H1 H2; try lia. cbn [Nat.eqb]. lra.
  - intros t. split.
    + intros (v & (i & Hi & N) & HV). pose proof (HV 0%nat Nat.lt_0_2) as H0. pose proof (HV 1%nat Nat.lt_1_2) as H1. rewrite exH_mul in H0, H1 by lia. cbn [Nat.eqb] in H0, H1.
      assert (NV : v 0%nat <> 0). { intros Z. destruct i as [|[|i]]; [| |lia]; [contradiction|]. apply N. rewrite Z in H0. lra. }
      assert (T2 : (t - sqrt 2) * (t + sqrt 2) = 0). { apply (Rmult_eq_reg_r (v 0%nat)); auto. replace ((t - sqrt 2) * (t + sqrt 2) * v 0%nat) with (t * (t * v 0%nat) - (sqrt 2 * sqrt 2) * v 0%nat) by ring. rewrite S2, <- H0. nra. }
      apply Rmult_integral in T2 as [Z|Z]; [exists 1%nat|exists 0%nat]; split; auto; cbn [Nat.eqb]; lra.
    + intros (i & Hi & ->). exists (fun k => if (k =? 0)%nat then 1 else (if (i =? 0)%nat then - sqrt 2 else sqrt 2) - 1). split; [exists 0%nat; split; [lia|cbn; lra]|].
      intros k Hk. rewrite exH_mul by auto. destruct k as [|[|k]]; [| |lia]; cbn [Nat.eqb]; destruct (i =? 0)%nat; nra.
Qed.
