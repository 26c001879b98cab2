(** Runs of the Lanczos solver on small matrices. *)
From Coq Require Import List Arith Lia Bool ZArith Reals Lra.
From Verif Require Import Res SumR SparseModel SparseSpec DenseModel DenseR LUModel KrylovModel KrylovSpec LanczosSpec LanczosModel SturmMath SturmMath2 LanczosProof LanczosProof2 LanczosProof5.
Import ListNotations.
Local Open Scope R_scope.

(** the matrix [[1,1],[1,-1]] *)
Definition exH : csr R := mkCsr 2 2 [0; 2; 4]%nat [0; 1; 0; 1]%nat [1; 1; 1; -1].
(** the identity of order 2 *)
Definition exId : csr R := mkCsr 2 2 [0; 1; 2]%nat [0; 1]%nat [1; 1].
(** the matrix [[0,1],[1,0]] *)
Definition exX : csr R := mkCsr 2 2 [0; 1; 2]%nat [1; 0]%nat [1; 1].

Lemma Rdiv_nz a b : b <> 0 -> Rdiv_res a b = Ok (a / b).
Proof. intros H. unfold Rdiv_res. destruct (Req_EM_T b 0); [contradiction|reflexivity]. Qed.
Lemma Rdiv_0 a : Rdiv_res a 0 = Fail DivByZero.
Proof. unfold Rdiv_res. destruct (Req_EM_T 0 0); [reflexivity|contradiction]. Qed.

Lemma zero_diagonal fuel : lanczos fuel exX 1 = Fail DivByZero.
Proof.
  unfold lanczos, process, start. change (get_diagonal exX) with (Ok [0; 0]). cbn [bind crows exX repeat wr upd length Nat.ltb Nat.leb].
  unfold inner. cbn [inner_from bind]. replace (0 + 0 * 0 + 0 * 0) with 0 by ring. rewrite sqrt_0. unfold xexda. cbn [mapM]. rewrite Rdiv_0. reflexivity.
Qed.

Section Run.
Let s := sqrt 2.
Lemma ss : s * s = 2.
Proof. apply sqrt_sqrt. lra. Qed.
Lemma s_pos : 0 < s.
Proof. apply sqrt_lt_R0. lra. Qed.
Lemma is_ : / s * / s = / 2.
Proof. rewrite <- Rinv_mult, ss. reflexivity. Qed.
Lemma startH : start exH 2 = Ok [[1 / s; -1 / s]; [0; 0]].
Proof.
  unfold start. change (get_diagonal exH) with (Ok [1; -1]). cbn [bind crows exH repeat wr upd length Nat.ltb Nat.leb].
  unfold inner. cbn [inner_from bind]. replace (0 + 1 * 1 + -1 * -1) with 2 by ring. fold s. unfold xexda. cbn [mapM]. pose proof s_pos. rewrite !Rdiv_nz by lra. reflexivity.
Qed.
Lemma startI : start exId 2 = Ok [[1 / s; 1 / s]; [0; 0]].
Proof.
  unfold start. change (get_diagonal exId) with (Ok [1; 1]). cbn [bind crows exId repeat wr upd length Nat.ltb Nat.leb].
  unfold inner. cbn [inner_from bind]. replace (0 + 1 * 1 + 1 * 1) with 2 by ring. fold s. unfold xexda. cbn [mapM]. pose proof s_pos. rewrite !Rdiv_nz by lra. reflexivity.
Qed.
Ltac eqs := repeat (f_equal; []); repeat f_equal; try (unfold Rdiv; rewrite ?Rmult_assoc; pose proof is_; pose proof s_pos; nra).
Lemma stepH0 : lanczos_step (Amul exH) false 2 ([0; 0], [0; 0], [[1 / s; -1 / s]; [0; 0]]) 0 = Ok ([-1; 0], [1; 0], [[1 / s; -1 / s]; [1 / s; 1 / s]]).
Proof.
  pose proof is_ as HI. pose proof s_pos as HP. unfold lanczos_step. cbn [rd nth_error bind].
  assert (EM : Amul exH [1 / s; -1 / s] = Ok [0; 2 / s]). { unfold csr_mulvec. cbn. f_equal. f_equal; [|f_equal]; field; lra. }
  rewrite EM. cbn [bind Nat.eqb]. unfold inner at 1. cbn [inner_from bind]. replace (0 + 1 / s * 0 + -1 / s * (2 / s)) with (-1) by (unfold Rdiv; nra).
  cbn [wr upd length Nat.ltb Nat.leb bind]. unfold xexpay. cbn [walk2 bind]. replace (0 + - (-1) * (1 / s)) with (1 / s) by ring. replace (2 / s + - (-1) * (-1 / s)) with (1 / s) by (field; lra).
  unfold inner. cbn [inner_from bind]. replace (0 + 1 / s * (1 / s) + 1 / s * (1 / s)) with 1 by (unfold Rdiv; nra). rewrite sqrt_1. cbn [wr upd length Nat.ltb Nat.leb Nat.sub Nat.add bind rd nth_error xeyda].
  rewrite !Rdiv_nz by lra. cbn [bind wr upd length Nat.ltb Nat.leb Nat.sub Nat.add]. unfold Rdiv. rewrite Rinv_1, !Rmult_1_r. reflexivity.
Qed.
Lemma stepH1 : lanczos_step (Amul exH) false 2 ([-1; 0], [1; 0], [[1 / s; -1 / s]; [1 / s; 1 / s]]) 1 = Ok ([-1; 1], [1; 0], [[1 / s; -1 / s]; [1 / s; 1 / s]]).
Proof.
  pose proof is_ as HI. pose proof s_pos as HP. unfold lanczos_step. cbn [rd nth_error bind].
  assert (EM : Amul exH [1 / s; 1 / s] = Ok [2 / s; 0]). { unfold csr_mulvec. cbn. f_equal. f_equal; [|f_equal]; field; lra. }
  rewrite EM. cbn [bind Nat.eqb Nat.sub rd nth_error]. unfold xexpay at 1. cbn [walk2 bind]. replace (2 / s + - (1) * (1 / s)) with (1 / s) by (field; lra). replace (0 + - (1) * (-1 / s)) with (1 / s) by (field; lra).
  unfold inner at 1. cbn [inner_from bind]. replace (0 + 1 / s * (1 / s) + 1 / s * (1 / s)) with 1 by (unfold Rdiv; nra).
  cbn [wr upd length Nat.ltb Nat.leb bind]. unfold xexpay. cbn [walk2 bind]. replace (1 / s + - (1) * (1 / s)) with 0 by ring.
  unfold inner. cbn [inner_from bind]. replace (0 + 0 * 0 + 0 * 0) with 0 by ring. rewrite sqrt_0. reflexivity.
Qed.
Lemma processH : process (Amul exH) false exH 2 = Ok ([-1; 1], [1; 0], [[1 / s; -1 / s]; [1 / s; 1 / s]]).
Proof. unfold process. rewrite startH. cbn [bind repeat seq foldM]. rewrite stepH0. cbn [bind]. rewrite stepH1. reflexivity. Qed.
Lemma repeated fuel : lanczos fuel exId 2 = Fail DivByZero.
Proof.
  pose proof is_ as HI. pose proof s_pos as HP. unfold lanczos, process. rewrite startI. cbn [bind repeat seq foldM].
  unfold lanczos_step at 1. cbn [rd nth_error bind].
  assert (EM : Amul exId [1 / s; 1 / s] = Ok [1 / s; 1 / s]). { unfold csr_mulvec. cbn. f_equal. f_equal; [|f_equal]; field; lra. }
  rewrite EM. cbn [bind Nat.eqb]. unfold inner at 1. cbn [inner_from bind]. replace (0 + 1 / s * (1 / s) + 1 / s * (1 / s)) with 1 by (unfold Rdiv; nra).
  cbn [wr upd length Nat.ltb Nat.leb bind]. unfold xexpay at 1. cbn [walk2 bind]. replace (1 / s + - (1) * (1 / s)) with 0 by ring.
  unfold inner at 1. cbn [inner_from bind]. replace (0 + 0 * 0 + 0 * 0) with 0 by ring. rewrite sqrt_0. cbn [wr upd length Nat.ltb Nat.leb Nat.sub Nat.add bind rd nth_error xeyda]. rewrite Rdiv_0. reflexivity.
Qed.
End Run.

(** the numbers the bisection returns are dyadic, hence not the square roots of 2 *)
Definition dyadic (x : R) : Prop := exists z k, x = IZR z / 2 ^ k.
Lemma dyadic_mid x y : dyadic x -> dyadic y -> dyadic (1 / 2 * (x + y)).
Proof.
  intros (z1 & k1 & ->) (z2 & k2 & ->). exists (z1 * 2 ^ Z.of_nat k2 + z2 * 2 ^ Z.of_nat k1)%Z, (S (k1 + k2)). rewrite plus_IZR, !mult_IZR, <- !pow_IZR. rewrite <- tech_pow_Rmult, pow_add. field.
  split; apply pow_nonzero; lra.
Qed.
Lemma bisect_dyadic alpha beta mode b fuel : forall a1 a2 l x, dyadic a1 -> dyadic a2 -> (forall y, l = Ok y -> dyadic y) -> bisect fuel alpha beta mode b a1 a2 l = Ok x -> dyadic x.
Proof.
  induction fuel as [|fuel IH]; intros a1 a2 l x H1 H2 HL E; cbn [bisect] in E; destruct (Rltb _ _); auto; try discriminate.
  apply bind_Ok in E as (n & _ & E). pose proof (dyadic_mid _ _ H1 H2) as HM. destruct (n <=? mode)%nat; eapply IH in E; auto; intros y [= <-]; auto.
Qed.
Lemma no_root2 k : forall z : Z, (z * z <> 2 * 4 ^ Z.of_nat k)%Z.
Proof.
  induction k as [|k IH]; intros z H.
  - cbn in H. destruct (Z.Even_or_Odd z) as [(w & ->)|(w & ->)]; nia.
  - rewrite Nat2Z.inj_succ, Z.pow_succ_r in H by lia. destruct (Z.Even_or_Odd z) as [(w & ->)|(w & ->)]; [apply (IH w); nia|nia].
Qed.
Lemma dyadic_root2 x : dyadic x -> x * x <> 2.
Proof.
  intros (z & k & ->) H. apply (no_root2 k z). apply eq_IZR. rewrite !mult_IZR, <- pow_IZR. assert (P : 0 < 2 ^ k) by (apply pow_lt; lra).
  replace 4 with (2 * 2) by ring. rewrite Rpow_mult_distr. assert (E : IZR z * IZR z = (IZR z / 2 ^ k * (IZR z / 2 ^ k)) * (2 ^ k * 2 ^ k)) by (field; lra). rewrite E, H. ring.
Qed.
Lemma spectrumH : ordered_spectrum 2 (tri (ix [-1; 1]) (ix [1; 0])) (fun i => match i with O => - sqrt 2 | _ => sqrt 2 end).
Proof.
  assert (NZ : forall k, (S k < 2)%nat -> ix [1; 0] k <> 0) by (intros [|k] Hk; [cbn; lra|lia]).
  assert (S2 : sqrt 2 * sqrt 2 = 2) by (apply sqrt_sqrt; lra). assert (P2 : 0 < sqrt 2) by (apply sqrt_lt_R0; lra).
  split.
  - intros [|[|i]] [|[|j]] H1 H2; try lia. lra.
  - intros x. rewrite (eigen_chp (ix [-1; 1]) (ix [1; 0]) 2 ltac:(lia) NZ). rewrite chp_SS, chp_1, chp_0. unfold ix. cbn [nth]. split.
    + intros H. assert (Z : (x - sqrt 2) * (x + sqrt 2) = 0) by nra. apply Rmult_integral in Z as [Z|Z]; [exists 1%nat|exists 0%nat]; split; auto; lra.
    + intros (i & Hi & ->). destruct i as [|i]; nra.
Qed.
Lemma runH fuel : (45 <= fuel)%nat -> exists l, lanczos fuel exH 2 = Ok l.
Proof.
  intros Hf. unfold lanczos. rewrite processH. cbn [bind].
  assert (NZ : forall k, (S k < 2)%nat -> ix [1; 0] k <> 0) by (intros [|k] Hk; [cbn; lra|lia]).
  assert (A1 : Rabs (-1) = 1) by (rewrite Rabs_left; lra). assert (S2 : sqrt 2 * sqrt 2 = 2) by (apply sqrt_sqrt; lra). assert (P2 : 0 < sqrt 2) by (apply sqrt_lt_R0; lra).
  assert (EB : bis_bound [-1; 1] [1; 0] = Ok 2).
  { unfold bis_bound. cbn [rd nth_error bind length Nat.sub seq foldM]. rewrite A1, Rabs_R1, Rabs_R0. destruct (Rltb_spec (1 + 1) (1 + 1 + 0)); [lra|]. reflexivity. }
  assert (HK : forall k, (k < 2)%nat -> exists p, (e <- bisection_method fuel [-1; 1] [1; 0] k ;; y <- inverse_power [-1; 1] [1; 0] e ;; x <- reconvert y [[1 / sqrt 2; -1 / sqrt 2]; [1 / sqrt 2; 1 / sqrt 2]] ;; Ok (e, x)) = Ok p).
  { intros k Hk. destruct (bisection_ok [-1; 1] [1; 0] fuel k Hk (le_n 2) NZ ltac:(exists 0%nat; split; [cbn; lia|right; cbn; lra]) Hf _ spectrumH) as (x & Ex & HX).
    rewrite Ex. cbn [bind]. assert (HX2 : Rabs (x - match k with O => - sqrt 2 | _ => sqrt 2 end) <= 1 / 10 ^ 13 * 2).
    { apply HX. intros [|[|i]] Hi; unfold ix; cbn [nth]; rewrite ?A1, ?Rabs_R1, ?Rabs_R0; try lra. cbn in Hi. lia. }
    assert (DX : x * x <> 2). { apply dyadic_root2. unfold bisection_method in Ex. rewrite EB in Ex. cbn [bind] in Ex. apply bisect_dyadic in Ex; auto; [exists (-2)%Z, 0%nat; cbn [pow]; field|exists 2%Z, 0%nat; cbn [pow]; field|intros y; discriminate]. }
    assert (MN : forall j, (1 <= j <= length [-1; 1]%R)%nat -> chp (ix [-1; 1]) (ix [1; 0]) j x <> 0).
    { intros j Hj. cbn in Hj. destruct j as [|[|[|j]]]; try lia.
      - rewrite chp_1. unfold ix. cbn [nth]. intros E. assert (x = -1) as -> by lra. unfold Rabs in HX2. cbn [pow] in HX2. destruct k; destruct (Rcase_abs _) in HX2; nra.
      - rewrite chp_SS, chp_1, chp_0. unfold ix. cbn [nth]. intros E. apply DX. nra. }
    destruct (inverse_power_ok [-1; 1] [1; 0] x ltac:(cbn; lia) (le_n 2) MN) as (y & Ey & Ly & _). rewrite Ey. cbn [bind].
    destruct (reconvert_ok 2 y [[1 / sqrt 2; -1 / sqrt 2]; [1 / sqrt 2; 1 / sqrt 2]]) as (v & Ev & _); [rewrite Ly; cbn; lia|cbn; lia|intros [|[|j]] Hj; cbn in *; auto; lia|]. rewrite Ev. eexists. reflexivity. }
  destruct (HK 0%nat ltac:(lia)) as (p0 & E0). destruct (HK 1%nat ltac:(lia)) as (p1 & E1). cbn [seq mapM]. rewrite E0. cbn [bind]. rewrite E1. cbn [bind]. eexists. reflexivity.
Qed.
