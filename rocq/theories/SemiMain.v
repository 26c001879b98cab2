(** Property C111: conjugate gradients on singular systems: the proofs. *)
From Coq Require Import List Arith Lia Bool Reals Lra.
From Verif Require Import Res SumR SparseModel SparseSpec SparseMain DenseModel DenseR LUModel KrylovModel KrylovSpec KrylovMain.
Import ListNotations.
Local Open Scope R_scope.
From Verif Require Import KrylovProof KrylovProof2 CGMath SemiMath.
(** the matrix of a ring of two nodes joined by a spring *)
Definition exS : csr R := mkCsr 2 2 [0; 2; 4]%nat [0; 1; 0; 1]%nat [1; -1; -1; 1].
Lemma exS_square : square_csr 2 exS.
Proof. ex_square [[(0%nat, 1); (1%nat, -1)]; [(0%nat, -1); (1%nat, 1)]]. Qed.
Lemma exS_entry i j : (i < 2)%nat -> (j < 2)%nat -> entry exS i j = if (i =? j)%nat then 1 else -1.
Proof. intros Hi Hj. destruct i as [|[|]], j as [|[|]]; try lia; reflexivity. Qed.
Lemma exS_sym : symmetric 2 (entry exS).
Proof. intros i j Hi Hj. rewrite !exS_entry, Nat.eqb_sym by auto. reflexivity. Qed.
Lemma exS_nonneg u : 0 <= dot 2 u (matvec 2 (entry exS) u).
Proof. unfold dot, matvec. cbn [bigsum]. rewrite !exS_entry by lia. cbn [Nat.eqb]. pose proof (Rle_0_sqr (u 0%nat - u 1%nat)) as H. unfold Rsqr in H. lra. Qed.
Lemma exS_kernel z b : (forall i, (i < 2)%nat -> matvec 2 (entry exS) z i = 0) -> b 0%nat + b 1%nat = 0 -> dot 2 z b = 0.
Proof.
  intros H Hb. specialize (H 0%nat ltac:(lia)). unfold matvec in H. cbn [bigsum] in H. rewrite !exS_entry in H by lia. cbn [Nat.eqb] in H.
  unfold dot. cbn [bigsum]. replace (z 1%nat) with (z 0%nat) by lra. replace (b 1%nat) with (- b 0%nat) by lra. ring.
Qed.

Lemma C111_alternative_pf : forall (n : nat) (A : csr R) (b : list R), square_csr n A -> length b = n -> symmetric n (entry A) ->
  ((exists x, length x = n /\ csr_mulvec 0 Rplus Rmult A x = Ok b) <->
   forall z, (forall i, (i < n)%nat -> matvec n (entry A) z i = 0) -> dot n z (ix b) = 0).
Proof.
  intros n A b HA Hb Hs. split.
  - intros (x & Lx & Ex) z Hz. destruct (Amul_inv n A x b HA Lx Ex) as [_ V]. rewrite (dot_ext n z z (ix b) (matvec n (entry A) (ix x))) by auto.
    rewrite matvec_sym by auto. rewrite (dot_ext n _ (fun _ => 0) (ix x) (ix x)) by auto. apply dot_0_l.
  - intros H. destruct (symmetric_solvable n (entry A) (ix b) Hs H) as (x & Hx). exists (map x (seq 0 n)).
    assert (L : length (map x (seq 0 n)) = n) by now rewrite map_length, seq_length. split; auto.
    destruct (Amul_ok n A _ HA L) as (w & E & Lw & V). rewrite E. f_equal. apply (nth_ext _ _ 0 0); [lia|]. intros i Hi. rewrite Lw in Hi.
    change (nth i w 0) with (ix w i). change (nth i b 0) with (ix b i). rewrite V, <- Hx by auto. apply matvec_ext. intros j Hj.
    unfold ix. rewrite (nth_indep _ 0 (x 0%nat)) by (rewrite L; auto). rewrite map_nth, seq_nth by auto. reflexivity.
Qed.

Lemma C111_trace_pf : forall (n : nat) (A : csr R) (b : list R),
  square_csr n A -> length b = n -> symmetric n (entry A) -> (forall u, 0 <= dot n u (matvec n (entry A) u)) ->
  (forall z, (forall i, (i < n)%nat -> matvec n (entry A) z i = 0) -> dot n z (ix b) = 0) ->
  exists (m : nat) (tr : nat -> cg_state), (m <= n)%nat /\ cg_init A b = Ok (tr 0%nat) /\
    (forall k, (k < m)%nat -> cg_step A (tr k) = Ok (tr (S k))) /\
    (forall k, (k < m)%nat -> nonzero n (ix (cg_r (tr k)))) /\
    (forall i, (i < n)%nat -> ix (cg_r (tr m)) i = 0) /\
    (forall i, (i < n)%nat -> matvec n (entry A) (ix (cg_x (tr m))) i = ix b i).
Proof.
  intros n A b HA Hb Hs Hp Hz. destruct (symmetric_solvable n (entry A) (ix b) Hs Hz) as (w & Hw).
  destruct (pcg_trace n A id_pre (fun u => u) b HA Hb Hs
     (psd_directions n (entry A) (fun u => u) (ix b) w Hs Hp (fun u v => eq_refl) (fun u H => dot_pos n u H) Hw) (id_computes n)
     (fun u v => eq_refl) (fun u H => dot_pos n u H)) as (m & tr & Hm & E0 & Es & Hn & Hzr & Hr & Ho).
  exists m, (fun k => of_p (tr k)). split; [exact Hm|]. split; [|split; [|split; [exact Hn|split; [exact Hzr|]]]].
  - rewrite cg_init_p in E0. destruct (cg_init A b) as [s|]; [|discriminate]. injection E0 as E0. rewrite <- E0. now destruct s.
  - intros k Hk. specialize (Es k Hk). rewrite cg_step_p in Es.
    destruct (cg_step A (of_p (tr k))) as [s|]; [|discriminate]. injection Es as Es. rewrite <- Es. now destruct s.
  - intros i Hi. specialize (Hr m ltac:(lia) i Hi). rewrite Hzr in Hr by auto. unfold residual in Hr. unfold of_p; cbn [cg_x]. lra.
Qed.

Lemma C111_converges_pf : forall (n : nat) (A : csr R) (b : list R) (itrmax : nat) (eps : R),
  square_csr n A -> length b = n -> symmetric n (entry A) -> (forall u, 0 <= dot n u (matvec n (entry A) u)) ->
  (forall z, (forall i, (i < n)%nat -> matvec n (entry A) z i = 0) -> dot n z (ix b) = 0) ->
  nonzero n (ix b) -> 0 < eps -> (n <= itrmax)%nat ->
  (exists x, cg A b itrmax eps = Ok (true, x) /\ accurate n A b eps x) /\
  ((forall i, (i < n)%nat -> 0 < entry A i i) -> exists x, scaling_cg A b itrmax eps = Ok (true, x) /\ accurate n A b eps x).
Proof.
  intros n A b itrmax eps HA Hb Hs Hp Hz Hnb He Hn. destruct (symmetric_solvable n (entry A) (ix b) Hs Hz) as (w & Hw). split.
  - destruct (pcg_converges n A id_pre (fun u => u) b HA Hb Hs
       (psd_directions n (entry A) (fun u => u) (ix b) w Hs Hp (fun u v => eq_refl) (fun u H => dot_pos n u H) Hw) (id_computes n)
       (fun u v => eq_refl) (fun u H => dot_pos n u H) eps itrmax He Hnb Hn) as [x E].
    rewrite (cg_is_pcg n) in E by auto. exists x. split; auto. eapply cg_accurate; eauto.
  - intros Hd. unfold scaling_cg. destruct (get_diagonal_ok n A HA) as (D & ED & LD & VD). rewrite ED. cbn [bind].
    assert (HD : forall i, (i < n)%nat -> 0 < ix D i) by (intros; rewrite VD by auto; auto).
    assert (S1 : forall u v, dot n (fun i => u i / ix D i) v = dot n u (fun i => v i / ix D i)).
    { intros u v. unfold dot. apply bigsum_ext. intros i Hi. specialize (HD i Hi). field. lra. }
    assert (S2 : forall u, nonzero n u -> 0 < dot n (fun i => u i / ix D i) u).
    { intros u (i & Hi & Hne). unfold dot. apply (bigsum_pos n _ i); auto.
      + intros j Hj. specialize (HD j Hj). replace (u j / ix D j * u j) with (u j * u j * / ix D j) by (field; lra).
        apply Rmult_le_pos; [nra|]. left. now apply Rinv_0_lt_compat.
      + specialize (HD i Hi). replace (u i / ix D i * u i) with (u i * u i * / ix D i) by (field; lra).
        apply Rmult_lt_0_compat; [nra|]. now apply Rinv_0_lt_compat. }
    destruct (pcg_converges n A (scaling D) (fun u i => u i / ix D i) b HA Hb Hs
      (psd_directions n (entry A) (fun u i => u i / ix D i) (ix b) w Hs Hp S1 S2 Hw)) with (eps := eps) (itrmax := itrmax) as [x E]; auto.
    + apply scaling_computes; auto. intros i Hi. specialize (HD i Hi). lra.
    + exists x. split; auto. apply (pcg_accurate n A b HA Hb (scaling D) itrmax); auto. now apply scaling_length.
Qed.

Lemma C111_inconsistent_pf : forall (n : nat) (A M : csr R) (b : list R) (itrmax : nat) (eps : R) (z : nat -> R),
  square_csr n A -> length b = n -> symmetric n (entry A) ->
  (forall i, (i < n)%nat -> matvec n (entry A) z i = 0) -> dot n z (ix b) <> 0 ->
  eps * norm2 n (ix b) * norm2 n z <= Rabs (dot n z (ix b)) ->
  (forall x, cg A b itrmax eps <> Ok (true, x)) /\ (forall x, scaling_cg A b itrmax eps <> Ok (true, x)) /\
  (forall x, ilu0_cg A M b itrmax eps <> Ok (true, x)) /\
  (forall w soritr soreps x, sor_cg A b itrmax eps w soritr soreps <> Ok (true, x)).
Proof.
  intros n A M b itrmax eps z HA Hb Hs Hz Hn He.
  assert (K : forall x, ~ accurate n A b eps x).
  { intros x [Lx Hx]. set (r := residual n A b x) in *.
    assert (D : dot n z r = dot n z (ix b)).
    { unfold r. rewrite (dot_ext n z z (residual n A b x) (fun i => 1 * ix b i + -1 * matvec n (entry A) (ix x) i)) by (auto; intros; unfold residual; ring).
      rewrite dot_lin_r, (matvec_sym n _ z (ix x)) by auto. rewrite (dot_ext n _ (fun _ => 0) (ix x) (ix x)) by auto. rewrite dot_0_l. ring. }
    assert (C : Rabs (dot n z r) <= norm2 n z * norm2 n r).
    { unfold norm2. rewrite <- sqrt_mult by apply dot_nonneg. rewrite <- sqrt_Rsqr_abs. apply sqrt_le_1_alt. unfold Rsqr.
      set (a := dot n z z). set (c := dot n z r). set (d := dot n r r).
      assert (Q : forall t, 0 <= d + 2 * t * c + t * t * a).
      { intros t. pose proof (dot_nonneg n (fun i => 1 * r i + t * z i)) as Q. rewrite dot_lin_l, !dot_lin_r, (dot_sym n r z) in Q. fold a c d in Q. lra. }
      assert (0 <= a) by apply dot_nonneg. destruct (Req_dec a 0) as [Z|Z].
      - assert (c = 0); [|subst; nra]. destruct (Req_dec c 0) as [|Hc]; auto. exfalso. specialize (Q (- (d + 1) / (2 * c))). rewrite Z in Q.
        replace (d + 2 * (- (d + 1) / (2 * c)) * c + - (d + 1) / (2 * c) * (- (d + 1) / (2 * c)) * 0) with (-1) in Q by (field; auto). lra.
      - specialize (Q (- c / a)). replace (d + 2 * (- c / a) * c + - c / a * (- c / a) * a) with ((a * d - c * c) * / a) in Q by (field; auto).
        destruct (Rle_lt_dec (c * c) (a * d)) as [|L]; [lra|]. exfalso. assert (0 < / a) by (apply Rinv_0_lt_compat; lra). nra. }
    rewrite D in C. assert (P : 0 < Rabs (dot n z (ix b))) by now apply Rabs_pos_lt.
    assert (Nz : 0 <= norm2 n z) by apply sqrt_pos. destruct (Req_dec (norm2 n z) 0) as [E|E]; [rewrite E in C; lra|].
    assert (norm2 n z * norm2 n r < norm2 n z * (eps * norm2 n (ix b))) by (apply Rmult_lt_compat_l; lra). lra. }
  pose proof (C22_cg_family_pf n A M b itrmax eps) as F.
  split; [|split; [|split]]; intros; intros E; match type of E with _ = Ok (true, ?x) => apply (K x); destruct (F x HA Hb) as (F1 & F2 & F3 & F4); eauto end.
Qed.
