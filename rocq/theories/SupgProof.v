(** Stabilised advection routines. *)
From Coq Require Import List Arith Lia Bool Reals Lra.
From Verif Require Import Res SumR DenseModel DenseR DenseSpec DenseProof DenseMain ShapeModel ShapeMain QuadModel QuadSpec
  ElemModel ElemSpec ElemProof ElemProof2 ElemProof3 ElemProof5 SupgSpec.
Import ListNotations.
Local Open Scope R_scope.

Lemma vel_pos ax ay : ax <> 0 \/ ay <> 0 -> 0 < vel ax ay.
Proof.
  intros H. unfold vel. apply sqrt_lt_R0. pose proof (Rle_0_sqr ax) as A. pose proof (Rle_0_sqr ay) as B. unfold Rsqr in *.
  destruct H as [H|H]; pose proof (Rsqr_pos_lt _ H) as C; unfold Rsqr in C; lra.
Qed.
Lemma vel_sq ax ay : vel ax ay * vel ax ay = ax * ax + ay * ay.
Proof. unfold vel. apply sqrt_sqrt. pose proof (Rle_0_sqr ax). pose proof (Rle_0_sqr ay). unfold Rsqr in *. lra. Qed.

Lemma bigsum_Sl m (f : nat -> R) : bigsum (S m) f = f O + bigsum m (fun i => f (S i)).
Proof. induction m as [|m IH]; [cbn; ring|]. change (bigsum (S (S m)) f) with (bigsum (S m) f + f (S m)). rewrite IH. cbn [bigsum]. ring. Qed.

Section S.
Variables (s : shape) (q : rule) (elem dou : list nat) (xs : list (list R)) (ax ay k : R).
Hypothesis He : element_ok 2 s q elem xs.
Hypothesis Hdou : length dou = 1%nat.
Hypothesis Ha : ax <> 0 \/ ay <> 0.
Hypothesis Hk : k <> 0.
Let x := nodal elem xs.
Let n := length elem.
Notation G r y := (gradU s x r y).
Notation val r y := (field_value s r y 0%nat).
Let DN g i := ax * gradN s x (pt q g) 0 i + ay * gradN s x (pt q g) 1 i.
Let S g := bigsum n (fun i => Rabs (DN g i)).
Let h g := 2 * vel ax ay / S g.

Lemma S_pos g : (g < q_n q)%nat -> 0 < S g.
Proof.
  intros Hg. assert (H0 : 0 <= S g) by (apply bigsum_nonneg; intros; apply Rabs_pos).
  destruct H0 as [|H0]; auto. exfalso.
  assert (HZ : forall i, (i < n)%nat -> DN g i = 0).
  { intros i Hi. pose proof (bigsum_nonneg_eq0 n (fun i => Rabs (DN g i)) ltac:(intros; apply Rabs_pos) ltac:(now symmetry) i Hi) as A.
    destruct (Req_dec (DN g i) 0); auto. apply Rabs_no_R0 in H. contradiction. }
  assert (HC : forall c, (c < 2)%nat -> ax * gradU s x (pt q g) x 0 c + ay * gradU s x (pt q g) x 1 c = 0).
  { intros c Hc. unfold gradU. rewrite <- !bigsum_scal, <- bigsum_plus. apply bigsum_zero. intros i Hi.
    replace (sf_n s) with n in Hi by (unfold n; apply He). replace (_ + _) with (DN g i * x i c) by (unfold DN; ring). rewrite HZ by auto. ring. }
  pose proof He as (Hs & Hd & _ & _ & _ & HJ).
  assert (GS : forall l c, (l < 2)%nat -> (c < 2)%nat -> gradU s x (pt q g) x l c = if (l =? c)%nat then 1 else 0).
  { intros l c Hl Hc.
    refine (gradients_eq s q elem xs 2 2 x (fun _ l c => if (l =? c)%nat then 1 else 0) He (le_n 2) _ g l c Hg Hl Hc).
    intros g' Hg'. apply (affine_gradient s x (pt q g') Hs 2 x (fun _ => 0)). rewrite Hd. intros i c' Hi Hc'. cbn [bigsum].
    destruct c' as [|[|c']]; try lia; cbn [Nat.eqb]; ring. }
  pose proof (HC 0%nat ltac:(lia)) as A. pose proof (HC 1%nat ltac:(lia)) as B. rewrite !GS in A, B by lia. cbn [Nat.eqb] in A, B. destruct Ha; lra.
Qed.
Lemma h_pos g : (g < q_n q)%nat -> 0 < h g.
Proof. intros Hg. unfold h. pose proof (vel_pos _ _ Ha). apply Rdiv_lt_0_compat; [lra|]. now apply S_pos. Qed.

Lemma fold_abs l na acc : na <> 0 ->
  foldM (fun s x => y <- Rdiv_res (Rabs x) na ;; Ok (s + y)) l acc = Ok (acc + bigsum (length l) (fun i => Rabs (nth i l 0) / na)).
Proof.
  intros Hn. revert acc. induction l as [|a l IH]; intros acc.
  - cbn. f_equal. ring.
  - cbn [foldM]. rewrite Rdiv_res_ok by auto. cbn [bind]. rewrite IH. f_equal. cbn [length]. rewrite bigsum_Sl. cbn [nth]. ring.
Qed.
Lemma tau_ok g Gm num v : (g < q_n q)%nat -> is_mat Gm 2 n (gradN s x (pt q g)) -> num (vel ax ay) (h g) = Ok v ->
  tau_of Gm [ax; ay] k num = Ok (v * upwind ax ay k (h g)).
Proof.
  intros Hg HG Hnum. unfold tau_of.
  destruct (Rmtrans _ _ _ _ HG) as (T & ET & HT). rewrite ET. cbn [bind].
  destruct (Rmmulv _ _ _ _ _ _ HT (is_vec_of_list [ax; ay])) as (da & Eda & Hda). cbn [length] in *. rewrite Eda. cbn [bind].
  rewrite (vnorm_ok _ _ _ (is_vec_of_list [ax; ay])). cbn [bind length bigsum nth].
  replace (sqrt (0 + ax * ax + ay * ay)) with (vel ax ay) by (unfold vel; f_equal; ring).
  pose proof (vel_pos _ _ Ha) as Hv. pose proof (S_pos g Hg) as HS.
  rewrite fold_abs by lra. cbn [bind].
  destruct (is_vec_nth _ _ _ 0 Hda) as [Ld Nd].
  assert (ES : 0 + bigsum (length da) (fun i => Rabs (nth i da 0) / vel ax ay) = S g / vel ax ay).
  { rewrite Rplus_0_l, Ld. unfold Rdiv. rewrite bigsum_scal_r. f_equal. unfold S. apply bigsum_ext; intros i Hi. rewrite Nd by auto. cbn [bigsum nth]. f_equal. unfold DN. ring. }
  rewrite ES. rewrite Rdiv_res_ok by (apply Rgt_not_eq, Rdiv_lt_0_compat; lra). cbn [bind].
  replace (2 / (S g / vel ax ay)) with (h g) by (unfold h; field; lra).
  rewrite Rdiv_res_ok by auto. cbn [bind]. rewrite Hnum. cbn [bind]. f_equal.
  assert (EP : 1 / 2 * vel ax ay * h g / k = peclet ax ay k (h g)) by (unfold peclet; field; auto).
  rewrite EP. unfold upwind, Rmin. destruct (Rle_dec (peclet ax ay k (h g)) 3), (Rle_dec 1 (peclet ax ay k (h g) / 3)); try lra.
  assert (peclet ax ay k (h g) = 3) as -> by lra. field.
Qed.
Lemma tau1_ok g Gm : (g < q_n q)%nat -> is_mat Gm 2 n (gradN s x (pt q g)) ->
  tau_of Gm [ax; ay] k (fun na he => Rdiv_res (1 / 2 * he) na) = Ok (tau_supg ax ay k (h g)).
Proof.
  intros Hg HG. pose proof (vel_pos _ _ Ha) as Hv. rewrite (tau_ok g Gm _ (h g / (2 * vel ax ay)) Hg HG); [reflexivity|].
  rewrite Rdiv_res_ok by lra. f_equal. field. lra.
Qed.
Lemma tau2_ok g Gm : (g < q_n q)%nat -> is_mat Gm 2 n (gradN s x (pt q g)) ->
  tau_of Gm [ax; ay] k (fun na he => Ok (1 / 2 * na * he)) = Ok (kappa_shock ax ay k (h g)).
Proof.
  intros Hg HG. rewrite (tau_ok g Gm _ (vel ax ay * h g / 2) Hg HG); [reflexivity|]. f_equal. field.
Qed.

Lemma G_sum g z l : (g < q_n q)%nat -> G (pt q g) z l 0%nat = bigsum (1 * n) (fun b => gradN s x (pt q g) l b * dofv 1 z b).
Proof.
  intros Hg. unfold x. rewrite <- (grd_gradU s elem xs 2 q) by auto. unfold grd. fold n. rewrite Nat.mul_1_l.
  apply bigsum_ext; intros b _. unfold dofv. now rewrite Nat.div_1_r, Nat.mod_1_r.
Qed.
Lemma av_ok tau g Gm T : (g < q_n q)%nat -> is_mat Gm 2 n (gradN s x (pt q g)) -> mtrans R_ops Gm = Ok T ->
  exists v f, mmulv R_ops (mscal R_ops tau T) [ax; ay] = Ok v /\ is_vec v n f /\
    forall y, bigsum (1 * n) (fun b => f b * dofv 1 y b) = tau * along ax ay (G (pt q g) y).
Proof.
  intros Hg HG ET. destruct (Rmtrans _ _ _ _ HG) as (T' & ET' & HT). rewrite ET in ET'. injection ET' as <-.
  destruct (Rmmulv _ _ _ _ _ _ (Rmscal tau _ _ _ _ HT) (is_vec_of_list [ax; ay])) as (v & Ev & Hv). cbn [length] in *.
  exists v. eexists. splits; [exact Ev|exact Hv|]. intros y. unfold along. rewrite !G_sum by auto.
  rewrite <- !bigsum_scal, <- bigsum_plus, <- bigsum_scal. apply bigsum_ext; intros b _. cbn [bigsum nth]. ring.
Qed.

Ltac wgt_ring := unfold quad; apply bigsum_ext; intros g _; unfold wgt; fold (pt q g); ring.
(** quadrature with point-dependent coefficient *)
Definition quadg (f : nat -> R) : R := bigsum (q_n q) (fun g => wgt 2 q g * f g).

Lemma supg_form : exists K ne, AdvectionSUPG s q elem dou xs ax ay k = Ok (K, ne) /\ numbered 1 n dou ne /\
  has_form 1 n K (fun y z => quadg (fun g => jac s x (pt q g) * (tau_supg ax ay k (h g) * (along ax ay (G (pt q g) y) * along ax ay (G (pt q g) z))))).
Proof.
  unfold AdvectionSUPG.
  match goal with |- context [scalar_loop elem dou xs q ?b] =>
    destruct (scalar_form s q elem dou xs b (fun g y z => tau_supg ax ay k (h g) * along ax ay (G (pt q g) y) * along ax ay (G (pt q g) z) * jac s x (pt q g) * wgt 2 q g) He Hdou) as (K & ne & E & Hn & H) end.
  - intros X g HX Hg. destruct (gradient_ok 2 s q elem xs He g X ltac:(lia) Hg HX) as (Gm & EG & HG). rewrite EG. cbn [bind].
    rewrite (tau1_ok g Gm Hg HG). cbn [bind]. destruct (Rmtrans _ _ _ _ HG) as (T & ET & HT). rewrite ET. cbn [bind].
    destruct (av_ok (tau_supg ax ay k (h g)) g Gm T Hg HG ET) as (v & f & Ev & Hv & EF). rewrite Ev. cbn [bind].
    destruct (Rnnt _ _ _ _ _ _ Hv (is_vec_of_list [ax; ay])) as (m & Em & Hm). rewrite Em. cbn [bind].
    destruct (Rmmul _ _ _ _ _ _ _ Hm HG) as (k1 & Ek & Hk1). rewrite Ek. cbn [bind].
    assert (HF : has_form 1 n k1 (fun y z => tau_supg ax ay k (h g) * along ax ay (G (pt q g) y) * along ax ay (G (pt q g) z))).
    { eexists. rewrite Nat.mul_1_l. split; [exact Hk1|]. intros y z. rewrite <- EF. unfold form, along at 1.
      rewrite !G_sum by auto. rewrite <- !bigsum_scal, <- bigsum_plus, bigsum_mult. apply bigsum_ext; intros a _. apply bigsum_ext; intros b _.
      unfold dofv. fold x. cbn [bigsum length nth]. ring. }
    pose proof (hf_scal _ _ _ _ (jac s x (pt q g)) HF) as H2.
    destruct (hf_weigh 2 2 _ _ q g _ _ (le_n 2) ltac:(apply He) Hg H2) as (k' & Ek' & Hk'). unfold x in *. rewrite Ek'. exists k'. split; auto.
  - exists K, ne. splits; auto. eapply has_form_eq; [|exact H]. intros y z. unfold quadg. apply bigsum_ext; intros g _. ring.
Qed.

Lemma mass_supg_form : exists K ne, MassSUPG s q elem dou xs ax ay k = Ok (K, ne) /\ numbered 1 n dou ne /\
  has_form 1 n K (fun y z => quadg (fun g => jac s x (pt q g) * (tau_supg ax ay k (h g) * (along ax ay (G (pt q g) y) * val (pt q g) z)))).
Proof.
  unfold MassSUPG.
  match goal with |- context [scalar_loop elem dou xs q ?b] =>
    destruct (scalar_form s q elem dou xs b (fun g y z => tau_supg ax ay k (h g) * along ax ay (G (pt q g) y) * val (pt q g) z * jac s x (pt q g) * wgt 2 q g) He Hdou) as (K & ne & E & Hn & H) end.
  - intros X g HX Hg. rewrite (gpoint_ok 2 q g ltac:(apply He) Hg). cbn [bind]. cbv zeta.
    destruct (gradient_ok 2 s q elem xs He g X ltac:(lia) Hg HX) as (Gm & EG & HG). rewrite EG. cbn [bind].
    rewrite (tau1_ok g Gm Hg HG). cbn [bind]. destruct (Rmtrans _ _ _ _ HG) as (T & ET & HT). rewrite ET. cbn [bind].
    destruct (av_ok (tau_supg ax ay k (h g)) g Gm T Hg HG ET) as (v & f & Ev & Hv & EF). rewrite Ev. cbn [bind].
    assert (HL : has_lin 1 n v (fun y => tau_supg ax ay k (h g) * along ax ay (G (pt q g) y))).
    { exists f. rewrite Nat.mul_1_l in *. split; auto. }
    destruct (hf_nnt _ _ _ _ _ HL (vec_N s q elem xs He g)) as (k1 & Ek & Hk1). rewrite Ek. cbn [bind].
    pose proof (hf_scal _ _ _ _ (jac s x (pt q g)) Hk1) as H2.
    destruct (hf_weigh 2 2 _ _ q g _ _ (le_n 2) ltac:(apply He) Hg H2) as (k' & Ek' & Hk'). unfold x in *. rewrite Ek'. exists k'. split; auto.
  - exists K, ne. splits; auto. eapply has_form_eq; [|exact H]. intros y z. unfold quadg. apply bigsum_ext; intros g _. ring.
Qed.

Lemma shock_form : exists K ne, AdvectionShockCapturing s q elem dou xs ax ay k = Ok (K, ne) /\ numbered 1 n dou ne /\
  has_form 1 n K (fun y z => quadg (fun g => jac s x (pt q g) * (kappa_shock ax ay k (h g) * bigsum 2 (fun l => G (pt q g) y l 0%nat * G (pt q g) z l 0%nat)))).
Proof.
  unfold AdvectionShockCapturing.
  match goal with |- context [scalar_loop elem dou xs q ?b] =>
    destruct (scalar_form s q elem dou xs b (fun g y z => kappa_shock ax ay k (h g) * bigsum 2 (fun l => G (pt q g) y l 0%nat * G (pt q g) z l 0%nat) * jac s x (pt q g) * wgt 2 q g) He Hdou) as (K & ne & E & Hn & H) end.
  - intros X g HX Hg. destruct (gradient_ok 2 s q elem xs He g X ltac:(lia) Hg HX) as (Gm & EG & HG). rewrite EG. cbn [bind].
    rewrite (tau2_ok g Gm Hg HG). cbn [bind]. destruct (Rmtrans _ _ _ _ HG) as (T & ET & HT). rewrite ET. cbn [bind].
    destruct (Rmmul _ _ _ _ _ _ _ (Rmscal (kappa_shock ax ay k (h g)) _ _ _ _ HT) HG) as (k1 & Ek & Hk1). rewrite Ek. cbn [bind].
    assert (HF : has_form 1 n k1 (fun y z => kappa_shock ax ay k (h g) * bigsum 2 (fun l => G (pt q g) y l 0%nat * G (pt q g) z l 0%nat))).
    { eexists. rewrite Nat.mul_1_l. split; [exact Hk1|]. intros y z. unfold form. cbn [bigsum]. rewrite !G_sum by auto.
      rewrite Rplus_0_l, !bigsum_mult, <- bigsum_plus, <- bigsum_scal. apply bigsum_ext; intros a _.
      rewrite <- bigsum_plus, <- bigsum_scal. apply bigsum_ext; intros b _. unfold dofv. fold x. ring. }
    pose proof (hf_scal _ _ _ _ (jac s x (pt q g)) HF) as H2.
    destruct (hf_weigh 2 2 _ _ q g _ _ (le_n 2) ltac:(apply He) Hg H2) as (k' & Ek' & Hk'). unfold x in *. rewrite Ek'. exists k'. split; auto.
  - exists K, ne. splits; auto. eapply has_form_eq; [|exact H]. intros y z. unfold quadg. apply bigsum_ext; intros g _. ring.
Qed.

(** h is the stream length of the shape-function gradients *)
Lemma h_spec Hn : shape_gradients s q x Hn -> forall g, (g < q_n q)%nat -> h g = stream_length n ax ay (fun i => Hn i (pt q g)).
Proof.
  intros HH g Hg. unfold h, stream_length. f_equal. f_equal. unfold S. apply bigsum_ext; intros i Hi. unfold along, DN. f_equal.
  assert (L : (i < sf_n s)%nat) by (replace (sf_n s) with n by (unfold n; apply He); auto).
  assert (A : forall l, (l < 2)%nat -> Hn i (pt q g) l 0%nat = gradN s x (pt q g) l i).
  { intros l Hl. rewrite <- (gradients_eq s q elem xs 2 1 (hat i) (Hn i) He (le_n 2) (HH i L) g l 0%nat) by (auto; lia).
    unfold gradU. rewrite (bigsum_single _ i); [|auto|intros j _ Hj; unfold hat; destruct (Nat.eqb_spec j i); [contradiction|ring]].
    unfold hat. rewrite Nat.eqb_refl. apply Rmult_1_r. }
  now rewrite !A by lia.
Qed.
End S.
