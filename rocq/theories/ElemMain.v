(** Properties C34-C38, C43, C59, C60: element matrices: the proofs. *)
From Coq Require Import List Arith Lia Bool Reals Lra.
From Verif Require Import Res SumR DenseModel DenseR DenseSpec ShapeModel QuadModel QuadSpec ElemModel ElemSpec.
Import ListNotations.
Local Open Scope R_scope.
From Verif Require Import DenseProof DenseMain ShapeMain ElemProof ElemProof2 ElemProof3.

Lemma stiffness_intro d m s q elem dou xs r W (F : field -> field -> R) :
  element_ok d s q elem xs -> (2 <= d)%nat ->
  (exists K ne, r = Ok (K, ne) /\ numbered m (length elem) dou ne /\ has_form m (length elem) K F) ->
  (forall y z, F y z = quad d q (fun p => jac s (nodal elem xs) p * W (gradU s (nodal elem xs) p y) (gradU s (nodal elem xs) p z))) ->
  (forall H H' Z Z', (forall l c, (l < d)%nat -> (c < m)%nat -> H l c = H' l c) -> (forall l c, (l < d)%nat -> (c < m)%nat -> Z l c = Z' l c) -> W H Z = W H' Z') ->
  stiffness_of d m s q elem dou xs r W.
Proof.
  intros He Hd (K & ne & Er & Hn & (k & Hk & EF)) HF HW. exists K, ne, k. splits; auto.
  intros y z Hy Hz Gy Gz. rewrite EF, HF. apply quad_ext. intros g Hg. f_equal. apply HW; intros l c Hl Hc.
  - now apply (gradients_eq s q elem xs d m).
  - now apply (gradients_eq s q elem xs d m).
Qed.
Lemma strain_ext d H H' : (forall l c, (l < d)%nat -> (c < d)%nat -> H l c = H' l c) ->
  forall i j, (i < d)%nat -> (j < d)%nat -> strain H i j = strain H' i j.
Proof. intros E i j Hi Hj. unfold strain. now rewrite !E. Qed.
Lemma hooke_strain_ext d l m H H' Z Z' : (forall i c, (i < d)%nat -> (c < d)%nat -> H i c = H' i c) ->
  (forall i c, (i < d)%nat -> (c < d)%nat -> Z i c = Z' i c) ->
  hooke d l m (strain H) (strain Z) = hooke d l m (strain H') (strain Z').
Proof. intros H1 H2. apply hooke_ext; now apply strain_ext. Qed.
Lemma eng_voigt H i : eng H i = voigt2 H i.
Proof. destruct i as [|[|i]]; unfold eng, voigt2, strain; field. Qed.

Lemma stiffness_symmetric d m s q elem dou xs r W : element_ok d s q elem xs -> (2 <= d)%nat ->
  stiffness_of d m s q elem dou xs r W -> (forall H Z, W H Z = W Z H) -> symmetric_result (m * length elem) r.
Proof.
  intros He Hd (K & ne & k & E & Hk & _ & HF) HW. exists K, ne, k. splits; auto.
  apply form_sym_entries. intros y z.
  rewrite (HF y z _ _ (gradients_gradU s q elem xs d m y He Hd) (gradients_gradU s q elem xs d m z He Hd)).
  rewrite (HF z y _ _ (gradients_gradU s q elem xs d m z He Hd) (gradients_gradU s q elem xs d m y He Hd)).
  apply quad_ext. intros g _. now rewrite HW.
Qed.
Lemma mass_symmetric d m s q elem dou xs r rho :
  mass_of d m s q elem dou xs r rho -> symmetric_result (m * length elem) r.
Proof.
  intros (K & ne & k & E & Hk & _ & HF). exists K, ne, k. splits; auto.
  apply form_sym_entries. intros y z. rewrite !HF. apply quad_ext. intros g _. do 2 f_equal. apply bigsum_ext; intros; ring.
Qed.
Lemma quad_nonneg d q f : (forall g, (g < q_n q)%nat -> 0 <= wprod d (nth g (q_weights q) []) * f (pt q g)) -> 0 <= quad d q f.
Proof. intros H. unfold quad. apply bigsum_nonneg. intros g Hg. exact (H g Hg). Qed.
Lemma vec_field N m (v : nat -> R) : (m <> 0)%nat -> exists y : field, forall a, (a < N)%nat -> v a = y (a / m)%nat (a mod m)%nat.
Proof. intros Hm. exists (fun i c => v (m * i + c)%nat). intros a _. now rewrite <- Nat.div_mod. Qed.
Lemma stiffness_psd d m s q elem dou xs r W : element_ok d s q elem xs -> (2 <= d)%nat -> (m <> 0)%nat ->
  stiffness_of d m s q elem dou xs r W -> positive_rule d s q (nodal elem xs) -> (forall H, 0 <= W H H) -> psd_result (m * length elem) r.
Proof.
  intros He Hd Hm (K & ne & k & E & Hk & _ & HF) HP HW. exists K, ne, k. splits; auto.
  intros v. destruct (vec_field (m * length elem) m v Hm) as (y & Hy).
  rewrite (bigsum_ext _ _ (fun a => bigsum (m * length elem) (fun b => y (a / m)%nat (a mod m)%nat * k a b * y (b / m)%nat (b mod m)%nat))).
  2:{ intros a Ha. apply bigsum_ext. intros b Hb. now rewrite !Hy. }
  change (0 <= form m (length elem) k y y).
  rewrite (HF y y _ _ (gradients_gradU s q elem xs d m y He Hd) (gradients_gradU s q elem xs d m y He Hd)).
  apply quad_nonneg. intros g Hg. destruct (HP g Hg) as [HJ Hw]. specialize (HW (gradU s (nodal elem xs) (pt q g) y)).
  apply Rmult_le_pos; [lra|]. apply Rmult_le_pos; lra.
Qed.
Lemma stiffness_kills d m s q elem dou xs r W z H : element_ok d s q elem xs -> (2 <= d)%nat ->
  stiffness_of d m s q elem dou xs r W -> gradients s q (nodal elem xs) m z H -> (forall Y p, W Y (H p) = 0) ->
  kills m (length elem) r z.
Proof.
  intros He Hd (K & ne & k & E & Hk & _ & HF) HG HW. exists K, ne, k. splits; auto. intros a Ha.
  rewrite <- form_unit by auto. rewrite (HF (unitv m a) z _ _ (gradients_gradU s q elem xs d m (unitv m a) He Hd) HG).
  unfold quad. apply bigsum_zero. intros g _. cbv beta. rewrite HW. ring.
Qed.
Lemma hooke_sym d l m e f : hooke d l m e f = hooke d l m f e.
Proof.
  unfold hooke. assert (ddot d e f = ddot d f e) as ->; [|ring].
  unfold ddot. apply bigsum_ext; intros i _. apply bigsum_ext; intros j _. ring.
Qed.
Lemma hooke2_nonneg l m e : 0 <= m -> 0 <= l + m -> 0 <= hooke 2 l m e e.
Proof.
  intros Hm Hl. unfold hooke, trace, ddot. cbn [bigsum].
  replace (_ + _) with ((l + m) * (e 0%nat 0%nat + e 1%nat 1%nat)² + m * ((e 0%nat 0%nat - e 1%nat 1%nat)² + 2 * (e 0%nat 1%nat)² + 2 * (e 1%nat 0%nat)²)) by (unfold Rsqr; ring).
  apply Rplus_le_le_0_compat; apply Rmult_le_pos; auto; [apply Rle_0_sqr|].
  pose proof (Rle_0_sqr (e 0%nat 0%nat - e 1%nat 1%nat)). pose proof (Rle_0_sqr (e 0%nat 1%nat)). pose proof (Rle_0_sqr (e 1%nat 0%nat)). lra.
Qed.
Lemma hooke3_nonneg l m e : 0 <= m -> 0 <= 3 * l + 2 * m -> 0 <= hooke 3 l m e e.
Proof.
  intros Hm Hl. unfold hooke, trace, ddot. cbn [bigsum].
  set (a := e 0%nat 0%nat). set (b := e 1%nat 1%nat). set (c := e 2%nat 2%nat).
  match goal with |- 0 <= ?t => replace t with ((3 * l + 2 * m) * ((a + b + c)² / 3) + 2 * m * (((a - b)² + (b - c)² + (c - a)²) / 3
    + (e 0%nat 1%nat)² + (e 1%nat 0%nat)² + (e 0%nat 2%nat)² + (e 2%nat 0%nat)² + (e 1%nat 2%nat)² + (e 2%nat 1%nat)²)) by (unfold Rsqr, a, b, c; field) end.
  pose proof (Rle_0_sqr (a + b + c)). pose proof (Rle_0_sqr (a - b)). pose proof (Rle_0_sqr (b - c)). pose proof (Rle_0_sqr (c - a)).
  pose proof (Rle_0_sqr (e 0%nat 1%nat)). pose proof (Rle_0_sqr (e 1%nat 0%nat)). pose proof (Rle_0_sqr (e 0%nat 2%nat)).
  pose proof (Rle_0_sqr (e 2%nat 0%nat)). pose proof (Rle_0_sqr (e 1%nat 2%nat)). pose proof (Rle_0_sqr (e 2%nat 1%nat)).
  apply Rplus_le_le_0_compat; apply Rmult_le_pos; lra.
Qed.
Lemma hooke_skew d l m e f : (forall i j, f i j = 0) -> hooke d l m e f = 0.
Proof.
  intros H. unfold hooke. assert (trace d f = 0) as ->. { unfold trace. apply bigsum_zero. intros; apply H. }
  assert (ddot d e f = 0) as ->; [|ring]. unfold ddot. apply bigsum_zero; intros. apply bigsum_zero; intros. rewrite H; ring.
Qed.
Lemma skew_strain W : (forall l c, W l c = - W c l) -> forall i j, strain W i j = 0.
Proof. intros H i j. unfold strain. rewrite (H i j). field. Qed.
Lemma rigid_gradients d s q elem xs z : element_ok d s q elem xs -> (2 <= d)%nat -> rigid_motion d (length elem) (nodal elem xs) z ->
  exists W, (forall l c, W l c = - W c l) /\ gradients s q (nodal elem xs) d z (fun _ => W).
Proof.
  intros He Hd (a & W & HW & Hz). exists W. split; auto. intros g Hg. destruct He as (Hs & Hsd & HL & _ & _ & HJ). subst d.
  eapply affine_gradient; auto. intros i c Hi Hc. rewrite <- HL in Hi. exact (Hz i c Hi Hc).
Qed.

Lemma mat_eq (a b : mat R) r c f g : is_mat a r c f -> is_mat b r c g -> (forall i j, (i < r)%nat -> (j < c)%nat -> f i j = g i j) -> a = b.
Proof.
  intros Ha Hb H. destruct (is_mat_ent R_ops _ _ _ _ Ha) as (Wa & Ra & Ca & Ea). destruct (is_mat_ent R_ops _ _ _ _ Hb) as (Wb & Rb & Cb & Eb).
  destruct a as [ra ca va], b as [rb cb vb]. unfold mat_wf, ent in *. cbn [mrow mcol mval] in *. subst. f_equal.
  apply (nth_ext va vb 0 0); [congruence|]. intros k Hk.
  assert (c <> 0)%nat by (intros ->; rewrite Nat.mul_0_r in Wa; lia).
  assert (k / c < r)%nat by (apply Nat.div_lt_upper_bound; lia).
  assert (k mod c < c)%nat by (now apply Nat.mod_upper_bound).
  specialize (Ea (k / c)%nat (k mod c)%nat ltac:(auto) ltac:(auto)). specialize (Eb (k / c)%nat (k mod c)%nat ltac:(auto) ltac:(auto)).
  rewrite (Nat.mul_comm (k / c) c), <- Nat.div_mod in Ea, Eb by auto. cbn [o0 R_ops] in *. rewrite Ea, Eb. auto.
Qed.
Lemma numbered_eq m n dou ne ne' : numbered m n dou ne -> numbered m n dou ne' -> ne = ne'.
Proof.
  intros [L H] [L' H']. apply (nth_ext ne ne' [] []); [congruence|]. intros i Hi. rewrite L in Hi.
  destruct (H i Hi) as [Li Hj]. destruct (H' i Hi) as [Li' Hj']. apply (nth_ext _ _ (O, O) (O, O)); [congruence|].
  intros j Hj0. rewrite Li in Hj0. now rewrite Hj, Hj'.
Qed.
Lemma form_entry m n k a b : (a < m * n)%nat -> (b < m * n)%nat -> form m n k (unitv m a) (unitv m b) = k a b.
Proof. intros. now rewrite form_unit, apply_unit. Qed.
Lemma same_result m n dou (r r' : res (mat R * nte_t)) F F' :
  (exists K ne, r = Ok (K, ne) /\ numbered m n dou ne /\ has_form m n K F) ->
  (exists K ne, r' = Ok (K, ne) /\ numbered m n dou ne /\ has_form m n K F') ->
  (forall y z, F y z = F' y z) -> r = r'.
Proof.
  intros (K & ne & -> & Hn & (k & Hk & EF)) (K' & ne' & -> & Hn' & (k' & Hk' & EF')) H.
  rewrite (numbered_eq _ _ _ _ _ Hn Hn'). do 2 f_equal. apply (mat_eq _ _ _ _ _ _ Hk Hk'). intros a b Ha Hb.
  rewrite <- (form_entry m n k a b), <- (form_entry m n k' a b) by auto. now rewrite EF, EF', H.
Qed.
Lemma form_symmetric m n (r : res (mat R * nte_t)) dou F :
  (exists K ne, r = Ok (K, ne) /\ numbered m n dou ne /\ has_form m n K F) -> (forall y z, F y z = F z y) -> symmetric_result (m * n) r.
Proof.
  intros (K & ne & -> & _ & (k & Hk & EF)) H. exists K, ne, k. splits; auto. apply form_sym_entries. intros. rewrite !EF. apply H.
Qed.
Lemma quad_form3_sym D a b : (forall i j, (i < 3)%nat -> (j < 3)%nat -> D i j = D j i) -> quad_form3 D a b = quad_form3 D b a.
Proof.
  intros H. unfold quad_form3. rewrite bigsum_swap. apply bigsum_ext; intros i Hi. apply bigsum_ext; intros j Hj. rewrite (H j i) by auto. ring.
Qed.

Section Calls.
Variables (s : shape) (q : rule) (elem dou : list nat) (xs : list (list R)) (E V t : R).
Lemma call_strain : element_ok 2 s q elem xs -> length dou = 2%nat -> (1 - 2 * V) * (1 + V) <> 0 ->
  stiffness_of 2 2 s q elem dou xs (PlaneStrainStiffness s q elem dou xs E V t)
    (fun H Z => t * hooke 2 (lame_lambda E V) (lame_mu E V) (strain H) (strain Z)).
Proof.
  intros He Hd HV. destruct (D_strain_ok E V HV) as (D & Df & ED & HD & FD).
  eapply stiffness_intro; [exact He|lia| | |].
  - unfold PlaneStrainStiffness. rewrite ED. cbn [bind]. exact (plane_stiffness_form s q elem dou xs D Df t He Hd HD).
  - intros y z. apply quad_ext. intros g _. rewrite (proj1 (FD _ _)). ring.
  - intros H H' Z Z' H1 H2. f_equal. now apply hooke_strain_ext.
Qed.
Lemma call_stress : element_ok 2 s q elem xs -> length dou = 2%nat -> (1 - V) * (1 + V) <> 0 ->
  stiffness_of 2 2 s q elem dou xs (PlaneStressStiffness s q elem dou xs E V t)
    (fun H Z => t * hooke 2 (E * V / ((1 - V) * (1 + V))) (lame_mu E V) (strain H) (strain Z)).
Proof.
  intros He Hd HV. destruct (D_stress_ok E V HV) as (D & Df & ED & HD & FD).
  eapply stiffness_intro; [exact He|lia| | |].
  - unfold PlaneStressStiffness. rewrite ED. cbn [bind]. exact (plane_stiffness_form s q elem dou xs D Df t He Hd HD).
  - intros y z. apply quad_ext. intros g _. rewrite FD. ring.
  - intros H H' Z Z' H1 H2. f_equal. now apply hooke_strain_ext.
Qed.
Lemma plane_form D Df : element_ok 2 s q elem xs -> length dou = 2%nat -> is_mat D 3 3 Df ->
  exists K ne, PlaneStiffness s q elem dou xs D t = Ok (K, ne) /\ numbered 2 (length elem) dou ne /\
    has_form 2 (length elem) K (fun y z => quad 2 q (fun r => jac s (nodal elem xs) r * t *
      quad_form3 Df (voigt2 (gradU s (nodal elem xs) r y)) (voigt2 (gradU s (nodal elem xs) r z)))).
Proof.
  intros He Hd HD. unfold PlaneStiffness. destruct HD as (W & R1 & C1 & HD). rewrite R1, C1. cbn [Nat.eqb andb assert_ bind].
  apply plane_stiffness_form; auto. unfold is_mat. splits; auto; apply HD.
Qed.
Lemma call_plane D Df : element_ok 2 s q elem xs -> length dou = 2%nat -> is_mat D 3 3 Df ->
  stiffness_of 2 2 s q elem dou xs (PlaneStiffness s q elem dou xs D t)
    (fun H Z => t * bigsum 3 (fun i => bigsum 3 (fun j => eng H i * Df i j * eng Z j))).
Proof.
  intros He Hd HD. eapply stiffness_intro; [exact He|lia|exact (plane_form D Df He Hd HD)| |].
  - intros y z. apply quad_ext. intros g _. unfold quad_form3. rewrite Rmult_assoc. do 2 f_equal.
    apply bigsum_ext; intros i _. apply bigsum_ext; intros j _. now rewrite !eng_voigt.
  - intros H H' Z Z' H1 H2. f_equal. apply bigsum_ext; intros i _. apply bigsum_ext; intros j _. rewrite !eng_voigt.
    now rewrite (voigt2_ext i _ _ H1), (voigt2_ext j _ _ H2).
Qed.
Lemma call_solid : element_ok 3 s q elem xs -> length dou = 3%nat -> (1 + V) * (1 - 2 * V) <> 0 ->
  stiffness_of 3 3 s q elem dou xs (SolidLinearIsotropicElastic s q elem dou xs E V)
    (fun H Z => hooke 3 (lame_lambda E V) (lame_mu E V) (strain H) (strain Z)).
Proof.
  intros He Hd HV. eapply stiffness_intro; [exact He|lia|exact (solid_form s q elem dou xs E V He Hd HV)| |].
  - intros y z. reflexivity.
  - intros H H' Z Z' H1 H2. now apply hooke_strain_ext.
Qed.
Lemma call_heat alpha : element_ok 2 s q elem xs -> length dou = 1%nat ->
  stiffness_of 2 1 s q elem dou xs (HeatTransfer s q elem dou xs alpha t)
    (fun H Z => alpha * t * bigsum 2 (fun l => H l 0%nat * Z l 0%nat)).
Proof.
  intros He Hd. eapply stiffness_intro; [exact He|lia|exact (heat_form s q elem dou xs He Hd alpha t)| |].
  - intros y z. apply quad_ext. intros g _. ring.
  - intros H H' Z Z' H1 H2. f_equal. apply bigsum_ext. intros l Hl. now rewrite H1, H2 by lia.
Qed.
Lemma call_diffusion kap : element_ok 2 s q elem xs -> length dou = 1%nat ->
  stiffness_of 2 1 s q elem dou xs (Diffusion s q elem dou xs kap)
    (fun H Z => kap * bigsum 2 (fun l => H l 0%nat * Z l 0%nat)).
Proof.
  intros He Hd. eapply stiffness_intro; [exact He|lia|exact (diffusion_form s q elem dou xs He Hd kap)| |].
  - intros y z. apply quad_ext. intros g _. ring.
  - intros H H' Z Z' H1 H2. f_equal. apply bigsum_ext. intros l Hl. now rewrite H1, H2 by lia.
Qed.
Lemma mass_intro m r rho F : 
  (exists K ne, r = Ok (K, ne) /\ numbered m (length elem) dou ne /\ has_form m (length elem) K F) ->
  (forall y z, F y z = quad 2 q (fun p => jac s (nodal elem xs) p * (rho * bigsum m (fun c => field_value s p y c * field_value s p z c)))) ->
  mass_of 2 m s q elem dou xs r rho.
Proof. intros (K & ne & Er & Hn & (k & Hk & EF)) HF. exists K, ne, k. splits; auto. intros. now rewrite EF, HF. Qed.
Lemma call_plane_mass rho : element_ok 2 s q elem xs -> length dou = 2%nat ->
  mass_of 2 2 s q elem dou xs (PlaneMass s q elem dou xs rho t) (rho * t).
Proof.
  intros He Hd. eapply mass_intro; [exact (plane_mass_form s q elem dou xs rho t He Hd)|].
  intros y z. apply quad_ext. intros g _. ring.
Qed.
Lemma call_capacity rho c : element_ok 2 s q elem xs -> length dou = 1%nat ->
  mass_of 2 1 s q elem dou xs (HeatCapacity s q elem dou xs rho c t) (rho * c * t).
Proof.
  intros He Hd. eapply mass_intro; [exact (capacity_form s q elem dou xs He Hd rho c t)|].
  intros y z. apply quad_ext. intros g _. cbn [bigsum]. ring.
Qed.
Lemma call_mass : element_ok 2 s q elem xs -> length dou = 1%nat -> mass_of 2 1 s q elem dou xs (Mass s q elem dou xs) 1.
Proof.
  intros He Hd. eapply mass_intro; [exact (mass_form s q elem dou xs He Hd)|].
  intros y z. apply quad_ext. intros g _. cbn [bigsum]. ring.
Qed.
Lemma call_rd_mass : element_ok 2 s q elem xs -> length dou = 1%nat -> mass_of 2 1 s q elem dou xs (ReactionDiffusionConsistentMass s q elem dou xs) 1.
Proof.
  intros He Hd. eapply mass_intro; [exact (rd_mass_form s q elem dou xs He Hd)|].
  intros y z. apply quad_ext. intros g _. cbn [bigsum]. ring.
Qed.
End Calls.

(** block sums of a mass matrix *)
Lemma value_one s r c c' : In s all_shapes -> field_value s r (fun _ b => if (b =? c)%nat then 1 else 0) c' = if (c' =? c)%nat then 1 else 0.
Proof.
  intros Hs. unfold field_value. rewrite bigsum_scal_r. unfold shp.
  pose proof (shp_sum s Hs r) as H. unfold shp in H. rewrite H. ring.
Qed.
Lemma form_block m n k c c' : (c < m)%nat -> (c' < m)%nat ->
  form m n k (fun _ b => if (b =? c)%nat then 1 else 0) (fun _ b => if (b =? c')%nat then 1 else 0) =
  bigsum n (fun i => bigsum n (fun j => k (m * i + c)%nat (m * j + c')%nat)).
Proof.
  intros Hc Hc'.
  assert (B : forall (f : nat -> R) c, (c < m)%nat -> bigsum (m * n) (fun a => (if (a mod m =? c)%nat then 1 else 0) * f a) = bigsum n (fun i => f (m * i + c)%nat)).
  { clear. intros f c Hc. induction n as [|n IH]; [now rewrite Nat.mul_0_r|].
    replace (m * S n)%nat with (m * n + m)%nat by lia. rewrite bigsum_split, IH. cbn [bigsum]. f_equal.
    rewrite (bigsum_ext _ _ (fun i => (if (c =? i)%nat then 1 else 0) * f (m * n + i)%nat)).
    - now rewrite (bigsum_ite m c (fun i => f (m * n + i)%nat)).
    - intros i Hi. destruct (dm m n i Hi) as [_ ->]. now rewrite Nat.eqb_sym. }
  unfold form.
  rewrite (bigsum_ext _ _ (fun a => (if (a mod m =? c)%nat then 1 else 0) * bigsum n (fun j => k a (m * j + c')%nat))).
  - now rewrite (B (fun a => bigsum n (fun j => k a (m * j + c')%nat)) c Hc).
  - intros a _. rewrite <- (B (fun b => k a b) c' Hc'), <- bigsum_scal. apply bigsum_ext; intros b _. ring.
Qed.
Lemma mass_total m s q elem dou xs r rho : In s all_shapes -> mass_of 2 m s q elem dou xs r rho ->
  exists K ne k, r = Ok (K, ne) /\ is_mat K (m * length elem) (m * length elem) k /\
    forall c c', (c < m)%nat -> (c' < m)%nat ->
      bigsum (length elem) (fun i => bigsum (length elem) (fun j => k (m * i + c)%nat (m * j + c')%nat)) =
      if (c =? c')%nat then rho * quad 2 q (jac s (nodal elem xs)) else 0.
Proof.
  intros Hs (K & ne & k & E & Hk & _ & HF). exists K, ne, k. splits; auto. intros c c' Hc Hc'.
  rewrite <- form_block by auto. rewrite HF.
  rewrite (quad_ext _ _ _ (fun p => jac s (nodal elem xs) p * (rho * (if (c =? c')%nat then 1 else 0)))).
  - rewrite quad_scal. destruct (c =? c')%nat; ring.
  - intros g _. do 2 f_equal.
    rewrite (bigsum_ext _ _ (fun b => (if (c =? b)%nat then 1 else 0) * (if (b =? c')%nat then 1 else 0))).
    + now rewrite (bigsum_ite m c (fun b => if (b =? c')%nat then 1 else 0)).
    + intros b _. rewrite !value_one by auto. now rewrite (Nat.eqb_sym b c).
Qed.

(** stacking of the nodes *)
Lemma stack_ok d elem xs : (forall e, In e elem -> (e < length xs)%nat /\ length (nth e xs []) = d) ->
  exists X, stack_nodes d elem xs = Ok X /\ is_mat X (length elem) d (nodal elem xs).
Proof.
  intros H. unfold stack_nodes.
  assert (G : forall l pre X, elem = pre ++ l -> is_mat X (length pre) d (nodal elem xs) ->
    exists X', foldM (fun X e => v <- rd xs e ;; vt <- vtrans R_ops v ;; mvstack R_ops X vt) l X = Ok X' /\ is_mat X' (length elem) d (nodal elem xs)).
  { induction l as [|e l IH]; intros pre X Hp HX.
    - exists X. split; auto. rewrite app_nil_r in Hp. now subst pre.
    - cbn [foldM]. destruct (H e) as [He Hl]; [rewrite Hp; apply in_or_app; right; now left|].
      rewrite (rd_nth _ _ []) by auto. cbn [bind].
      pose proof (is_vec_of_list (nth e xs [])) as HV. rewrite Hl in HV.
      destruct (Rvtrans _ _ _ HV) as (vt & Evt & Hvt). rewrite Evt. cbn [bind].
      destruct (C19_reshape_pf R R_ops X (length pre) d _ HX) as (_ & HS & _).
      destruct (HS vt 1%nat _ Hvt) as (X' & EX' & HX'). rewrite EX'. cbn [bind].
      apply (IH (pre ++ [e]) X'); [rewrite <- app_assoc; exact Hp|]. rewrite app_length. cbn [length].
      eapply is_mat_ext; [|exact HX']. intros i j Hi Hj. cbv beta. unfold nodal.
      destruct (Nat.ltb_spec i (length pre)); auto. replace i with (length pre) by lia.
      rewrite Hp, app_nth2, Nat.sub_diag by lia. reflexivity. }
  destruct (G elem [] (mnew R_ops 0 d)) as (X & E & HX); auto. 2:{ exists X. auto. }
  eapply is_mat_ext; [|apply Rmnew]. cbn [length]. intros; lia.
Qed.

Lemma jacobian_any d s q elem xs g X : In s all_shapes -> sf_d s = d -> length elem = sf_n s -> rule_ok d q ->
  (g < q_n q)%nat -> is_mat X (length elem) d (nodal elem xs) ->
  exists T D, jacobian s q g X = Ok (jac s (nodal elem xs) (pt q g), T, D).
Proof.
  intros Hs Hd HL Hq Hg HX. subst d. unfold jacobian. rewrite (gpoint_ok _ q g Hq Hg). cbn [bind]. rewrite HL in HX.
  destruct (Rmmul _ _ _ _ _ _ _ (sf_mat_ok s Hs (nth g (q_points q) [])) HX) as (T & ET & HT).
  rewrite ET. cbn [bind]. rewrite (Rdetd _ _ _ (sf_d_range s Hs) HT). cbn [bind]. do 2 eexists. reflexivity.
Qed.
Definition exact_nodes (d : nat) (elem : list nat) (xs : list (list R)) : Prop :=
  forall e, In e elem -> (e < length xs)%nat /\ length (nth e xs []) = d.
Lemma area_ok s q elem xs : In s all_shapes -> sf_d s = 2%nat -> length elem = sf_n s -> rule_ok 2 q -> exact_nodes 2 elem xs ->
  Area s q xs elem = Ok (quad 2 q (jac s (nodal elem xs))).
Proof.
  intros Hs Hd HL Hq Hx. unfold Area. destruct (stack_ok 2 elem xs Hx) as (X & EX & HX). rewrite EX. cbn [bind].
  rewrite (gausss_ok0 q _ (fun g => jac s (nodal elem xs) (pt q g) * wgt 2 q g)).
  - f_equal. unfold quad. apply bigsum_ext. intros g _. unfold wgt, pt. ring.
  - intros g Hg. destruct (jacobian_any 2 s q elem xs g X Hs Hd HL Hq Hg HX) as (T & D & ->). cbn [bind fst]. now apply (weighs_ok 2 2).
Qed.
Lemma volume_ok s q elem xs : In s all_shapes -> sf_d s = 3%nat -> length elem = sf_n s -> rule_ok 3 q -> exact_nodes 3 elem xs ->
  Volume s q xs elem = Ok (quad 3 q (jac s (nodal elem xs))).
Proof.
  intros Hs Hd HL Hq Hx. unfold Volume. destruct (stack_ok 3 elem xs Hx) as (X & EX & HX). rewrite EX. cbn [bind].
  rewrite (gausss_ok0 q _ (fun g => jac s (nodal elem xs) (pt q g) * wgt 3 q g)).
  - f_equal. unfold quad. apply bigsum_ext. intros g _. unfold wgt, pt. ring.
  - intros g Hg. destruct (jacobian_any 3 s q elem xs g X Hs Hd HL Hq Hg HX) as (T & D & ->). cbn [bind fst]. now apply (weighs_ok 3 3).
Qed.


Lemma C59_plane_pf : forall s q elem dou xs E V t,
  element_ok 2 s q elem xs -> length dou = 2%nat ->
  ((1 - 2 * V) * (1 + V) <> 0 ->
     stiffness_of 2 2 s q elem dou xs (PlaneStrainStiffness s q elem dou xs E V t)
       (fun H Z => t * hooke 2 (lame_lambda E V) (lame_mu E V) (strain H) (strain Z))) /\
  ((1 - V) * (1 + V) <> 0 ->
     stiffness_of 2 2 s q elem dou xs (PlaneStressStiffness s q elem dou xs E V t)
       (fun H Z => t * hooke 2 (E * V / ((1 - V) * (1 + V))) (lame_mu E V) (strain H) (strain Z))) /\
  (forall D Df, is_mat D 3 3 Df ->
     stiffness_of 2 2 s q elem dou xs (PlaneStiffness s q elem dou xs D t)
       (fun H Z => t * bigsum 3 (fun i => bigsum 3 (fun j => eng H i * Df i j * eng Z j)))).
Proof.
  intros. splits; intros.
  - now apply call_strain.
  - now apply call_stress.
  - now apply call_plane.
Qed.

Lemma C59_solid_pf : forall s q elem dou xs E V,
  element_ok 3 s q elem xs -> length dou = 3%nat -> (1 + V) * (1 - 2 * V) <> 0 ->
  stiffness_of 3 3 s q elem dou xs (SolidLinearIsotropicElastic s q elem dou xs E V)
    (fun H Z => hooke 3 (lame_lambda E V) (lame_mu E V) (strain H) (strain Z)).
Proof. intros. now apply call_solid. Qed.

Lemma C59_scalar_pf : forall s q elem dou xs alpha t kap rho c,
  element_ok 2 s q elem xs -> length dou = 1%nat ->
  stiffness_of 2 1 s q elem dou xs (HeatTransfer s q elem dou xs alpha t)
    (fun H Z => alpha * t * bigsum 2 (fun l => H l 0%nat * Z l 0%nat)) /\
  stiffness_of 2 1 s q elem dou xs (Diffusion s q elem dou xs kap)
    (fun H Z => kap * bigsum 2 (fun l => H l 0%nat * Z l 0%nat)) /\
  mass_of 2 1 s q elem dou xs (HeatCapacity s q elem dou xs rho c t) (rho * c * t) /\
  mass_of 2 1 s q elem dou xs (Mass s q elem dou xs) 1 /\
  mass_of 2 1 s q elem dou xs (ReactionDiffusionConsistentMass s q elem dou xs) 1.
Proof.
  intros. splits.
  - now apply call_heat.
  - now apply call_diffusion.
  - now apply call_capacity.
  - now apply call_mass.
  - now apply call_rd_mass.
Qed.

Lemma C59_advection_pf : forall s q elem dou xs cx cy,
  element_ok 2 s q elem xs -> length dou = 1%nat ->
  exists K ne k, Advection s q elem dou xs cx cy = Ok (K, ne) /\ is_mat K (length elem) (length elem) k /\
    numbered 1 (length elem) dou ne /\
    forall y z Hz, gradients s q (nodal elem xs) 1 z Hz ->
      form 1 (length elem) k y z =
      quad 2 q (fun p => jac s (nodal elem xs) p * (field_value s p y 0 * (cx * Hz p 0%nat 0%nat + cy * Hz p 1%nat 0%nat))).
Proof.
  intros s q elem dou xs cx cy He Hd. destruct (advection_form s q elem dou xs He Hd cx cy) as (K & ne & E & Hn & (k & Hk & HF)).
  exists K, ne, k. rewrite Nat.mul_1_l in Hk. splits; auto. intros y z Hz HG. rewrite HF. apply quad_ext. intros g Hg.
  now rewrite !(gradients_eq s q elem xs 2 1 z Hz He (le_n 2) HG g) by (auto; lia).
Qed.

Lemma C59_plane_mass_pf : forall s q elem dou xs rho t,
  element_ok 2 s q elem xs -> length dou = 2%nat ->
  mass_of 2 2 s q elem dou xs (PlaneMass s q elem dou xs rho t) (rho * t).
Proof. intros. now apply call_plane_mass. Qed.

Lemma C34_symmetric_plane_pf : forall s q elem dou xs E V t rho D Df,
  element_ok 2 s q elem xs -> length dou = 2%nat -> (1 - 2 * V) * (1 + V) <> 0 -> (1 - V) * (1 + V) <> 0 ->
  is_mat D 3 3 Df -> (forall i j, (i < 3)%nat -> (j < 3)%nat -> Df i j = Df j i) ->
  forall r, In r [ PlaneStrainStiffness s q elem dou xs E V t; PlaneStressStiffness s q elem dou xs E V t;
                   PlaneStiffness s q elem dou xs D t; PlaneMass s q elem dou xs rho t ] ->
  symmetric_result (2 * length elem) r.
Proof.
  intros s q elem dou xs E V t rho D Df He Hd H1 H2 HD HS r [<-|[<-|[<-|[<-|[]]]]].
  - eapply (stiffness_symmetric 2 2); [exact He|lia|now apply call_strain|]. intros. cbv beta. now rewrite hooke_sym.
  - eapply (stiffness_symmetric 2 2); [exact He|lia|now apply call_stress|]. intros. cbv beta. now rewrite hooke_sym.
  - eapply (stiffness_symmetric 2 2); [exact He|lia|now apply call_plane with (Df := Df)|]. intros. cbv beta. f_equal.
    rewrite bigsum_swap. apply bigsum_ext; intros i Hi. apply bigsum_ext; intros j Hj. rewrite (HS j i) by auto. ring.
  - eapply (mass_symmetric 2 2). now apply call_plane_mass.
Qed.

Lemma C34_symmetric_selective_pf : forall s qv qd elem dou xs E V t D Df,
  element_ok 2 s qv elem xs -> element_ok 2 s qd elem xs -> length dou = 2%nat -> (1 - 2 * V) * (1 + V) <> 0 ->
  is_mat D 3 3 Df -> (forall i j, (i < 3)%nat -> (j < 3)%nat -> Df i j = Df j i) ->
  forall r, In r [ PlaneStrainStiffnessSRI s qv qd elem dou xs E V t; PlaneStrainStiffnessBbar s qv qd elem dou xs E V t;
                   PlaneStiffnessBbar s qv qd elem dou xs D t ] ->
  symmetric_result (2 * length elem) r.
Proof.
  intros s qv qd elem dou xs E V t D Df Hv Hdd Hd H1 HD HS r Hr.
  assert (B : forall D Df, is_mat D 3 3 Df -> (forall i j, (i < 3)%nat -> (j < 3)%nat -> Df i j = Df j i) ->
    symmetric_result (2 * length elem) (PlaneStiffnessBbar s qv qd elem dou xs D t)).
  { intros D' Df' HD' HS'. eapply form_symmetric; [apply (Bbar_form s qv qd elem dou xs D' Df' t Hv Hdd Hd HD')|].
    intros y z. cbv beta. f_equal; apply quad_ext; intros g _; f_equal; now apply quad_form3_sym. }
  destruct Hr as [<-|[<-|[<-|[]]]].
  - eapply form_symmetric; [apply SRI_form; auto; nra|]. intros y z. cbv beta. f_equal; apply quad_ext; intros g _; [ring|]. do 3 f_equal.
    + unfold ddot. apply bigsum_ext; intros i _. apply bigsum_ext; intros j _. ring.
    + field.
  - unfold PlaneStrainStiffnessBbar. unfold D_strain. rewrite Rdiv_res_ok by auto. cbn [bind].
    eapply B; [apply Rmscal, is_mat_of_list; reflexivity|].
    intros i j Hi Hj. destruct i as [|[|[|i]]]; try lia; destruct j as [|[|[|j]]]; try lia; reflexivity.
  - now apply B with Df.
Qed.

Lemma C34_symmetric_solid_pf : forall s q elem dou xs E V,
  element_ok 3 s q elem xs -> length dou = 3%nat -> (1 + V) * (1 - 2 * V) <> 0 ->
  symmetric_result (3 * length elem) (SolidLinearIsotropicElastic s q elem dou xs E V).
Proof.
  intros s q elem dou xs E V He Hd HV.
  eapply (stiffness_symmetric 3 3); [exact He|lia|now apply call_solid|]. intros. cbv beta. now rewrite hooke_sym.
Qed.

Lemma C34_symmetric_scalar_pf : forall s q elem dou xs alpha t kap rho c,
  element_ok 2 s q elem xs -> length dou = 1%nat ->
  forall r, In r [ HeatTransfer s q elem dou xs alpha t; Diffusion s q elem dou xs kap; HeatCapacity s q elem dou xs rho c t;
                   Mass s q elem dou xs; ReactionDiffusionConsistentMass s q elem dou xs; ReactionDiffusionLumpedMass s q elem dou xs ] ->
  symmetric_result (length elem) r.
Proof.
  intros s q elem dou xs alpha t kap rho c He Hd r Hr. rewrite <- (Nat.mul_1_l (length elem)).
  destruct Hr as [<-|[<-|[<-|[<-|[<-|[<-|[]]]]]]].
  - eapply (stiffness_symmetric 2 1); [exact He|lia|now apply call_heat|]. intros. cbv beta. f_equal. apply bigsum_ext; intros; ring.
  - eapply (stiffness_symmetric 2 1); [exact He|lia|now apply call_diffusion|]. intros. cbv beta. f_equal. apply bigsum_ext; intros; ring.
  - eapply (mass_symmetric 2 1). now apply call_capacity.
  - eapply (mass_symmetric 2 1). now apply call_mass.
  - eapply (mass_symmetric 2 1). now apply call_rd_mass.
  - destruct (lumped_form s q elem dou xs He Hd) as (K & ne & E & Hn & HK). rewrite Nat.mul_1_l. do 3 eexists. splits; [exact E|exact HK|].
    intros a b _ _. cbv beta. now rewrite (Nat.eqb_sym a b).
Qed.

Lemma C35_psd_plane_pf : forall s q elem dou xs E V t,
  element_ok 2 s q elem xs -> length dou = 2%nat -> positive_rule 2 s q (nodal elem xs) ->
  0 <= E -> -1 < V < 1 / 2 -> 0 <= t ->
  psd_result (2 * length elem) (PlaneStrainStiffness s q elem dou xs E V t) /\
  psd_result (2 * length elem) (PlaneStressStiffness s q elem dou xs E V t).
Proof.
  intros s q elem dou xs E V t He Hd HP HE HV Ht.
  assert (Hm : 0 <= lame_mu E V). { unfold lame_mu. apply Rmult_le_pos; auto. apply Rlt_le, Rinv_0_lt_compat. lra. }
  split.
  - eapply (stiffness_psd 2 2); [exact He|lia|lia|apply call_strain; auto; nra|exact HP|]. intros H. cbv beta. apply Rmult_le_pos; auto.
    apply hooke2_nonneg; auto. replace (lame_lambda E V + lame_mu E V) with (E * / (2 * (1 + V) * (1 - 2 * V))) by (unfold lame_lambda, lame_mu; field; lra).
    apply Rmult_le_pos; auto. apply Rlt_le, Rinv_0_lt_compat. nra.
  - eapply (stiffness_psd 2 2); [exact He|lia|lia|apply call_stress; auto; nra|exact HP|]. intros H. cbv beta. apply Rmult_le_pos; auto.
    apply hooke2_nonneg; auto. replace (E * V / ((1 - V) * (1 + V)) + lame_mu E V) with (E * / (2 * (1 - V))) by (unfold lame_mu; field; lra).
    apply Rmult_le_pos; auto. apply Rlt_le, Rinv_0_lt_compat. lra.
Qed.

Lemma C35_psd_solid_pf : forall s q elem dou xs E V,
  element_ok 3 s q elem xs -> length dou = 3%nat -> positive_rule 3 s q (nodal elem xs) ->
  0 <= E -> -1 < V < 1 / 2 ->
  psd_result (3 * length elem) (SolidLinearIsotropicElastic s q elem dou xs E V).
Proof.
  intros s q elem dou xs E V He Hd HP HE HV.
  eapply (stiffness_psd 3 3); [exact He|lia|lia|apply call_solid; auto; nra|exact HP|]. intros H. cbv beta.
  apply hooke3_nonneg.
  - unfold lame_mu. apply Rmult_le_pos; auto. apply Rlt_le, Rinv_0_lt_compat. lra.
  - replace (3 * lame_lambda E V + 2 * lame_mu E V) with (E * / (1 - 2 * V)) by (unfold lame_lambda, lame_mu; field; lra).
    apply Rmult_le_pos; auto. apply Rlt_le, Rinv_0_lt_compat. lra.
Qed.

Lemma C35_zero_energy_pf : forall s q elem dou xs E V t,
  element_ok 2 s q elem xs -> length dou = 2%nat -> positive_rule 2 s q (nodal elem xs) ->
  0 < E -> -1 < V < 1 / 2 -> 0 < t ->
  exists K ne k, PlaneStrainStiffness s q elem dou xs E V t = Ok (K, ne) /\ is_mat K (2 * length elem) (2 * length elem) k /\
    forall y Hy, gradients s q (nodal elem xs) 2 y Hy -> form 2 (length elem) k y y = 0 ->
      forall g i j, (g < q_n q)%nat -> (i < 2)%nat -> (j < 2)%nat -> strain (Hy (pt q g)) i j = 0.
Proof.
  intros s q elem dou xs E V t He Hd HP HE HV Ht.
  destruct (call_strain s q elem dou xs E V t He Hd ltac:(nra)) as (K & ne & k & Er & Hk & _ & HF).
  exists K, ne, k. splits; auto. intros y Hy HG H0 g i j Hg Hi Hj. rewrite (HF y y Hy Hy HG HG) in H0.
  set (mu := lame_mu E V). set (la := lame_lambda E V).
  assert (Hm : 0 < mu). { unfold mu, lame_mu. apply Rmult_lt_0_compat; auto. apply Rinv_0_lt_compat. lra. }
  assert (Hlm : 0 < la + mu). { replace (la + mu) with (E * / (2 * (1 + V) * (1 - 2 * V))) by (unfold la, mu, lame_lambda, lame_mu; field; lra).
    apply Rmult_lt_0_compat; auto. apply Rinv_0_lt_compat. nra. }
  assert (Hz : forall g, (g < q_n q)%nat -> hooke 2 la mu (strain (Hy (pt q g))) (strain (Hy (pt q g))) = 0).
  { intros g' Hg'. unfold quad in H0. destruct (HP g' Hg') as [HJ Hw].
    assert (Z : wprod 2 (nth g' (q_weights q) []) * (jac s (nodal elem xs) (pt q g') * (t * hooke 2 la mu (strain (Hy (pt q g'))) (strain (Hy (pt q g'))))) = 0).
    { refine (bigsum_nonneg_eq0 (q_n q) (fun g => wprod 2 (nth g (q_weights q) []) * (jac s (nodal elem xs) (pt q g) * (t * hooke 2 la mu (strain (Hy (pt q g))) (strain (Hy (pt q g)))))) _ H0 g' Hg').
      intros g0 Hg0. destruct (HP g0 Hg0) as [HJ0 Hw0]. pose proof (hooke2_nonneg la mu (strain (Hy (pt q g0))) ltac:(lra) ltac:(lra)).
      apply Rmult_le_pos; [lra|]. apply Rmult_le_pos; [lra|]. apply Rmult_le_pos; lra. }
    apply Rmult_integral in Z. destruct Z as [Z|Z]; [lra|]. apply Rmult_integral in Z. destruct Z as [Z|Z]; [lra|].
    apply Rmult_integral in Z. destruct Z as [Z|Z]; [lra|]. exact Z. }
  specialize (Hz g Hg). set (e := strain (Hy (pt q g))) in *.
  assert (X : (la + mu) * (e 0%nat 0%nat + e 1%nat 1%nat)² + mu * ((e 0%nat 0%nat - e 1%nat 1%nat)² + 2 * (e 0%nat 1%nat)² + 2 * (e 1%nat 0%nat)²) = 0)
    by (rewrite <- Hz; unfold hooke, trace, ddot, Rsqr; cbn [bigsum]; ring).
  pose proof (Rle_0_sqr (e 0%nat 0%nat + e 1%nat 1%nat)) as P1. pose proof (Rle_0_sqr (e 0%nat 0%nat - e 1%nat 1%nat)) as P2.
  pose proof (Rle_0_sqr (e 0%nat 1%nat)) as P3. pose proof (Rle_0_sqr (e 1%nat 0%nat)) as P4.
  assert (Q1 : (e 0%nat 0%nat + e 1%nat 1%nat)² = 0) by nra.
  assert (Q2 : (e 0%nat 0%nat - e 1%nat 1%nat)² = 0) by nra.
  assert (Q3 : (e 0%nat 1%nat)² = 0) by nra. assert (Q4 : (e 1%nat 0%nat)² = 0) by nra.
  apply Rsqr_0_uniq in Q1, Q2, Q3, Q4.
  destruct i as [|[|i]]; try lia; destruct j as [|[|j]]; try lia; lra.
Qed.

Lemma C36_rigid_pf : forall s q elem dou xs E V t z,
  element_ok 2 s q elem xs -> length dou = 2%nat -> rigid_motion 2 (length elem) (nodal elem xs) z ->
  ((1 - 2 * V) * (1 + V) <> 0 -> kills 2 (length elem) (PlaneStrainStiffness s q elem dou xs E V t) z) /\
  ((1 - V) * (1 + V) <> 0 -> kills 2 (length elem) (PlaneStressStiffness s q elem dou xs E V t) z) /\
  (forall D Df, is_mat D 3 3 Df -> kills 2 (length elem) (PlaneStiffness s q elem dou xs D t) z).
Proof.
  intros s q elem dou xs E V t z He Hd HR. destruct (rigid_gradients 2 s q elem xs z He (le_n 2) HR) as (W & HW & HG).
  splits; intros.
  - eapply (stiffness_kills 2 2); [exact He|lia|now apply call_strain|exact HG|]. intros. cbv beta. rewrite hooke_skew; [ring|]. now apply skew_strain.
  - eapply (stiffness_kills 2 2); [exact He|lia|now apply call_stress|exact HG|]. intros. cbv beta. rewrite hooke_skew; [ring|]. now apply skew_strain.
  - eapply (stiffness_kills 2 2); [exact He|lia|now apply call_plane with (Df := Df)|exact HG|]. intros. cbv beta.
    rewrite (bigsum_ext 3 _ (fun _ => 0)), bigsum_0; [ring|]. intros i _. apply bigsum_zero; intros j _.
    replace (eng W j) with 0; [ring|]. destruct j as [|[|j]]; unfold eng; rewrite !skew_strain by auto; ring.
Qed.

Lemma C36_rigid_solid_pf : forall s q elem dou xs E V z,
  element_ok 3 s q elem xs -> length dou = 3%nat -> (1 + V) * (1 - 2 * V) <> 0 -> rigid_motion 3 (length elem) (nodal elem xs) z ->
  kills 3 (length elem) (SolidLinearIsotropicElastic s q elem dou xs E V) z.
Proof.
  intros s q elem dou xs E V z He Hd HV HR. destruct (rigid_gradients 3 s q elem xs z He ltac:(lia) HR) as (W & HW & HG).
  eapply (stiffness_kills 3 3); [exact He|lia|now apply call_solid|exact HG|]. intros. cbv beta. rewrite hooke_skew; [ring|]. now apply skew_strain.
Qed.

Lemma C36_constant_temperature_pf : forall s q elem dou xs alpha t kap T,
  element_ok 2 s q elem xs -> length dou = 1%nat ->
  kills 1 (length elem) (HeatTransfer s q elem dou xs alpha t) (fun _ _ => T) /\
  kills 1 (length elem) (Diffusion s q elem dou xs kap) (fun _ _ => T).
Proof.
  intros s q elem dou xs alpha t kap T He Hd.
  assert (HG : gradients s q (nodal elem xs) 1 (fun _ _ => T) (fun _ _ _ => 0)).
  { intros g Hg. eapply (affine_gradient s (nodal elem xs) (pt q g) (proj1 He) 1 _ (fun _ => T)).
    intros. rewrite bigsum_zero; [ring|]. intros; ring. }
  split.
  - eapply (stiffness_kills 2 1); [exact He|lia|now apply call_heat|exact HG|]. intros. cbv beta. rewrite bigsum_zero; [ring|]. intros; ring.
  - eapply (stiffness_kills 2 1); [exact He|lia|now apply call_diffusion|exact HG|]. intros. cbv beta. rewrite bigsum_zero; [ring|]. intros; ring.
Qed.

Lemma C37_total_mass_pf : forall s q elem dou dou1 xs rho t c,
  element_ok 2 s q elem xs -> (forall e, In e elem -> length (nth e xs []) = 2%nat) -> length dou = 2%nat -> length dou1 = 1%nat ->
  exists A, Area s q xs elem = Ok A /\
    (exists K ne k, PlaneMass s q elem dou xs rho t = Ok (K, ne) /\ is_mat K (2 * length elem) (2 * length elem) k /\
       forall i j, (i < 2)%nat -> (j < 2)%nat ->
         bigsum (length elem) (fun a => bigsum (length elem) (fun b => k (2 * a + i)%nat (2 * b + j)%nat)) =
         if (i =? j)%nat then rho * t * A else 0) /\
    forall r m, In (r, m) [ (HeatCapacity s q elem dou1 xs rho c t, rho * c * t); (Mass s q elem dou1 xs, 1);
                            (ReactionDiffusionConsistentMass s q elem dou1 xs, 1); (ReactionDiffusionLumpedMass s q elem dou1 xs, 1) ] ->
      exists K ne k, r = Ok (K, ne) /\ is_mat K (length elem) (length elem) k /\
        bigsum (length elem) (fun a => bigsum (length elem) (fun b => k a b)) = m * A.
Proof.
  intros s q elem dou dou1 xs rho t c He Hx Hd Hd1. exists (quad 2 q (jac s (nodal elem xs))).
  assert (He' := He). destruct He' as (Hs & Hsd & HL & Hn & Hq & _).
  splits.
  - apply area_ok; auto. intros e Hin. split; [now apply Hn|now apply Hx].
  - apply (mass_total 2 s q elem dou xs); auto. now apply call_plane_mass.
  - assert (B : forall r m, mass_of 2 1 s q elem dou1 xs r m -> exists K ne k, r = Ok (K, ne) /\ is_mat K (length elem) (length elem) k /\
        bigsum (length elem) (fun a => bigsum (length elem) (fun b => k a b)) = m * quad 2 q (jac s (nodal elem xs))).
    { intros r m Hm. destruct (mass_total 1 s q elem dou1 xs r m Hs Hm) as (K & ne & k & E & Hk & HB). rewrite Nat.mul_1_l in Hk.
      exists K, ne, k. splits; auto. specialize (HB O O ltac:(lia) ltac:(lia)). cbn [Nat.eqb] in HB. rewrite <- HB. apply bigsum_ext; intros a _. apply bigsum_ext; intros b _. f_equal; lia. }
    intros r m [[= <- <-]|[[= <- <-]|[[= <- <-]|[[= <- <-]|[]]]]].
    + apply B. now apply call_capacity.
    + apply B. now apply call_mass.
    + apply B. now apply call_rd_mass.
    + destruct (lumped_form s q elem dou1 xs He Hd1) as (K & ne & E & _ & HK). do 3 eexists. splits; [exact E|exact HK|].
      assert (length elem <> 0)%nat by (pose proof (sf_n_pos s Hs); lia).
      rewrite (bigsum_ext _ _ (fun _ => quad 2 q (jac s (nodal elem xs)) / INR (length elem))).
      * rewrite bigsum_const. field. now apply not_0_INR.
      * intros a Ha. rewrite (bigsum_ext _ _ (fun b => (if (a =? b)%nat then 1 else 0) * (quad 2 q (jac s (nodal elem xs)) / INR (length elem)))).
        -- rewrite (bigsum_ite (length elem) a (fun _ => quad 2 q (jac s (nodal elem xs)) / INR (length elem))); auto.
        -- intros b _. destruct (a =? b)%nat; ring.
Qed.

Lemma C38_same_rule_pf : forall s q elem dou xs E V t,
  element_ok 2 s q elem xs -> length dou = 2%nat -> (1 - 2 * V) * (1 + V) <> 0 ->
  PlaneStrainStiffnessSRI s q q elem dou xs E V t = PlaneStrainStiffness s q elem dou xs E V t /\
  PlaneStrainStiffnessBbar s q q elem dou xs E V t = PlaneStrainStiffness s q elem dou xs E V t /\
  exists K ne, PlaneStrainStiffness s q elem dou xs E V t = Ok (K, ne).
Proof.
  intros s q elem dou xs E V t He Hd HV.
  assert (1 - 2 * V <> 0) by (intros A; apply HV; rewrite A; ring). assert (1 + V <> 0) by (intros A; apply HV; rewrite A; ring).
  destruct (D_strain_ok E V HV) as (D & Df & ED & HD & FD).
  pose proof (plane_stiffness_form s q elem dou xs D Df t He Hd HD) as HP.
  assert (EP : PlaneStrainStiffness s q elem dou xs E V t = plane_stiffness s q elem dou xs D t) by (unfold PlaneStrainStiffness; now rewrite ED).
  rewrite EP. splits.
  - eapply same_result; [apply (SRI_form s q q elem dou xs E V t); auto|exact HP|]. intros y z. cbv beta. rewrite <- quad_plus. apply quad_ext. intros g _.
    rewrite (proj1 (FD _ _)). unfold hooke, lame_lambda, lame_mu. field. auto.
  - unfold PlaneStrainStiffnessBbar. rewrite ED. cbn [bind].
    eapply same_result; [apply (Bbar_form s q q elem dou xs D Df t); auto|exact HP|]. intros y z. cbv beta. rewrite <- quad_plus. apply quad_ext. intros g _.
    rewrite <- Rmult_plus_distr_l. f_equal.
    apply FD.
  - destruct HP as (K & ne & E1 & _). eauto.
Qed.

Lemma C38_bbar_general_refuted_pf : exists s q elem dou xs D Df t,
  element_ok 2 s q elem xs /\ length dou = 2%nat /\ is_mat D 3 3 Df /\
  (forall i j, (i < 3)%nat -> (j < 3)%nat -> Df i j = Df j i) /\
  exists K ne K' ne', PlaneStiffnessBbar s q q elem dou xs D t = Ok (K, ne) /\ PlaneStiffness s q elem dou xs D t = Ok (K', ne') /\ K <> K'.
Proof.
  set (xs := [[0; 0]; [1; 0]; [0; 1]] : list (list R)).
  assert (He : element_ok 2 sf_3Triangle Gauss1Triangle [0; 1; 2]%nat xs).
  { unfold element_ok. repeat split; try (cbn; tauto); try (cbn; lia).
    - cbn in H. decompose [or] H; subst; cbn; try lia; contradiction.
    - cbn in H. decompose [or] H; subst; cbn; try lia; contradiction.
    - cbn in *. destruct g; [cbn; lia|lia].
    - cbn in *. destruct g; [cbn; lia|lia].
    - intros g Hg. cbn in Hg. replace g with O by lia. unfold jac, detd, det2, tangent, dshp, nodal, xs, sf_3Triangle, dN_3Triangle.
      cbn [sf_d sf_n sf_dN bigsum nth]. lra. }
  set (D := mkMat 3 3 [1; 0; 0; 0; 0; 0; 0; 0; 0]).
  pose proof (is_mat_of_list 3 3 [1; 0; 0; 0; 0; 0; 0; 0; 0] eq_refl) as HD. fold D in HD.
  exists sf_3Triangle, Gauss1Triangle, [0; 1; 2]%nat, [0; 1]%nat, xs, D. eexists. exists 1. splits; [exact He|reflexivity|exact HD| |].
  - intros i j Hi Hj. destruct i as [|[|[|i]]]; try lia; destruct j as [|[|[|j]]]; try lia; reflexivity.
  - destruct (Bbar_form _ _ _ _ [0; 1]%nat _ _ _ 1 He He eq_refl HD) as (K & ne & E & _ & (k & Hk & F)).
    destruct (plane_form _ _ _ [0; 1]%nat _ 1 _ _ He eq_refl HD) as (K' & ne' & E' & _ & (k' & Hk' & F')).
    exists K, ne, K', ne'. splits; auto. intros EK. subst K'.
    assert (X : forall y z, form 2 3 k y z = form 2 3 k' y z).
    { intros. apply form_ext. intros a b Ha Hb. pose proof (Rget _ _ _ _ a b Hk Ha Hb). pose proof (Rget _ _ _ _ a b Hk' Ha Hb). congruence. }
    specialize (X (fun i c => match c with O => nodal [0; 1; 2]%nat xs i 0 | _ => 0 end) (fun i c => match c with O => nodal [0; 1; 2]%nat xs i 0 | _ => 0 end)).
    cbn [length] in F, F'. rewrite F, F' in X.
    assert (G : forall p l c, (l < 2)%nat -> (c < 2)%nat -> gradU sf_3Triangle (nodal [0; 1; 2]%nat xs) p (fun i c => match c with O => nodal [0; 1; 2]%nat xs i 0 | _ => 0 end) l c = if (l + c =? 0)%nat then 1 else 0).
    { intros p l c Hl Hc. symmetry.
      assert (HJ : jac sf_3Triangle (nodal [0; 1; 2]%nat xs) p <> 0).
      { unfold jac, detd, det2, tangent, dshp, nodal, xs, sf_3Triangle, dN_3Triangle. cbn [sf_d sf_n sf_dN bigsum nth]. lra. }
      refine (field_gradient_unique sf_3Triangle (nodal [0; 1; 2]%nat xs) p (proj1 He) (le_n 2) HJ 2 _ (fun l c => if (l + c =? 0)%nat then 1 else 0) _ l c Hl Hc).
      intros k0 c0 Hk0 Hc0. cbn in Hk0. unfold tangent, dshp, nodal, xs, sf_3Triangle, dN_3Triangle. cbn [sf_d sf_n sf_dN bigsum nth].
      destruct k0 as [|[|k0]]; try lia; destruct c0 as [|[|c0]]; try lia; cbn [nth Nat.add Nat.eqb]; ring. }
    unfold quad, quad_form3, bvol, bdev, voigt2 in X. cbn [bigsum Gauss1Triangle q_n] in X. rewrite !G in X by lia.
    cbn [nth Nat.add Nat.mul Nat.eqb] in X. unfold Gauss1Triangle, wprod, jac, detd, det2, tangent, dshp, nodal, xs, sf_3Triangle, dN_3Triangle in X. cbn [q_weights q_points sf_d sf_n sf_dN bigsum nth] in X.
    pose proof (Rinv_0_lt_compat _ (sqrt_lt_R0 2 ltac:(lra))) as P. unfold Rdiv in X. set (i := / sqrt 2) in *.
    assert (0 < i * i) by now apply Rmult_lt_0_compat. ring_simplify in X. nra.
Qed.

Lemma C43_truss_pf : forall (elem dou : list nat) (xs : list (list R)) E A x0 y0 x1 y1,
  length elem = 2%nat -> length dou = 2%nat -> (forall i, (i < 2)%nat -> (nth i elem O < length xs)%nat) ->
  nth (nth 0 elem O) xs [] = [x0; y0] -> nth (nth 1 elem O) xs [] = [x1; y1] ->
  let l := sqrt ((x1 - x0) ^ 2 + (y1 - y0) ^ 2) in
  (l = 0 -> Truss2D elem dou xs E A = Fail DivByZero) /\
  (l <> 0 -> exists K ne k, Truss2D elem dou xs E A = Ok (K, ne) /\ is_mat K 4 4 k /\ numbered 2 2 dou ne /\
     (forall a b, (a < 4)%nat -> (b < 4)%nat -> k a b = k b a) /\
     (forall u : nat -> nat -> R, form 2 2 k u u =
        E * A / l * (((x1 - x0) * (u 1%nat 0%nat - u 0%nat 0%nat) + (y1 - y0) * (u 1%nat 1%nat - u 0%nat 1%nat)) / l) ^ 2) /\
     (0 <= E * A -> forall u : nat -> nat -> R, 0 <= form 2 2 k u u) /\
     forall u tx ty w, (forall i, (i < 2)%nat -> u i 0%nat = tx - w * nodal elem xs i 1 /\ u i 1%nat = ty + w * nodal elem xs i 0) ->
       forall a, (a < 4)%nat -> apply_field 2 2 k u a = 0).
Proof.
  intros elem dou xs E A x0 y0 x1 y1 HL Hd Hin H0 H1 l.
  assert (EN : vnorm [x1 - x0; y1 - y0] = Ok l).
  { rewrite (vnorm_ok [x1 - x0; y1 - y0] 2 _ (is_vec_of_list [x1 - x0; y1 - y0])). cbn [bigsum nth]. unfold l. do 2 f_equal. ring. }
  assert (ET : Truss2D elem dou xs E A = (ne <- nte_of 2 2 dou ;; c <- Rdiv_res (x1 - x0) l ;; s <- Rdiv_res (y1 - y0) l ;; k <- Rdiv_res (E * A) l ;;
     Ok (mkMat 4 4
    [  k * c * c;    k * c * s;  - k * c * c;  - k * c * s;
       k * c * s;    k * s * s;  - k * c * s;  - k * s * s;
     - k * c * c;  - k * c * s;    k * c * c;    k * c * s;
     - k * c * s;  - k * s * s;    k * c * s;    k * s * s], ne))).
  { unfold Truss2D. rewrite HL, Hd. cbn [Nat.eqb andb assert_ bind]. destruct (nte_of 2 2 dou) as [ne|f]; cbn [bind]; [|reflexivity].
    rewrite (rd_nth elem 0 O), (rd_nth elem 1 O) by lia. cbn [bind]. rewrite !(rd_nth xs _ []) by (apply Hin; lia). cbn [bind]. rewrite H0, H1.
    assert (EV : vsub R_ops [x1; y1] [x0; y0] = Ok [x1 - x0; y1 - y0]) by reflexivity. rewrite EV. cbn [bind]. rewrite EN. reflexivity. }
  rewrite ET. destruct (nte_of_ok 2 2 dou ltac:(lia)) as (ne & En & Hn). rewrite En. cbn [bind].
  split.
  - intros Hz. unfold Rdiv_res. rewrite Hz. destruct (Req_EM_T 0 0); [reflexivity|lra].
  - intros Hz. rewrite !Rdiv_res_ok by auto. cbn [bind].
    set (c := (x1 - x0) / l). set (s := (y1 - y0) / l). set (k := E * A / l).
    assert (HF : forall u : nat -> nat -> R, form 2 2 (fun i j => nth (i * 4 + j) [  k * c * c;    k * c * s;  - k * c * c;  - k * c * s;
       k * c * s;    k * s * s;  - k * c * s;  - k * s * s;
     - k * c * c;  - k * c * s;    k * c * c;    k * c * s;
     - k * c * s;  - k * s * s;    k * c * s;    k * s * s] 0) u u = k * (((x1 - x0) * (u 1%nat 0%nat - u 0%nat 0%nat) + (y1 - y0) * (u 1%nat 1%nat - u 0%nat 1%nat)) / l) ^ 2).
    { intros u. unfold form. cbn [bigsum Nat.mul Nat.add nth Nat.div Nat.modulo Nat.divmod fst snd Nat.sub]. unfold c, s. field. auto. }
    do 3 eexists. splits; [reflexivity|apply is_mat_of_list; reflexivity|exact Hn| |exact HF| |].
    + intros a b Ha Hb. do 4 (destruct a as [|a]; [do 4 (destruct b as [|b]; [reflexivity|]); lia|]). lia.
    + intros HE u. rewrite HF. apply Rmult_le_pos; [|apply pow2_ge_0]. unfold k. apply Rmult_le_pos; auto. apply Rlt_le, Rinv_0_lt_compat.
      pose proof (sqrt_pos ((x1 - x0) ^ 2 + (y1 - y0) ^ 2)). fold l in H. lra.
    + intros u tx ty w Hu a Ha. destruct (Hu 0%nat ltac:(lia)) as [U0 U1]. destruct (Hu 1%nat ltac:(lia)) as [U2 U3].
      unfold nodal in *. rewrite H0 in U0, U1. rewrite H1 in U2, U3. cbn [nth] in *. unfold apply_field.
      do 4 (destruct a as [|a]; [cbn [bigsum Nat.mul Nat.add nth Nat.div Nat.modulo Nat.divmod fst snd Nat.sub]; rewrite U0, U1, U2, U3; unfold c, s; field; auto|]). lia.
Qed.

Lemma C60_measure_pf : forall s q elem xs, In s all_shapes -> length elem = sf_n s -> rule_ok (sf_d s) q ->
  (forall e, In e elem -> (e < length xs)%nat /\ length (nth e xs []) = sf_d s) ->
  (sf_d s = 2%nat -> Area s q xs elem = Ok (quad 2 q (jac s (nodal elem xs)))) /\
  (sf_d s = 3%nat -> Volume s q xs elem = Ok (quad 3 q (jac s (nodal elem xs)))).
Proof.
  intros s q elem xs Hs HL Hq Hx. split; intros Hd; rewrite Hd in *.
  - now apply area_ok.
  - now apply volume_ok.
Qed.

Lemma C60_shoelace_pf : forall a b c d xs ax ay bx by_ cx cy dx dy,
  nth a xs [] = [ax; ay] -> nth b xs [] = [bx; by_] -> nth c xs [] = [cx; cy] -> nth d xs [] = [dx; dy] ->
  (forall e, In e [a; b; c; d] -> (e < length xs)%nat) ->
  (forall q, In q [Gauss1Triangle; Gauss3Triangle] ->
     Area sf_3Triangle q xs [a; b; c] = Ok ((ax * by_ - bx * ay + (bx * cy - cx * by_) + (cx * ay - ax * cy)) / 2)) /\
  (forall q, In q [Gauss1Square; Gauss4Square; Gauss9Square] ->
     Area sf_4Square q xs [a; b; c; d] =
     Ok ((ax * by_ - bx * ay + (bx * cy - cx * by_) + (cx * dy - dx * cy) + (dx * ay - ax * dy)) / 2)).
Proof.
  intros a b c d xs ax ay bx by_ cx cy dx dy Ha Hb Hc Hd Hin.
  pose proof (sqrt_lt_R0 2 ltac:(lra)) as P2. pose proof (sqrt_def 2 ltac:(lra)) as S2.
  split.
  - intros q Hq. rewrite area_ok; try (cbn; tauto); try reflexivity.
    + f_equal. unfold quad, jac, detd, det2, tangent, dshp, nodal, sf_3Triangle, dN_3Triangle. cbn [sf_d sf_n sf_dN bigsum nth]. rewrite Ha, Hb, Hc. cbn [nth].
      destruct Hq as [<-|[<-|[]]]; unfold Gauss1Triangle, Gauss3Triangle, wprod; cbn [q_n q_weights q_points bigsum nth].
      * assert (W : 1 / sqrt 2 * (1 / sqrt 2) = 1 / 2) by (field_simplify; [replace (sqrt 2 ^ 2) with 2 by (cbn; lra); lra|lra]).
        set (i := 1 / sqrt 2) in *. match goal with |- _ = ?r => transitivity (i * i * (2 * r)); [field|rewrite W; field] end.
      * pose proof (sqrt_lt_R0 6 ltac:(lra)) as P6. pose proof (sqrt_def 6 ltac:(lra)) as S6.
        assert (W : 1 / sqrt 6 * (1 / sqrt 6) = 1 / 6) by (field_simplify; [replace (sqrt 6 ^ 2) with 6 by (cbn; lra); lra|lra]).
        set (i := 1 / sqrt 6) in *. match goal with |- _ = ?r => transitivity (i * i * (6 * r)); [field|rewrite W; field] end.
    + destruct Hq as [<-|[<-|[]]]; (split; [cbn; lia|split; [cbn; lia|intros g Hg; cbn in Hg; do 4 (destruct g as [|g]; [cbn; lia|]); lia]]).
    + intros e He. split; [apply Hin; cbn in *; tauto|]. cbn in He. destruct He as [<-|[<-|[<-|[]]]]; rewrite ?Ha, ?Hb, ?Hc; reflexivity.
  - intros q Hq. rewrite area_ok; try (cbn; tauto); try reflexivity.
    + f_equal. unfold quad, jac, detd, det2, tangent, dshp, nodal, sf_4Square, dN_4Square. cbn [sf_d sf_n sf_dN bigsum nth]. rewrite Ha, Hb, Hc, Hd. cbn [nth].
      pose proof (sqrt_lt_R0 3 ltac:(lra)) as P3. pose proof (sqrt_def 3 ltac:(lra)) as S3. pose proof (sqrt_def (3/5) ltac:(lra)) as S35.
      destruct Hq as [<-|[<-|[<-|[]]]]; unfold Gauss1Square, Gauss4Square, Gauss9Square, wprod; cbn [q_n q_weights q_points bigsum nth]; field; lra.
    + destruct Hq as [<-|[<-|[<-|[]]]]; (split; [cbn; lia|split; [cbn; lia|intros g Hg; cbn in Hg; do 10 (destruct g as [|g]; [cbn; lia|]); lia]]).
    + intros e He. split; [apply Hin; cbn in *; tauto|]. cbn in He. destruct He as [<-|[<-|[<-|[<-|[]]]]]; rewrite ?Ha, ?Hb, ?Hc, ?Hd; reflexivity.
Qed.
