(** Beam and shells: consequences of the energy form. *)
From Coq Require Import List Arith Lia Bool Reals Lra.
From Verif Require Import Res SumR DenseModel DenseR DenseSpec DenseProof DenseMain ShapeModel ShapeMain QuadModel QuadSpec ElemModel ElemSpec ElemProof ElemProof2 ElemProof3 ElemMain FlowModel BeamModel BeamSpec BeamProof BeamProof2.
Import ListNotations.
Local Open Scope R_scope.

Section LayerForm.
Variables (nd m : nat) (s : shape) (q0 q1 : rule) (w : nat -> R) (V : nat -> nat -> nat -> R)
  (U : (nat -> nat -> R) -> nat -> nat -> nat -> R) (W : (nat -> R) -> (nat -> R) -> (nat -> nat -> R) -> (nat -> nat -> R) -> R)
  (elem dou : list nat) (xs : list (list R)) (r : res (mat R * nte_t)).
Let x := nodal elem xs.
Hypothesis Hm : (sf_d s + m = 3)%nat.
Hypothesis Hdet : forall g h, (g < q_n q0)%nat -> (h < q_n q1)%nat -> det3 (layer_tangent s m w x V (pt q0 g) (pt q1 h)) <> 0.
Hypothesis Hr : layer_stiffness_of nd m s q0 q1 w V U W elem dou xs r.
Let G (z : nat -> nat -> R) p xi := lay_H s m w x V p xi z (U z).
Lemma layer_has_gradients z : layer_gradients s q0 q1 m w x V z (U z) (G z).
Proof. intros g h Hg Hh. apply lay_H_gradient; auto. Qed.
Lemma layer_symmetric : (forall p xi e f, W p xi e f = W p xi f e) -> symmetric_result (nd * length elem) r.
Proof.
  intros HW. destruct Hr as (K & ne & k & E & Hk & _ & HF). exists K, ne, k. splits; auto.
  apply form_sym_entries. intros y z.
  rewrite (HF y z _ _ (layer_has_gradients y) (layer_has_gradients z)), (HF z y _ _ (layer_has_gradients z) (layer_has_gradients y)).
  apply quad_ext. intros g _. apply quad_ext. intros h _. now rewrite HW.
Qed.
Lemma layer_psd : (nd <> 0)%nat -> (forall g h, (g < q_n q0)%nat -> (h < q_n q1)%nat -> 0 < det3 (layer_tangent s m w x V (pt q0 g) (pt q1 h))) ->
  (forall g, (g < q_n q0)%nat -> 0 < wprod (sf_d s) (nth g (q_weights q0) [])) -> (forall h, (h < q_n q1)%nat -> 0 < wprod m (nth h (q_weights q1) [])) ->
  (forall p xi e, 0 <= W p xi e e) -> psd_result (nd * length elem) r.
Proof.
  intros Hnd HJ Hw0 Hw1 HW. destruct Hr as (K & ne & k & E & Hk & _ & HF). exists K, ne, k. splits; auto.
  intros v. destruct (vec_field (nd * length elem) nd v Hnd) as (y & Hy).
  rewrite (bigsum_ext _ _ (fun a => bigsum (nd * length elem) (fun b => y (a / nd)%nat (a mod nd)%nat * k a b * y (b / nd)%nat (b mod nd)%nat))).
  2:{ intros a Ha. apply bigsum_ext. intros b Hb. now rewrite !Hy. }
  change (0 <= form nd (length elem) k y y).
  rewrite (HF y y _ _ (layer_has_gradients y) (layer_has_gradients y)).
  apply quad_nonneg. intros g Hg. specialize (Hw0 g Hg). apply Rmult_le_pos; [lra|].
  apply quad_nonneg. intros h Hh. specialize (Hw1 h Hh). specialize (HJ g h Hg Hh). apply Rmult_le_pos; [lra|]. fold x. apply Rmult_le_pos; [lra|apply HW].
Qed.
Lemma layer_kills z H : layer_gradients s q0 q1 m w x V z (U z) H ->
  (forall p xi e, W p xi e (strain (H p xi)) = 0) -> kills nd (length elem) r z.
Proof.
  intros HG HW. destruct Hr as (K & ne & k & E & Hk & _ & HF). exists K, ne, k. splits; auto. intros a Ha.
  rewrite <- form_unit by auto. rewrite (HF (unitv nd a) z _ _ (layer_has_gradients _) HG).
  unfold quad. apply bigsum_zero. intros g _. cbv beta. rewrite bigsum_zero; [ring|]. intros h _. cbv beta. rewrite HW. ring.
Qed.
End LayerForm.

(** energies *)
Lemma beam_energy_sym E v P0 P1 P2 e f : beam_energy E v P0 P1 P2 e f = beam_energy E v P0 P1 P2 f e.
Proof. unfold beam_energy. ring. Qed.
Lemma shell_energy_sym E v P0 P1 P2 e f : shell_energy E v P0 P1 P2 e f = shell_energy E v P0 P1 P2 f e.
Proof. unfold shell_energy. ring. Qed.
Lemma mu_nonneg E v : 0 <= E -> 0 < 1 + v -> 0 <= lame_mu E v.
Proof. intros. unfold lame_mu. apply Rle_mult_inv_pos; lra. Qed.
Lemma beam_energy_nonneg E v P0 P1 P2 e : 0 <= E -> 0 < 1 + v -> 0 <= beam_energy E v P0 P1 P2 e e.
Proof.
  intros HE Hv. unfold beam_energy. pose proof (mu_nonneg E v HE Hv).
  set (a := along e P0 P0). set (b := along e P0 P1). set (c := along e P0 P2). clearbody a b c.
  assert (0 <= E * (a * a)) by (apply Rmult_le_pos; nra). assert (0 <= lame_mu E v * (2 * b * (2 * b) + 2 * c * (2 * c))) by (apply Rmult_le_pos; nra). nra.
Qed.
Lemma shell_energy_nonneg E v P0 P1 P2 e : 0 <= E -> -1 < v < 1 -> 0 <= shell_energy E v P0 P1 P2 e e.
Proof.
  intros HE Hv. unfold shell_energy. pose proof (mu_nonneg E v HE ltac:(lra)).
  set (a := along e P0 P0). set (d := along e P1 P1). set (b := along e P0 P1). set (f := along e P0 P2). set (g := along e P1 P2). clearbody a b d f g.
  assert (0 < 1 - v * v) by nra. assert (0 <= E / (1 - v * v)) by (apply Rle_mult_inv_pos; lra).
  assert (0 <= a * a + d * d + v * (a * d + d * a)).
  { replace (a * a + d * d + v * (a * d + d * a)) with ((1 + v) * ((a + d) * (a + d) / 2) + (1 - v) * ((a - d) * (a - d) / 2)) by field.
    assert (0 <= (1 + v) * ((a + d) * (a + d) / 2)) by (apply Rmult_le_pos; [lra|pose proof (Rle_0_sqr (a + d)) as Q; unfold Rsqr in Q; lra]).
    assert (0 <= (1 - v) * ((a - d) * (a - d) / 2)) by (apply Rmult_le_pos; [lra|pose proof (Rle_0_sqr (a - d)) as Q; unfold Rsqr in Q; lra]). lra. }
  assert (0 <= E / (1 - v * v) * (a * a + d * d + v * (a * d + d * a))) by now apply Rmult_le_pos.
  assert (0 <= lame_mu E v * (2 * b * (2 * b))) by (apply Rmult_le_pos; nra).
  assert (0 <= lame_mu E v * (2 * f * (2 * f) + 2 * g * (2 * g))) by (apply Rmult_le_pos; nra). nra.
Qed.
Lemma along_zero e p r : (forall l c, (l < 3)%nat -> (c < 3)%nat -> e l c = 0) -> along e p r = 0.
Proof. intros H. unfold along. apply bigsum_zero; intros l Hl. apply bigsum_zero; intros c Hc. rewrite H by auto. ring. Qed.
Lemma beam_energy_zero E v P0 P1 P2 e f : (forall l c, (l < 3)%nat -> (c < 3)%nat -> f l c = 0) -> beam_energy E v P0 P1 P2 e f = 0.
Proof. intros H. unfold beam_energy. rewrite !(along_zero f) by auto. ring. Qed.
Lemma shell_energy_zero E v P0 P1 P2 e f : (forall l c, (l < 3)%nat -> (c < 3)%nat -> f l c = 0) -> shell_energy E v P0 P1 P2 e f = 0.
Proof. intros H. unfold shell_energy. rewrite !(along_zero f) by auto. ring. Qed.

(** ** rigid motions *)
(** y |-> w x y is y |-> sum_l y_l Om l *)
Definition spin (w : nat -> R) (l c : nat) : R := cross3 w (fun k => if (k =? l)%nat then 1 else 0) c.
Lemma spin_cross w y c : (c < 3)%nat -> cross3 w y c = bigsum 3 (fun l => y l * spin w l c).
Proof. intros Hc. unfold spin. destruct c as [|[|[|c]]]; try lia; cbn [bigsum cross3 Nat.eqb]; ring. Qed.
Lemma spin_strain w l c : (l < 3)%nat -> (c < 3)%nat -> strain (spin w) l c = 0.
Proof.
  intros Hl Hc. unfold strain, spin. destruct l as [|[|[|l]]]; try lia; destruct c as [|[|[|c]]]; try lia; cbn [cross3 Nat.eqb]; field.
Qed.
Lemma rigid_layer s m w x V u U r xi c0 om : In s all_shapes -> (sf_d s + m = 3)%nat ->
  (forall i c, (i < sf_n s)%nat -> (c < 3)%nat -> u i c = c0 c + cross3 om (x i) c) ->
  (forall j i c, (j < m)%nat -> (i < sf_n s)%nat -> (c < 3)%nat -> U j i c = cross3 om (V j i) c) ->
  layer_gradient s m w x V u U r xi (spin om).
Proof.
  intros Hs Hm Hu HU k c Hk Hc. unfold layer_tangent. destruct (Nat.ltb_spec k (sf_d s)) as [Hkd|Hkd].
  - rewrite (bigsum_ext (sf_n s) (fun i => dshp s r k i * (u i c + _)) (fun i => dshp s r k i * c0 c +
      bigsum 3 (fun l => dshp s r k i * (x i l + bigsum m (fun j => w j * xi j * V j i l)) * spin om l c))).
    + rewrite bigsum_plus, bigsum_scal_r, (dshp_sum s Hs r k Hkd).
      rewrite (bigsum_ext 3 _ (fun l => bigsum (sf_n s) (fun i => dshp s r k i * (x i l + bigsum m (fun j => w j * xi j * V j i l)) * spin om l c))).
      * rewrite bigsum_swap. ring.
      * intros l _. now rewrite bigsum_scal_r.
    + intros i Hi. rewrite Hu, spin_cross by auto.
      rewrite (bigsum_ext m _ (fun j => bigsum 3 (fun l => w j * xi j * V j i l * spin om l c))).
      2:{ intros j Hj. rewrite HU, spin_cross, <- bigsum_scal by auto. apply bigsum_ext; intros; ring. }
      rewrite bigsum_swap, Rplus_assoc, <- bigsum_plus, Rmult_plus_distr_l. f_equal. rewrite <- bigsum_scal. apply bigsum_ext; intros l _.
      rewrite bigsum_scal_r. ring.
  - rewrite (bigsum_ext (sf_n s) (fun i => shp s r i * (w (k - sf_d s)%nat * U _ i c)) (fun i => bigsum 3 (fun l => shp s r i * (w (k - sf_d s)%nat * V (k - sf_d s)%nat i l) * spin om l c))).
    + rewrite (bigsum_ext 3 _ (fun l => bigsum (sf_n s) (fun i => shp s r i * (w (k - sf_d s)%nat * V (k - sf_d s)%nat i l) * spin om l c))).
      * now rewrite bigsum_swap.
      * intros l _. now rewrite bigsum_scal_r.
    + intros i Hi. rewrite HU, spin_cross by (auto; lia). rewrite <- !bigsum_scal. apply bigsum_ext; intros; ring.
Qed.

(** ** the calls *)
Lemma got_beam_form : forall s q0 q1 elem dou xs v1s v2s E v a b,
  beam_ok s q0 q1 elem xs v1s v2s a b -> length dou = 6%nat -> 1 + v <> 0 ->
  let V := beam_dirs elem v1s v2s in
  layer_stiffness_of 6 2 s q0 q1 (half_sides a b) V (rotated V) (beam_W s V E v) elem dou xs
    (BeamLinearIsotropicElastic s q0 q1 elem dou xs v1s v2s E v a b).
Proof. intros. now apply beam_call. Qed.

Lemma got_beam_definite : forall s q0 q1 elem dou xs v1s v2s E v a b,
  beam_ok s q0 q1 elem xs v1s v2s a b -> length dou = 6%nat -> 1 + v <> 0 ->
  let r := BeamLinearIsotropicElastic s q0 q1 elem dou xs v1s v2s E v a b in
  symmetric_result (6 * length elem) r /\
  (0 <= E -> 0 < 1 + v -> positive_layer s q0 q1 2 (layer_tangent s 2 (half_sides a b) (nodal elem xs) (beam_dirs elem v1s v2s)) ->
   psd_result (6 * length elem) r).
Proof.
  intros s q0 q1 elem dou xs v1s v2s E v a b Hok Hdou Hv r. pose proof (beam_call s q0 q1 elem dou xs v1s v2s E v a b Hok Hdou Hv) as HC.
  pose proof Hok as (Hs & Hd & Hn & Hx & Hq0 & Hq1 & Hv1 & Hv2 & Hnz & Hdet). split.
  - eapply layer_symmetric; [|exact Hdet|exact HC|]; [lia|]. intros. apply beam_energy_sym.
  - intros HE Hv' (P1 & P2 & P3). eapply layer_psd; [|exact Hdet|exact HC| | | | |]; auto; [lia|]. intros. now apply beam_energy_nonneg.
Qed.
Lemma got_beam_rigid : forall s q0 q1 elem dou xs v1s v2s E v a b c0 om z,
  beam_ok s q0 q1 elem xs v1s v2s a b -> length dou = 6%nat -> 1 + v <> 0 ->
  (forall i c, (i < length elem)%nat -> (c < 3)%nat -> z i c = c0 c + cross3 om (nodal elem xs i) c /\ z i (3 + c)%nat = om c) ->
  kills 6 (length elem) (BeamLinearIsotropicElastic s q0 q1 elem dou xs v1s v2s E v a b) z.
Proof.
  intros s q0 q1 elem dou xs v1s v2s E v a b c0 om z Hok Hdou Hv Hz.
  pose proof (beam_call s q0 q1 elem dou xs v1s v2s E v a b Hok Hdou Hv) as HC.
  pose proof Hok as (Hs & Hd & Hn & Hx & Hq0 & Hq1 & Hv1 & Hv2 & Hnz & Hdet). rewrite Hn in Hz.
  eapply (layer_kills 6 2 s q0 q1) with (H := fun _ _ => spin om); [|exact Hdet|exact HC| |]; [lia| |].
  - intros g h Hg Hh. apply (rigid_layer _ _ _ _ _ _ _ _ _ c0 om); auto; [lia| |].
    + intros i c Hi Hc. now apply Hz.
    + intros j i c Hj Hi Hc. unfold rotated. apply cross3_ext; auto. intros l Hl. now apply Hz.
  - intros p xi e. apply beam_energy_zero. intros. now apply spin_strain.
Qed.

Lemma got_shell_form : forall s q0 q1 elem dou xs E v t,
  shell_ok s q0 q1 elem xs t -> 1 - v * v <> 0 ->
  let x := nodal elem xs in let l := first_side elem xs in
  (length dou = 5%nat -> layer_stiffness_of 5 1 s q0 q1 (fun _ => t / 2) (shell_dirs s x) (tilted s x l) (shell_W s x l E v t) elem dou xs
     (ShellLinearIsotropicElastic s q0 q1 elem dou xs E v t)) /\
  (length dou = 6%nat -> layer_stiffness_of 6 1 s q0 q1 (fun _ => t / 2) (shell_dirs s x) (rotated (shell_dirs s x)) (shell_W s x l E v t) elem dou xs
     (ShellLinearIsotropicElastic2 s q0 q1 elem dou xs E v t)).
Proof. intros. split; intros; [now apply shell5_call|now apply shell6_call]. Qed.

Lemma shell_det s q0 q1 elem xs t : shell_ok s q0 q1 elem xs t -> forall g h, (g < q_n q0)%nat -> (h < q_n q1)%nat ->
  det3 (layer_tangent s 1 (fun _ => t / 2) (nodal elem xs) (shell_dirs s (nodal elem xs)) (pt q0 g) (pt q1 h)) <> 0.
Proof. intros (_ & _ & _ & _ & _ & _ & _ & H) g h Hg Hh. apply (H g h Hg Hh). Qed.

Lemma got_shell_definite : forall s q0 q1 elem dou5 dou6 xs E v t,
  shell_ok s q0 q1 elem xs t -> length dou5 = 5%nat -> length dou6 = 6%nat -> 1 - v * v <> 0 ->
  let r5 := ShellLinearIsotropicElastic s q0 q1 elem dou5 xs E v t in
  let r6 := ShellLinearIsotropicElastic2 s q0 q1 elem dou6 xs E v t in
  symmetric_result (5 * length elem) r5 /\ symmetric_result (6 * length elem) r6 /\
  (0 <= E -> -1 < v < 1 -> positive_layer s q0 q1 1 (shell_T s t (nodal elem xs)) ->
   psd_result (5 * length elem) r5 /\ psd_result (6 * length elem) r6).
Proof.
  intros s q0 q1 elem dou5 dou6 xs E v t Hok H5 H6 Hv r5 r6.
  pose proof (shell5_call s q0 q1 elem dou5 xs E v t Hok H5 Hv) as C5. pose proof (shell6_call s q0 q1 elem dou6 xs E v t Hok H6 Hv) as C6.
  pose proof (shell_det _ _ _ _ _ _ Hok) as Hdet. pose proof Hok as (Hs & Hd & _). splits.
  - eapply layer_symmetric; [|exact Hdet|exact C5|]; [lia|]. intros. apply shell_energy_sym.
  - eapply layer_symmetric; [|exact Hdet|exact C6|]; [lia|]. intros. apply shell_energy_sym.
  - intros HE Hv' (P1 & P2 & P3). split.
    + eapply layer_psd; [|exact Hdet|exact C5| | | | |]; auto; [lia|]. intros. now apply shell_energy_nonneg.
    + eapply layer_psd; [|exact Hdet|exact C6| | | | |]; auto; [lia|]. intros. now apply shell_energy_nonneg.
Qed.

Lemma got_shell_rigid : forall s q0 q1 elem dou5 dou6 xs E v t c0 om z5 z6,
  shell_ok s q0 q1 elem xs t -> length dou5 = 5%nat -> length dou6 = 6%nat -> 1 - v * v <> 0 ->
  let x := nodal elem xs in let l := first_side elem xs in
  (forall i c, (i < length elem)%nat -> (c < 3)%nat -> z5 i c = c0 c + cross3 om (x i) c) ->
  (forall i, (i < length elem)%nat -> z5 i 3%nat = dot3 om (shell_v1 s x l i) /\ z5 i 4%nat = dot3 om (shell_v2 s x l i)) ->
  (forall i c, (i < length elem)%nat -> (c < 3)%nat -> z6 i c = c0 c + cross3 om (x i) c /\ z6 i (3 + c)%nat = om c) ->
  kills 5 (length elem) (ShellLinearIsotropicElastic s q0 q1 elem dou5 xs E v t) z5 /\
  kills 6 (length elem) (ShellLinearIsotropicElastic2 s q0 q1 elem dou6 xs E v t) z6.
Proof.
  intros s q0 q1 elem dou5 dou6 xs E v t c0 om z5 z6 Hok H5 H6 Hv x l Hz5 Hr5 Hz6.
  pose proof (shell5_call s q0 q1 elem dou5 xs E v t Hok H5 Hv) as C5. pose proof (shell6_call s q0 q1 elem dou6 xs E v t Hok H6 Hv) as C6.
  pose proof (shell_det _ _ _ _ _ _ Hok) as Hdet. pose proof Hok as (Hs & Hd & Hn & _). rewrite Hn in Hz5, Hr5, Hz6. split.
  - eapply (layer_kills 5 1 s q0 q1) with (H := fun _ _ => spin om); [|exact Hdet|exact C5| |]; [lia| |].
    + intros g h Hg Hh. apply (rigid_layer _ _ _ _ _ _ _ _ _ c0 om); auto; [lia|].
      intros j i c Hj Hi Hc. unfold tilted. destruct (Hr5 i Hi) as [-> ->].
      pose proof (frame_rotation s q0 q1 elem xs t Hok (fun _ k => om (k - 3)%nat) i c Hi Hc) as HF. unfold rotated in HF. fold x l in HF.
      transitivity (cross3 (fun k => om (3 + k - 3)%nat) (shell_dirs s x 0 i) c).
      * rewrite <- HF. f_equal; f_equal; apply dot3_ext; auto; intros k Hk; f_equal; lia.
      * apply cross3_ext; auto. intros k Hk. f_equal. lia.
    + intros p xi e. apply shell_energy_zero. intros. now apply spin_strain.
  - eapply (layer_kills 6 1 s q0 q1) with (H := fun _ _ => spin om); [|exact Hdet|exact C6| |]; [lia| |].
    + intros g h Hg Hh. apply (rigid_layer _ _ _ _ _ _ _ _ _ c0 om); auto; [lia| |].
      * intros i c Hi Hc. now apply Hz6.
      * intros j i c Hj Hi Hc. unfold rotated. apply cross3_ext; auto. intros k Hk. now apply Hz6.
    + intros p xi e. apply shell_energy_zero. intros. now apply spin_strain.
Qed.

(** rotations about the normals store no energy *)
Lemma got_drilling : forall s q0 q1 elem dou xs E v t tau z,
  shell_ok s q0 q1 elem xs t -> length dou = 6%nat -> 1 - v * v <> 0 ->
  (forall i c, (i < length elem)%nat -> (c < 3)%nat -> z i c = 0 /\ z i (3 + c)%nat = tau i * shell_v3 s (nodal elem xs) i c) ->
  kills 6 (length elem) (ShellLinearIsotropicElastic2 s q0 q1 elem dou xs E v t) z.
Proof.
  intros s q0 q1 elem dou xs E v t tau z Hok H6 Hv Hz. pose proof (shell6_call s q0 q1 elem dou xs E v t Hok H6 Hv) as C6.
  pose proof (shell_det _ _ _ _ _ _ Hok) as Hdet. pose proof Hok as (Hs & Hd & Hn & _). rewrite Hn in Hz.
  eapply (layer_kills 6 1 s q0 q1) with (H := fun _ _ _ _ => 0); [|exact Hdet|exact C6| |]; [lia| |].
  - intros g h Hg Hh k c Hk Hc. rewrite bigsum_zero by (intros; ring). symmetry.
    assert (HU : forall i, (i < sf_n s)%nat -> rotated (shell_dirs s (nodal elem xs)) z 0 i c = 0).
    { intros i Hi. unfold rotated. rewrite (cross3_ext _ (fun k => tau i * shell_v3 s (nodal elem xs) i k) _ (shell_v3 s (nodal elem xs) i)); auto; [|intros; now apply Hz].
      destruct c as [|[|[|c]]]; try lia; cbn [cross3]; ring. }
    unfold layer_tangent. destruct (Nat.ltb_spec k (sf_d s)); apply bigsum_zero; intros i Hi.
    + cbn [bigsum]. rewrite HU by auto. destruct (Hz i c Hi Hc) as [-> _]. ring.
    + replace (k - sf_d s)%nat with 0%nat by lia. rewrite HU by auto. ring.
  - intros p xi e. apply shell_energy_zero. intros. unfold strain. field.
Qed.

(** the six-component shell is the five-component one with the rotations projected *)
Lemma got_same_energy : forall s q0 q1 elem dou5 dou6 xs E v t,
  shell_ok s q0 q1 elem xs t -> length dou5 = 5%nat -> length dou6 = 6%nat -> 1 - v * v <> 0 ->
  exists K5 ne5 k5 K6 ne6 k6,
    ShellLinearIsotropicElastic s q0 q1 elem dou5 xs E v t = Ok (K5, ne5) /\ is_mat K5 (5 * length elem) (5 * length elem) k5 /\
    ShellLinearIsotropicElastic2 s q0 q1 elem dou6 xs E v t = Ok (K6, ne6) /\ is_mat K6 (6 * length elem) (6 * length elem) k6 /\
    forall y z, form 6 (length elem) k6 y z =
      form 5 (length elem) k5 (projected s (nodal elem xs) (first_side elem xs) y) (projected s (nodal elem xs) (first_side elem xs) z).
Proof.
  intros s q0 q1 elem dou5 dou6 xs E v t Hok H5 H6 Hv.
  destruct (shell5_call s q0 q1 elem dou5 xs E v t Hok H5 Hv) as (K5 & ne5 & k5 & E5 & M5 & _ & F5).
  destruct (shell6_call s q0 q1 elem dou6 xs E v t Hok H6 Hv) as (K6 & ne6 & k6 & E6 & M6 & _ & F6).
  exists K5, ne5, k5, K6, ne6, k6. splits; auto. intros y z.
  pose proof (shell_det _ _ _ _ _ _ Hok) as Hdet. pose proof Hok as (Hs & Hd & Hn & _).
  set (x := nodal elem xs) in *. set (l := first_side elem xs) in *.
  assert (HG : forall u, layer_gradients s q0 q1 1 (fun _ => t / 2) x (shell_dirs s x) u (rotated (shell_dirs s x) u)
     (fun p xi => lay_H s 1 (fun _ => t / 2) x (shell_dirs s x) p xi u (rotated (shell_dirs s x) u))).
  { intros u g h Hg Hh. apply lay_H_gradient; [lia|now apply Hdet]. }
  assert (HP : forall u H, layer_gradients s q0 q1 1 (fun _ => t / 2) x (shell_dirs s x) u (rotated (shell_dirs s x) u) H ->
     layer_gradients s q0 q1 1 (fun _ => t / 2) x (shell_dirs s x) (projected s x l u) (tilted s x l (projected s x l u)) H).
  { intros u H HH g h Hg Hh k c Hk Hc. rewrite (HH g h Hg Hh k c Hk Hc).
    assert (HU : forall i, (i < sf_n s)%nat -> rotated (shell_dirs s x) u 0 i c = tilted s x l (projected s x l u) 0 i c).
    { intros i Hi. symmetry. exact (frame_rotation s q0 q1 elem xs t Hok u i c Hi Hc). }
    unfold layer_tangent. destruct (Nat.ltb_spec k (sf_d s)); apply bigsum_ext; intros i Hi.
    - cbn [bigsum]. rewrite HU by auto. unfold projected at 1. destruct c as [|[|[|c]]]; try lia; reflexivity.
    - replace (k - sf_d s)%nat with 0%nat by lia. rewrite HU by auto. reflexivity. }
  rewrite (F6 y z _ _ (HG y) (HG z)). symmetry. exact (F5 _ _ _ _ (HP _ _ (HG y)) (HP _ _ (HG z))).
Qed.
