(** The flat shell. *)
From Coq Require Import List Arith Lia Bool Reals Lra.
From Verif Require Import Res SumR DenseModel DenseR DenseSpec DenseProof DenseMain ShapeModel ShapeMain QuadModel QuadSpec ElemModel ElemSpec ElemProof ElemProof2 ElemProof3 ElemMain FlowModel BeamModel BeamSpec BeamProof BeamProof2 BeamMain0 BeamMain1.
Import ListNotations.
Local Open Scope R_scope.

Definition ez (c : nat) : R := match c with 2%nat => 1 | _ => 0 end.
Lemma unit_ez a f : 0 < a -> (forall c, (c < 3)%nat -> f c = a * ez c) -> forall c, (c < 3)%nat -> unit3 f c = ez c.
Proof.
  intros Ha H c Hc. rewrite (unit3_ext f (fun c => a * ez c)) by auto. apply unit3_multiple; auto. unfold dot3. cbn [bigsum ez]. ring.
Qed.

Section Flat.
Variables (s : shape) (q0 q1 : rule) (elem dou : list nat) (xs : list (list R)) (E v t : R).
Hypothesis Hf : flat s q0 elem xs.
Hypothesis Hq1 : rule_ok 1 q1.
Hypothesis Hth : thickness_rule q1.
Hypothesis Ht : 0 < t.
Hypothesis Hv : 1 - v * v <> 0.
Let x := nodal elem xs.
Let Hs : In s all_shapes. Proof. apply Hf. Qed.
Let Hd : sf_d s = 2%nat. Proof. apply Hf. Qed.
Let Hn : length elem = sf_n s. Proof. apply Hf. Qed.
Lemma flat_z i : (i < sf_n s)%nat -> x i 2%nat = 0.
Proof. intros Hi. destruct Hf as (_ & _ & _ & _ & _ & H & _). apply H. lia. Qed.
Lemma flat_tangent r k : tangent s x r k 2 = 0.
Proof. unfold tangent. apply bigsum_zero. intros i Hi. rewrite flat_z by auto. ring. Qed.
Lemma jac2 r : jac s x r = tangent s x r 0 0 * tangent s x r 1 1 - tangent s x r 0 1 * tangent s x r 1 0.
Proof. unfold jac. rewrite Hd. reflexivity. Qed.
Lemma flat_cross r c : (c < 3)%nat -> cross3 (tangent s x r 0) (tangent s x r 1) c = jac s x r * ez c.
Proof. intros Hc. rewrite jac2. destruct c as [|[|[|c]]]; try lia; cbn [cross3 ez]; rewrite ?flat_tangent; ring. Qed.
Lemma flat_v3 i c : (i < sf_n s)%nat -> (c < 3)%nat -> shell_v3 s x i c = ez c.
Proof.
  intros Hi Hc. unfold shell_v3. apply (unit_ez (jac s x (ref_point s i))); auto.
  - destruct Hf as (_ & _ & _ & _ & _ & H & _). apply H. lia.
  - intros k Hk. unfold surface_normal. now apply flat_cross.
Qed.
Let V := shell_dirs s x.
Lemma flat_T p xi k l : (k < 3)%nat -> (l < 3)%nat -> shell_T s t x p xi k l = if (k <? 2)%nat then tangent s x p k l else t / 2 * ez l.
Proof.
  intros Hk Hl. unfold shell_T, layer_tangent. rewrite Hd. destruct (Nat.ltb_spec k 2).
  - rewrite (bigsum_ext _ _ (fun i => dshp s p k i * x i l + dshp s p k i * (t / 2 * xi 0%nat * ez l))).
    + rewrite bigsum_plus, bigsum_scal_r, (dshp_sum s Hs p k) by lia. unfold tangent. ring.
    + intros i Hi. cbn [bigsum]. unfold shell_dirs. rewrite flat_v3 by auto. ring.
  - replace (k - 2)%nat with 0%nat by lia. rewrite (bigsum_ext _ _ (fun i => shp s p i * (t / 2 * ez l))).
    + rewrite bigsum_scal_r, (shp_sum s Hs p). ring.
    + intros i Hi. unfold shell_dirs. now rewrite flat_v3.
Qed.
Lemma flat_det p xi : det3 (shell_T s t x p xi) = jac s x p * (t / 2).
Proof. unfold det3. rewrite !flat_T by lia. cbn [Nat.ltb Nat.leb ez]. rewrite !flat_tangent, jac2. ring. Qed.
Lemma flat_normal p xi c : 0 < jac s x p -> (c < 3)%nat -> layer_normal (shell_T s t x p xi) c = ez c.
Proof.
  intros Hj Hc. unfold layer_normal. apply (unit_ez (jac s x p)); auto. intros k Hk. rewrite <- flat_cross by auto.
  apply cross3_ext; intros l Hl; now rewrite flat_T by (auto; lia).
Qed.
Let L := first_side elem xs.
Lemma n2 : (2 <= sf_n s)%nat.
Proof. apply (points2 s Hs Hd). Qed.
Lemma L2 : L 2%nat = 0.
Proof. pose proof n2. unfold L, first_side. fold x. rewrite !flat_z by lia. ring. Qed.
Lemma L_cross m : (forall c, (c < 3)%nat -> m c = ez c) -> nonzero3 (cross3 L m).
Proof.
  intros Hm. destruct Hf as (_ & _ & _ & _ & _ & _ & _ & [H|H]); fold L in H.
  - exists 1%nat. split; [lia|]. cbn [cross3]. rewrite !Hm, L2 by lia. cbn [ez]. lra.
  - exists 0%nat. split; [lia|]. cbn [cross3]. rewrite !Hm, L2 by lia. cbn [ez]. lra.
Qed.
Lemma flat_ok : shell_ok s q0 q1 elem xs t.
Proof.
  pose proof Hf as (_ & _ & _ & H3 & Hq0 & Hi & Hg & _). unfold shell_ok. splits; auto.
  - intros i Hi'. fold x L. split.
    + exists 2%nat. split; [lia|]. unfold surface_normal. rewrite flat_cross by lia. cbn [ez]. destruct (Hi i Hi') as [_ HJ]. fold x in HJ. lra.
    + apply L_cross. intros c Hc. apply flat_v3; auto. lia.
  - intros g h Hg' Hh. fold x L. specialize (Hg g Hg'). fold x in Hg. split.
    + rewrite flat_det. assert (0 < jac s x (pt q0 g) * (t / 2)); [apply Rmult_lt_0_compat; lra|lra].
    + apply L_cross. intros c Hc. now apply flat_normal.
Qed.
(** the gradient of the displacement *)
Definition flat_H (h k : nat -> nat -> R) (u : nat -> R) (z : R) (l c : nat) : R :=
  if (l <? 2)%nat then if (c <? 2)%nat then h l c + z * (t / 2) * k l c else h l 2%nat
  else if (c <? 2)%nat then u c else 0.
Lemma flat_rotated y i c : (i < sf_n s)%nat -> (c < 3)%nat -> rotated V y 0 i c = if (c <? 2)%nat then tilt y i c else 0.
Proof.
  intros Hi Hc. unfold rotated. rewrite (cross3_ext _ (fun l => y i (3 + l)%nat) _ ez) by (auto; intros; now apply flat_v3).
  destruct c as [|[|[|c]]]; try lia; cbn [cross3 ez Nat.ltb Nat.leb tilt Nat.add]; ring.
Qed.
Lemma flat_gradient y Hy Ky p xi : field_gradient s x p 3 y Hy -> field_gradient s x p 2 (tilt y) Ky ->
  layer_gradient s 1 (fun _ => t / 2) x V y (rotated V y) p xi (flat_H Hy Ky (field_value s p (tilt y)) (xi 0%nat)).
Proof.
  intros HY HK k c Hk Hc. rewrite (bigsum_ext 3 _ (fun l => (if (k <? 2)%nat then tangent s x p k l else t / 2 * ez l) * flat_H Hy Ky (field_value s p (tilt y)) (xi 0%nat) l c)).
  2:{ intros l Hl. change (layer_tangent s 1 (fun _ => t / 2) x V p xi k l) with (shell_T s t x p xi k l). now rewrite flat_T. }
  unfold field_gradient in HY, HK. rewrite Hd in HY, HK. unfold layer_tangent. rewrite Hd. destruct (Nat.ltb_spec k 2) as [Hk2|Hk2].
  - rewrite (bigsum_ext (sf_n s) _ (fun i => dshp s p k i * y i c + dshp s p k i * (if (c <? 2)%nat then tilt y i c else 0) * (t / 2 * xi 0%nat))).
    2:{ intros i Hi. cbn [bigsum]. rewrite flat_rotated by auto. ring. }
    rewrite bigsum_plus, bigsum_scal_r, <- (HY k c Hk2 Hc). unfold flat_H.
    destruct (Nat.ltb_spec c 2) as [Hc2|Hc2].
    + rewrite <- (HK k c Hk2 Hc2). cbn [bigsum Nat.ltb Nat.leb]. rewrite flat_tangent. ring.
    + replace c with 2%nat by lia. cbn [bigsum Nat.ltb Nat.leb]. rewrite flat_tangent.
      rewrite (bigsum_zero (sf_n s)) by (intros; ring). ring.
  - replace (k - 2)%nat with 0%nat by lia. rewrite (bigsum_ext (sf_n s) _ (fun i => shp s p i * (if (c <? 2)%nat then tilt y i c else 0) * (t / 2))).
    2:{ intros i Hi. rewrite flat_rotated by auto. ring. }
    rewrite bigsum_scal_r. unfold flat_H. destruct (Nat.ltb_spec c 2) as [Hc2|Hc2]; cbn [bigsum ez Nat.ltb Nat.leb].
    + unfold field_value. ring.
    + rewrite (bigsum_zero (sf_n s)) by (intros; ring). ring.
Qed.
Let lam := E * v / ((1 - v) * (1 + v)).
Let mu := lame_mu E v.
Let factors : 1 - v <> 0 /\ 1 + v <> 0.
Proof. split; intros C; apply Hv; [replace v with 1 by lra|replace v with (-1) by lra]; ring. Qed.
Lemma plane_modulus : E / (1 - v * v) = lam + 2 * mu /\ E / (1 - v * v) * v = lam.
Proof.
  destruct factors. unfold lam, mu, lame_mu. replace (1 - v * v) with ((1 - v) * (1 + v)) by ring. split; field; auto.
Qed.
Lemma flat_energy P0 P1 N hy ky uy hz kz uz z : (forall c, (c < 3)%nat -> N c = ez c) -> P0 2%nat = 0 -> dot3 P0 P0 = 1 ->
  (forall c, (c < 3)%nat -> P1 c = cross3 ez P0 c) ->
  shell_energy E v P0 P1 N (strain (flat_H hy ky uy z)) (strain (flat_H hz kz uz z)) =
  hooke 2 lam mu (strain hy) (strain hz)
  + z * (t / 2 * (hooke 2 lam mu (strain hy) (strain kz) + hooke 2 lam mu (strain ky) (strain hz)))
  + z * z * (t ^ 2 / 4 * hooke 2 lam mu (strain ky) (strain kz))
  + 5 / 6 * mu * bigsum 2 (fun l => (hy l 2%nat + uy l) * (hz l 2%nat + uz l)).
Proof.
  intros HN HP2 HP HP1. set (cc := P0 0%nat). set (ss := P0 1%nat).
  assert (Hcs : cc * cc + ss * ss = 1). { unfold dot3 in HP. cbn [bigsum] in HP. rewrite HP2 in HP. fold cc ss in HP. lra. }
  assert (Q0 : P1 0%nat = - ss) by (rewrite HP1 by lia; cbn [cross3 ez]; fold cc ss; ring).
  assert (Q1 : P1 1%nat = cc) by (rewrite HP1 by lia; cbn [cross3 ez]; fold cc ss; ring).
  assert (Q2 : P1 2%nat = 0) by (rewrite HP1 by lia; cbn [cross3 ez]; ring).
  destruct plane_modulus as [M1 M2].
  assert (A00 : forall h k u, along (strain (flat_H h k u z)) P0 P0 = cc * cc * strain (fun l c => h l c + z * (t / 2) * k l c) 0 0 + 2 * cc * ss * strain (fun l c => h l c + z * (t / 2) * k l c) 0 1 + ss * ss * strain (fun l c => h l c + z * (t / 2) * k l c) 1 1).
  { intros. unfold along, strain, flat_H. cbn [bigsum Nat.ltb Nat.leb]. rewrite HP2. fold cc ss. field. }
  assert (A11 : forall h k u, along (strain (flat_H h k u z)) P1 P1 = ss * ss * strain (fun l c => h l c + z * (t / 2) * k l c) 0 0 - 2 * cc * ss * strain (fun l c => h l c + z * (t / 2) * k l c) 0 1 + cc * cc * strain (fun l c => h l c + z * (t / 2) * k l c) 1 1).
  { intros. unfold along, strain, flat_H. cbn [bigsum Nat.ltb Nat.leb]. rewrite Q0, Q1, Q2. field. }
  assert (A01 : forall h k u, along (strain (flat_H h k u z)) P0 P1 = cc * ss * (strain (fun l c => h l c + z * (t / 2) * k l c) 1 1 - strain (fun l c => h l c + z * (t / 2) * k l c) 0 0) + (cc * cc - ss * ss) * strain (fun l c => h l c + z * (t / 2) * k l c) 0 1).
  { intros. unfold along, strain, flat_H. cbn [bigsum Nat.ltb Nat.leb]. rewrite HP2, Q0, Q1, Q2. fold cc ss. field. }
  assert (A02 : forall h k u, 2 * along (strain (flat_H h k u z)) P0 N = cc * (h 0%nat 2%nat + u 0%nat) + ss * (h 1%nat 2%nat + u 1%nat)).
  { intros. unfold along, strain, flat_H. cbn [bigsum Nat.ltb Nat.leb]. rewrite HP2, !HN by lia. fold cc ss. cbn [ez]. field. }
  assert (A12 : forall h k u, 2 * along (strain (flat_H h k u z)) P1 N = - ss * (h 0%nat 2%nat + u 0%nat) + cc * (h 1%nat 2%nat + u 1%nat)).
  { intros. unfold along, strain, flat_H. cbn [bigsum Nat.ltb Nat.leb]. rewrite Q0, Q1, Q2, !HN by lia. cbn [ez]. field. }
  unfold shell_energy. rewrite !A00, !A11, !A01, !A02, !A12. fold mu.
  set (e := strain (fun l c => hy l c + z * (t / 2) * ky l c)). set (f := strain (fun l c => hz l c + z * (t / 2) * kz l c)).
  set (g0 := hy 0%nat 2%nat + uy 0%nat). set (g1 := hy 1%nat 2%nat + uy 1%nat). set (k0 := hz 0%nat 2%nat + uz 0%nat). set (k1 := hz 1%nat 2%nat + uz 1%nat).
  transitivity ((cc * cc + ss * ss) * (cc * cc + ss * ss) * (lam * (e 0%nat 0%nat + e 1%nat 1%nat) * (f 0%nat 0%nat + f 1%nat 1%nat) + 2 * mu * (e 0%nat 0%nat * f 0%nat 0%nat + e 1%nat 1%nat * f 1%nat 1%nat + 2 * (e 0%nat 1%nat * f 0%nat 1%nat)))
    + 5 / 6 * mu * ((cc * cc + ss * ss) * (g0 * k0 + g1 * k1))).
  - rewrite Rmult_plus_distr_l, M1. rewrite <- (Rmult_assoc _ v), <- M1, M2, M1. ring.
  - rewrite Hcs. unfold e, f, hooke, trace, ddot, strain. cbn [bigsum]. fold g0 g1 k0 k1. field.
Qed.
Lemma flat_call : length dou = 6%nat -> exists K ne k, ShellLinearIsotropicElastic2 s q0 q1 elem dou xs E v t = Ok (K, ne) /\
  is_mat K (6 * length elem) (6 * length elem) k /\ numbered 6 (length elem) dou ne /\
  forall y z Hy Ky Hz Kz, gradients s q0 x 3 y Hy -> gradients s q0 x 2 (tilt y) Ky -> gradients s q0 x 3 z Hz -> gradients s q0 x 2 (tilt z) Kz ->
    form 6 (length elem) k y z = quad 2 q0 (fun p => jac s x p *
      plate_energy E v t (Hy p) (Ky p) (field_value s p (tilt y)) (Hz p) (Kz p) (field_value s p (tilt z))).
Proof.
  intros Hdou. destruct (shell6_call s q0 q1 elem dou xs E v t flat_ok Hdou Hv) as (K & ne & k & EK & MK & NK & FK).
  exists K, ne, k. splits; auto. intros y z Hy Ky Hz Kz GY KY GZ KZ. fold x V L in FK.
  rewrite (FK y z (fun p xi => flat_H (Hy p) (Ky p) (field_value s p (tilt y)) (xi 0%nat)) (fun p xi => flat_H (Hz p) (Kz p) (field_value s p (tilt z)) (xi 0%nat))).
  2:{ intros g h Hg Hh. apply flat_gradient; auto. }
  2:{ intros g h Hg Hh. apply flat_gradient; auto. }
  rewrite Hd. apply quad_ext. intros g Hg. set (p := pt q0 g). pose proof Hf as (_ & _ & _ & _ & _ & _ & HJ & _). specialize (HJ g Hg). fold x p in HJ.
  destruct Hth as (T0 & T1 & T2).
  set (A := hooke 2 lam mu (strain (Hy p)) (strain (Hz p))). set (B := hooke 2 lam mu (strain (Hy p)) (strain (Kz p)) + hooke 2 lam mu (strain (Ky p)) (strain (Hz p))).
  set (C := hooke 2 lam mu (strain (Ky p)) (strain (Kz p))). set (D := bigsum 2 (fun l => (Hy p l 2%nat + field_value s p (tilt y) l) * (Hz p l 2%nat + field_value s p (tilt z) l))).
  rewrite (quad_ext 1 q1 _ (fun xi => 1 * (jac s x p * (t / 2) * (A + 5 / 6 * mu * D)) + xi 0%nat * (jac s x p * (t / 2) * (t / 2 * B)) + xi 0%nat * xi 0%nat * (jac s x p * (t / 2) * (t ^ 2 / 4 * C)))).
  - rewrite !quad_plus, !quad_scal, T0, T1, T2. unfold plate_energy. fold lam mu A C D. field.
  - intros h Hh. set (xi := pt q1 h). change (layer_tangent s 1 (fun _ => t / 2) x V p xi) with (shell_T s t x p xi). rewrite flat_det. unfold shell_W.
    assert (HN : forall c, (c < 3)%nat -> layer_normal (shell_T s t x p xi) c = ez c) by (intros; now apply flat_normal).
    rewrite flat_energy; auto.
    + fold A B C D. ring.
    + unfold layer_P0, unit3. cbn [cross3]. rewrite !HN by lia. cbn [ez]. unfold Rdiv. ring.
    + unfold layer_P0. apply (unit3_dot _ (fun _ => 0) 0%nat). apply L_cross. exact HN.
    + intros c Hc. unfold layer_P1. apply cross3_ext; auto.
Qed.
(** without deflection and rotation it is the plane stress element *)
Lemma flat_membrane dou2 : length dou = 6%nat -> length dou2 = 2%nat -> exists K ne k K2 ne2 k2,
  ShellLinearIsotropicElastic2 s q0 q1 elem dou xs E v t = Ok (K, ne) /\ is_mat K (6 * length elem) (6 * length elem) k /\
  PlaneStressStiffness s q0 elem dou2 xs E v t = Ok (K2, ne2) /\ is_mat K2 (2 * length elem) (2 * length elem) k2 /\
  forall y z, (forall i c, (i < length elem)%nat -> (2 <= c < 6)%nat -> y i c = 0) -> form 6 (length elem) k y z = form 2 (length elem) k2 y z.
Proof.
  intros H6 H2. destruct (flat_call H6) as (K & ne & k & EK & MK & NK & FK). destruct factors as [V1 V2].
  pose proof Hf as (_ & _ & _ & H3 & Hq0 & _ & HJ & _).
  assert (He : element_ok 2 s q0 elem xs).
  { unfold element_ok. splits; auto; [intros e He; destruct (H3 e He); split; auto; lia|]. intros g Hg. specialize (HJ g Hg). fold x in HJ |- *. lra. }
  destruct (call_stress s q0 elem dou2 xs E v t He H2) as (K2 & ne2 & k2 & E2 & M2 & N2 & F2); [now apply Rmult_integral_contrapositive|].
  exists K, ne, k, K2, ne2, k2. splits; auto. intros y z Hy0. fold x in F2.
  assert (GU : forall m u, gradients s q0 x m u (fun p => gradU s x p u)).
  { intros m u g Hg. apply gradU_field; auto; [lia|]. specialize (HJ g Hg). fold x in HJ. lra. }
  rewrite (FK y z _ _ _ _ (GU _ _) (GU _ _) (GU _ _) (GU _ _)), (F2 y z _ _ (GU _ _) (GU _ _)). apply quad_ext. intros g Hg. f_equal.
  unfold plate_energy. set (p := pt q0 g).
  assert (Z2 : forall l, gradU s x p y l 2 = 0). { intros l. unfold gradU. apply bigsum_zero. intros i Hi. rewrite Hy0 by lia. ring. }
  assert (ZT : forall i c, (i < sf_n s)%nat -> tilt y i c = 0). { intros i c Hi. unfold tilt. destruct c; rewrite Hy0 by lia; ring. }
  assert (ZK : forall l c, gradU s x p (tilt y) l c = 0). { intros l c. unfold gradU. apply bigsum_zero. intros i Hi. rewrite ZT by auto. ring. }
  assert (ZV : forall c, field_value s p (tilt y) c = 0). { intros c. unfold field_value. apply bigsum_zero. intros i Hi. rewrite ZT by auto. ring. }
  unfold hooke at 2. unfold trace, ddot. cbn [bigsum]. rewrite !Z2, !ZV.
  assert (ZS : forall l c, strain (gradU s x p (tilt y)) l c = 0) by (intros; unfold strain; rewrite !ZK; field). rewrite !ZS. ring.
Qed.
End Flat.
