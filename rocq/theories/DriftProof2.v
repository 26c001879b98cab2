(** The matrix of a triangle in the advection-diffusion sample. *)
From Coq Require Import List Arith Lia Bool Reals Lra.
From Verif Require Import Res SumR DenseModel DenseR DenseSpec ShapeModel QuadModel QuadSpec ElemModel ElemSpec SupgSpec SparseModel SparseSpec AssemblyModel AssemblySpec KrylovSpec PatchSpec StableSpec TopSpec StaticModel StaticSpec FrameSpec DriftModel DriftSpec.
From Verif Require Import DenseProof DenseMain AssemblyProof AssemblyProof2 AssemblyProof3 ElemProof ElemProof2 ElemMain SupgMain PatchProof PatchProof2 StableProof2 StableProof3 StableMain.
Import ListNotations.
Local Open Scope R_scope.

Lemma tri_jac xs el r : jac sf_3Triangle (nodal el xs) r = area2 xs el.
Proof. unfold jac, detd, det2, tangent, dshp, nodal, area2, px, py, sf_3Triangle, dN_3Triangle. cbn [sf_d sf_n sf_dN bigsum nth]. ring. Qed.
Lemma tri_element xs el : ccw xs el -> element_ok 2 sf_3Triangle Gauss1Triangle el xs /\ positive_rule 2 sf_3Triangle Gauss1Triangle (nodal el xs).
Proof.
  intros (HL & HN & HA). destruct (C106_rules_pf sf_3Triangle Gauss1Triangle) as (_ & RO & WP); [cbn; tauto|]. cbn [sf_d sf_3Triangle] in RO, WP. split.
  - unfold element_ok. splits; auto.
    + cbn. tauto.
    + intros g _. rewrite tri_jac. lra.
  - intros g Hg. rewrite tri_jac. split; [exact HA|auto].
Qed.
Definition tgrad (xs : list (list R)) (el : list nat) (z : nat -> nat -> R) (p : nat -> R) (l c : nat) : R := slope2 xs el (fun i => z i c) l.
Lemma tri_gradients xs el z : area2 xs el <> 0 -> gradients sf_3Triangle Gauss1Triangle (nodal el xs) 1 z (tgrad xs el z).
Proof.
  intros HA g Hg. cbn in Hg. replace g with O by lia. intros k c Hk Hc. unfold tangent, dshp, sf_3Triangle, dN_3Triangle in *. cbn [sf_d sf_n sf_dN bigsum nth] in *.
  replace c with O by lia. unfold tgrad, slope2. unfold nodal. fold (px xs (nth 0 el O)) (px xs (nth 1 el O)) (px xs (nth 2 el O)) (py xs (nth 0 el O)) (py xs (nth 1 el O)) (py xs (nth 2 el O)).
  unfold area2 in *. destruct k as [|[|k]]; [| |lia]; cbn [nth]; field; exact HA.
Qed.
Lemma half_weight f : quad 2 Gauss1Triangle f = 1 / 2 * f (fun k => nth k [1 / 3; 1 / 3] 0).
Proof.
  unfold quad, wprod. cbn [q_n q_weights q_points Gauss1Triangle bigsum nth]. rewrite Rplus_0_l. f_equal.
  pose proof (sqrt_sqrt 2 ltac:(lra)) as S. assert (sqrt 2 <> 0) by (pose proof (sqrt_lt_R0 2 ltac:(lra)); lra).
  match goal with |- ?a = _ => replace a with (1 / (sqrt 2 * sqrt 2)) by (field; auto) end. rewrite S. reflexivity.
Qed.
Lemma form_plus m n k k' y z : form m n (fun a b => k a b + k' a b) y z = form m n k y z + form m n k' y z.
Proof. unfold form. rewrite <- bigsum_plus. apply bigsum_ext. intros a _. rewrite <- bigsum_plus. apply bigsum_ext. intros b _. ring. Qed.
Lemma vel_nonzero d : dr_a d <> 0 -> dr_ax d <> 0 \/ dr_ay d <> 0.
Proof.
  intros Ha. unfold dr_ax, dr_ay. set (t := dr_theta d * PI / 180). destruct (Req_EM_T (cos t) 0) as [E|E].
  - right. intros Q. apply Rmult_integral in Q. destruct Q as [Q|Q]; [auto|]. pose proof (sin2_cos2 t) as S. rewrite Q, E in S. unfold Rsqr in S. lra.
  - left. intros Q. apply Rmult_integral in Q. tauto.
Qed.
Lemma tri_call d el : 0 < dr_k d -> dr_a d <> 0 -> ccw (dr_x d) el ->
  0 < length2 d el /\ exists K ne kf, dr_routine d sf_3Triangle Gauss1Triangle el = Ok (K, ne) /\ is_mat K 3 3 kf /\ numbered 1 3 [0%nat] ne /\
    forall y z, form 1 3 kf y z = drift_form d el (fun i => y i 0%nat) (fun i => z i 0%nat).
Proof.
  intros Hk Ha HC. destruct (tri_element _ _ HC) as [He _]. pose proof HC as (HL & _ & HA). assert (HA0 : area2 (dr_x d) el <> 0) by lra.
  destruct (C59_advection_pf sf_3Triangle Gauss1Triangle el [0%nat] (dr_x d) (dr_ax d) (dr_ay d) He eq_refl) as (K1 & n1 & k1 & E1 & M1 & _ & F1).
  destruct (proj1 (proj2 (C59_scalar_pf sf_3Triangle Gauss1Triangle el [0%nat] (dr_x d) 0 0 (dr_k d) 0 0 He eq_refl))) as (K2 & n2 & k2 & E2 & M2 & _ & F2).
  destruct (C85_forms_pf sf_3Triangle Gauss1Triangle el [0%nat] (dr_x d) (dr_ax d) (dr_ay d) (dr_k d) (fun i => tgrad (dr_x d) el (hat i)) He eq_refl (vel_nonzero d Ha) ltac:(lra)) as (H0 & (K3 & n3 & k3 & E3 & M3 & _ & F3) & (K4 & n4 & k4 & E4 & _ & N4 & _) & _).
  { intros i Hi. now apply tri_gradients. }
  rewrite HL in *. change (1 * 3)%nat with 3%nat in *.
  destruct (Rmadd _ _ _ _ _ _ M1 M2) as (AB & E5 & M5). destruct (Rmadd _ _ _ _ _ _ M5 M3) as (Ke & E6 & M6).
  assert (EL : forall p, stream_length 3 (dr_ax d) (dr_ay d) (fun i => tgrad (dr_x d) el (hat i) p) = length2 d el) by reflexivity.
  split. { specialize (H0 0%nat ltac:(cbn; lia)). cbv beta in H0. now rewrite EL in H0. }
  exists Ke, n4, (fun i j => k1 i j + k2 i j + k3 i j). splits; auto.
  - unfold dr_routine. rewrite E1. cbn [bind]. rewrite E2. cbn [bind]. rewrite E3. cbn [bind]. rewrite E4. cbn [bind]. rewrite E5. cbn [bind]. rewrite E6. reflexivity.
  - intros y z. rewrite (form_plus 1 3 (fun i j => k1 i j + k2 i j) k3), (form_plus 1 3 k1 k2).
    rewrite (F1 y z _ (tri_gradients (dr_x d) el z HA0)), (F2 y z _ _ (tri_gradients (dr_x d) el y HA0) (tri_gradients (dr_x d) el z HA0)), (F3 y z _ _ (tri_gradients (dr_x d) el y HA0) (tri_gradients (dr_x d) el z HA0)).
    rewrite !half_weight, !tri_jac. cbv beta. change (stream_length 3 (dr_ax d) (dr_ay d) (fun i => tgrad (dr_x d) el (hat i) _)) with (length2 d el).
    unfold field_value, shp, sf_3Triangle, N_3Triangle, along, tgrad, drift_form, along2. cbn [sf_n sf_N bigsum nth].
    set (yx := slope2 (dr_x d) el (fun i => y i 0%nat) 0). set (yy := slope2 (dr_x d) el (fun i => y i 0%nat) 1). set (zx := slope2 (dr_x d) el (fun i => z i 0%nat) 0). set (zy := slope2 (dr_x d) el (fun i => z i 0%nat) 1). field.
Qed.
(** the part of advection as flow of squares through the sides *)
Definition square2 (v : nat -> R) (sd : list nat) : R := match sd with [i; j] => (v i * v i + v i * v j + v j * v j) / 6 | _ => 0 end.
Lemma tri_energy d el v : ccw (dr_x d) el ->
  drift_form d el (corners v el) (corners v el) = sum_over (sides el) (fun sd => outflow d sd * square2 v sd)
    + area2 (dr_x d) el / 2 * (dr_k d * (slope2 (dr_x d) el (corners v el) 0 ^ 2 + slope2 (dr_x d) el (corners v el) 1 ^ 2) + tau_supg (dr_ax d) (dr_ay d) (dr_k d) (length2 d el) * along2 d el (corners v el) ^ 2).
Proof.
  intros (HL & _ & HA). destruct el as [|a [|b [|c [|? ?]]]]; try discriminate. unfold drift_form. set (tau := tau_supg _ _ _ _). clearbody tau.
  assert (E : area2 (dr_x d) [a; b; c] / 2 * ((corners v [a; b; c] 0 + corners v [a; b; c] 1 + corners v [a; b; c] 2) / 3 * along2 d [a; b; c] (corners v [a; b; c])) =
    sum_over (sides [a; b; c]) (fun sd => outflow d sd * square2 v sd)).
  { unfold sides. rewrite !sum_over_cons, sum_over_nil. unfold along2, slope2, corners, outflow, square2. cbn [nth]. unfold area2 in *. cbn [nth] in *. field. lra. }
  rewrite <- E. ring.
Qed.
Lemma tau_nonneg d el : 0 < dr_k d -> 0 < length2 d el -> 0 <= tau_supg (dr_ax d) (dr_ay d) (dr_k d) (length2 d el).
Proof.
  intros Hk Hh. unfold tau_supg, upwind, peclet. pose proof (sqrt_pos (dr_ax d * dr_ax d + dr_ay d * dr_ay d)) as HV. fold (vel (dr_ax d) (dr_ay d)) in HV.
  set (h := length2 d el) in *. set (w := vel (dr_ax d) (dr_ay d)) in *. clearbody h w.
  assert (A : forall p q, 0 <= p -> 0 <= q -> 0 <= p / q). { intros p q Hp Hq. destruct Hq as [Hq|<-]; [apply Rmult_le_pos; auto; left; now apply Rinv_0_lt_compat|]. unfold Rdiv. rewrite Rinv_0. lra. }
  apply Rmult_le_pos; [apply A; lra|]. apply Rmin_glb; [lra|]. apply Rmult_le_pos; [|lra]. apply A; [|lra]. apply Rmult_le_pos; lra.
Qed.
Lemma flat_tri xs el z : area2 xs el <> 0 -> slope2 xs el z 0 = 0 -> slope2 xs el z 1 = 0 -> z 0%nat = z 2%nat /\ z 1%nat = z 2%nat.
Proof.
  intros HA H0 H1. unfold slope2 in *. set (J := area2 xs el) in *. set (x0 := px xs (nth 0 el O)) in *. set (x1 := px xs (nth 1 el O)) in *. set (x2 := px xs (nth 2 el O)) in *. set (y0 := py xs (nth 0 el O)) in *. set (y1 := py xs (nth 1 el O)) in *. set (y2 := py xs (nth 2 el O)) in *.
  assert (EJ : J = (x0 - x2) * (y1 - y2) - (y0 - y2) * (x1 - x2)) by reflexivity.
  assert (P0 : (z 0%nat - z 2%nat) * (y1 - y2) - (z 1%nat - z 2%nat) * (y0 - y2) = 0). { apply Rmult_integral in H0. destruct H0 as [H0|H0]; [auto|]. exfalso. now apply (Rinv_neq_0_compat J HA). }
  assert (P1 : (z 1%nat - z 2%nat) * (x0 - x2) - (z 0%nat - z 2%nat) * (x1 - x2) = 0). { apply Rmult_integral in H1. destruct H1 as [H1|H1]; [auto|]. exfalso. now apply (Rinv_neq_0_compat J HA). }
  assert (Q0 : (z 0%nat - z 2%nat) * J = 0). { transitivity (((z 0%nat - z 2%nat) * (y1 - y2) - (z 1%nat - z 2%nat) * (y0 - y2)) * (x0 - x2) + ((z 1%nat - z 2%nat) * (x0 - x2) - (z 0%nat - z 2%nat) * (x1 - x2)) * (y0 - y2)); [rewrite EJ; ring|rewrite P0, P1; ring]. }
  assert (Q1 : (z 1%nat - z 2%nat) * J = 0). { transitivity (((z 0%nat - z 2%nat) * (y1 - y2) - (z 1%nat - z 2%nat) * (y0 - y2)) * (x1 - x2) + ((z 1%nat - z 2%nat) * (x0 - x2) - (z 0%nat - z 2%nat) * (x1 - x2)) * (y1 - y2)); [rewrite EJ; ring|rewrite P0, P1; ring]. }
  apply Rmult_integral in Q0. apply Rmult_integral in Q1. split; destruct Q0, Q1; try contradiction; lra.
Qed.
