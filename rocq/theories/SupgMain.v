(** Property C85: streamline upwind and shock capturing terms: the proofs. *)
From Coq Require Import List Arith Lia Bool Reals Lra.
From Verif Require Import Res SumR DenseModel DenseR DenseSpec ShapeModel QuadModel QuadSpec ElemModel ElemSpec SupgSpec PropElem.
Import ListNotations.
Local Open Scope R_scope.
From Verif Require Import DenseProof DenseMain ShapeMain ElemProof ElemProof2 ElemProof3 ElemProof4 ElemMain SupgProof.

Lemma shape_gradients_ex s q elem xs : element_ok 2 s q elem xs -> exists Hn, shape_gradients s q (nodal elem xs) Hn.
Proof.
  intros He. exists (fun i p => gradU s (nodal elem xs) p (hat i)). intros i Hi. now apply (gradients_gradU s q elem xs 2).
Qed.
Lemma along_eq s q elem xs ax ay y Hy g : element_ok 2 s q elem xs -> gradients s q (nodal elem xs) 1 y Hy -> (g < q_n q)%nat ->
  along ax ay (gradU s (nodal elem xs) (pt q g) y) = along ax ay (Hy (pt q g)).
Proof. intros He HG Hg. unfold along. now rewrite !(gradients_eq s q elem xs 2 1 y Hy He (le_n 2) HG g) by (auto; lia). Qed.
Lemma upwind_range ax ay k h : ax <> 0 \/ ay <> 0 -> 0 < k -> 0 < h -> 0 < upwind ax ay k h <= 1.
Proof.
  intros Ha Hk Hh. pose proof (vel_pos _ _ Ha). unfold upwind, peclet. split; [|apply Rmin_l].
  apply Rmin_pos; [lra|]. apply Rdiv_lt_0_compat; [|lra]. apply Rdiv_lt_0_compat; [|lra]. now apply Rmult_lt_0_compat.
Qed.
Lemma tau_range ax ay k h : ax <> 0 \/ ay <> 0 -> 0 < k -> 0 < h ->
  0 < tau_supg ax ay k h /\ tau_supg ax ay k h <= h / (2 * vel ax ay) /\ tau_supg ax ay k h <= h * h / (12 * k) /\
  kappa_shock ax ay k h = tau_supg ax ay k h * (ax * ax + ay * ay).
Proof.
  intros Ha Hk Hh. pose proof (vel_pos _ _ Ha) as Hv. destruct (upwind_range ax ay k h Ha Hk Hh) as [U1 U2].
  assert (P : 0 < h / (2 * vel ax ay)) by (apply Rdiv_lt_0_compat; lra). unfold tau_supg, kappa_shock. split; [|split; [|split]].
  - now apply Rmult_lt_0_compat.
  - rewrite <- (Rmult_1_r (h / (2 * vel ax ay))) at 2. apply Rmult_le_compat_l; lra.
  - replace (h * h / (12 * k)) with (h / (2 * vel ax ay) * (peclet ax ay k h / 3)) by (unfold peclet; field; lra).
    apply Rmult_le_compat_l; [lra|]. apply Rmin_r.
  - rewrite <- vel_sq. field. lra.
Qed.
Lemma tau_zero Gm n f k num : is_mat Gm 2 n f -> (0 < n)%nat -> tau_of Gm [0; 0] k num = Fail DivByZero.
Proof.
  intros HG Hn. unfold tau_of. destruct (Rmtrans _ _ _ _ HG) as (T & ET & HT). rewrite ET. cbn [bind].
  destruct (Rmmulv _ _ _ _ _ _ HT (is_vec_of_list [0; 0])) as (da & Eda & Hda). cbn [length] in *. rewrite Eda. cbn [bind].
  rewrite (vnorm_ok _ _ _ (is_vec_of_list [0; 0])). cbn [bind length bigsum nth].
  replace (sqrt (0 + 0 * 0 + 0 * 0)) with 0 by (replace (0 + 0 * 0 + 0 * 0) with 0 by ring; now rewrite sqrt_0).
  destruct (is_vec_nth _ _ _ 0 Hda) as [Ld _]. destruct da as [|a da]; [cbn in Ld; lia|]. cbn [foldM]. unfold Rdiv_res at 1.
  destruct (Req_EM_T 0 0); [reflexivity|congruence].
Qed.
Lemma scalar_zero s q elem dou xs body : element_ok 2 s q elem xs -> length dou = 1%nat -> (0 < q_n q)%nat ->
  (forall X g, is_mat X (length elem) 2 (nodal elem xs) -> (g < q_n q)%nat -> body (length elem) X g = Fail DivByZero) ->
  scalar_loop elem dou xs q body = Fail DivByZero.
Proof.
  intros He Hdou Hq HB. unfold scalar_loop. rewrite (eqb2 _ _ Hdou). cbn [assert_ bind].
  destruct (nte_of_ok 1 (length elem) dou ltac:(lia)) as (ne & En & Hn). rewrite En. cbn [bind].
  destruct (node_mat_ok 2 elem xs ltac:(apply He)) as (X & EX & HX). rewrite EX. cbn [bind].
  unfold gauss. pose proof (HB X O HX Hq) as E0. destruct (q_n q) as [|m]; [lia|]. cbn [seq foldM]. rewrite E0. reflexivity.
Qed.
Lemma elem_nonempty s q elem xs : element_ok 2 s q elem xs -> (0 < length elem)%nat.
Proof.
  intros (Hs & _ & Hl & _). rewrite Hl. unfold all_shapes in Hs. cbn [In] in Hs.
  repeat (destruct Hs as [<-|Hs]; [cbn; lia|]). destruct Hs.
Qed.

Lemma C85_forms_pf : forall s q elem dou xs ax ay k Hn, element_ok 2 s q elem xs -> length dou = 1%nat -> ax <> 0 \/ ay <> 0 -> k <> 0 ->
  shape_gradients s q (nodal elem xs) Hn ->
  let h p := stream_length (length elem) ax ay (fun i => Hn i p) in
  let n := length elem in
  (forall g, (g < q_n q)%nat -> 0 < h (pt q g)) /\
  (exists K ne A, AdvectionSUPG s q elem dou xs ax ay k = Ok (K, ne) /\ is_mat K n n A /\ numbered 1 n dou ne /\
     forall y z Hy Hz, gradients s q (nodal elem xs) 1 y Hy -> gradients s q (nodal elem xs) 1 z Hz ->
       form 1 n A y z = quad 2 q (fun p => jac s (nodal elem xs) p * (tau_supg ax ay k (h p) * (along ax ay (Hy p) * along ax ay (Hz p))))) /\
  (exists K ne A, AdvectionShockCapturing s q elem dou xs ax ay k = Ok (K, ne) /\ is_mat K n n A /\ numbered 1 n dou ne /\
     forall y z Hy Hz, gradients s q (nodal elem xs) 1 y Hy -> gradients s q (nodal elem xs) 1 z Hz ->
       form 1 n A y z = quad 2 q (fun p => jac s (nodal elem xs) p * (kappa_shock ax ay k (h p) * bigsum 2 (fun l => Hy p l 0%nat * Hz p l 0%nat)))) /\
  (exists K ne A, MassSUPG s q elem dou xs ax ay k = Ok (K, ne) /\ is_mat K n n A /\ numbered 1 n dou ne /\
     forall y z Hy, gradients s q (nodal elem xs) 1 y Hy ->
       form 1 n A y z = quad 2 q (fun p => jac s (nodal elem xs) p * (tau_supg ax ay k (h p) * (along ax ay (Hy p) * field_value s p z 0)))).
Proof.
  intros s q elem dou xs ax ay k Hn He Hdou Ha Hk HH h n.
  assert (EH : forall g, (g < q_n q)%nat -> 2 * vel ax ay / bigsum n (fun i => Rabs (ax * gradN s (nodal elem xs) (pt q g) 0 i + ay * gradN s (nodal elem xs) (pt q g) 1 i)) = h (pt q g)).
  { intros g Hg. exact (h_spec s q elem dou xs ax ay He Hdou Hn HH g Hg). }
  split; [|split; [|split]].
  - intros g Hg. rewrite <- EH by auto. exact (h_pos s q elem dou xs ax ay He Hdou Ha g Hg).
  - destruct (supg_form s q elem dou xs ax ay k He Hdou Ha Hk) as (K & ne & E & Hne & (A & HA & EA)).
    rewrite Nat.mul_1_l in HA. exists K, ne, A. splits; auto. intros y z Hy Hz Gy Gz. unfold n. rewrite EA. unfold quadg, quad. apply bigsum_ext; intros g Hg. change (fun k0 => nth k0 (nth g (q_points q) []) 0) with (pt q g).
    rewrite <- (along_eq s q elem xs ax ay y Hy g He Gy Hg), <- (along_eq s q elem xs ax ay z Hz g He Gz Hg). fold n. rewrite EH by auto. reflexivity.
  - destruct (shock_form s q elem dou xs ax ay k He Hdou Ha Hk) as (K & ne & E & Hne & (A & HA & EA)).
    rewrite Nat.mul_1_l in HA. exists K, ne, A. splits; auto. intros y z Hy Hz Gy Gz. unfold n. rewrite EA. unfold quadg, quad. apply bigsum_ext; intros g Hg. change (fun k0 => nth k0 (nth g (q_points q) []) 0) with (pt q g).
    cbn [bigsum]. rewrite !(gradients_eq s q elem xs 2 1 y Hy He (le_n 2) Gy g), !(gradients_eq s q elem xs 2 1 z Hz He (le_n 2) Gz g) by (auto; lia).
    fold n. rewrite EH by auto. reflexivity.
  - destruct (mass_supg_form s q elem dou xs ax ay k He Hdou Ha Hk) as (K & ne & E & Hne & (A & HA & EA)).
    rewrite Nat.mul_1_l in HA. exists K, ne, A. splits; auto. intros y z Hy Gy. unfold n. rewrite EA. unfold quadg, quad. apply bigsum_ext; intros g Hg. change (fun k0 => nth k0 (nth g (q_points q) []) 0) with (pt q g).
    rewrite <- (along_eq s q elem xs ax ay y Hy g He Gy Hg). fold n. rewrite EH by auto. reflexivity.
Qed.

Lemma C85_parameter_pf : forall ax ay k h, ax <> 0 \/ ay <> 0 -> 0 < k -> 0 < h ->
  0 < tau_supg ax ay k h /\ tau_supg ax ay k h <= h / (2 * vel ax ay) /\ tau_supg ax ay k h <= h * h / (12 * k) /\
  kappa_shock ax ay k h = tau_supg ax ay k h * (ax * ax + ay * ay) /\
  (peclet ax ay k h <= 3 -> tau_supg ax ay k h = h * h / (12 * k)) /\
  (3 <= peclet ax ay k h -> tau_supg ax ay k h = h / (2 * vel ax ay)).
Proof.
  intros ax ay k h Ha Hk Hh. destruct (tau_range ax ay k h Ha Hk Hh) as (A & B & C & D). pose proof (vel_pos _ _ Ha) as Hv. splits; auto.
  - intros HP. unfold tau_supg, upwind. rewrite Rmin_right by lra. unfold peclet. field. lra.
  - intros HP. unfold tau_supg, upwind. rewrite Rmin_left by lra. ring.
Qed.

Lemma C85_dissipative_pf : forall s q elem dou xs ax ay k, element_ok 2 s q elem xs -> length dou = 1%nat -> ax <> 0 \/ ay <> 0 -> 0 < k ->
  positive_rule 2 s q (nodal elem xs) ->
  exists K ne A K' ne' B, AdvectionSUPG s q elem dou xs ax ay k = Ok (K, ne) /\ is_mat K (length elem) (length elem) A /\
    AdvectionShockCapturing s q elem dou xs ax ay k = Ok (K', ne') /\ is_mat K' (length elem) (length elem) B /\
    (forall i j, (i < length elem)%nat -> (j < length elem)%nat -> A i j = A j i /\ B i j = B j i) /\
    (forall y, 0 <= form 1 (length elem) A y y <= form 1 (length elem) B y y) /\
    (forall y Hy, gradients s q (nodal elem xs) 1 y Hy -> form 1 (length elem) A y y = 0 ->
       forall g, (g < q_n q)%nat -> along ax ay (Hy (pt q g)) = 0) /\
    (forall y Hy, gradients s q (nodal elem xs) 1 y Hy -> form 1 (length elem) B y y = 0 ->
       forall g l, (g < q_n q)%nat -> (l < 2)%nat -> Hy (pt q g) l 0%nat = 0).
Proof.
  intros s q elem dou xs ax ay k He Hdou Ha Hk HP. destruct (shape_gradients_ex s q elem xs He) as (Hn & HH).
  destruct (C85_forms_pf s q elem dou xs ax ay k Hn He Hdou Ha ltac:(lra) HH) as (Hh & (K & ne & A & E & HA & _ & FA) & (K' & ne' & B & E' & HB & _ & FB) & _).
  set (x := nodal elem xs) in *. set (h p := stream_length (length elem) ax ay (fun i => Hn i p)) in *. set (n := length elem) in *.
  exists K, ne, A, K', ne', B.
  assert (GG : forall y, gradients s q x 1 y (fun p => gradU s x p y)) by (intros y; now apply (gradients_gradU s q elem xs 2)).
  assert (TP : forall g, (g < q_n q)%nat -> 0 < wprod 2 (nth g (q_weights q) []) * jac s x (pt q g) /\ 0 < tau_supg ax ay k (h (pt q g)) /\
    kappa_shock ax ay k (h (pt q g)) = tau_supg ax ay k (h (pt q g)) * (ax * ax + ay * ay)).
  { intros g Hg. destruct (HP g Hg) as [J W]. destruct (tau_range ax ay k (h (pt q g)) Ha Hk (Hh g Hg)) as (T1 & _ & _ & T2). splits; auto. now apply Rmult_lt_0_compat. }
  unfold h in TP.
  assert (NN : forall a b : R, 0 <= a * a + b * b) by (intros a b; pose proof (Rle_0_sqr a); pose proof (Rle_0_sqr b); unfold Rsqr in *; lra).
  splits; auto.
  - intros i j Hi Hj. split.
    + pose proof (form_sym_entries 1 n A) as FS. rewrite Nat.mul_1_l in FS. apply FS; auto. intros y z.
      rewrite (FA y z _ _ (GG y) (GG z)), (FA z y _ _ (GG z) (GG y)). apply quad_ext. intros; ring.
    + pose proof (form_sym_entries 1 n B) as FS. rewrite Nat.mul_1_l in FS. apply FS; auto. intros y z.
      rewrite (FB y z _ _ (GG y) (GG z)), (FB z y _ _ (GG z) (GG y)). apply quad_ext. intros. cbn [bigsum]. ring.
  - intros y. rewrite (FA y y _ _ (GG y) (GG y)), (FB y y _ _ (GG y) (GG y)). split.
    + apply quad_nonneg. intros g Hg. destruct (TP g Hg) as (T1 & T2 & T3). rewrite <- Rmult_assoc.
      apply Rmult_le_pos; [apply Rlt_le, T1|]. apply Rmult_le_pos; [apply Rlt_le, T2|]. apply Rle_0_sqr.
    + unfold quad. apply bigsum_le. intros g Hg. destruct (TP g Hg) as (T1 & T2 & T3).
      change (fun k0 => nth k0 (nth g (q_points q) []) 0) with (pt q g). rewrite T3.
      rewrite <- !Rmult_assoc. rewrite !(Rmult_assoc (wprod 2 (nth g (q_weights q) []) * jac s x (pt q g))). apply Rmult_le_compat_l; [apply Rlt_le, T1|].
      rewrite !Rmult_assoc. apply Rmult_le_compat_l; [apply Rlt_le, T2|]. unfold along. cbn [bigsum].
      set (u := gradU s x (pt q g) y 0%nat 0%nat). set (v := gradU s x (pt q g) y 1%nat 0%nat). pose proof (Rle_0_sqr (ax * v - ay * u)) as Q. unfold Rsqr in Q. lra.
  - intros y Hy Gy HZ g Hg. rewrite (FA y y _ _ Gy Gy) in HZ. unfold quad in HZ.
    pose proof (fun N => bigsum_nonneg_eq0 _ _ N HZ g Hg) as Q. cbv beta in Q.
    change (fun k0 => nth k0 (nth g (q_points q) []) 0) with (pt q g) in Q. destruct (TP g Hg) as (T1 & T2 & _).
    assert (Q2 : wprod 2 (nth g (q_weights q) []) * jac s x (pt q g) * (tau_supg ax ay k (stream_length n ax ay (fun i => Hn i (pt q g))) * (along ax ay (Hy (pt q g)) * along ax ay (Hy (pt q g)))) = 0).
    { rewrite Rmult_assoc. apply Q. intros i Hi. destruct (TP i Hi) as (U1 & U2 & _). rewrite <- Rmult_assoc. apply Rmult_le_pos; [apply Rlt_le, U1|]. apply Rmult_le_pos; [apply Rlt_le, U2|apply Rle_0_sqr]. }
    apply Rmult_integral in Q2. destruct Q2 as [Q2|Q2]; [lra|]. apply Rmult_integral in Q2. destruct Q2 as [Q2|Q2]; [lra|]. now apply Rsqr_0_uniq.
  - intros y Hy Gy HZ g l Hg Hl. rewrite (FB y y _ _ Gy Gy) in HZ. unfold quad in HZ.
    pose proof (fun N => bigsum_nonneg_eq0 _ _ N HZ g Hg) as Q. cbv beta in Q.
    change (fun k0 => nth k0 (nth g (q_points q) []) 0) with (pt q g) in Q. destruct (TP g Hg) as (T1 & T2 & T3).
    assert (AA : 0 < ax * ax + ay * ay). { rewrite <- vel_sq. pose proof (vel_pos _ _ Ha). now apply Rmult_lt_0_compat. }
    assert (Q2 : wprod 2 (nth g (q_weights q) []) * jac s x (pt q g) * (kappa_shock ax ay k (stream_length n ax ay (fun i => Hn i (pt q g))) * bigsum 2 (fun l => Hy (pt q g) l 0%nat * Hy (pt q g) l 0%nat)) = 0).
    { rewrite Rmult_assoc. apply Q. intros i Hi. destruct (TP i Hi) as (U1 & U2 & U3). rewrite <- Rmult_assoc. apply Rmult_le_pos; [apply Rlt_le, U1|].
      change (fun k0 => nth k0 (nth i (q_points q) []) 0) with (pt q i). rewrite U3.
      apply Rmult_le_pos; [|cbn [bigsum]; rewrite Rplus_0_l; apply NN]. apply Rmult_le_pos; lra. }
    rewrite T3 in Q2. apply Rmult_integral in Q2. destruct Q2 as [Q2|Q2]; [lra|]. apply Rmult_integral in Q2.
    destruct Q2 as [Q2|Q2]. { apply Rmult_integral in Q2. destruct Q2; lra. }
    cbn [bigsum] in Q2. rewrite Rplus_0_l in Q2. apply Rplus_sqr_eq_0 in Q2. destruct l as [|[|l]]; try lia; tauto.
Qed.

Lemma C85_constants_pf : forall s q elem dou xs ax ay k, element_ok 2 s q elem xs -> length dou = 1%nat -> ax <> 0 \/ ay <> 0 -> k <> 0 ->
  let n := length elem in
  (forall r, In r [AdvectionSUPG s q elem dou xs ax ay k; AdvectionShockCapturing s q elem dou xs ax ay k] ->
     exists K ne A, r = Ok (K, ne) /\ is_mat K n n A /\
       forall i, (i < n)%nat -> bigsum n (fun j => A i j) = 0 /\ bigsum n (fun j => A j i) = 0) /\
  (exists K ne A, MassSUPG s q elem dou xs ax ay k = Ok (K, ne) /\ is_mat K n n A /\
     forall i, (i < n)%nat -> bigsum n (fun j => A j i) = 0).
Proof.
  intros s q elem dou xs ax ay k He Hdou Ha Hk n. destruct (shape_gradients_ex s q elem xs He) as (Hn & HH).
  destruct (C85_forms_pf s q elem dou xs ax ay k Hn He Hdou Ha Hk HH) as (_ & (K & ne & A & E & HA & _ & FA) & (K' & ne' & B & E' & HB & _ & FB) & (K2 & ne2 & C & E2 & HC & _ & FC)).
  fold n in HA, HB, HC, FA, FB, FC. set (x := nodal elem xs) in *. set (h p := stream_length (length elem) ax ay (fun i => Hn i p)) in *.
  assert (GG : forall y, gradients s q x 1 y (fun p => gradU s x p y)) by (intros y; now apply (gradients_gradU s q elem xs 2)).
  assert (GC : gradients s q x 1 (fun _ _ => 1) (fun _ _ _ => 0)).
  { intros g Hg. apply (affine_gradient s x (pt q g) ltac:(apply He) 1 _ (fun _ => 1)). intros i c _ _. rewrite bigsum_zero; [ring|]. intros; ring. }
  assert (RS : forall F i, (i < n)%nat -> form 1 n F (unitv 1 i) (fun _ _ => 1) = bigsum n (fun j => F i j)).
  { intros F i Hi. rewrite form_unit by lia. unfold apply_field. rewrite Nat.mul_1_l. apply bigsum_ext; intros; ring. }
  assert (CS : forall F i, (i < n)%nat -> form 1 n F (fun _ _ => 1) (unitv 1 i) = bigsum n (fun j => F j i)).
  { intros F i Hi. rewrite form_apply, Nat.mul_1_l. apply bigsum_ext; intros a _. rewrite Rmult_1_l. unfold apply_field. rewrite Nat.mul_1_l.
    rewrite (bigsum_single n i); auto.
    - unfold unitv. rewrite Nat.mul_1_l, Nat.div_1_r, Nat.mod_1_r, Nat.add_0_r, Nat.eqb_refl. ring.
    - intros j _ Hj. unfold unitv. rewrite Nat.mul_1_l, Nat.div_1_r, Nat.mod_1_r, Nat.add_0_r. destruct (Nat.eqb_spec j i); [contradiction|ring]. }
  assert (Z : forall f, (forall p, f p = 0) -> quad 2 q f = 0) by (intros f Hf; unfold quad; apply bigsum_zero; intros; rewrite Hf; ring).
  split.
  - intros r [<-|[<-|[]]].
    + exists K, ne, A. splits; auto. intros i Hi. rewrite <- (RS A i Hi), <- (CS A i Hi), (FA _ _ _ _ (GG (unitv 1 i)) GC), (FA _ _ _ _ GC (GG (unitv 1 i))).
      split; apply Z; intros p; unfold along; ring.
    + exists K', ne', B. splits; auto. intros i Hi. rewrite <- (RS B i Hi), <- (CS B i Hi), (FB _ _ _ _ (GG (unitv 1 i)) GC), (FB _ _ _ _ GC (GG (unitv 1 i))).
      split; apply Z; intros p; cbn [bigsum]; ring.
  - exists K2, ne2, C. splits; auto. intros i Hi. rewrite <- (CS C i Hi), (FC _ _ _ GC). apply Z; intros p; unfold along; ring.
Qed.

Lemma C85_zero_velocity_pf : forall s q elem dou xs k, element_ok 2 s q elem xs -> length dou = 1%nat -> (0 < q_n q)%nat ->
  forall r, In r [AdvectionSUPG s q elem dou xs 0 0 k; AdvectionShockCapturing s q elem dou xs 0 0 k; MassSUPG s q elem dou xs 0 0 k] ->
  r = Fail DivByZero.
Proof.
  intros s q elem dou xs k He Hdou Hq r [<-|[<-|[<-|[]]]]; unfold AdvectionSUPG, AdvectionShockCapturing, MassSUPG; apply (scalar_zero s); auto; intros X g HX Hg.
  - destruct (gradient_ok 2 s q elem xs He g X ltac:(lia) Hg HX) as (Gm & EG & HG). rewrite EG. cbn [bind]. rewrite (tau_zero _ _ _ _ _ HG); auto. now apply (elem_nonempty s q elem xs).
  - destruct (gradient_ok 2 s q elem xs He g X ltac:(lia) Hg HX) as (Gm & EG & HG). rewrite EG. cbn [bind]. rewrite (tau_zero _ _ _ _ _ HG); auto. now apply (elem_nonempty s q elem xs).
  - rewrite (gpoint_ok 2 q g ltac:(apply He) Hg). cbn [bind]. cbv zeta.
    destruct (gradient_ok 2 s q elem xs He g X ltac:(lia) Hg HX) as (Gm & EG & HG). rewrite EG. cbn [bind]. rewrite (tau_zero _ _ _ _ _ HG); auto. now apply (elem_nonempty s q elem xs).
Qed.
