(** Property C86: the incompatible modes element: the proofs. *)
From Coq Require Import List Arith Lia Bool Reals Lra.
From Verif Require Import Res SumR DenseModel DenseR DenseSpec ShapeModel QuadModel QuadSpec ElemModel ElemSpec WilsonSpec.
Import ListNotations.
Local Open Scope R_scope.
From Verif Require Import DenseProof DenseMain ShapeMain ElemProof ElemProof2 ElemProof3 ElemMain WilsonProof KrylovProof.

Definition PP (s : shape) (q : rule) (x : nat -> nat -> R) (Df : nat -> nat -> R) (t : R) (u v : (nat -> R) -> nat -> R) : R :=
  quad 2 q (fun r => jac s x r * t * quad_form3 Df (u r) (v r)).
Section PPs.
Variables (s : shape) (q : rule) (x : nat -> nat -> R) (Df : nat -> nat -> R) (t : R).
Notation P := (PP s q x Df t).
Lemma PP_ext u u' v v' : (forall g i, (g < q_n q)%nat -> (i < 3)%nat -> u (pt q g) i = u' (pt q g) i) ->
  (forall g i, (g < q_n q)%nat -> (i < 3)%nat -> v (pt q g) i = v' (pt q g) i) -> P u v = P u' v'.
Proof. intros H1 H2. apply quad_ext. intros g Hg. f_equal. apply quad_form3_ext; auto. Qed.
Lemma PP_plus_r u v w : P u (fun r i => v r i + w r i) = P u v + P u w.
Proof.
  unfold PP. rewrite <- quad_plus. apply quad_ext. intros g _. rewrite <- Rmult_plus_distr_l. f_equal. unfold quad_form3.
  rewrite <- bigsum_plus. apply bigsum_ext; intros. rewrite <- bigsum_plus. apply bigsum_ext; intros. ring.
Qed.
Lemma PP_scal_r u v c : P u (fun r i => c * v r i) = c * P u v.
Proof.
  unfold PP. rewrite (Rmult_comm c), <- quad_scal. apply quad_ext. intros g _. unfold quad_form3.
  cbn [bigsum]. ring.
Qed.
Hypothesis HM : material Df.
Lemma PP_sym u v : P u v = P v u.
Proof.
  apply quad_ext. intros g _. f_equal. unfold quad_form3. rewrite bigsum_swap. apply bigsum_ext; intros i Hi. apply bigsum_ext; intros j Hj.
  rewrite (proj1 HM i j) by auto. ring.
Qed.
Lemma PP_plus_l u v w : P (fun r i => v r i + w r i) u = P v u + P w u.
Proof. rewrite PP_sym, PP_plus_r, (PP_sym u v), (PP_sym u w). reflexivity. Qed.
Lemma PP_scal_l u v c : P (fun r i => c * v r i) u = c * P v u.
Proof. rewrite PP_sym, PP_scal_r, (PP_sym u v). reflexivity. Qed.
Hypothesis HP : positive_rule 2 s q x.
Hypothesis Ht : 0 < t.
Lemma PP_term u g : (g < q_n q)%nat -> 0 <= wprod 2 (nth g (q_weights q) []) * (jac s x (pt q g) * t * quad_form3 Df (u (pt q g)) (u (pt q g))).
Proof.
  intros Hg. destruct (HP g Hg) as [HJ Hw]. pose proof (proj1 (proj2 HM (u (pt q g)))) as H. fold (quad_form3 Df (u (pt q g)) (u (pt q g))) in H.
  apply Rmult_le_pos; [lra|]. apply Rmult_le_pos; auto. apply Rmult_le_pos; lra.
Qed.
Lemma PP_nonneg u : 0 <= P u u.
Proof. apply quad_nonneg. intros g Hg. now apply PP_term. Qed.
Lemma PP_zero u : P u u = 0 -> forall g i, (g < q_n q)%nat -> (i < 3)%nat -> u (pt q g) i = 0.
Proof.
  intros H g i Hg Hi. unfold PP, quad in H.
  pose proof (bigsum_nonneg_eq0 (q_n q) _ (fun g Hg => PP_term u g Hg) H g Hg) as Z. cbv beta in Z. destruct (HP g Hg) as [HJ Hw].
  apply (proj2 (proj2 HM (u (pt q g)))); auto. fold (quad_form3 Df (u (pt q g)) (u (pt q g))).
  apply Rmult_integral in Z. destruct Z as [Z|Z]; [lra|]. apply Rmult_integral in Z. destruct Z as [Z|Z]; auto.
  assert (0 < jac s x (pt q g) * t) by (apply Rmult_lt_0_compat; lra). lra.
Qed.
End PPs.

Lemma voigt2_plus A B i : voigt2 (gplus A B) i = voigt2 A i + voigt2 B i.
Proof. destruct i as [|[|i]]; cbn [voigt2]; unfold gplus; ring. Qed.
Lemma dform_voigt Df H Z : dform Df H Z = quad_form3 Df (voigt2 H) (voigt2 Z).
Proof. unfold dform, quad_form3. apply bigsum_ext; intros i _. apply bigsum_ext; intros j _. now rewrite !eng_voigt. Qed.
Lemma quad_dform s q x Df t (H Z : (nat -> R) -> nat -> nat -> R) : quad 2 q (fun p => jac s x p * (t * dform Df (H p) (Z p))) =
  PP s q x Df t (fun p => voigt2 (H p)) (fun p => voigt2 (Z p)).
Proof. apply quad_ext. intros g _. cbv beta. rewrite dform_voigt. ring. Qed.
Lemma bubG_lin s x r a b c l k : bubG s x r (fun i j => a i j + c * b i j) l k = bubG s x r a l k + c * bubG s x r b l k.
Proof. unfold bubG, grd. cbn [bigsum]. ring. Qed.
Lemma voigt2_lin A B c i : voigt2 (fun l k => A l k + c * B l k) i = voigt2 A i + c * voigt2 B i.
Proof. destruct i as [|[|i]]; cbn [voigt2]; ring. Qed.

Section WMain.
Variables (s : shape) (q : rule) (elem dou : list nat) (xs : list (list R)) (D : mat R) (Df : nat -> nat -> R) (t : R).
Hypothesis He : element_ok 2 s q elem xs.
Hypothesis Hdou : length dou = 2%nat.
Hypothesis HD : is_mat D 3 3 Df.
Hypothesis HM : material Df.
Hypothesis HP : positive_rule 2 s q (nodal elem xs).
Hypothesis Ht : 0 < t.
Let n := length elem.
Let x := nodal elem xs.
Notation P := (PP s q x Df t).
Notation fk := (Fk s q elem xs Df t).
Notation fa := (Fa s q elem xs Df t).
Notation fd := (Fd s q elem xs Df t).
Notation call := (PlaneStiffnessWilsonTaylor s q elem dou xs D t).
Let vU (z : field) (r : nat -> R) := voigt2 (gradU s x r z).
Let vB (a : field) (r : nat -> R) := voigt2 (bubG s x r a).

Lemma jac_nz g : (g < q_n q)%nat -> jac s x (pt q g) <> 0.
Proof. intros Hg. apply He. exact Hg. Qed.
Lemma bubbles_bubG a : bubbles s q x a (fun r => bubG s x r a).
Proof. intros g Hg. apply bubG_ok; [apply He|now apply jac_nz]. Qed.
Lemma bubbles_eq a H g l c : bubbles s q x a H -> (g < q_n q)%nat -> (l < 2)%nat -> (c < 2)%nat -> H (pt q g) l c = bubG s x (pt q g) a l c.
Proof.
  intros HB Hg Hl Hc. apply (bubble_unique s x (pt q g) a); auto; [apply He|now apply jac_nz|].
  apply bubG_ok; [apply He|now apply jac_nz].
Qed.
Lemma voigt_bubbles a H g i : bubbles s q x a H -> (g < q_n q)%nat -> voigt2 (H (pt q g)) i = vB a (pt q g) i.
Proof. intros HB Hg. apply voigt2_ext. intros. now apply bubbles_eq. Qed.
Lemma voigt_grads z H g i : gradients s q x 2 z H -> (g < q_n q)%nat -> voigt2 (H (pt q g)) i = vU z (pt q g) i.
Proof. intros HG Hg. apply voigt2_ext. intros l c Hl Hc. symmetry. now apply (gradients_eq s q elem xs 2 2 z H He (le_n 2) HG). Qed.
Lemma vB_lin a b c r i : vB (fun k j => a k j + c * b k j) r i = vB a r i + c * vB b r i.
Proof. unfold vB. rewrite <- voigt2_lin. apply voigt2_ext. intros. apply bubG_lin. Qed.
Lemma fa_PP a b : fa a b = P (vB a) (vB b). Proof. reflexivity. Qed.
Lemma fd_PP a z : fd a z = P (vB a) (vU z). Proof. reflexivity. Qed.
Lemma fk_PP y z : fk y z = P (vU y) (vU z). Proof. reflexivity. Qed.

(** the strained modes are independent exactly when the mode block is regular *)
Lemma strained_det ka : (forall y z, bigsum 4 (fun a => bigsum 4 (fun b => dofv 2 y a * ka a b * dofv 2 z b)) = fa y z) ->
  modes_strained s q x -> det4 ka <> 0.
Proof.
  intros Hka HS. apply definite_det4. intros v Hv i Hi.
  set (y := fun i c => v (2 * i + c)%nat : R).
  assert (DV : forall a, dofv 2 y a = v a) by (intros; unfold dofv, y; now rewrite <- Nat.div_mod by lia).
  assert (Z : fa y y = 0).
  { rewrite <- Hka, <- Hv. unfold qf. apply bigsum_ext; intros. apply bigsum_ext; intros. now rewrite !DV. }
  rewrite fa_PP in Z. pose proof (PP_zero s q x Df t HM HP Ht (vB y) Z) as Z'.
  rewrite <- (DV i). unfold dofv. apply (HS y _ (bubbles_bubG y)).
  - intros g j Hg Hj. rewrite eng_voigt. now apply Z'.
  - destruct i as [|[|[|[|i]]]]; cbn; lia.
  - apply Nat.mod_upper_bound. lia.
Qed.
Lemma det_strained ka : (forall y z, bigsum 4 (fun a => bigsum 4 (fun b => dofv 2 y a * ka a b * dofv 2 z b)) = fa y z) ->
  det4 ka <> 0 -> modes_strained s q x.
Proof.
  intros Hka Hdet a H HB HZ k c Hk Hc.
  assert (Z : forall b, fa b a = 0).
  { intros b. rewrite fa_PP. rewrite (PP_ext s q x Df t (vB b) (vB b) (vB a) (fun _ _ => 0)); auto.
    - unfold PP, quad. apply bigsum_zero; intros. unfold quad_form3. rewrite bigsum_zero; [ring|]. intros. apply bigsum_zero; intros. ring.
    - intros g i Hg Hi. rewrite <- (voigt_bubbles a H g i HB Hg), <- eng_voigt. now apply HZ. }
  assert (Row : forall i, (i < 4)%nat -> bigsum 4 (fun b => ka i b * dofv 2 a b) = 0).
  { intros i Hi. rewrite <- (Z (unitv 2 i)), <- Hka.
    symmetry. rewrite (bigsum_ext 4 _ (fun a0 => (if (i =? a0)%nat then 1 else 0) * bigsum 4 (fun b => ka a0 b * dofv 2 a b))).
    - now rewrite (bigsum_ite 4 i (fun a0 => bigsum 4 (fun b => ka a0 b * dofv 2 a b))).
    - intros a0 Ha0. rewrite <- bigsum_scal. apply bigsum_ext; intros. rewrite dofv_unitv, (Nat.eqb_sym a0 i). ring. }
  assert (G : forall i, (i < 4)%nat -> dofv 2 a i = 0).
  { intros i Hi. apply (Rmult_eq_reg_l (det4 ka)); auto. rewrite Rmult_0_r.
    transitivity (bigsum 4 (fun j => (if (i =? j)%nat then 1 else 0) * (det4 ka * dofv 2 a j))).
    { now rewrite (bigsum_ite 4 i (fun j => det4 ka * dofv 2 a j)). }
    rewrite (bigsum_ext 4 _ (fun j => bigsum 4 (fun m => cof 4 ka i m * (ka m j * dofv 2 a j)))).
    - rewrite bigsum_swap. apply bigsum_zero; intros m Hm. rewrite bigsum_scal, Row by auto. ring.
    - intros j Hj. transitivity (bigsum 4 (fun m => cof 4 ka i m * ka m j) * dofv 2 a j).
      + rewrite cof4_left by auto. destruct (i =? j)%nat; ring.
      + rewrite <- bigsum_scal_r. apply bigsum_ext; intros; ring. }
  specialize (G (2 * k + c)%nat ltac:(lia)). unfold dofv in G. destruct (dm 2 k c Hc) as [-> ->] in G. exact G.
Qed.

Lemma wt_result : modes_strained s q x -> exists K ne k al, call = Ok (K, ne) /\ numbered 2 n dou ne /\
     is_mat K (2 * n) (2 * n) k /\ (forall z b, fa b (al z) = - fd b z) /\ forall y z, form 2 n k y z = fk y z + fd (al z) y.
Proof.
  intros HS. destruct (wt_core s q elem dou xs D Df t He Hdou HD) as (ka & Hka & _ & H). apply H. now apply strained_det.
Qed.
Lemma wt_singular : ~ modes_strained s q x -> call = Fail DivByZero.
Proof.
  intros HS. destruct (wt_core s q elem dou xs D Df t He Hdou HD) as (ka & Hka & H & _). apply H.
  destruct (Req_dec (det4 ka) 0) as [|Hn]; auto. exfalso. apply HS. now apply (det_strained ka).
Qed.
(** the minimising amplitudes are determined *)
Lemma energy_gap y a b : (forall c, fa c a = - fd c y) ->
  P (fun r i => vU y r i + vB b r i) (fun r i => vU y r i + vB b r i) = fk y y + fd a y + P (vB (fun k j => b k j + -1 * a k j)) (vB (fun k j => b k j + -1 * a k j)).
Proof.
  intros Ha.
  rewrite (PP_ext s q x Df t (vB (fun k j => b k j + -1 * a k j)) (fun r i => vB b r i + -1 * vB a r i) (vB (fun k j => b k j + -1 * a k j)) (fun r i => vB b r i + -1 * vB a r i))
    by (intros; apply vB_lin).
  rewrite (PP_plus_r s q x Df t _ (vU y) (vB b)), !(PP_plus_l s q x Df t HM _ (vU y) (vB b)).
  rewrite (PP_plus_r s q x Df t _ (vB b) (fun r i => -1 * vB a r i)), !(PP_plus_l s q x Df t HM _ (vB b) (fun r i => -1 * vB a r i)).
  rewrite !(PP_scal_r s q x Df t _ (vB a)), !(PP_scal_l s q x Df t HM _ (vB a)).
  rewrite (PP_sym s q x Df t HM (vU y) (vB b)), (PP_sym s q x Df t HM (vB a) (vB b)).
  change (P (vB b) (vB a)) with (fa b a). change (P (vB a) (vB a)) with (fa a a). rewrite !Ha. rewrite !fd_PP, fk_PP. ring.
Qed.
Lemma zero_strain_zero z : (forall g i, (g < q_n q)%nat -> (i < 3)%nat -> vU z (pt q g) i = 0) -> forall u, P u (vU z) = 0.
Proof.
  intros H u. rewrite (PP_ext s q x Df t u u (vU z) (fun _ _ => 0)); auto.
  unfold PP, quad. apply bigsum_zero; intros. unfold quad_form3. rewrite bigsum_zero; [ring|]. intros. apply bigsum_zero; intros. ring.
Qed.
End WMain.
Lemma PP_zero_r s q x Df t u v : (forall g i, (g < q_n q)%nat -> (i < 3)%nat -> v (pt q g) i = 0) -> PP s q x Df t u v = 0.
Proof.
  intros H. rewrite (PP_ext s q x Df t u u v (fun _ _ => 0)); auto.
  unfold PP, quad. apply bigsum_zero; intros. unfold quad_form3. rewrite bigsum_zero; [ring|]. intros. apply bigsum_zero; intros. ring.
Qed.
Lemma stationary s q elem xs Df t a b z : material Df -> (forall c, Fa s q elem xs Df t c a = - Fd s q elem xs Df t c z) ->
  (forall c, Fa s q elem xs Df t c b = - Fd s q elem xs Df t c z) -> Fd s q elem xs Df t a z = Fd s q elem xs Df t b z.
Proof.
  intros HM Ha Hb. pose proof (Ha b) as A. pose proof (Hb a) as B.
  assert (S : Fa s q elem xs Df t a b = Fa s q elem xs Df t b a) by (apply (PP_sym s q (nodal elem xs) Df t HM)). lra.
Qed.

(** ** the four node square *)
Section Square.
Variables (x : nat -> R) .
Definition ca : R := (- x 0%nat + x 1%nat + x 2%nat - x 3%nat) / 4.
Definition cb : R := (- x 0%nat - x 1%nat + x 2%nat + x 3%nat) / 4.
Definition cd : R := (x 0%nat - x 1%nat + x 2%nat - x 3%nat) / 4.
Definition cm : R := (x 0%nat + x 1%nat + x 2%nat + x 3%nat) / 4.
End Square.
Lemma sq_deriv (u : nat -> R) r k : (k < 2)%nat -> bigsum 4 (fun i => dshp sf_4Square r k i * u i) =
  (if (k =? 0)%nat then ca u + cd u * r 1%nat else cb u + cd u * r 0%nat).
Proof.
  intros Hk. destruct k as [|[|k]]; try lia; unfold dshp, sf_4Square, dN_4Square, ca, cb, cd; cbn [sf_dN nth bigsum Nat.eqb]; field.
Qed.
Lemma sq_tangent x r k l : (k < 2)%nat -> tangent sf_4Square x r k l =
  (if (k =? 0)%nat then ca (fun i => x i l) + cd (fun i => x i l) * r 1%nat else cb (fun i => x i l) + cd (fun i => x i l) * r 0%nat).
Proof. intros Hk. unfold tangent. now apply (sq_deriv (fun i => x i l)). Qed.
Definition hh := 1 / sqrt 3.
Lemma hh_sq : hh * hh = 1 / 3.
Proof. unfold hh. pose proof (sqrt_lt_R0 3 ltac:(lra)). pose proof (sqrt_sqrt 3 ltac:(lra)). field_simplify; [|lra]. replace (sqrt 3 ^ 2) with 3 by (cbn; lra). field. Qed.
Lemma hh_pos : 0 < hh. Proof. unfold hh. apply Rdiv_lt_0_compat; [lra|]. apply sqrt_lt_R0. lra. Qed.
Definition s0 (g : nat) : R := match g with 1%nat | 3%nat => 1 | _ => -1 end.
Definition s1 (g : nat) : R := match g with 2%nat | 3%nat => 1 | _ => -1 end.
Lemma g4_pt g : (g < 4)%nat -> pt Gauss4Square g 0%nat = s0 g * hh /\ pt Gauss4Square g 1%nat = s1 g * hh.
Proof.
  intros Hg. destruct g as [|[|[|[|g]]]]; try lia; unfold pt, Gauss4Square, hh; cbn [q_points nth s0 s1]; split; try field; apply Rgt_not_eq, sqrt_lt_R0; lra.
Qed.
Lemma g4_quad f : quad 2 Gauss4Square f = f (pt Gauss4Square 0) + f (pt Gauss4Square 1) + f (pt Gauss4Square 2) + f (pt Gauss4Square 3).
Proof. unfold quad, Gauss4Square, wprod. cbn [q_n q_weights bigsum nth]. fold Gauss4Square. unfold pt. cbn. ring. Qed.
(** the Jacobian at the centre is the mean of those at the points *)
Lemma sq_centre x : positive_rule 2 sf_4Square Gauss4Square x ->
  0 < ca (fun i => x i 0%nat) * cb (fun i => x i 1%nat) - ca (fun i => x i 1%nat) * cb (fun i => x i 0%nat).
Proof.
  intros HP. pose proof (proj1 (HP 0%nat ltac:(cbn; lia))) as A0. pose proof (proj1 (HP 3%nat ltac:(cbn; lia))) as A3.
  unfold jac in A0, A3. change (sf_d sf_4Square) with 2%nat in *. cbn [detd] in A0, A3. unfold det2 in A0, A3. rewrite !sq_tangent in A0, A3 by lia.
  destruct (g4_pt 0 ltac:(lia)) as [P0 P1]. destruct (g4_pt 3 ltac:(lia)) as [P2 P3]. cbn [s0 s1 Nat.eqb] in *. rewrite P0, P1 in A0. rewrite P2, P3 in A3. nra.
Qed.
Lemma jac_bub s x r b l c : sf_d s = 2%nat -> jac s x r <> 0 -> (l < 2)%nat -> (c < 2)%nat ->
  jac s x r * bubG s x r b l c = bigsum 2 (fun k => cof 2 (tangent s x r) l k * (-2 * r k * b k c)).
Proof. intros Hd HJ Hl Hc. unfold bubG, grd, bubM. cbn [bigsum Nat.eqb]. field. auto. Qed.
Definition kite (x : nat -> nat -> R) (l : nat) : R := match l with O => cd (fun i => x i 1%nat) | _ => - cd (fun i => x i 0%nat) end.
Lemma sq_const elem xs Df t b V : positive_rule 2 sf_4Square Gauss4Square (nodal elem xs) ->
  PP sf_4Square Gauss4Square (nodal elem xs) Df t (fun r => voigt2 (bubG sf_4Square (nodal elem xs) r b)) (fun _ => V) =
  t * quad_form3 Df (voigt2 (fun l c => -8 / 3 * kite (nodal elem xs) l * (b 0%nat c - b 1%nat c))) V.
Proof.
  intros HP. set (x := nodal elem xs) in *. unfold PP. rewrite g4_quad.
  assert (G : forall g, (g < 4)%nat -> jac sf_4Square x (pt Gauss4Square g) * t * quad_form3 Df (voigt2 (bubG sf_4Square x (pt Gauss4Square g) b)) V =
    t * quad_form3 Df (voigt2 (fun l c => bigsum 2 (fun k => cof 2 (tangent sf_4Square x (pt Gauss4Square g)) l k * (-2 * pt Gauss4Square g k * b k c)))) V).
  { intros g Hg. assert (HJ : jac sf_4Square x (pt Gauss4Square g) <> 0) by (pose proof (proj1 (HP g Hg)); lra).
    transitivity (t * quad_form3 Df (voigt2 (fun l c => jac sf_4Square x (pt Gauss4Square g) * bubG sf_4Square x (pt Gauss4Square g) b l c)) V).
    - unfold quad_form3. cbn [bigsum voigt2]. ring.
    - f_equal. apply quad_form3_ext; auto. intros i Hi. apply voigt2_ext. intros l c Hl Hc. now apply (jac_bub sf_4Square x). }
  rewrite !G by lia. clear G.
  replace (-8 / 3) with (-8 * (hh * hh)) by (rewrite hh_sq; field).
  destruct (g4_pt 0 ltac:(lia)) as [P0 Q0]. destruct (g4_pt 1 ltac:(lia)) as [P1 Q1]. destruct (g4_pt 2 ltac:(lia)) as [P2 Q2]. destruct (g4_pt 3 ltac:(lia)) as [P3 Q3].
  unfold quad_form3, cof, sgn, kite. cbn [bigsum voigt2 Nat.sub detd Nat.add Nat.even]. unfold skip. cbn [Nat.ltb Nat.leb].
  rewrite !sq_tangent by lia. cbn [Nat.eqb]. rewrite P0, P1, P2, P3, Q0, Q1, Q2, Q3. cbn [s0 s1]. ring.
Qed.
(** a skew gradient of bilinear plus mode displacements at the four points *)
Lemma sq_skew (x z a : nat -> nat -> R) (w : nat -> R) :
  0 < ca (fun i => x i 0%nat) * cb (fun i => x i 1%nat) - ca (fun i => x i 1%nat) * cb (fun i => x i 0%nat) ->
  (forall g k c, (g < 4)%nat -> (k < 2)%nat -> (c < 2)%nat ->
     (if (c =? 0)%nat then - tangent sf_4Square x (pt Gauss4Square g) k 1 * w g else tangent sf_4Square x (pt Gauss4Square g) k 0 * w g) =
     bigsum 4 (fun i => dshp sf_4Square (pt Gauss4Square g) k i * z i c) + -2 * pt Gauss4Square g k * a k c) ->
  rigid_motion 2 4 x z.
Proof.
  intros HJ H.
  assert (H' : forall g k c, (g < 4)%nat -> (k < 2)%nat -> (c < 2)%nat ->
     (if (c =? 0)%nat then - (if (k =? 0)%nat then ca (fun i => x i 1%nat) + cd (fun i => x i 1%nat) * (s1 g * hh) else cb (fun i => x i 1%nat) + cd (fun i => x i 1%nat) * (s0 g * hh)) * w g
      else (if (k =? 0)%nat then ca (fun i => x i 0%nat) + cd (fun i => x i 0%nat) * (s1 g * hh) else cb (fun i => x i 0%nat) + cd (fun i => x i 0%nat) * (s0 g * hh)) * w g) =
     (if (k =? 0)%nat then ca (fun i => z i c) + cd (fun i => z i c) * (s1 g * hh) else cb (fun i => z i c) + cd (fun i => z i c) * (s0 g * hh))
       + -2 * (if (k =? 0)%nat then s0 g * hh else s1 g * hh) * a k c).
  { intros g k c Hg Hk Hc. specialize (H g k c Hg Hk Hc). rewrite !sq_tangent in H by auto. rewrite (sq_deriv (fun i => z i c)) in H by auto.
    destruct (g4_pt g Hg) as [P Q]. rewrite P, Q in H. rewrite H. destruct k as [|[|k]]; try lia; cbn [Nat.eqb]; rewrite ?P, ?Q; reflexivity. }
  clear H. set (A0 := ca (fun i => x i 0%nat)) in *. set (A1 := ca (fun i => x i 1%nat)) in *. set (B0 := cb (fun i => x i 0%nat)) in *. set (B1 := cb (fun i => x i 1%nat)) in *.
  set (D0 := cd (fun i => x i 0%nat)) in *. set (D1 := cd (fun i => x i 1%nat)) in *.
  pose proof hh_pos as Hh.
  assert (E : forall c, (c < 2)%nat -> let X f := if (c =? 0)%nat then - f (fun i => x i 1%nat) else f (fun i => x i 0%nat) in
    (* products of signs *)
    X ca * (w 0%nat - w 1%nat - w 2%nat + w 3%nat) + X cd * hh * (- w 0%nat + w 1%nat - w 2%nat + w 3%nat) = 0 /\
    X ca * (- w 0%nat - w 1%nat + w 2%nat + w 3%nat) + X cd * hh * (w 0%nat + w 1%nat + w 2%nat + w 3%nat) = 4 * hh * cd (fun i => z i c) /\
    X cb * (- w 0%nat + w 1%nat - w 2%nat + w 3%nat) + X cd * hh * (w 0%nat + w 1%nat + w 2%nat + w 3%nat) = 4 * hh * cd (fun i => z i c) /\
    X ca * (w 0%nat + w 1%nat + w 2%nat + w 3%nat) + X cd * hh * (- w 0%nat - w 1%nat + w 2%nat + w 3%nat) = 4 * ca (fun i => z i c) /\
    X cb * (w 0%nat + w 1%nat + w 2%nat + w 3%nat) + X cd * hh * (- w 0%nat + w 1%nat - w 2%nat + w 3%nat) = 4 * cb (fun i => z i c)).
  { intros c Hc X. pose proof (H' 0%nat 0%nat c ltac:(lia) ltac:(lia) Hc) as E00. pose proof (H' 1%nat 0%nat c ltac:(lia) ltac:(lia) Hc) as E10.
    pose proof (H' 2%nat 0%nat c ltac:(lia) ltac:(lia) Hc) as E20. pose proof (H' 3%nat 0%nat c ltac:(lia) ltac:(lia) Hc) as E30.
    pose proof (H' 0%nat 1%nat c ltac:(lia) ltac:(lia) Hc) as E01. pose proof (H' 1%nat 1%nat c ltac:(lia) ltac:(lia) Hc) as E11.
    pose proof (H' 2%nat 1%nat c ltac:(lia) ltac:(lia) Hc) as E21. pose proof (H' 3%nat 1%nat c ltac:(lia) ltac:(lia) Hc) as E31.
    clear H'. cbn [Nat.eqb s0 s1] in *. unfold X. destruct c as [|[|c]]; try lia; cbn [Nat.eqb] in *; fold A0 A1 B0 B1 D0 D1; splits; lra. }
  set (w0 := w 0%nat + w 1%nat + w 2%nat + w 3%nat) in *. set (w1 := - w 0%nat + w 1%nat - w 2%nat + w 3%nat) in *.
  set (w2 := - w 0%nat - w 1%nat + w 2%nat + w 3%nat) in *. set (w3 := w 0%nat - w 1%nat - w 2%nat + w 3%nat) in *.
  destruct (E 0%nat ltac:(lia)) as (E1 & E2 & E3 & E4 & E5). destruct (E 1%nat ltac:(lia)) as (F1 & F2 & F3 & F4 & F5). cbn [Nat.eqb] in *. fold A0 A1 B0 B1 D0 D1 in E1, E2, E3, E4, E5, F1, F2, F3, F4, F5.
  assert (X1 : A1 * w2 = B1 * w1) by lra. assert (X0 : A0 * w2 = B0 * w1) by lra.
  assert (W2 : w2 = 0). { apply (Rmult_eq_reg_l (A0 * B1 - A1 * B0)); [|lra]. rewrite Rmult_0_r. transitivity (B1 * (A0 * w2) - B0 * (A1 * w2)); [ring|]. rewrite X0, X1. ring. }
  assert (W1 : w1 = 0). { apply (Rmult_eq_reg_l (A0 * B1 - A1 * B0)); [|lra]. rewrite Rmult_0_r. transitivity (A0 * (B1 * w1) - A1 * (B0 * w1)); [ring|]. rewrite <- X0, <- X1. ring. }
  rewrite W1, W2 in *.
  assert (C0 : cd (fun i => z i 0%nat) = - D1 * (w0 / 4)). { apply (Rmult_eq_reg_l (4 * hh)); [|lra]. lra. }
  assert (C1 : cd (fun i => z i 1%nat) = D0 * (w0 / 4)). { apply (Rmult_eq_reg_l (4 * hh)); [|lra]. lra. }
  exists (fun c => cm (fun i => z i c) - bigsum 2 (fun l => cm (fun i => x i l) * (match l, c with O, 1%nat => w0 / 4 | 1%nat, O => - (w0 / 4) | _, _ => 0 end))).
  exists (fun l c => match l, c with O, 1%nat => w0 / 4 | 1%nat, O => - (w0 / 4) | _, _ => 0 end). split.
  - intros l c. destruct l as [|[|l]], c as [|[|c]]; lra.
  - intros i c Hi Hc. clearbody w0 w1 w2 w3. clear HJ H' E X0 X1 E1 E2 E3 F1 F2 F3. subst A0 A1 B0 B1 D0 D1. unfold ca, cb, cd, cm in *.
    cbn [bigsum]. destruct c as [|[|c]]; try lia; destruct i as [|[|[|[|i]]]]; try lia; lra.
Qed.
Lemma strain_material E V : 0 < E -> -1 < V < 1 / 2 -> exists D Df, D_strain E V = Ok D /\ is_mat D 3 3 Df /\ material Df /\
  forall H Z, dform Df H Z = hooke 2 (lame_lambda E V) (lame_mu E V) (strain H) (strain Z).
Proof.
  intros HE HV. destruct (D_strain_ok E V ltac:(nra)) as (D & Df & ED & HD & Hq). exists D, Df. splits; auto.
  - set (U i := fun l c : nat => match i, l, c with O, O, O => 1 | 1%nat, 1%nat, 1%nat => 1 | 2%nat, 1%nat, O => 1 | _, _, _ => 0 end : R).
    assert (B : forall i j, (i < 3)%nat -> (j < 3)%nat -> Df i j = quad_form3 Df (voigt2 (U i)) (voigt2 (U j))).
    { refine (forall_lt2 _ _ _ _); each; unfold quad_form3, U; cbn [bigsum voigt2]; ring. }
    split.
    + intros i j Hi Hj. rewrite (B i j), (B j i) by auto. rewrite !(proj1 (Hq _ _)). unfold hooke, ddot. cbn [bigsum]. ring.
    + intros v. set (H := fun l c : nat => match l, c with O, O => v 0%nat | 1%nat, 1%nat => v 1%nat | 1%nat, O => v 2%nat | _, _ => 0 end).
      assert (X : bigsum 3 (fun i => bigsum 3 (fun j => v i * Df i j * v j)) = quad_form3 Df (voigt2 H) (voigt2 H)).
      { unfold quad_form3, H. cbn [bigsum voigt2]. ring. }
      rewrite X, (proj1 (Hq H H)). set (la := lame_lambda E V). set (mu := lame_mu E V).
      assert (Hm : 0 < mu). { unfold mu, lame_mu. apply Rmult_lt_0_compat; auto. apply Rinv_0_lt_compat. lra. }
      assert (Hlm : 0 < la + mu). { replace (la + mu) with (E * / (2 * (1 + V) * (1 - 2 * V))) by (unfold la, mu, lame_lambda, lame_mu; field; lra).
        apply Rmult_lt_0_compat; auto. apply Rinv_0_lt_compat. nra. }
      replace (hooke 2 la mu (strain H) (strain H)) with ((la + mu) * (v 0%nat + v 1%nat)² + mu * ((v 0%nat - v 1%nat)² + (v 2%nat)²))
        by (unfold hooke, trace, ddot, strain, H, Rsqr; cbn [bigsum]; field).
      pose proof (Rle_0_sqr (v 0%nat + v 1%nat)) as P1. pose proof (Rle_0_sqr (v 0%nat - v 1%nat)) as P2. pose proof (Rle_0_sqr (v 2%nat)) as P3.
      split; [nra|]. intros Z i Hi. assert (Q1 : (v 0%nat + v 1%nat)² = 0) by nra. assert (Q2 : (v 0%nat - v 1%nat)² = 0) by nra. assert (Q3 : (v 2%nat)² = 0) by nra.
      apply Rsqr_0_uniq in Q1, Q2, Q3. destruct i as [|[|[|i]]]; try lia; lra.
  - intros H Z. rewrite dform_voigt. apply (proj1 (Hq H Z)).
Qed.

Lemma C86_defined_pf : forall s q elem dou xs D Df t, wt_setting s q elem dou xs D Df t ->
  (modes_strained s q (nodal elem xs) -> exists K ne k, PlaneStiffnessWilsonTaylor s q elem dou xs D t = Ok (K, ne) /\
     numbered 2 (length elem) dou ne /\ is_mat K (2 * length elem) (2 * length elem) k) /\
  (~ modes_strained s q (nodal elem xs) -> PlaneStiffnessWilsonTaylor s q elem dou xs D t = Fail DivByZero).
Proof.
  intros s q elem dou xs D Df t (He & Hdou & HD & HM & HP & Ht). split; intros HS.
  - destruct (wt_result s q elem dou xs D Df t He Hdou HD HM HP Ht HS) as (K & ne & k & al & E & Hn & Hk & _). exists K, ne, k. auto.
  - now apply (wt_singular s q elem dou xs D Df t).
Qed.

Lemma C86_points_pf : forall s q elem xs, element_ok 2 s q elem xs -> positive_rule 2 s q (nodal elem xs) ->
  ((exists g g', (g < q_n q)%nat /\ (g' < q_n q)%nat /\ 0 < pt q g 0 * pt q g 1 /\ pt q g' 0 * pt q g' 1 < 0) -> modes_strained s q (nodal elem xs)) /\
  (q_n q = 1%nat -> ~ modes_strained s q (nodal elem xs)).
Proof.
  intros s q elem xs He HP. set (x := nodal elem xs) in *. pose proof He as (Hs & Hd & _). split.
  - intros (g & g' & Hg & Hg' & R1 & R2) a H HB HZ.
    set (X := a 0%nat 0%nat * a 1%nat 1%nat - a 0%nat 1%nat * a 1%nat 0%nat).
    assert (G : forall h, (h < q_n q)%nat -> (H (pt q h) 0%nat 1%nat)² * jac s x (pt q h) = 4 * (pt q h 0%nat * pt q h 1%nat) * X /\
      forall k c, (k < 2)%nat -> (c < 2)%nat -> -2 * pt q h k * a k c = (if (c =? 0)%nat then - tangent s x (pt q h) k 1 * H (pt q h) 0%nat 1%nat else tangent s x (pt q h) k 0 * H (pt q h) 0%nat 1%nat)).
    { intros h Hh. pose proof (HZ h 0%nat Hh ltac:(lia)) as Z0. pose proof (HZ h 1%nat Hh ltac:(lia)) as Z1. pose proof (HZ h 2%nat Hh ltac:(lia)) as Z2.
      unfold eng, strain in Z0, Z1, Z2.
      assert (Y0 : H (pt q h) 0%nat 0%nat = 0) by lra. assert (Y1 : H (pt q h) 1%nat 1%nat = 0) by lra. assert (Y2 : H (pt q h) 1%nat 0%nat = - H (pt q h) 0%nat 1%nat) by lra.
      assert (K : forall k c, (k < 2)%nat -> (c < 2)%nat -> -2 * pt q h k * a k c = (if (c =? 0)%nat then - tangent s x (pt q h) k 1 * H (pt q h) 0%nat 1%nat else tangent s x (pt q h) k 0 * H (pt q h) 0%nat 1%nat)).
      { intros k c Hk Hc. rewrite <- (HB h Hh k c Hk Hc). cbn [bigsum]. destruct c as [|[|c]]; try lia; cbn [Nat.eqb]; rewrite ?Y0, ?Y1, ?Y2; ring. }
      split; auto. pose proof (K 0%nat 0%nat ltac:(lia) ltac:(lia)) as K00. pose proof (K 0%nat 1%nat ltac:(lia) ltac:(lia)) as K01.
      pose proof (K 1%nat 0%nat ltac:(lia) ltac:(lia)) as K10. pose proof (K 1%nat 1%nat ltac:(lia) ltac:(lia)) as K11. cbn [Nat.eqb] in *.
      unfold jac. rewrite Hd. cbn [detd]. unfold det2, Rsqr, X.
      transitivity ((-2 * pt q h 0%nat * a 0%nat 0%nat) * (-2 * pt q h 1%nat * a 1%nat 1%nat) - (-2 * pt q h 0%nat * a 0%nat 1%nat) * (-2 * pt q h 1%nat * a 1%nat 0%nat)); [|ring].
      rewrite K00, K01, K10, K11. ring. }
    destruct (G g Hg) as [G1 G1']. destruct (G g' Hg') as [G2 G2'].
    pose proof (proj1 (HP g Hg)) as J1. pose proof (proj1 (HP g' Hg')) as J2.
    pose proof (Rle_0_sqr (H (pt q g) 0%nat 1%nat)) as S1. pose proof (Rle_0_sqr (H (pt q g') 0%nat 1%nat)) as S2.
    assert (0 <= (H (pt q g) 0%nat 1%nat)² * jac s x (pt q g)) by (apply Rmult_le_pos; lra).
    assert (0 <= (H (pt q g') 0%nat 1%nat)² * jac s x (pt q g')) by (apply Rmult_le_pos; lra).
    assert (X0 : X = 0) by nra. rewrite X0, Rmult_0_r in G1. apply Rmult_integral in G1. destruct G1 as [G1|G1]; [|lra]. apply Rsqr_0_uniq in G1.
    assert (N0 : pt q g 0%nat <> 0) by (intros A; rewrite A in R1; lra). assert (N1 : pt q g 1%nat <> 0) by (intros A; rewrite A in R1; lra).
    intros k c Hk Hc. pose proof (G1' k c Hk Hc) as K. rewrite G1, !Rmult_0_r in K.
    assert (K' : -2 * pt q g k * a k c = 0) by (destruct (c =? 0)%nat; auto). apply Rmult_integral in K'. destruct K' as [K'|K']; auto.
    destruct k as [|[|k]]; try lia; nra.
  - intros Hq HS. assert (H0 : (0 < q_n q)%nat) by lia. set (r := pt q 0) in *.
    destruct (Req_dec (r 0%nat) 0) as [R0|R0]; [|destruct (Req_dec (r 1%nat) 0) as [R1|R1]].
    + set (a := fun k c : nat => match k, c with O, O => 1 | _, _ => 0 end : R). enough (A : a 0%nat 0%nat = 0) by (unfold a in A; lra).
      apply (HS a (fun _ _ _ => 0)); auto; unfold a.
      * intros g Hg. replace g with 0%nat by lia. intros k c Hk Hc. fold r. cbn [bigsum]. destruct k as [|[|k]]; try lia; [rewrite R0|]; ring.
      * intros g i Hg Hi. destruct i as [|[|i]]; unfold eng, strain; field.
    + set (a := fun k c : nat => match k, c with 1%nat, O => 1 | _, _ => 0 end : R). enough (A : a 1%nat 0%nat = 0) by (unfold a in A; lra).
      apply (HS a (fun _ _ _ => 0)); auto; unfold a.
      * intros g Hg. replace g with 0%nat by lia. intros k c Hk Hc. fold r. cbn [bigsum]. destruct k as [|[|k]]; try lia; [|rewrite R1]; ring.
      * intros g i Hg Hi. destruct i as [|[|i]]; unfold eng, strain; field.
    + pose (a := fun k c : nat => match c with O => - tangent s x r k 1 | _ => tangent s x r k 0 end / (-2 * r k)).
      assert (Z : forall k c, (k < 2)%nat -> (c < 2)%nat -> a k c = 0).
      { apply (HS a (fun _ l c => match l, c with O, 1%nat => 1 | 1%nat, O => -1 | _, _ => 0 end)).
        - intros g Hg. replace g with 0%nat by lia. intros k c Hk Hc. fold r. unfold a. cbn [bigsum].
          destruct k as [|[|k]]; try lia; destruct c as [|[|c]]; try lia; field; auto.
        - intros g i Hg Hi. destruct i as [|[|i]]; unfold eng, strain; field. }
      pose proof (proj1 (HP 0%nat H0)) as J. fold r in J. unfold jac in J. rewrite Hd in J. cbn [detd] in J. unfold det2 in J.
      assert (T : forall k c, (k < 2)%nat -> (c < 2)%nat -> match c with O => - tangent s x r k 1 | _ => tangent s x r k 0 end = 0).
      { intros k c Hk Hc. pose proof (Z k c Hk Hc) as A. unfold a in A. apply (Rmult_eq_reg_r (/ (-2 * r k))).
        - unfold Rdiv in A. rewrite A. ring.
        - apply Rinv_neq_0_compat. destruct k as [|[|k]]; try lia; lra. }
      pose proof (T 0%nat 0%nat ltac:(lia) ltac:(lia)) as T0. pose proof (T 0%nat 1%nat ltac:(lia) ltac:(lia)) as T1. cbn in T0, T1.
      assert (T0' : tangent s x r 0 1 = 0) by lra. rewrite T0', T1 in J. lra.
Qed.

Lemma C86_condensed_pf : forall s q elem dou xs D Df t, wt_setting s q elem dou xs D Df t -> modes_strained s q (nodal elem xs) ->
  exists K ne k, PlaneStiffnessWilsonTaylor s q elem dou xs D t = Ok (K, ne) /\ is_mat K (2 * length elem) (2 * length elem) k /\
    forall z, exists a, forall Ha Hz, bubbles s q (nodal elem xs) a Ha -> gradients s q (nodal elem xs) 2 z Hz ->
      (forall b Hb, bubbles s q (nodal elem xs) b Hb ->
         quad 2 q (fun p => jac s (nodal elem xs) p * (t * dform Df (Hb p) (gplus (Hz p) (Ha p)))) = 0) /\
      (forall y Hy, gradients s q (nodal elem xs) 2 y Hy ->
         form 2 (length elem) k y z = quad 2 q (fun p => jac s (nodal elem xs) p * (t * dform Df (Hy p) (gplus (Hz p) (Ha p))))).
Proof.
  intros s q elem dou xs D Df t (He & Hdou & HD & HM & HP & Ht) HS. set (x := nodal elem xs) in *.
  destruct (wt_result s q elem dou xs D Df t He Hdou HD HM HP Ht HS) as (K & ne & k & al & E & Hn & Hk & Ha & Hf).
  exists K, ne, k. splits; auto. intros z. exists (al z). intros Ba Hz HBa HGz.
  assert (S : forall u, PP s q x Df t u (fun p => voigt2 (gplus (Hz p) (Ba p))) =
    PP s q x Df t u (fun r => voigt2 (gradU s x r z)) + PP s q x Df t u (fun r => voigt2 (bubG s x r (al z)))).
  { intros u. rewrite <- PP_plus_r. apply PP_ext; auto. intros g i Hg Hi. rewrite voigt2_plus. f_equal.
    - now apply (voigt_grads s q elem xs He).
    - now apply (voigt_bubbles s q elem xs He). }
  split.
  - intros b Hb HBb. rewrite quad_dform, S.
    rewrite !(PP_ext s q x Df t (fun p => voigt2 (Hb p)) (fun r => voigt2 (bubG s x r b)) _ _ (fun g i Hg _ => voigt_bubbles s q elem xs He b Hb g i HBb Hg) (fun _ _ _ _ => eq_refl)).
    pose proof (Ha z b) as A. unfold Fa, Fd in A. fold x in A. unfold PP. lra.
  - intros y Hy HGy. rewrite quad_dform, S, Hf.
    rewrite !(PP_ext s q x Df t (fun p => voigt2 (Hy p)) (fun r => voigt2 (gradU s x r y)) _ _ (fun g i Hg _ => voigt_grads s q elem xs He y Hy g i HGy Hg) (fun _ _ _ _ => eq_refl)).
    unfold Fk, Fd. fold x. f_equal. apply (PP_sym s q x Df t HM).
Qed.

Lemma C86_energy_pf : forall s q elem dou xs D Df t, wt_setting s q elem dou xs D Df t -> modes_strained s q (nodal elem xs) ->
  exists K ne k, PlaneStiffnessWilsonTaylor s q elem dou xs D t = Ok (K, ne) /\ is_mat K (2 * length elem) (2 * length elem) k /\
    (forall a b, (a < 2 * length elem)%nat -> (b < 2 * length elem)%nat -> k a b = k b a) /\
    forall y Hy, gradients s q (nodal elem xs) 2 y Hy ->
      0 <= form 2 (length elem) k y y /\
      (forall b Hb, bubbles s q (nodal elem xs) b Hb -> form 2 (length elem) k y y <=
         quad 2 q (fun p => jac s (nodal elem xs) p * (t * dform Df (gplus (Hy p) (Hb p)) (gplus (Hy p) (Hb p))))) /\
      exists b, forall Hb, bubbles s q (nodal elem xs) b Hb -> form 2 (length elem) k y y =
         quad 2 q (fun p => jac s (nodal elem xs) p * (t * dform Df (gplus (Hy p) (Hb p)) (gplus (Hy p) (Hb p)))).
Proof.
  intros s q elem dou xs D Df t (He & Hdou & HD & HM & HP & Ht) HS. set (x := nodal elem xs) in *.
  destruct (wt_result s q elem dou xs D Df t He Hdou HD HM HP Ht HS) as (K & ne & k & al & E & Hn & Hk & Ha & Hf).
  exists K, ne, k. splits; auto.
  - apply form_sym_entries. intros y z. rewrite !Hf. f_equal.
    + apply (PP_sym s q x Df t HM).
    + pose proof (Ha z (al y)) as A. pose proof (Ha y (al z)) as B.
      assert (S : Fa s q elem xs Df t (al y) (al z) = Fa s q elem xs Df t (al z) (al y)) by (apply (PP_sym s q x Df t HM)). lra.
  - intros y Hy HGy.
    assert (S : forall b Hb, bubbles s q x b Hb -> quad 2 q (fun p => jac s x p * (t * dform Df (gplus (Hy p) (Hb p)) (gplus (Hy p) (Hb p)))) =
      form 2 (length elem) k y y + PP s q x Df t (fun r => voigt2 (bubG s x r (fun i j => b i j + -1 * al y i j))) (fun r => voigt2 (bubG s x r (fun i j => b i j + -1 * al y i j)))).
    { intros b Hb HBb. rewrite quad_dform, Hf. refine (eq_trans _ (energy_gap s q elem xs Df t HM y (al y) b (Ha y))).
      apply PP_ext; intros g i Hg Hi; rewrite voigt2_plus; f_equal; first [now apply (voigt_grads s q elem xs He)|now apply (voigt_bubbles s q elem xs He)]. }
    assert (X : exists b, forall Hb, bubbles s q x b Hb -> form 2 (length elem) k y y =
         quad 2 q (fun p => jac s x p * (t * dform Df (gplus (Hy p) (Hb p)) (gplus (Hy p) (Hb p))))).
    { exists (al y). intros Hb HBb. rewrite (S _ _ HBb). rewrite PP_zero_r; [ring|]. intros g i Hg Hi.
      rewrite (voigt2_ext i _ (fun _ _ => 0)); [destruct i as [|[|i]]; cbn [voigt2]; ring|]. intros l c Hl Hc. rewrite bubG_lin. ring. }
    splits; auto.
    + destruct X as (b & Hb). rewrite (Hb _ (bubbles_bubG s q elem xs He b)), quad_dform. now apply PP_nonneg.
    + intros b Hb HBb. rewrite (S _ _ HBb). pose proof (PP_nonneg s q x Df t HM HP Ht (fun r => voigt2 (bubG s x r (fun i j => b i j + -1 * al y i j)))). lra.
Qed.

Lemma C86_rigid_pf : forall s q elem dou xs D Df t z, wt_setting s q elem dou xs D Df t -> modes_strained s q (nodal elem xs) ->
  rigid_motion 2 (length elem) (nodal elem xs) z -> kills 2 (length elem) (PlaneStiffnessWilsonTaylor s q elem dou xs D t) z.
Proof.
  intros s q elem dou xs D Df t z (He & Hdou & HD & HM & HP & Ht) HS HR. set (x := nodal elem xs) in *.
  destruct (wt_result s q elem dou xs D Df t He Hdou HD HM HP Ht HS) as (K & ne & k & al & E & Hn & Hk & Ha & Hf).
  exists K, ne, k. splits; auto. intros a Hlt. rewrite <- form_unit by auto. rewrite Hf.
  destruct (rigid_gradients 2 s q elem xs z He (le_n 2) HR) as (W & HW & HG).
  assert (Z : forall g i, (g < q_n q)%nat -> (i < 3)%nat -> voigt2 (gradU s x (pt q g) z) i = 0).
  { intros g i Hg Hi. refine (eq_trans (eq_sym (voigt_grads s q elem xs He z _ g i HG Hg)) _). pose proof (HW 0%nat 0%nat). pose proof (HW 1%nat 1%nat). pose proof (HW 0%nat 1%nat).
    destruct i as [|[|i]]; cbn [voigt2]; lra. }
  assert (D0 : forall b, Fd s q elem xs Df t b z = 0) by (intros b; now apply PP_zero_r).
  assert (A0 : PP s q x Df t (fun r => voigt2 (bubG s x r (al z))) (fun r => voigt2 (bubG s x r (al z))) = 0) by (pose proof (Ha z (al z)) as A; rewrite D0 in A; unfold Fa in A; fold x in A; unfold PP; lra).
  pose proof (PP_zero s q x Df t HM HP Ht _ A0) as Z'.
  replace (Fk s q elem xs Df t (unitv 2 a) z) with 0 by (symmetry; now apply PP_zero_r).
  replace (Fd s q elem xs Df t (al z) (unitv 2 a)) with 0; [ring|]. symmetry.
  refine (eq_trans (PP_sym s q x Df t HM (fun r => voigt2 (bubG s x r (al z))) (fun r => voigt2 (gradU s x r (unitv 2 a)))) _). now apply PP_zero_r.
Qed.

Lemma C86_null_pf : forall elem dou xs D Df t, wt_setting sf_4Square Gauss4Square elem dou xs D Df t ->
  exists K ne k, PlaneStiffnessWilsonTaylor sf_4Square Gauss4Square elem dou xs D t = Ok (K, ne) /\ is_mat K (2 * length elem) (2 * length elem) k /\
    forall z, form 2 (length elem) k z z = 0 -> rigid_motion 2 (length elem) (nodal elem xs) z.
Proof.
  intros elem dou xs D Df t HWt. pose proof HWt as (He & Hdou & HD & HM & HP & Ht). set (x := nodal elem xs) in *.
  assert (HS : modes_strained sf_4Square Gauss4Square x).
  { apply (proj1 (C86_points_pf sf_4Square Gauss4Square elem xs He HP)). exists 0%nat, 1%nat. splits; try (cbn; lia).
    - destruct (g4_pt 0 ltac:(lia)) as [P Q]. rewrite P, Q. cbn [s0 s1]. pose proof hh_pos. nra.
    - destruct (g4_pt 1 ltac:(lia)) as [P Q]. rewrite P, Q. cbn [s0 s1]. pose proof hh_pos. nra. }
  set (s := sf_4Square) in *. set (q := Gauss4Square) in *.
  destruct (wt_result s q elem dou xs D Df t He Hdou HD HM HP Ht HS) as (K & ne & k & al & E & Hn & Hk & Ha & Hf).
  exists K, ne, k. splits; auto. intros z Hz.
  assert (Z : PP s q x Df t (fun r i => voigt2 (gradU s x r z) i + voigt2 (bubG s x r (al z)) i) (fun r i => voigt2 (gradU s x r z) i + voigt2 (bubG s x r (al z)) i) = 0).
  { refine (eq_trans (energy_gap s q elem xs Df t HM z (al z) (al z) (Ha z)) _). rewrite <- Hf, Hz. rewrite Rplus_0_l. apply PP_zero_r. intros g i Hg Hi.
    rewrite (voigt2_ext i _ (fun _ _ => 0)); [destruct i as [|[|i]]; cbn [voigt2]; ring|]. intros l c Hl Hc. rewrite bubG_lin. ring. }
  pose proof (PP_zero s q x Df t HM HP Ht _ Z) as Z'. cbv beta in Z'.
  assert (Len : length elem = 4%nat) by (apply He). rewrite Len.
  apply (sq_skew x z (al z) (fun g => gradU s x (pt q g) z 0%nat 1%nat + bubG s x (pt q g) (al z) 0%nat 1%nat)); [now apply sq_centre|].
  intros g k0 c Hg Hk0 Hc. assert (Hg' : (g < q_n q)%nat) by exact Hg.
  pose proof (Z' g 0%nat Hg' ltac:(lia)) as Z0. pose proof (Z' g 1%nat Hg' ltac:(lia)) as Z1. pose proof (Z' g 2%nat Hg' ltac:(lia)) as Z2. cbn [voigt2] in Z0, Z1, Z2.
  pose proof (bubbles_bubG s q elem xs He (al z) g Hg' k0 c Hk0 Hc) as B. pose proof (gradients_gradU s q elem xs 2 2 z He (le_n 2) g Hg' k0 c Hk0 Hc) as G.
  fold x in B, G. fold s q. rewrite <- B. change 4%nat with (sf_n s). rewrite <- G. change (sf_d s) with 2%nat. cbn [bigsum].
  set (T := tangent s x (pt q g) k0). set (U := gradU s x (pt q g) z) in *. set (Bu := bubG s x (pt q g) (al z)) in *.
  destruct c as [|[|c]]; try lia; cbn [Nat.eqb].
  - replace (U 0%nat 0%nat) with (- Bu 0%nat 0%nat) by lra. replace (U 0%nat 1%nat + Bu 0%nat 1%nat) with (- (U 1%nat 0%nat + Bu 1%nat 0%nat)) by lra. ring.
  - replace (U 1%nat 1%nat) with (- Bu 1%nat 1%nat) by lra. ring.
Qed.

Lemma C86_patch_pf : forall elem dou xs D Df t, wt_setting sf_4Square Gauss4Square elem dou xs D Df t ->
  exists K ne k, PlaneStiffnessWilsonTaylor sf_4Square Gauss4Square elem dou xs D t = Ok (K, ne) /\ is_mat K (2 * length elem) (2 * length elem) k /\
    ((forall z a A y Hy, (forall i c, (i < 4)%nat -> (c < 2)%nat -> z i c = a c + bigsum 2 (fun l => nodal elem xs i l * A l c)) ->
        gradients sf_4Square Gauss4Square (nodal elem xs) 2 y Hy ->
        form 2 (length elem) k y z = quad 2 Gauss4Square (fun p => jac sf_4Square (nodal elem xs) p * (t * dform Df (Hy p) A))) <->
     (forall l, (l < 2)%nat -> nodal elem xs 0 l + nodal elem xs 2 l = nodal elem xs 1 l + nodal elem xs 3 l)).
Proof.
  intros elem dou xs D Df t HWt. pose proof HWt as (He & Hdou & HD & HM & HP & Ht). set (x := nodal elem xs) in *.
  assert (HS : modes_strained sf_4Square Gauss4Square x).
  { apply (proj1 (C86_points_pf sf_4Square Gauss4Square elem xs He HP)). exists 0%nat, 1%nat. splits; try (cbn; lia).
    - destruct (g4_pt 0 ltac:(lia)) as [P Q]. rewrite P, Q. cbn [s0 s1]. pose proof hh_pos. nra.
    - destruct (g4_pt 1 ltac:(lia)) as [P Q]. rewrite P, Q. cbn [s0 s1]. pose proof hh_pos. nra. }
  destruct (wt_result sf_4Square Gauss4Square elem dou xs D Df t He Hdou HD HM HP Ht HS) as (K & ne & k & al & E & Hn & Hk & Ha & Hf).
  exists K, ne, k. splits; auto.
  assert (FD : forall z a A b, (forall i c, (i < 4)%nat -> (c < 2)%nat -> z i c = a c + bigsum 2 (fun l => x i l * A l c)) ->
    Fd sf_4Square Gauss4Square elem xs Df t b z = t * quad_form3 Df (voigt2 (fun l c => -8 / 3 * kite x l * (b 0%nat c - b 1%nat c))) (voigt2 A)).
  { intros z a A b Hz. refine (eq_trans _ (sq_const elem xs Df t b (voigt2 A) HP)). apply PP_ext; auto. intros g i Hg Hi. symmetry.
    apply (voigt_grads sf_4Square Gauss4Square elem xs He z (fun _ => A) g i); auto.
    intros g' Hg'. apply (affine_gradient sf_4Square x (pt Gauss4Square g') ltac:(apply He) 2 z a A). exact Hz. }
  split.
  - intros HPatch. set (A := fun l c => kite x l * kite x c). set (z := fun i c => 0 + bigsum 2 (fun l => x i l * A l c)).
    assert (Hz : forall i c, (i < 4)%nat -> (c < 2)%nat -> z i c = (fun _ => 0) c + bigsum 2 (fun l => x i l * A l c)) by reflexivity.
    assert (GA : gradients sf_4Square Gauss4Square x 2 z (fun _ => A)).
    { intros g' Hg'. apply (affine_gradient sf_4Square x (pt Gauss4Square g') ltac:(apply He) 2 z (fun _ => 0) A). exact Hz. }
    pose proof (HPatch z (fun _ => 0) A z (fun _ => A) Hz GA) as H1. rewrite Hf in H1.
    assert (FKz : Fk sf_4Square Gauss4Square elem xs Df t z z = quad 2 Gauss4Square (fun p => jac sf_4Square x p * (t * dform Df A A))).
    { symmetry. rewrite (quad_dform sf_4Square Gauss4Square x Df t (fun _ => A) (fun _ => A)). apply PP_ext; intros g i Hg Hi; apply (voigt_grads sf_4Square Gauss4Square elem xs He z (fun _ => A) g i GA Hg). }
    assert (A0 : PP sf_4Square Gauss4Square x Df t (fun r => voigt2 (bubG sf_4Square x r (al z))) (fun r => voigt2 (bubG sf_4Square x r (al z))) = 0).
    { pose proof (Ha z (al z)) as B. unfold Fa in B. fold x in B. unfold PP. lra. }
    pose proof (PP_zero sf_4Square Gauss4Square x Df t HM HP Ht _ A0) as Z'.
    set (b := fun k c => match k with O => kite x c | _ => 0 end).
    assert (D0 : Fd sf_4Square Gauss4Square elem xs Df t b z = 0).
    { pose proof (Ha z b) as B. replace (Fa sf_4Square Gauss4Square elem xs Df t b (al z)) with 0 in B; [lra|]. symmetry. now apply PP_zero_r. }
    rewrite (FD z (fun _ => 0) A b Hz) in D0.
    assert (Q0 : quad_form3 Df (voigt2 A) (voigt2 A) = 0).
    { replace (quad_form3 Df (voigt2 (fun l c => -8 / 3 * kite x l * (b 0%nat c - b 1%nat c))) (voigt2 A)) with (-8 / 3 * quad_form3 Df (voigt2 A) (voigt2 A)) in D0.
      - apply Rmult_integral in D0. destruct D0; lra.
      - unfold quad_form3, A, b. cbn [bigsum voigt2]. field. }
    pose proof (proj2 (proj2 HM (voigt2 A)) Q0) as V0. pose proof (V0 0%nat ltac:(lia)) as V00. pose proof (V0 1%nat ltac:(lia)) as V01. unfold A in V00, V01. cbn [voigt2] in V00, V01.
    assert (K0 : kite x 0%nat = 0) by (apply Rsqr_0_uniq; exact V00). assert (K1 : kite x 1%nat = 0) by (apply Rsqr_0_uniq; exact V01).
    unfold kite, cd in K0, K1. intros l Hl. destruct l as [|[|l]]; try lia; lra.
  - intros HPar z a A y Hy Hz HGy.
    assert (K0 : forall l, kite x l = 0).
    { intros l. pose proof (HPar 0%nat ltac:(lia)). pose proof (HPar 1%nat ltac:(lia)). destruct l; unfold kite, cd; lra. }
    assert (D0 : forall b, Fd sf_4Square Gauss4Square elem xs Df t b z = 0).
    { intros b. rewrite (FD z a A b Hz). unfold quad_form3. cbn [bigsum voigt2]. rewrite !K0. ring. }
    assert (A0 : PP sf_4Square Gauss4Square x Df t (fun r => voigt2 (bubG sf_4Square x r (al z))) (fun r => voigt2 (bubG sf_4Square x r (al z))) = 0).
    { pose proof (Ha z (al z)) as B. rewrite D0 in B. unfold Fa in B. fold x in B. unfold PP. lra. }
    pose proof (PP_zero sf_4Square Gauss4Square x Df t HM HP Ht _ A0) as Z'.
    rewrite Hf. replace (Fd sf_4Square Gauss4Square elem xs Df t (al z) y) with 0.
    2:{ symmetry. refine (eq_trans (PP_sym sf_4Square Gauss4Square x Df t HM (fun r => voigt2 (bubG sf_4Square x r (al z))) (fun r => voigt2 (gradU sf_4Square x r y))) _). now apply PP_zero_r. }
    rewrite Rplus_0_r. symmetry. rewrite (quad_dform sf_4Square Gauss4Square x Df t Hy (fun _ => A)).
    assert (GA : gradients sf_4Square Gauss4Square x 2 z (fun _ => A)).
    { intros g' Hg'. apply (affine_gradient sf_4Square x (pt Gauss4Square g') ltac:(apply He) 2 z a A). exact Hz. }
    apply PP_ext; intros g i Hg Hi; [apply (voigt_grads sf_4Square Gauss4Square elem xs He y Hy g i HGy Hg)|apply (voigt_grads sf_4Square Gauss4Square elem xs He z (fun _ => A) g i GA Hg)].
Qed.

Lemma C86_plane_strain_pf : forall s q elem dou xs E V t, 0 < E -> -1 < V < 1 / 2 ->
  exists D Df, PlaneStrainStiffnessWilsonTaylor s q elem dou xs E V t = PlaneStiffnessWilsonTaylor s q elem dou xs D t /\
    is_mat D 3 3 Df /\ material Df /\ forall H Z, dform Df H Z = hooke 2 (lame_lambda E V) (lame_mu E V) (strain H) (strain Z).
Proof.
  intros s q elem dou xs E V t HE HV. destruct (strain_material E V HE HV) as (D & Df & ED & HD & HM & HH). exists D, Df. splits; auto.
  unfold PlaneStrainStiffnessWilsonTaylor. now rewrite ED.
Qed.

Lemma C86_bending_pf : forall elem dou xs E V t a b kappa z, element_ok 2 sf_4Square Gauss4Square elem xs -> length dou = 2%nat ->
  0 < a -> 0 < b -> 0 < E -> -1 < V < 1 / 2 -> 0 < t ->
  (forall i, (i < 4)%nat -> nodal elem xs i 0 = nth i [-a; a; a; -a] 0 /\ nodal elem xs i 1 = nth i [-b; -b; b; b] 0) ->
  (forall i, (i < 4)%nat -> z i 0%nat = kappa * (nodal elem xs i 0 * nodal elem xs i 1) /\ z i 1%nat = 0) ->
  exists K ne k, PlaneStrainStiffnessWilsonTaylor sf_4Square Gauss4Square elem dou xs E V t = Ok (K, ne) /\
    is_mat K (2 * length elem) (2 * length elem) k /\
    form 2 (length elem) k z z = E / (1 - V ^ 2) * kappa ^ 2 * (t * (2 * b) ^ 3 / 12) * (2 * a).
Proof.
  intros elem dou xs E V t a b kappa z He Hdou Ha0 Hb0 HE HV Ht Hx Hz. set (x := nodal elem xs) in *.
  destruct (strain_material E V HE HV) as (D & Df & ED & HD & HM & HH).
  unfold PlaneStrainStiffnessWilsonTaylor. rewrite ED. cbn [bind].
  assert (X0 := Hx 0%nat ltac:(lia)). assert (X1 := Hx 1%nat ltac:(lia)). assert (X2 := Hx 2%nat ltac:(lia)). assert (X3 := Hx 3%nat ltac:(lia)). cbn [nth] in *.
  destruct X0 as [X00 X01], X1 as [X10 X11], X2 as [X20 X21], X3 as [X30 X31].
  assert (Cx : ca (fun i => x i 0%nat) = a /\ cb (fun i => x i 0%nat) = 0 /\ cd (fun i => x i 0%nat) = 0 /\ ca (fun i => x i 1%nat) = 0 /\ cb (fun i => x i 1%nat) = b /\ cd (fun i => x i 1%nat) = 0)
    by (unfold ca, cb, cd; rewrite X00, X01, X10, X11, X20, X21, X30, X31; splits; field).
  destruct Cx as (C1 & C2 & C3 & C4 & C5 & C6).
  assert (TT : forall r k l, (k < 2)%nat -> (l < 2)%nat -> tangent sf_4Square x r k l = match k, l with O, O => a | 1%nat, 1%nat => b | _, _ => 0 end).
  { intros r k l Hk Hl. rewrite sq_tangent by auto. destruct k as [|[|k]]; try lia; destruct l as [|[|l]]; try lia; cbn [Nat.eqb]; rewrite ?C1, ?C2, ?C3, ?C4, ?C5, ?C6; ring. }
  assert (JJ : forall r, jac sf_4Square x r = a * b). { intros r. unfold jac. change (sf_d sf_4Square) with 2%nat. cbn [detd]. unfold det2. rewrite !TT by lia. ring. }
  assert (HP : positive_rule 2 sf_4Square Gauss4Square x).
  { intros g Hg. rewrite JJ. split; [nra|]. cbn in Hg. destruct g as [|[|[|[|g]]]]; try lia; cbn; lra. }
  assert (HS : modes_strained sf_4Square Gauss4Square x).
  { apply (proj1 (C86_points_pf sf_4Square Gauss4Square elem xs He HP)). exists 0%nat, 1%nat. splits; try (cbn; lia).
    - destruct (g4_pt 0 ltac:(lia)) as [P Q]. rewrite P, Q. cbn [s0 s1]. pose proof hh_pos. nra.
    - destruct (g4_pt 1 ltac:(lia)) as [P Q]. rewrite P, Q. cbn [s0 s1]. pose proof hh_pos. nra. }
  destruct (wt_result sf_4Square Gauss4Square elem dou xs D Df t He Hdou HD HM HP Ht HS) as (K & ne & k & al & Er & Hn & Hk & Ha & Hf).
  exists K, ne, k. splits; auto.
  (* the exact displacement *)
  set (nu := V / (1 - V)). set (am := fun m c : nat => match c with 1%nat => match m with O => kappa * a ^ 2 / 2 | _ => kappa * nu * b ^ 2 / 2 end | _ => 0 end).
  assert (GZ : gradients sf_4Square Gauss4Square x 2 z (fun p l c => match l, c with O, O => kappa * b * p 1%nat | 1%nat, O => kappa * a * p 0%nat | _, _ => 0 end)).
  { intros g Hg k0 c Hk0 Hc. change (sf_d sf_4Square) with 2%nat in *. change (sf_n sf_4Square) with 4%nat. rewrite (sq_deriv (fun i => z i c)) by auto. cbn [bigsum]. rewrite !TT by lia.
    destruct (Hz 0%nat ltac:(lia)) as [Z00 Z01]. destruct (Hz 1%nat ltac:(lia)) as [Z10 Z11]. destruct (Hz 2%nat ltac:(lia)) as [Z20 Z21]. destruct (Hz 3%nat ltac:(lia)) as [Z30 Z31].
    rewrite X00, X01 in Z00. rewrite X10, X11 in Z10. rewrite X20, X21 in Z20. rewrite X30, X31 in Z30.
    destruct c as [|[|c]]; try lia; unfold ca, cb, cd; rewrite ?Z00, ?Z01, ?Z10, ?Z11, ?Z20, ?Z21, ?Z30, ?Z31; destruct k0 as [|[|k0]]; try lia; cbn [Nat.eqb]; field. }
  assert (GB : bubbles sf_4Square Gauss4Square x am (fun p l c => match l, c with O, 1%nat => - kappa * a * p 0%nat | 1%nat, 1%nat => - kappa * nu * b * p 1%nat | _, _ => 0 end)).
  { intros g Hg k0 c Hk0 Hc. cbn [bigsum]. rewrite !TT by lia. unfold am. destruct c as [|[|c]]; try lia; destruct k0 as [|[|k0]]; try lia; field. }
  set (sum := fun (p : nat -> R) (l c : nat) => match l, c with O, O => kappa * b * p 1%nat | 1%nat, O => kappa * a * p 0%nat | O, 1%nat => - kappa * a * p 0%nat | 1%nat, 1%nat => - kappa * nu * b * p 1%nat | _, _ => 0 end).
  assert (SUM : forall u, PP sf_4Square Gauss4Square x Df t u (fun p => voigt2 (sum p)) =
    PP sf_4Square Gauss4Square x Df t u (fun r => voigt2 (gradU sf_4Square x r z)) + PP sf_4Square Gauss4Square x Df t u (fun r => voigt2 (bubG sf_4Square x r am))).
  { intros u. rewrite <- PP_plus_r. apply PP_ext; auto. intros g i Hg Hi.
    pose proof (voigt_grads sf_4Square Gauss4Square elem xs He z _ g i GZ Hg) as V1. pose proof (voigt_bubbles sf_4Square Gauss4Square elem xs He am _ g i GB Hg) as V2.
    fold x in V1, V2. rewrite <- V1, <- V2.
    destruct i as [|[|i]]; cbn [voigt2]; unfold sum; ring. }
  (* the stress is uniaxial *)
  assert (ST : forall p H, quad_form3 Df (voigt2 H) (voigt2 (sum p)) = E / (1 - V ^ 2) * kappa * b * p 1%nat * H 0%nat 0%nat).
  { intros p H. rewrite <- dform_voigt, HH. unfold hooke, trace, ddot, strain, sum, lame_lambda, lame_mu, nu. cbn [bigsum]. field. splits; nra. }
  assert (OR : forall c, PP sf_4Square Gauss4Square x Df t (fun r => voigt2 (bubG sf_4Square x r c)) (fun p => voigt2 (sum p)) = 0).
  { intros c. unfold PP. rewrite g4_quad. rewrite !ST, !JJ. unfold bubG, grd, bubM. rewrite !JJ. unfold cof, sgn. cbn [bigsum Nat.sub detd Nat.add Nat.even]. unfold skip. cbn [Nat.ltb Nat.leb]. rewrite !TT by lia.
    destruct (g4_pt 0 ltac:(lia)) as [P0 Q0]. destruct (g4_pt 1 ltac:(lia)) as [P1 Q1]. destruct (g4_pt 2 ltac:(lia)) as [P2 Q2]. destruct (g4_pt 3 ltac:(lia)) as [P3 Q3].
    rewrite P0, P1, P2, P3, Q0, Q1, Q2, Q3. cbn [s0 s1 Nat.eqb]. field. splits; nra. }
  assert (Ham : forall c, Fa sf_4Square Gauss4Square elem xs Df t c am = - Fd sf_4Square Gauss4Square elem xs Df t c z).
  { intros c. pose proof (OR c) as O1. rewrite SUM in O1. unfold Fa, Fd. fold x. unfold PP in O1. lra. }
  rewrite Hf, (stationary sf_4Square Gauss4Square elem xs Df t (al z) am z HM (Ha z) Ham).
  transitivity (PP sf_4Square Gauss4Square x Df t (fun r => voigt2 (gradU sf_4Square x r z)) (fun p => voigt2 (sum p))).
  - rewrite SUM. unfold Fk. fold x. unfold PP at 1. f_equal. apply (PP_sym sf_4Square Gauss4Square x Df t HM).
  - set (hz := fun (p : nat -> R) (l c : nat) => match l, c with O, O => kappa * b * p 1%nat | 1%nat, O => kappa * a * p 0%nat | _, _ => 0 end).
    transitivity (PP sf_4Square Gauss4Square x Df t (fun p => voigt2 (hz p)) (fun p => voigt2 (sum p))).
    { apply PP_ext; auto. intros g i Hg _. exact (eq_sym (voigt_grads sf_4Square Gauss4Square elem xs He z hz g i GZ Hg)). }
    unfold PP. rewrite g4_quad, !ST, !JJ. unfold hz.
    destruct (g4_pt 0 ltac:(lia)) as [P0 Q0]. destruct (g4_pt 1 ltac:(lia)) as [P1 Q1]. destruct (g4_pt 2 ltac:(lia)) as [P2 Q2]. destruct (g4_pt 3 ltac:(lia)) as [P3 Q3].
    rewrite Q0, Q1, Q2, Q3. cbn [s0 s1].
    transitivity (E / (1 - V ^ 2) * kappa ^ 2 * t * a * b ^ 3 * (4 * (hh * hh))); [field; nra|]. rewrite hh_sq. field. nra.
Qed.
