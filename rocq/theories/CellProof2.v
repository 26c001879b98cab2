(** The energy of the cell as a quadratic function of the field. *)
From Coq Require Import List Arith Lia Bool Reals Lra.
From Verif Require Import Res SumR DenseModel DenseR DenseSpec ShapeModel QuadModel QuadSpec ElemModel ElemSpec HomSpec SparseModel SparseSpec AssemblyModel AssemblySpec KrylovSpec CellModel CellSpec.
From Verif Require Import DenseProof DenseMain AssemblyProof AssemblyProof2 AssemblyProof3 AssemblyMain ElemProof ElemProof2 ElemProof3 ElemProof4 ElemMain HomProof HomMain CellProof.
Import ListNotations.
Local Open Scope R_scope.

Definition Bf (d : cell) (u w : field) : R := sum_over (cl_elements d) (fun el => work1 d el (eps d u el) (eps d w el)) + sum_over (cl_elements d) (fun el => spring1 d el u w).
Definition Lf (d : cell) (c : nat) (w : field) : R := sum_over (cl_elements d) (fun el => work1 d el (unit c) (eps d w el)).
Definition Df (d : cell) (r c : nat) : R := sum_over (cl_elements d) (fun el => work1 d el (unit r) (unit c)).
Definition lin (a : R) (u : field) (b : R) (w : field) : field := fun i j => a * u i j + b * w i j.

Lemma work1_ext d el e e' f f' : (forall g l k, (g < q_n (cl_q d))%nat -> (l < 2)%nat -> (k < 2)%nat -> e (pt (cl_q d) g) l k = e' (pt (cl_q d) g) l k) ->
  (forall g l k, (g < q_n (cl_q d))%nat -> (l < 2)%nat -> (k < 2)%nat -> f (pt (cl_q d) g) l k = f' (pt (cl_q d) g) l k) -> work1 d el e f = work1 d el e' f'.
Proof. intros H H'. unfold work1. apply quad_ext. intros g Hg. do 2 f_equal. apply hooke_ext; intros; auto. Qed.
Lemma work1_sym d el e f : work1 d el e f = work1 d el f e.
Proof. unfold work1. apply quad_ext. intros g Hg. do 2 f_equal. apply hooke_sym_. Qed.
Lemma work1_lin d el e a f b g : work1 d el e (fun p l k => a * f p l k + b * g p l k) = a * work1 d el e f + b * work1 d el e g.
Proof.
  unfold work1. rewrite !(Rmult_comm _ (quad _ _ _)), <- !quad_scal, <- quad_plus. apply quad_ext. intros q Hq. unfold hooke, trace, ddot. cbn [bigsum]. ring.
Qed.
Lemma work1_lin_l d el e a f b g : work1 d el (fun p l k => a * f p l k + b * g p l k) e = a * work1 d el f e + b * work1 d el g e.
Proof. rewrite work1_sym, work1_lin, !(work1_sym d el e). reflexivity. Qed.
Lemma work1_nonneg d el e : cell_ok d -> In el (cl_elements d) -> 0 <= work1 d el e e.
Proof.
  intros HC Hel. destruct (ck_element d HC el Hel) as [_ Hp]. destruct (lame_pos _ _ (ck_modulus d HC) (ck_poisson d HC)) as [P1 P2].
  unfold work1, quad. apply bigsum_nonneg. intros g Hg. destruct (Hp g Hg) as [B1 B2]. apply Rmult_le_pos; [lra|]. apply Rmult_le_pos; [unfold pt in B1; lra|]. apply Rmult_le_pos; [apply (ck_thick d HC)|]. now apply hooke2_nonneg.
Qed.
Lemma eps_lin d a u b w el p l k : eps d (lin a u b w) el p l k = a * eps d u el p l k + b * eps d w el p l k.
Proof.
  unfold eps, strain, grd, gradU, ufld, lin.
  assert (A : forall l c, bigsum (sf_n (cl_s d)) (fun i => gradN (cl_s d) (nodal el (cl_x d)) p l i * (a * u (nth i el O) c + b * w (nth i el O) c)) =
    a * bigsum (sf_n (cl_s d)) (fun i => gradN (cl_s d) (nodal el (cl_x d)) p l i * u (nth i el O) c) + b * bigsum (sf_n (cl_s d)) (fun i => gradN (cl_s d) (nodal el (cl_x d)) p l i * w (nth i el O) c)).
  { intros l' c. rewrite <- !bigsum_scal, <- bigsum_plus. apply bigsum_ext. intros; ring. }
  rewrite !A. field.
Qed.
Lemma spring1_lin d el v a u b w : spring1 d el v (lin a u b w) = a * spring1 d el v u + b * spring1 d el v w.
Proof.
  unfold spring1, lin. replace (a * (cl_alpha d * sum_over el (fun i => (v i 0%nat + v i 1%nat) * (u i 0%nat + u i 1%nat))) + b * (cl_alpha d * sum_over el (fun i => (v i 0%nat + v i 1%nat) * (w i 0%nat + w i 1%nat))))
    with (cl_alpha d * (a * sum_over el (fun i => (v i 0%nat + v i 1%nat) * (u i 0%nat + u i 1%nat)) + b * sum_over el (fun i => (v i 0%nat + v i 1%nat) * (w i 0%nat + w i 1%nat)))) by ring.
  f_equal. rewrite <- !sum_over_scal, <- sum_over_plus. apply sum_ext. intros; ring.
Qed.
Lemma spring1_sym d el u w : spring1 d el u w = spring1 d el w u.
Proof. unfold spring1. f_equal. apply sum_ext. intros; ring. Qed.
Lemma Bf_sym d u w : Bf d u w = Bf d w u.
Proof. unfold Bf. f_equal; apply sum_ext; intros; [apply work1_sym|apply spring1_sym]. Qed.
Lemma Bf_lin d v a u b w : Bf d v (lin a u b w) = a * Bf d v u + b * Bf d v w.
Proof.
  unfold Bf. rewrite (sum_ext (cl_elements d) (fun el => work1 d el (eps d v el) (eps d (lin a u b w) el)) (fun el => a * work1 d el (eps d v el) (eps d u el) + b * work1 d el (eps d v el) (eps d w el))).
  - rewrite (sum_ext (cl_elements d) (fun el => spring1 d el v (lin a u b w)) (fun el => a * spring1 d el v u + b * spring1 d el v w)) by (intros; apply spring1_lin).
    rewrite !sum_over_plus, !sum_over_scal. ring.
  - intros el _. rewrite <- work1_lin. apply work1_ext; intros; auto. apply eps_lin.
Qed.
Lemma Lf_lin d c a u b w : Lf d c (lin a u b w) = a * Lf d c u + b * Lf d c w.
Proof.
  unfold Lf. rewrite <- !sum_over_scal, <- sum_over_plus. apply sum_ext. intros el _. rewrite <- work1_lin. apply work1_ext; intros; auto. apply eps_lin.
Qed.
Lemma Df_sym d r c : Df d r c = Df d c r.
Proof. apply sum_ext. intros. apply work1_sym. Qed.
Lemma Bf_nonneg d u : cell_ok d -> 0 <= Bf d u u.
Proof.
  intros HC. unfold Bf. apply Rplus_le_le_0_compat; apply sum_over_nonneg; intros el Hel; [now apply work1_nonneg|].
  unfold spring1. apply Rmult_le_pos; [apply (ck_spring d HC)|]. apply sum_over_nonneg. intros. apply Rle_0_sqr.
Qed.
(** only the values at the nodes count *)
Definition agree_on (d : cell) (u u' : field) : Prop := forall i j, (i < length (cl_x d))%nat -> (j < 2)%nat -> u i j = u' i j.
Lemma eps_ext d u u' el p l k : cell_ok d -> In el (cl_elements d) -> agree_on d u u' -> (l < 2)%nat -> (k < 2)%nat -> eps d u el p l k = eps d u' el p l k.
Proof.
  intros HC Hel HA Hl Hk. destruct (ck_element d HC el Hel) as [(_ & _ & LE & NO & _) _]. unfold eps, strain, grd, gradU, ufld. f_equal. f_equal; apply bigsum_ext; intros i Hi; f_equal; apply HA; auto; apply (NO (nth i el O)); apply nth_In; lia.
Qed.
Lemma node_in d el i : cell_ok d -> In el (cl_elements d) -> In i el -> (i < length (cl_x d))%nat.
Proof. intros HC Hel Hi. destruct (ck_element d HC el Hel) as [(_ & _ & _ & NO & _) _]. apply (NO i Hi). Qed.
Lemma Bf_ext d u u' w w' : cell_ok d -> agree_on d u u' -> agree_on d w w' -> Bf d u w = Bf d u' w'.
Proof.
  intros HC Hu Hw. unfold Bf. f_equal; apply sum_ext; intros el Hel.
  - apply work1_ext; intros; now apply eps_ext.
  - unfold spring1. f_equal. apply sum_ext. intros i Hi. pose proof (node_in d el i HC Hel Hi). rewrite !(Hu i), !(Hw i) by (auto; lia). reflexivity.
Qed.
Lemma Lf_ext d c w w' : cell_ok d -> agree_on d w w' -> Lf d c w = Lf d c w'.
Proof. intros HC Hw. apply sum_ext. intros el Hel. apply work1_ext; intros; auto. now apply eps_ext. Qed.

(** ** The energy *)
Lemma energy_expand d v w H : cell_ok d -> cell_gradients d w H ->
  cell_energy d v w H = bigsum 3 (fun r => bigsum 3 (fun c => v r * Df d r c * v c)) - 2 * bigsum 3 (fun c => v c * Lf d c w) + Bf d w w.
Proof.
  intros HC HG.
  assert (E1 : stress_work d (micro v H) (micro v H) = sum_over (cl_elements d) (fun el =>
     bigsum 3 (fun r => bigsum 3 (fun c => v r * work1 d el (unit r) (unit c) * v c)) - 2 * bigsum 3 (fun c => v c * work1 d el (unit c) (eps d w el)) + work1 d el (eps d w el) (eps d w el))).
  { unfold stress_work. apply sum_ext. intros el Hel. destruct (ck_element d HC el Hel) as [He _].
    set (X := fun (p : nat -> R) l k => 1 * (v 0%nat * unit 0 p l k + v 1%nat * unit 1 p l k) + 1 * (v 2%nat * unit 2 p l k + (-1) * eps d w el p l k)).
    assert (EX : forall g l k, (g < q_n (cl_q d))%nat -> (l < 2)%nat -> (k < 2)%nat -> micro v H el (pt (cl_q d) g) l k = X (pt (cl_q d) g) l k).
    { intros g l k Hg Hl Hk. unfold micro, macro, X, unit. cbn [bigsum].
      assert (ES : eps d w el (pt (cl_q d) g) l k = strain (H el (pt (cl_q d) g)) l k).
      { unfold eps. apply (strain_ext 2); auto. intros a b Ha Hb. unfold grd. apply (gradients_eq (cl_s d) (cl_q d) el (cl_x d) 2 2 (ufld el w) (H el) He ltac:(lia) (HG el Hel) g); auto. }
      rewrite ES. ring. }
    change (quad 2 (cl_q d) (fun p => jac (cl_s d) (nodal el (cl_x d)) p * (cl_t d * hooke 2 (lame_lambda (cl_E d) (cl_V d)) (lame_mu (cl_E d) (cl_V d)) (micro v H el p) (micro v H el p)))) with (work1 d el (micro v H el) (micro v H el)).
    rewrite (work1_ext d el (micro v H el) X (micro v H el) X EX EX).
    assert (XR : forall e, work1 d el e X = v 0%nat * work1 d el e (unit 0) + v 1%nat * work1 d el e (unit 1) + v 2%nat * work1 d el e (unit 2) - work1 d el e (eps d w el)).
    { intros e. unfold X. rewrite (work1_lin d el e 1 (fun p l k => v 0%nat * unit 0 p l k + v 1%nat * unit 1 p l k) 1 (fun p l k => v 2%nat * unit 2 p l k + (-1) * eps d w el p l k)), !work1_lin. ring. }
    rewrite XR, !(work1_sym d el X), !XR. cbn [bigsum]. rewrite !(work1_sym d el (eps d w el) (unit _)). ring. }
  unfold cell_energy. rewrite E1. unfold Bf. replace (spring_work d w w) with (sum_over (cl_elements d) (fun el => spring1 d el w w)) by reflexivity.
  set (S := sum_over (cl_elements d) (fun el => spring1 d el w w)). set (A := sum_over (cl_elements d) (fun el => work1 d el (eps d w el) (eps d w el))).
  rewrite (sum_ext (cl_elements d) _ (fun el => (bigsum 3 (fun r => bigsum 3 (fun c => v r * work1 d el (unit r) (unit c) * v c)) + (-2) * bigsum 3 (fun c => v c * work1 d el (unit c) (eps d w el))) + work1 d el (eps d w el) (eps d w el))) by (intros; ring).
  rewrite !sum_over_plus, sum_over_scal. fold A.
  assert (E2 : sum_over (cl_elements d) (fun el => bigsum 3 (fun c => v c * work1 d el (unit c) (eps d w el))) = bigsum 3 (fun c => v c * Lf d c w)).
  { rewrite <- bigsum_over. apply bigsum_ext. intros c _. unfold Lf. now rewrite sum_over_scal. }
  assert (E3 : sum_over (cl_elements d) (fun el => bigsum 3 (fun r => bigsum 3 (fun c => v r * work1 d el (unit r) (unit c) * v c))) = bigsum 3 (fun r => bigsum 3 (fun c => v r * Df d r c * v c))).
  { rewrite <- bigsum_over. apply bigsum_ext. intros r _. rewrite <- bigsum_over. apply bigsum_ext. intros c _. unfold Df.
    rewrite (sum_ext _ _ (fun el => v r * v c * work1 d el (unit r) (unit c))) by (intros; ring). rewrite sum_over_scal. ring. }
  rewrite E2, E3. ring.
Qed.
Lemma grd_gradients d w : cell_ok d -> cell_gradients d w (fun el p => grd d w el p).
Proof. intros HC el Hel. destruct (ck_element d HC el Hel) as [He _]. exact (gradients_gradU (cl_s d) (cl_q d) el (cl_x d) 2 2 (ufld el w) He ltac:(lia)). Qed.
Lemma energy_nonneg d v w H : cell_ok d -> 0 <= cell_energy d v w H.
Proof.
  intros HC. unfold cell_energy. apply Rplus_le_le_0_compat.
  - unfold stress_work. apply sum_over_nonneg. intros el Hel. apply (work1_nonneg d el (micro v H el) HC Hel).
  - unfold spring_work. apply sum_over_nonneg. intros el Hel. apply Rmult_le_pos; [apply (ck_spring d HC)|]. apply sum_over_nonneg. intros. apply Rle_0_sqr.
Qed.
(** a field without energy does no work against the unit strains *)
Lemma Lf_kernel d c w : cell_ok d -> (c < 3)%nat -> Bf d w w = 0 -> Lf d c w = 0.
Proof.
  intros HC Hc HB. set (a := Lf d c w). set (D := Df d c c).
  assert (Q : forall s, 0 <= D - 2 * (s * a)).
  { intros s. set (sw := lin s w 0 w). set (v := fun i => if (i =? c)%nat then 1 else 0).
    pose proof (energy_nonneg d v sw (fun el p => grd d sw el p) HC) as P. rewrite (energy_expand d v sw _ HC (grd_gradients d sw HC)) in P.
    assert (B0 : Bf d sw sw = 0). { unfold sw at 2. rewrite Bf_lin, (Bf_sym d sw w). unfold sw. rewrite Bf_lin, HB. ring. }
    assert (L0 : Lf d c sw = s * a). { unfold sw. rewrite Lf_lin. fold a. ring. }
    rewrite B0 in P. unfold v in P. destruct c as [|[|[|]]]; try lia; cbn [bigsum Nat.eqb] in P; fold D in P; rewrite L0 in P; lra. }
  destruct (Req_dec a 0) as [|Ha]; auto. exfalso. specialize (Q ((D + 1) / (2 * a))). replace (2 * ((D + 1) / (2 * a) * a)) with (D + 1) in Q by (field; auto). lra.
Qed.
