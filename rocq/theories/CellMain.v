(** Property C112: the homogenization sample: the proofs. *)
From Coq Require Import List Arith Lia Bool Reals Lra.
From Verif Require Import Res SumR DenseModel DenseR DenseSpec ShapeModel QuadModel QuadSpec QuadMain ElemModel ElemSpec HomSpec SparseModel SparseSpec KrylovModel KrylovSpec AssemblyModel AssemblySpec StableMain TopModel TopSpec CellModel CellSpec.
Import ListNotations.
Local Open Scope R_scope.
From Verif Require Import SparseMain KrylovProof KrylovProof2 KrylovMain CGMath SemiMath SemiMain ElemProof ElemProof2 ElemProof3 ElemMain SpringMain AssemblyProof AssemblyProof2 AssemblyProof3 StableProof4 TopMain CellProof CellProof2 CellProof3 CellProof4.

Lemma constant_gradients d w : cell_ok d -> (forall i i' j, w i j = w i' j) -> cell_gradients d w (fun _ _ _ _ => 0).
Proof.
  intros HC Hw el Hel g Hg k c Hk Hc. destruct (ck_element d HC el Hel) as [(Hs & _) _].
  rewrite (bigsum_ext (sf_d (cl_s d)) _ (fun _ => 0)) by (intros; ring). rewrite bigsum_zero by auto.
  rewrite (bigsum_ext (sf_n (cl_s d)) _ (fun i => w O c * dshp (cl_s d) (pt (cl_q d) g) k i)) by (intros i _; rewrite (Hw (nth i el O) O c); ring).
  rewrite bigsum_scal. change (bigsum (sf_n (cl_s d)) (fun i => dshp (cl_s d) (pt (cl_q d) g) k i)) with (bigsum (sf_n (cl_s d)) (dshp (cl_s d) (pt (cl_q d) g) k)). rewrite dshp_sum by auto. ring.
Qed.
Lemma constant_eps d w el g l k : cell_ok d -> (forall i i' j, w i j = w i' j) -> In el (cl_elements d) -> (g < q_n (cl_q d))%nat -> (l < 2)%nat -> (k < 2)%nat -> eps d w el (pt (cl_q d) g) l k = 0.
Proof.
  intros HC Hw Hel Hg Hl Hk. destruct (ck_element d HC el Hel) as [He _]. pose proof (constant_gradients d w HC Hw el Hel) as G. unfold eps, CellProof.grd, strain.
  rewrite !(gradients_eq (cl_s d) (cl_q d) el (cl_x d) 2 2 (ufld el w) _ He ltac:(lia) G g) by auto. lra.
Qed.
Lemma rigid_Bf d u w : cell_ok d -> (forall i, w i 0%nat = 1) -> (forall i j, w i (S j) = -1) -> Bf d u w = 0.
Proof.
  intros HC H0 H1. assert (Hw : forall i i' j, w i j = w i' j) by (intros i i' [|j]; rewrite ?H0, ?H1; auto).
  unfold Bf. replace 0 with (0 + 0) by ring. f_equal; apply sum_zero; intros el Hel.
  - rewrite (work1_ext d el (eps d u el) (eps d u el) _ (fun _ _ _ => 0 * 0 + 0 * 0)); [|auto|].
    + rewrite (work1_lin d el (eps d u el) 0 (fun _ _ _ => 0) 0 (fun _ _ _ => 0)). ring.
    + intros g l k Hg Hl Hk. rewrite constant_eps by auto. ring.
  - unfold spring1. rewrite (sum_ext el _ (fun _ => 0)); [rewrite sum_zero; auto; ring|]. intros i _. rewrite H0, H1. ring.
Qed.
Lemma run_of solve d r : psd_solver solve -> cell_ok d -> cell_run solve d = Ok r -> run_ok d r.
Proof. intros HS HC E. destruct (run_exists d solve HC HS) as (r' & E' & K). rewrite E in E'. injection E' as <-. exact K. Qed.
Lemma springs_energy d a a' v w H : cell_energy (with_springs d a') v w H = cell_energy (with_springs d a) v w H + spring_work (with_springs d (a' - a)) w w.
Proof.
  unfold cell_energy. rewrite Rplus_assoc. f_equal. unfold spring_work, with_springs. cbn [cl_elements cl_alpha].
  rewrite <- sum_over_plus. apply sum_ext. intros el _. ring.
Qed.
Lemma spring_work_nonneg d a w : 0 <= a -> 0 <= spring_work (with_springs d a) w w.
Proof. intros Ha. unfold spring_work, with_springs. cbn [cl_elements cl_alpha]. apply sum_over_nonneg. intros el _. apply Rmult_le_pos; auto. apply sum_over_nonneg. intros. apply Rle_0_sqr. Qed.
Lemma quad_scale t ch v : quad_form ch (fun c => t * v c) = t * t * quad_form ch v.
Proof. unfold quad_form. cbn [bigsum]. ring. Qed.

(** ** A strip: one square element, periodic from left to right *)
Definition strip_xs : list (list R) := [[0; 0]; [1; 0]; [1; 1]; [0; 1]].
Definition strip : cell := mkCell strip_xs [[0; 1; 2; 3]%nat] [(0%nat, 1%nat); (3%nat, 2%nat)] sf_4Square Gauss4Square 100 (3 / 10) 1 (1 / 1000) 1.
Lemma strip_jac r : jac sf_4Square (nodal [0; 1; 2; 3]%nat strip_xs) r = 1 / 4.
Proof. unfold jac, detd, det2, tangent, dshp, nodal, strip_xs, sf_4Square, dN_4Square. cbn [sf_d sf_n sf_dN bigsum nth]. lra. Qed.
Lemma strip_springs a : 0 <= a -> cell_ok (with_springs strip a).
Proof.
  intros Ha. destruct (C106_rules_pf sf_4Square Gauss4Square ltac:(cbn; tauto)) as (PP & RK & WP).
  split; cbn [with_springs strip cl_x cl_elements cl_pairs cl_s cl_q cl_E cl_V cl_t cl_alpha cl_volume]; try lra.
  - intros el [<-|[]]. split.
    + unfold element_ok. split; [cbn; tauto|]. split; [reflexivity|]. split; [reflexivity|]. split; [intros k Hk; cbn in Hk; destruct Hk as [<-|[<-|[<-|[<-|[]]]]]; cbn; lia|]. split; [exact RK|]. intros g _. rewrite strip_jac. lra.
    + intros g Hg. rewrite strip_jac. split; [lra|now apply WP].
  - intros m s [H|[H|[]]]; injection H as <- <-; cbn; lia.
  - cbn. repeat constructor; cbn; intuition lia.
  - cbn. intuition lia.
Qed.
Lemma strip_ok : cell_ok strip.
Proof. apply (strip_springs (1 / 1000)). lra. Qed.
(** the vertical coordinate measured from the middle *)
Definition strip_w (i j : nat) : R := match j with O => 0 | _ => nth 1 (nth i strip_xs []) 0 - 1 / 2 end.
Lemma strip_periodic : periodic strip strip_w.
Proof. intros m s j Hin Hj. cbn in Hin. destruct Hin as [H|[H|[]]]; injection H as <- <-; destruct j as [|[|]]; try lia; reflexivity. Qed.
Lemma strip_gradients : cell_gradients strip strip_w (fun _ _ l k => if ((l =? 1) && (k =? 1))%nat then 1 else 0).
Proof.
  intros el [<-|[]] g Hg k c Hk Hc. set (p := pt (cl_q strip) g). clearbody p. cbn [strip cl_x cl_s] in *.
  unfold tangent, dshp, nodal, strip_w, strip_xs, sf_4Square, dN_4Square in *. cbn [sf_d sf_n sf_dN bigsum nth] in *.
  destruct k as [|[|]]; try lia; destruct c as [|[|]]; try lia; cbn [nth Nat.eqb andb]; lra.
Qed.
Lemma strip_energy : cell_energy strip (fun c => if (c =? 1)%nat then 1 else 0) strip_w (fun _ _ l k => if ((l =? 1) && (k =? 1))%nat then 1 else 0) = 1 / 1000.
Proof.
  unfold cell_energy.
  assert (Z : stress_work strip (micro (fun c => if (c =? 1)%nat then 1 else 0) (fun _ _ l k => if ((l =? 1) && (k =? 1))%nat then 1 else 0)) (micro (fun c => if (c =? 1)%nat then 1 else 0) (fun _ _ l k => if ((l =? 1) && (k =? 1))%nat then 1 else 0)) = 0).
  { unfold stress_work. apply sum_zero. intros el _. unfold quad. apply bigsum_zero. intros g _.
    unfold hooke, trace, ddot, micro, macro, strain, unit_strain. cbn [bigsum Nat.eqb andb]. field. }
  rewrite Z. unfold spring_work. cbn [strip cl_elements cl_alpha]. rewrite !sum_over_cons, !sum_over_nil. unfold strip_w, strip_xs. cbn [nth]. lra.
Qed.
Lemma strip_cover i : (i < length (cl_x strip))%nat -> exists el, In el (cl_elements strip) /\ In i el.
Proof. intros Hi. exists [0; 1; 2; 3]%nat. split; [now left|]. cbn in Hi |- *. lia. Qed.
Lemma strip_loaded sy : cell_system strip = Ok sy -> nonzero (length (sy_F sy 1)) (ix (sy_F sy 1)).
Proof.
  intros E. destruct (sys_exists strip strip_ok) as (sy' & n & S). pose proof (ss_run strip sy' n S) as E'. rewrite E in E'. injection E' as <-. rewrite (ss_len strip sy n S 1) by lia.
  destruct (nonzero_dec n (ix (sy_F sy 1))) as [N|N]; auto. exfalso. destruct (vec_of_field strip (sy_t sy) n strip_w strip_ok (ss_tab strip sy n S) strip_periodic) as (x & AX).
  pose proof (ss_F strip sy n S 1 x ltac:(lia)) as EF. rewrite (Lf_ext strip 1 _ strip_w strip_ok AX) in EF.
  rewrite (dot_ext n x x (ix (sy_F sy 1)) (fun _ => 0)) in EF by (try (intros i Hi; apply N; exact Hi); intros i Hi; reflexivity). rewrite dot_sym, dot_0_l in EF.
  unfold Lf in EF. change (cl_elements strip) with [[0; 1; 2; 3]%nat] in EF. rewrite sum_over_cons, sum_over_nil, Rplus_0_r in EF.
  rewrite (work1_ext strip _ (CellProof.unit 1) (CellProof.unit 1) _ (CellProof.unit 1)) in EF.
  - assert (P : 0 < work1 strip [0; 1; 2; 3]%nat (CellProof.unit 1) (CellProof.unit 1)); [|lra]. unfold work1, quad. destruct (proj2 (ck_element strip strip_ok [0; 1; 2; 3]%nat (or_introl eq_refl)) 0%nat) as [_ W0]; [cbn; lia|].
    assert (HH : hooke 2 (lame_lambda (cl_E strip) (cl_V strip)) (lame_mu (cl_E strip) (cl_V strip)) (unit_strain 1) (unit_strain 1) = 1750 / 13). { unfold hooke, trace, ddot, unit_strain, lame_lambda, lame_mu. cbn [bigsum Nat.eqb andb strip cl_E cl_V]. field. }
    assert (T0 : forall g, (g < q_n (cl_q strip))%nat -> 0 < wprod 2 (nth g (q_weights (cl_q strip)) []) * (jac (cl_s strip) (nodal [0; 1; 2; 3]%nat (cl_x strip)) (fun k => nth k (nth g (q_points (cl_q strip)) []) 0) *
      (cl_t strip * hooke 2 (lame_lambda (cl_E strip) (cl_V strip)) (lame_mu (cl_E strip) (cl_V strip)) (CellProof.unit 1 (fun k => nth k (nth g (q_points (cl_q strip)) []) 0)) (CellProof.unit 1 (fun k => nth k (nth g (q_points (cl_q strip)) []) 0))))).
    { intros g Hg. destruct (proj2 (ck_element strip strip_ok [0; 1; 2; 3]%nat (or_introl eq_refl)) g Hg) as [J W]. unfold CellProof.unit. rewrite HH. apply Rmult_lt_0_compat; [exact W|]. apply Rmult_lt_0_compat; [exact J|]. cbn [strip cl_t]. lra. }
    apply (bigsum_pos (q_n (cl_q strip)) _ 0%nat); [intros g Hg; left; now apply T0|cbn; lia|apply T0; cbn; lia].
  - intros; reflexivity.
  - intros g l k Hg Hl Hk. unfold eps, CellProof.grd, strain. rewrite !(gradients_eq (cl_s strip) (cl_q strip) [0; 1; 2; 3]%nat (cl_x strip) 2 2 (ufld [0; 1; 2; 3]%nat strip_w) _ (proj1 (ck_element strip strip_ok _ (or_introl eq_refl))) ltac:(lia) (strip_gradients _ (or_introl eq_refl)) g) by auto.
    unfold CellProof.unit, unit_strain. destruct l as [|[|]], k as [|[|]]; try lia; cbn; lra.
Qed.

Lemma C112_system_pf : forall d, cell_ok d -> exists sy n, cell_system d = Ok sy /\
  (forall i j, (i < length (cl_x d))%nat -> (j < 2)%nat -> exists k, num (sy_t sy) i j = Some k /\ (k < n)%nat) /\
  (forall m s j, In (m, s) (cl_pairs d) -> (j < 2)%nat -> num (sy_t sy) s j = num (sy_t sy) m j) /\
  square_csr n (sy_A sy) /\ symmetric n (entry (sy_A sy)) /\
  (forall x w H, (forall i j k, num (sy_t sy) i j = Some k -> w i j = x k) -> cell_gradients d w H ->
     dot n x (matvec n (entry (sy_A sy)) x) = cell_energy d (fun _ => 0) w H) /\
  (forall x, 0 <= dot n x (matvec n (entry (sy_A sy)) x)) /\
  forall c, (c < 3)%nat -> length (sy_F sy c) = n /\ exists x, length x = n /\ csr_mulvec 0 Rplus Rmult (sy_A sy) x = Ok (sy_F sy c).
Proof.
  intros d HC. destruct (sys_exists d HC) as (sy & n & S). pose proof (ss_tab d sy n S) as T. exists sy, n.
  split; [apply S|]. split; [apply T|]. split; [apply T|]. split; [apply S|]. split; [apply S|]. split; [|split; [now apply (sys_psd d)|]].
  - intros x w H Hx HG. rewrite (ss_A d sy n S), (energy_expand d _ w H HC HG). cbn [bigsum].
    assert (AG : agree_on d (fld (sy_t sy) x) w). { intros i j Hi Hj. destruct (to_some d _ n T i j Hi Hj) as (k & Ek & _). unfold fld. rewrite Ek. symmetry. now apply Hx. }
    rewrite (Bf_ext d _ w _ w HC AG AG). ring.
  - intros c Hc. split; [now apply (ss_len d sy n S)|]. apply (C111_alternative_pf n (sy_A sy) (sy_F sy c) (ss_square d sy n S) (ss_len d sy n S c Hc) (ss_sym d sy n S)).
    intros z Hz. now apply (sys_null d sy n).
Qed.

Lemma C112_run_pf : forall solve d, psd_solver solve -> cell_ok d -> exists r ch ih, cell_run solve d = Ok r /\
  is_mat (cr_CH r) 3 3 ch /\ is_mat (cr_I r) 3 3 ih /\
  (forall c, (c < 3)%nat -> periodic d (cr_chi r c)) /\
  (forall a c, (a < 3)%nat -> (c < 3)%nat -> ch a c = ch c a) /\
  (forall v H, cell_gradients d (cr_field r v) H -> cl_volume d * quad_form ch v = cell_energy d v (cr_field r v) H) /\
  (forall v w H, periodic d w -> cell_gradients d w H -> cl_volume d * quad_form ch v <= cell_energy d v w H) /\
  (forall a c H, (a < 3)%nat -> (c < 3)%nat -> cell_gradients d (cr_chi r c) H ->
     cl_volume d * ih a c = (if (a =? c)%nat then 1 else 0) -
       sum_over (cl_elements d) (fun el => quad 2 (cl_q d) (fun p => jac (cl_s d) (nodal el (cl_x d)) p * (cl_t d * eng (H el p) a)))).
Proof.
  intros solve d HS HC. destruct (run_exists d solve HC HS) as (r & E & K). destruct (rk_CH d r K) as (ch & MC & _). destruct (rk_I d r K) as (ih & MI & VI).
  exists r, ch, ih. split; [exact E|]. split; [exact MC|]. split; [exact MI|]. split; [apply K|]. split; [|split; [|split]].
  - intros a c Ha Hc. apply (Rmult_eq_reg_l (cl_volume d)); [|pose proof (ck_volume d HC); lra]. rewrite !(run_sym d r ch HC K MC) by auto. now rewrite Df_sym, Bf_sym.
  - intros v H HG. symmetry. exact (run_energy d r ch v H HC K MC HG).
  - intros v w H PW HW. exact (run_value d r ch v w H HC K MC PW HW).
  - intros a c H Ha Hc HG. rewrite VI by auto. f_equal. unfold Ef. apply sum_ext. intros el Hel. destruct (ck_element d HC el Hel) as [He _]. unfold quad. apply bigsum_ext. intros g Hg.
    do 2 f_equal. f_equal. assert (GE : forall l k, (l < 2)%nat -> (k < 2)%nat -> CellProof.grd d (cr_chi r c) el (pt (cl_q d) g) l k = H el (pt (cl_q d) g) l k).
    { intros l k Hl Hk. exact (gradients_eq (cl_s d) (cl_q d) el (cl_x d) 2 2 _ _ He ltac:(lia) (HG el Hel) g l k Hg Hl Hk). }
    change (fun k => nth k (nth g (q_points (cl_q d)) []) 0) with (pt (cl_q d) g). unfold eng, strain. destruct a as [|[|]]; rewrite ?GE by lia; reflexivity.
Qed.

Lemma C112_bounds_pf : forall solve d r ch v, psd_solver solve -> cell_ok d -> cell_run solve d = Ok r -> is_mat (cr_CH r) 3 3 ch ->
  0 <= quad_form ch v /\ cl_volume d * quad_form ch v <= stress_work d (fun _ _ => macro v) (fun _ _ => macro v).
Proof.
  intros solve d r ch v HS HC E MC. pose proof (run_of solve d r HS HC E) as K. split.
  - pose proof (run_energy d r ch v _ HC K MC (grd_gradients d _ HC)) as Q. pose proof (energy_nonneg d v (comb v (cr_chi r)) (fun el p => CellProof.grd d (comb v (cr_chi r)) el p) HC) as P. rewrite Q in P.
    pose proof (ck_volume d HC) as V. fold (quad_form ch v) in P. destruct (Rle_lt_dec 0 (quad_form ch v)); auto. nra.
  - refine (Rle_trans _ _ _ (run_value d r ch v (fun _ _ => 0) (fun _ _ _ _ => 0) HC K MC _ _) _); [intros m s j _ _; reflexivity|now apply constant_gradients|].
    unfold cell_energy. rewrite <- (Rplus_0_r (stress_work d _ (fun _ _ => macro v))). apply Rplus_le_compat.
    + right. unfold stress_work. apply sum_ext. intros el _. unfold quad. apply bigsum_ext. intros g _. do 3 f_equal. unfold hooke, trace, ddot, micro, strain. cbn [bigsum]. field.
    + right. unfold spring_work. apply sum_zero. intros el _. rewrite (sum_ext el _ (fun _ => 0)) by (intros; ring). rewrite sum_zero by auto. ring.
Qed.

Lemma C112_unique_pf : forall solve solve' d r r' ch ch', psd_solver solve -> psd_solver solve' -> cell_ok d ->
  cell_run solve d = Ok r -> cell_run solve' d = Ok r' -> is_mat (cr_CH r) 3 3 ch -> is_mat (cr_CH r') 3 3 ch' ->
  forall a c, (a < 3)%nat -> (c < 3)%nat -> ch a c = ch' a c.
Proof.
  intros solve solve' d r r' ch ch' HS HS' HC E E' M M' a c Ha Hc. pose proof (run_of solve d r HS HC E) as K. pose proof (run_of solve' d r' HS' HC E') as K'.
  apply (Rmult_eq_reg_l (cl_volume d)); [|pose proof (ck_volume d HC); lra]. rewrite (run_sym d r ch HC K M), (run_sym d r' ch' HC K' M') by auto. f_equal.
  rewrite (rk_weak d r K a) by (auto; now apply (rk_periodic d r K)). rewrite <- (rk_weak d r' K' a) by (auto; now apply (rk_periodic d r K)).
  rewrite (Bf_sym d (cr_chi r' a)). rewrite (rk_weak d r K c) by (auto; now apply (rk_periodic d r' K')). rewrite <- (rk_weak d r' K' c) by (auto; now apply (rk_periodic d r' K')). apply Bf_sym.
Qed.

Lemma C112_springs_pf : forall solve solve' d a a' r r' ch ch' v, psd_solver solve -> psd_solver solve' ->
  cell_ok (with_springs d a) -> cell_ok (with_springs d a') -> a <= a' ->
  cell_run solve (with_springs d a) = Ok r -> cell_run solve' (with_springs d a') = Ok r' -> is_mat (cr_CH r) 3 3 ch -> is_mat (cr_CH r') 3 3 ch' ->
  quad_form ch v <= quad_form ch' v /\
  cl_volume d * (quad_form ch' v - quad_form ch v) <= (a' - a) * spring_work (with_springs d 1) (cr_field r v) (cr_field r v).
Proof.
  intros solve solve' d a a' r r' ch ch' v HS HS' HC HC' Ha E E' M M'. set (D := with_springs d a) in *. set (D' := with_springs d a') in *.
  pose proof (run_of solve D r HS HC E) as K. pose proof (run_of solve' D' r' HS' HC' E') as K'.
  assert (PC : forall e q, run_ok e q -> periodic e (cr_field q v)). { intros e q Q m s j Hin Hj. apply bigsum_ext. intros c Hc. f_equal. now apply (rk_periodic e q Q c Hc). }
  pose proof (ck_volume D HC) as V. change (cl_volume D) with (cl_volume d) in V.
  assert (SC : spring_work (with_springs d (a' - a)) (cr_field r v) (cr_field r v) = (a' - a) * spring_work (with_springs d 1) (cr_field r v) (cr_field r v)).
  { unfold spring_work, with_springs. cbn [cl_elements cl_alpha]. rewrite <- sum_over_scal. apply sum_ext. intros. ring. }
  split.
  - pose proof (run_value D r ch v (cr_field r' v) _ HC K M (PC D' r' K') (grd_gradients D (cr_field r' v) HC)) as L.
    pose proof (run_energy D' r' ch' v _ HC' K' M' (grd_gradients D' _ HC')) as Q. change (comb v (cr_chi r')) with (cr_field r' v) in Q.
    pose proof (springs_energy d a a' v (cr_field r' v) (fun el p => CellProof.grd D' (cr_field r' v) el p)) as SE. fold D D' in SE. rewrite Q in SE.
    pose proof (spring_work_nonneg d (a' - a) (cr_field r' v) ltac:(lra)) as SN.
    change (cell_energy D v (cr_field r' v) (fun el p => CellProof.grd D (cr_field r' v) el p)) with (cell_energy D v (cr_field r' v) (fun el p => CellProof.grd D' (cr_field r' v) el p)) in L.
    fold (quad_form ch v) in L. fold (quad_form ch' v) in SE. change (cl_volume D) with (cl_volume d) in L. change (cl_volume D') with (cl_volume d) in SE.
    apply (Rmult_le_reg_l (cl_volume d)); auto. lra.
  - pose proof (run_value D' r' ch' v (cr_field r v) _ HC' K' M' (PC D r K) (grd_gradients D' (cr_field r v) HC')) as L.
    pose proof (run_energy D r ch v _ HC K M (grd_gradients D _ HC)) as Q. change (comb v (cr_chi r)) with (cr_field r v) in Q.
    pose proof (springs_energy d a a' v (cr_field r v) (fun el p => CellProof.grd D (cr_field r v) el p)) as SE. fold D D' in SE. rewrite Q, SC in SE.
    change (cell_energy D' v (cr_field r v) (fun el p => CellProof.grd D' (cr_field r v) el p)) with (cell_energy D' v (cr_field r v) (fun el p => CellProof.grd D (cr_field r v) el p)) in L.
    fold (quad_form ch' v) in L. fold (quad_form ch v) in SE. change (cl_volume D') with (cl_volume d) in L. change (cl_volume D) with (cl_volume d) in SE. lra.
Qed.

Lemma C112_singular_pf : forall d sy, cell_ok d -> cl_x d <> [] -> cell_system d = Ok sy ->
  exists n z, square_csr n (sy_A sy) /\ nonzero n z /\ (forall i, (i < n)%nat -> matvec n (entry (sy_A sy)) z i = 0) /\
    forall i j k, num (sy_t sy) i j = Some k -> z k = match j with O => 1 | _ => -1 end.
Proof.
  intros d sy HC HX E. destruct (sys_exists d HC) as (sy' & n & S). pose proof (ss_run d sy' n S) as E'. rewrite E in E'. injection E' as <-. pose proof (ss_tab d sy n S) as T.
  set (w := fun i j : nat => match j with O => 1 | _ => -1 end : R). assert (PW : periodic d w) by (intros m s j _ _; reflexivity).
  destruct (vec_of_field d (sy_t sy) n w HC T PW) as (z & AZ). exists n, z. split; [apply S|].
  assert (ZV : forall i j k, num (sy_t sy) i j = Some k -> z k = w i j).
  { intros i j k Hk. destruct (proj1 (to_in d _ n T i j) (num_in _ i j k Hk)) as [Hi Hj]. specialize (AZ i j Hi Hj). unfold fld in AZ. now rewrite Hk in AZ. }
  split; [|split].
  - assert (H0 : (0 < length (cl_x d))%nat) by (destruct (cl_x d); [contradiction|cbn; lia]). destruct (to_some d _ n T 0 0 H0 ltac:(lia)) as (k & Ek & Hk). exists k. split; auto. rewrite (ZV 0%nat 0%nat k Ek). cbn. lra.
  - intros i Hi. transitivity (dot n (fun j => delta j i) (matvec n (entry (sy_A sy)) z)); [unfold dot; now rewrite (bigsum_delta n i (matvec n (entry (sy_A sy)) z)) by auto|].
    rewrite (ss_A d sy n S). rewrite (Bf_ext d _ (fld (sy_t sy) (fun j => delta j i)) _ w HC); [apply rigid_Bf; auto|intros ? ? _ _; reflexivity|exact AZ].
  - exact ZV.
Qed.

Lemma C112_scaling_cg_pf : forall d sy c itrmax eps, cell_ok d -> 0 < cl_alpha d ->
  (forall i, (i < length (cl_x d))%nat -> exists el, In el (cl_elements d) /\ In i el) -> cell_system d = Ok sy -> (c < 3)%nat ->
  nonzero (length (sy_F sy c)) (ix (sy_F sy c)) -> 0 < eps -> (length (sy_F sy c) <= itrmax)%nat ->
  exists x, scaling_cg (sy_A sy) (sy_F sy c) itrmax eps = Ok (true, x) /\ accurate (length (sy_F sy c)) (sy_A sy) (sy_F sy c) eps x.
Proof.
  intros d sy c itrmax eps HC Ha HI E Hc HN He Hit. destruct (sys_exists d HC) as (sy' & n & S). pose proof (ss_run d sy' n S) as E'. rewrite E in E'. injection E' as <-. pose proof (ss_tab d sy n S) as T.
  rewrite (ss_len d sy n S c Hc) in *.
  apply (C111_converges_pf n (sy_A sy) (sy_F sy c) itrmax eps (ss_square d sy n S) (ss_len d sy n S c Hc) (ss_sym d sy n S) (sys_psd d sy n HC S)); auto.
  { intros z Hz. now apply (sys_null d sy n). }
  intros k Hk. assert (EK : entry (sy_A sy) k k = Bf d (fld (sy_t sy) (fun j => delta j k)) (fld (sy_t sy) (fun j => delta j k))).
  { rewrite <- (ss_A d sy n S). unfold dot. rewrite (bigsum_delta n k (matvec n (entry (sy_A sy)) (fun j => delta j k))) by auto. unfold matvec. now rewrite (bigsum_delta_r n k (fun j => entry (sy_A sy) k j)) by auto. }
  rewrite EK. set (u := fld (sy_t sy) (fun j => delta j k)). unfold Bf.
  destruct (to_onto d _ n T k Hk) as (i & j & Hs & Hij). destruct (proj1 (to_in d _ n T i j) (num_in _ i j k Hij)) as [Hi Hj]. destruct (HI i Hi) as (el & Hel & Hin).
  apply Rplus_le_lt_0_compat; [apply sum_over_nonneg; intros; now apply work1_nonneg|].
  apply (sum_over_pos _ _ el); [|exact Hel|].
  - intros el' _. unfold spring1. apply Rmult_le_pos; [apply (ck_spring d HC)|]. apply sum_over_nonneg. intros. apply Rle_0_sqr.
  - unfold spring1. apply Rmult_lt_0_compat; auto. apply (sum_over_pos _ _ i); [intros; apply Rle_0_sqr|exact Hin|]. apply Rlt_0_sqr.
    assert (U1 : u i j = 1) by (unfold u, fld; rewrite Hij; apply delta_refl).
    assert (U0 : forall j', (j' < 2)%nat -> j' <> j -> u i j' = 0).
    { intros j' Hj' Hne. unfold u, fld. destruct (to_some d _ n T i j' Hi Hj') as (k' & Ek' & _). rewrite Ek'. unfold delta. destruct (Nat.eqb_spec k' k) as [->|]; [|reflexivity].
      exfalso. apply Hne. apply (to_inj d _ n T i j' i j k Hs Hs Ek' Hij). }
    destruct j as [|[|]]; try lia; [rewrite U1, (U0 1%nat) by lia|rewrite U1, (U0 0%nat) by lia]; lra.
Qed.

Lemma C112_solver_pf : psd_solver cg_exact.
Proof.
  intros n A b HA Hb Hs Hp HX. pose proof (proj1 (C111_alternative_pf n A b HA Hb Hs) HX) as HZ.
  destruct (C111_trace_pf n A b HA Hb Hs Hp HZ) as (m & tr & Hm & E0 & HS & HN & HR & HV).
  exists (map (ix (cg_x (tr m))) (seq 0 n)). unfold cg_exact. rewrite E0. cbn [bind]. rewrite Hb. split; [|split; [now rewrite map_length, seq_length|]].
  - apply (cg_exact_reaches n A tr m HS HN HR m 0 n); lia.
  - apply (mulvec_rows n A _ b HA); [now rewrite map_length, seq_length|auto|]. intros i Hi. rewrite <- (HV i Hi). unfold matvec. apply bigsum_ext. intros j Hj. f_equal. unfold ix. now rewrite nth_map_seq.
Qed.
