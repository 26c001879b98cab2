(** The run of the homogenization sample. *)
From Coq Require Import List Arith Lia Bool Reals Lra.
From Verif Require Import Res SumR DenseModel DenseR DenseSpec ShapeModel QuadModel QuadSpec ElemModel ElemSpec HomSpec SparseModel SparseSpec AssemblyModel AssemblySpec KrylovSpec CellModel CellSpec.
From Verif Require Import DenseProof DenseMain SparseMain AssemblyProof AssemblyProof2 AssemblyProof3 AssemblyMain ElemProof ElemProof2 ElemProof3 ElemProof4 ElemMain HomProof HomMain KrylovProof KrylovProof2 CGMath SemiMath SemiMain TopProof4 CellProof CellProof2 CellProof3.
Import ListNotations.
Local Open Scope R_scope.

Lemma sys_psd d sy n : cell_ok d -> sys_ok d sy n -> forall u, 0 <= dot n u (matvec n (entry (sy_A sy)) u).
Proof. intros HC S u. rewrite (ss_A d sy n S). now apply Bf_nonneg. Qed.
Lemma sys_null d sy n z c : cell_ok d -> sys_ok d sy n -> (c < 3)%nat -> (forall i, (i < n)%nat -> matvec n (entry (sy_A sy)) z i = 0) -> dot n z (ix (sy_F sy c)) = 0.
Proof.
  intros HC S Hc Hz. rewrite (ss_F d sy n S) by auto. apply Lf_kernel; auto. rewrite <- (ss_A d sy n S).
  rewrite (dot_ext n z z (matvec n (entry (sy_A sy)) z) (fun _ => 0)) by auto. rewrite dot_sym. apply dot_0_l.
Qed.
Lemma sys_solve d sy n solve c : cell_ok d -> sys_ok d sy n -> psd_solver solve -> (c < 3)%nat ->
  exists x, solve (sy_A sy) (sy_F sy c) = Ok x /\ length x = n /\ forall i, (i < n)%nat -> matvec n (entry (sy_A sy)) (ix x) i = ix (sy_F sy c) i.
Proof.
  intros HC S HS Hc. pose proof (ss_len d sy n S c Hc) as LF.
  destruct (HS n (sy_A sy) (sy_F sy c) (ss_square d sy n S) LF (ss_sym d sy n S) (sys_psd d sy n HC S)) as (x & Ex & Lx & Mx).
  - apply (C111_alternative_pf n (sy_A sy) (sy_F sy c) (ss_square d sy n S) LF (ss_sym d sy n S)). intros z Hz. now apply (sys_null d sy n).
  - exists x. splits; auto. destruct (Amul_inv n _ x _ (ss_square d sy n S) Lx Mx) as [_ V]. intros i Hi. symmetry. now apply V.
Qed.
(** the solution satisfies the weak form *)
Lemma weak_of d sy n x c w : cell_ok d -> sys_ok d sy n -> (c < 3)%nat -> (forall i, (i < n)%nat -> matvec n (entry (sy_A sy)) x i = ix (sy_F sy c) i) -> periodic d w ->
  Bf d (fld (sy_t sy) x) w = Lf d c w.
Proof.
  intros HC S Hc Hx Hw. destruct (vec_of_field d (sy_t sy) n w HC (ss_tab d sy n S) Hw) as (y & Hy).
  assert (R0 : forall u, agree_on d u u) by (intros u i j _ _; reflexivity).
  rewrite <- (Bf_ext d (fld (sy_t sy) x) (fld (sy_t sy) x) (fld (sy_t sy) y) w HC (R0 _) Hy), <- (Lf_ext d c (fld (sy_t sy) y) w HC Hy).
  rewrite Bf_sym, <- (ss_A d sy n S), <- (ss_F d sy n S) by auto. now apply dot_ext.
Qed.
Lemma chi_read d t n x : tab_ok d t n -> length x = n -> exists u, disassemble (cell_zero d) x t = Ok u /\
  (forall el, cell_ok d -> In el (cl_elements d) -> ElemSpec.nodes_ok 2 el u) /\ forall i j, uval u i j = fld t (ix x) i j.
Proof.
  intros T L. destruct (disassemble_ok (cell_zero d) x t) as (u & E & SH & V).
  - intros i j Hi. apply zero_in. now apply (to_in d t n T).
  - intros i j k Hk. rewrite L. exact (to_bound d t n T i j k Hk).
  - exists u. splits; auto.
    + intros el HC Hel e He. pose proof (node_in d el e HC Hel He) as Hn. assert (X : in_table u e 1) by (apply (same_shape_in u (cell_zero d) e 1 SH); apply zero_in; split; auto; lia).
      unfold in_table in X. split; [|lia]. destruct (le_lt_dec (length u) e); auto. rewrite nth_overflow in X by auto. cbn in X. lia.
    + intros i j. rewrite V. unfold dis_val, fld. destruct (num t i j); [reflexivity|]. unfold cell_zero. apply uval_zero.
Qed.
Lemma chi_of_uval el u0 u1 u2 c : chi_of el u0 u1 u2 c = ufld el (uval (match c with O => u0 | 1%nat => u1 | _ => u2 end)).
Proof. reflexivity. Qed.
(** integral of an engineering strain over the cell *)
Definition Ef (d : cell) (r : nat) (w : field) : R := sum_over (cl_elements d) (fun el => quad 2 (cl_q d) (fun p => jac (cl_s d) (nodal el (cl_x d)) p * (cl_t d * eng (grd d w el p) r))).
Lemma sum_all d u0 u1 u2 : cell_ok d -> (forall u, In u [u0; u1; u2] -> forall el, In el (cl_elements d) -> ElemSpec.nodes_ok 2 el u) ->
  let chi c := uval (match c with O => u0 | 1%nat => u1 | _ => u2 end) in
  forall els, (forall el, In el els -> In el (cl_elements d)) -> forall CH I ch ih, is_mat CH 3 3 ch -> is_mat I 3 3 ih ->
  exists CH' I' ch' ih', foldM (cell_sum d u0 u1 u2) els (CH, I) = Ok (CH', I') /\ is_mat CH' 3 3 ch' /\ is_mat I' 3 3 ih' /\
    (forall r c, (r < 3)%nat -> (c < 3)%nat -> ch' r c = ch r c + sum_over els (fun el => work1 d el (unit r) (fun p l k => unit c p l k - eps d (chi c) el p l k))) /\
    (forall r c, (r < 3)%nat -> (c < 3)%nat -> ih' r c = ih r c - sum_over els (fun el => quad 2 (cl_q d) (fun p => jac (cl_s d) (nodal el (cl_x d)) p * (cl_t d * eng (grd d (chi c) el p) r)))).
Proof.
  intros HC HU chi. induction els as [|el els IH]; intros Hin CH I ch ih HCH HI.
  - exists CH, I, ch, ih. cbn [foldM]. splits; auto; intros; rewrite sum_over_nil; ring.
  - assert (Hel : In el (cl_elements d)) by (apply Hin; now left). destruct (ck_element d HC el Hel) as [He _].
    assert (N0 := HU u0 ltac:(cbn; auto) el Hel). assert (N1 := HU u1 ltac:(cbn; auto) el Hel). assert (N2 := HU u2 ltac:(cbn; auto) el Hel).
    destruct (C84_constitutive_pf (cl_s d) (cl_q d) el (cl_x d) (cl_E d) (cl_V d) (cl_t d) u0 u1 u2 He N0 N1 N2 (nv d HC)) as (C & cv & EC & MC & VC).
    destruct (C84_check_pf (cl_s d) (cl_q d) el (cl_x d) (cl_t d) u0 u1 u2 He N0 N1 N2) as (B & bv & EB & MB & VB).
    destruct (Rmadd CH C 3 3 ch cv HCH MC) as (CH1 & EC1 & MC1). destruct (Rmadd I B 3 3 ih bv HI MB) as (I1 & EI1 & MI1).
    destruct (IH (fun e H => Hin e (or_intror H)) CH1 I1 _ _ MC1 MI1) as (CH2 & I2 & ch2 & ih2 & E2 & M2 & M2' & V2 & V2').
    exists CH2, I2, ch2, ih2. cbn [foldM]. unfold cell_sum at 1. rewrite EC. cbn [bind]. rewrite EC1. cbn [bind]. rewrite EB. cbn [bind]. rewrite EI1. cbn [bind].
    split; [exact E2|]. split; [exact M2|]. split; [exact M2'|].
    assert (G : forall c, gradients (cl_s d) (cl_q d) (nodal el (cl_x d)) 2 (chi_of el u0 u1 u2 c) (fun p => grd d (chi c) el p)).
    { intros c. rewrite chi_of_uval. exact (gradients_gradU (cl_s d) (cl_q d) el (cl_x d) 2 2 (ufld el (chi c)) He ltac:(lia)). }
    split; intros r c Hr Hc; rewrite sum_over_cons.
    + rewrite V2 by auto. rewrite (VC r c _ Hr Hc (G c)). rewrite Rplus_assoc. reflexivity.
    + rewrite V2' by auto. rewrite (VB r c _ Hr Hc (G c)). ring.
Qed.

Record run_ok (d : cell) (r : cell_result) : Prop := mkRun {
  rk_sys : exists sy n x, sys_ok d sy n /\ forall c, (c < 3)%nat -> (forall i, (i < n)%nat -> matvec n (entry (sy_A sy)) (x c) i = ix (sy_F sy c) i) /\ forall i j, cr_chi r c i j = fld (sy_t sy) (x c) i j;
  rk_periodic : forall c, (c < 3)%nat -> periodic d (cr_chi r c);
  rk_weak : forall c w, (c < 3)%nat -> periodic d w -> Bf d (cr_chi r c) w = Lf d c w;
  rk_CH : exists ch, is_mat (cr_CH r) 3 3 ch /\ forall a c, (a < 3)%nat -> (c < 3)%nat -> cl_volume d * ch a c = Df d a c - Lf d a (cr_chi r c);
  rk_I : exists ih, is_mat (cr_I r) 3 3 ih /\ forall a c, (a < 3)%nat -> (c < 3)%nat -> cl_volume d * ih a c = (if (a =? c)%nat then 1 else 0) - Ef d a (cr_chi r c) }.
Lemma run_exists d solve : cell_ok d -> psd_solver solve -> exists r, cell_run solve d = Ok r /\ run_ok d r.
Proof.
  intros HC HS. destruct (sys_exists d HC) as (sy & n & S). pose proof (ss_tab d sy n S) as T.
  destruct (sys_solve d sy n solve 0 HC S HS ltac:(lia)) as (x0 & E0 & L0 & A0). destruct (sys_solve d sy n solve 1 HC S HS ltac:(lia)) as (x1 & E1 & L1 & A1). destruct (sys_solve d sy n solve 2 HC S HS ltac:(lia)) as (x2 & E2 & L2 & A2).
  destruct (chi_read d _ n x0 T L0) as (u0 & D0 & N0 & V0). destruct (chi_read d _ n x1 T L1) as (u1 & D1 & N1 & V1). destruct (chi_read d _ n x2 T L2) as (u2 & D2 & N2 & V2).
  destruct (Rmid 3) as (Im & EI & MI).
  destruct (sum_all d u0 u1 u2 HC) with (els := cl_elements d) (CH := mnew R_ops 3 3) (I := Im) (ch := fun _ _ : nat => 0) (ih := fun i j : nat => if (i =? j)%nat then 1 else 0) as (CH & I & ch & ih & EF & MC & MI' & VC & VI); auto.
  { intros u Hu el Hel. cbn in Hu. destruct Hu as [<-|[<-|[<-|[]]]]; auto. }
  { apply Rmnew. }
  assert (HV : cl_volume d <> 0) by (pose proof (ck_volume d HC); lra).
  destruct (Rmdivs I 3 3 ih (cl_volume d) HV MI') as (I2 & EI2 & MI2). destruct (Rmdivs CH 3 3 ch (cl_volume d) HV MC) as (CH2 & EC2 & MC2).
  set (r := mkResult u0 u1 u2 I2 CH2). exists r. split.
  { unfold cell_run. rewrite (ss_run d sy n S). cbn [bind sy_F] in *. rewrite E0. cbn [bind]. rewrite D0. cbn [bind]. rewrite E1. cbn [bind]. rewrite D1. cbn [bind]. rewrite E2. cbn [bind]. rewrite D2. cbn [bind].
    rewrite EI. cbn [bind]. rewrite EF. cbn [bind]. rewrite EI2. cbn [bind]. rewrite EC2. reflexivity. }
  set (x := fun c => ix (match c with O => x0 | 1%nat => x1 | _ => x2 end)).
  assert (XA : forall c, (c < 3)%nat -> (forall i, (i < n)%nat -> matvec n (entry (sy_A sy)) (x c) i = ix (sy_F sy c) i) /\ forall i j, cr_chi r c i j = fld (sy_t sy) (x c) i j).
  { intros c Hc. destruct c as [|[|[|]]]; try lia; split; auto. }
  assert (PC : forall c, (c < 3)%nat -> periodic d (cr_chi r c)). { intros c Hc m s j Hin Hj. rewrite !(proj2 (XA c Hc)). now apply (fld_periodic d (sy_t sy) n (x c) T). }
  split.
  - exists sy, n, x. split; auto.
  - exact PC.
  - intros c w Hc Hw. rewrite <- (weak_of d sy n (x c) c w HC S Hc (proj1 (XA c Hc)) Hw). apply Bf_ext; auto; intros i j _ _; [apply (XA c Hc)|reflexivity].
  - eexists. split; [exact MC2|]. intros a c Ha Hc. cbv beta. rewrite (VC a c Ha Hc). replace (cl_volume d * ((0 + sum_over (cl_elements d) (fun el => work1 d el (unit a) (fun p l k => unit c p l k - eps d (uval (match c with O => u0 | 1%nat => u1 | _ => u2 end)) el p l k))) / cl_volume d))
      with (sum_over (cl_elements d) (fun el => work1 d el (unit a) (fun p l k => unit c p l k - eps d (cr_chi r c) el p l k))) by (unfold cr_chi, r; cbn [cr_chi0 cr_chi1 cr_chi2]; field; auto).
    unfold Df, Lf. rewrite (sum_ext _ _ (fun el => work1 d el (unit a) (unit c) + (-1) * work1 d el (unit a) (eps d (cr_chi r c) el))).
    + rewrite sum_over_plus, sum_over_scal. ring.
    + intros el Hel. rewrite (work1_ext d el (unit a) (unit a) _ (fun p l k => 1 * unit c p l k + (-1) * eps d (cr_chi r c) el p l k)) by (intros; auto; ring). rewrite work1_lin. ring.
  - eexists. split; [exact MI2|]. intros a c Ha Hc. cbv beta. rewrite (VI a c Ha Hc). unfold Ef, cr_chi, r. cbn [cr_chi0 cr_chi1 cr_chi2]. field. auto.
Qed.

(** ** The homogenized matrix *)
Definition comb (v : nat -> R) (chi : nat -> field) : field := fun i j => bigsum 3 (fun c => v c * chi c i j).
Lemma comb_lin v chi i j : comb v chi i j = lin 1 (lin (v 0%nat) (chi 0%nat) (v 1%nat) (chi 1%nat)) (v 2%nat) (chi 2%nat) i j.
Proof. unfold comb, lin. cbn [bigsum]. ring. Qed.
Lemma Bf_comb d u v chi : cell_ok d -> Bf d u (comb v chi) = bigsum 3 (fun c => v c * Bf d u (chi c)).
Proof.
  intros HC. rewrite (Bf_ext d u u (comb v chi) (lin 1 (lin (v 0%nat) (chi 0%nat) (v 1%nat) (chi 1%nat)) (v 2%nat) (chi 2%nat)) HC) by (intros i j _ _; (reflexivity || apply comb_lin)).
  rewrite !Bf_lin. cbn [bigsum]. ring.
Qed.
Lemma Lf_comb d r v chi : cell_ok d -> Lf d r (comb v chi) = bigsum 3 (fun c => v c * Lf d r (chi c)).
Proof.
  intros HC. rewrite (Lf_ext d r (comb v chi) (lin 1 (lin (v 0%nat) (chi 0%nat) (v 1%nat) (chi 1%nat)) (v 2%nat) (chi 2%nat)) HC) by (intros i j _ _; apply comb_lin).
  rewrite !Lf_lin. cbn [bigsum]. ring.
Qed.
Lemma run_sym d r ch : cell_ok d -> run_ok d r -> is_mat (cr_CH r) 3 3 ch -> forall a c, (a < 3)%nat -> (c < 3)%nat ->
  cl_volume d * ch a c = Df d a c - Bf d (cr_chi r a) (cr_chi r c).
Proof.
  intros HC K MC a c Ha Hc. destruct (rk_CH d r K) as (ch' & M' & V'). destruct MC as (_ & _ & _ & G & _). destruct M' as (_ & _ & _ & G' & _).
  assert (E : ch a c = ch' a c) by (specialize (G a c Ha Hc); specialize (G' a c Ha Hc); congruence). rewrite E, V' by auto. f_equal. symmetry. apply (rk_weak d r K); auto. now apply (rk_periodic d r K).
Qed.
Lemma run_energy d r ch v H : cell_ok d -> run_ok d r -> is_mat (cr_CH r) 3 3 ch -> cell_gradients d (comb v (cr_chi r)) H ->
  cell_energy d v (comb v (cr_chi r)) H = cl_volume d * bigsum 3 (fun a => bigsum 3 (fun c => v a * ch a c * v c)).
Proof.
  intros HC K MC HG. rewrite (energy_expand d v _ H HC HG). rewrite Bf_comb by auto.
  assert (LL : forall a, (a < 3)%nat -> Lf d a (comb v (cr_chi r)) = bigsum 3 (fun c => v c * Bf d (cr_chi r a) (cr_chi r c))).
  { intros a Ha. rewrite Lf_comb by auto. apply bigsum_ext. intros c Hc. f_equal. symmetry. apply (rk_weak d r K); auto. now apply (rk_periodic d r K). }
  rewrite (bigsum_ext 3 (fun c => v c * Bf d (comb v (cr_chi r)) (cr_chi r c)) (fun a => v a * bigsum 3 (fun c => v c * Bf d (cr_chi r a) (cr_chi r c)))).
  2:{ intros a Ha. f_equal. rewrite Bf_sym, Bf_comb by auto. reflexivity. }
  rewrite (bigsum_ext 3 (fun c => v c * Lf d c (comb v (cr_chi r))) (fun a => v a * bigsum 3 (fun c => v c * Bf d (cr_chi r a) (cr_chi r c)))) by (intros a Ha; now rewrite LL).
  transitivity (bigsum 3 (fun i => cl_volume d * bigsum 3 (fun c => v i * ch i c * v c))); [|now rewrite bigsum_scal]. rewrite (bigsum_ext 3 (fun i => cl_volume d * bigsum 3 (fun c => v i * ch i c * v c)) (fun a => bigsum 3 (fun c => v a * Df d a c * v c) + (-1) * (v a * bigsum 3 (fun c => v c * Bf d (cr_chi r a) (cr_chi r c))))).
  - rewrite bigsum_plus, bigsum_scal. ring.
  - intros a Ha. rewrite <- !bigsum_scal, <- bigsum_plus. apply bigsum_ext. intros c Hc. transitivity (v a * (cl_volume d * ch a c) * v c); [ring|]. rewrite (run_sym d r ch HC K MC a c Ha Hc). ring.
Qed.
(** the characteristic displacements minimise the energy *)
Lemma run_min d r v H w Hw : cell_ok d -> run_ok d r -> cell_gradients d (comb v (cr_chi r)) H -> periodic d w -> cell_gradients d w Hw ->
  cell_energy d v w Hw - cell_energy d v (comb v (cr_chi r)) H = Bf d (lin 1 w (-1) (comb v (cr_chi r))) (lin 1 w (-1) (comb v (cr_chi r))).
Proof.
  intros HC K HG PW HW. rewrite (energy_expand d v _ H HC HG), (energy_expand d v w Hw HC HW). set (u := comb v (cr_chi r)).
  assert (BL : forall w', periodic d w' -> Bf d u w' = bigsum 3 (fun c => v c * Lf d c w')).
  { intros w' Hp. unfold u. rewrite Bf_sym, Bf_comb by auto. apply bigsum_ext. intros c Hc. f_equal. rewrite Bf_sym. now apply (rk_weak d r K). }
  assert (PU : periodic d u). { intros m s j Hin Hj. unfold u, comb. apply bigsum_ext. intros c Hc. f_equal. now apply (rk_periodic d r K c Hc). }
  rewrite <- !BL by auto. rewrite Bf_lin, !(Bf_sym d (lin 1 w (-1) u)), !Bf_lin, (Bf_sym d w u). ring.
Qed.
Lemma run_value d r ch v w Hw : cell_ok d -> run_ok d r -> is_mat (cr_CH r) 3 3 ch -> periodic d w -> cell_gradients d w Hw ->
  cl_volume d * bigsum 3 (fun a => bigsum 3 (fun c => v a * ch a c * v c)) <= cell_energy d v w Hw.
Proof.
  intros HC K MC PW HW. rewrite <- (run_energy d r ch v _ HC K MC (grd_gradients d _ HC)).
  pose proof (run_min d r v _ w Hw HC K (grd_gradients d _ HC) PW HW) as E. pose proof (Bf_nonneg d (lin 1 w (-1) (comb v (cr_chi r))) HC). lra.
Qed.
