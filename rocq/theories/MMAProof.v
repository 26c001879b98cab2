(** The inner loop of MMA and CONLIN: execution without faults, interior
    iterates, the Newton equations. *)
From Coq Require Import List Arith Lia Bool Reals Lra.
From Verif Require Import Res SumR DenseR LUModel LUProof KrylovModel SolvelsModel SolvelsProof OCModel OCMain MMAModel MMASpec.
Import ListNotations.
Local Open Scope R_scope.

Lemma tab_ok n f g : (forall i, (i < n)%nat -> f i = Ok (g i)) -> exists l, tab n f = Ok l /\ vecf l n g.
Proof.
  intros H. unfold tab.
  assert (K : forall len s, (s + len <= n)%nat -> mapM f (seq s len) = Ok (map g (seq s len))).
  { induction len as [|len IH]; intros s Hs; [reflexivity|]. cbn [seq mapM map]. rewrite H by lia. cbn [bind]. rewrite IH by lia. reflexivity. }
  exists (map g (seq 0 n)). split; [apply K; lia|]. split; [now rewrite map_length, seq_length|].
  intros i Hi. rewrite (nth_indep _ _ (g 0%nat)) by (rewrite map_length, seq_length; lia). rewrite map_nth, seq_nth by lia. reflexivity.
Qed.
Lemma tab2_ok m n f g : (forall i j, (i < m)%nat -> (j < n)%nat -> f i j = Ok (g i j)) -> exists l, tab2 m n f = Ok l /\ matf l m n g.
Proof.
  intros H. unfold tab2.
  assert (K : forall len s, (s + len <= m)%nat -> exists l, mapM (fun i => tab n (f i)) (seq s len) = Ok l /\ length l = len /\
    forall i, (i < len)%nat -> vecf (nth i l []) n (g (s + i)%nat)).
  { induction len as [|len IH]; intros s Hs; [exists []; splits; auto; intros; lia|]. cbn [seq mapM].
    destruct (tab_ok n (f s) (g s)) as (r & E & Hr); [intros; apply H; lia|]. rewrite E. cbn [bind].
    destruct (IH (S s)) as (l & El & Hl & HH); [lia|]. rewrite El. cbn [bind]. exists (r :: l). splits; auto; [cbn; lia|].
    intros [|i] Hi; cbn [nth]; [now rewrite Nat.add_0_r|]. rewrite <- Nat.add_succ_comm. apply HH. lia. }
  destruct (K m 0%nat) as (l & E & Hl & HH); [lia|]. exists l. split; auto. split; auto.
Qed.
Lemma addM_ok n f g s : (forall i, (i < n)%nat -> f i = Ok (g i)) -> addM n f s = Ok (s + bigsum n g).
Proof.
  intros H. unfold addM. destruct (loop_from (fun acc i => v <- f i ;; Ok (acc + v)) (fun k r => r = s + bigsum k g) 0 n s) as (r & E & Hr).
  - cbn. ring.
  - intros i r Hi ->. rewrite H by lia. cbn [bind]. eexists; split; [reflexivity|]. cbn [bigsum]. ring.
  - now rewrite E, Hr.
Qed.
Lemma maxM_ok n f g : (forall i, (i < n)%nat -> f i = Ok (g i)) -> exists t, maxM n f = Ok t /\ 0 <= t /\ forall i, (i < n)%nat -> g i <= t.
Proof.
  intros H. unfold maxM. destruct (loop_from (fun t i => v <- f i ;; Ok (if Rltb t v then v else t)) (fun k t => 0 <= t /\ forall i, (i < k)%nat -> g i <= t) 0 n 0) as (t & E & H0 & Ht).
  - split; [lra|intros; lia].
  - intros i t Hi (H0 & Ht). rewrite H by lia. cbn [bind]. eexists; split; [reflexivity|]. unfold Rltb. destruct (Rlt_dec t (g i)).
    + split; [lra|]. intros k Hk. destruct (Nat.eq_dec k i) as [->|]; [lra|]. specialize (Ht k ltac:(lia)). lra.
    + split; [lra|]. intros k Hk. destruct (Nat.eq_dec k i) as [->|]; [lra|]. apply Ht; lia.
  - exists t. auto.
Qed.
Lemma inner_from_ok : forall (x y : list R) s, (length x <= length y)%nat -> inner_from s x y = Ok (s + bigsum (length x) (fun i => nth i x 0 * nth i y 0)).
Proof.
  induction x as [|a x IH]; intros y s H; cbn [inner_from length]; [cbn [bigsum]; f_equal; ring|].
  destruct y as [|b y]; cbn [length] in H; [lia|]. rewrite IH by lia. rewrite bigsum_S_l. cbn [nth]. f_equal. ring.
Qed.
Lemma vecf_self l n : length l = n -> vecf l n (ent l).
Proof. intros H. split; auto. Qed.

(** ** the approximating functions *)
Definition sep_ok (S : sep) (n : nat) (lo hi : nat -> R) (h : shape) : Prop :=
  forall j x, (j < n)%nat -> lo j < x < hi j ->
   (forall p q, s_term S j p q x = Ok (p * tp h j x + q * tq h j x) /\ s_grad S j p q x = Ok (p * tp1 h j x + q * tq1 h j x) /\
      s_curv S j p q x = Ok (p * tp2 h j x + q * tq2 h j x)) /\
   derivable_pt_lim (tp h j) x (tp1 h j x) /\ derivable_pt_lim (tq h j) x (tq1 h j x) /\
   derivable_pt_lim (tp1 h j) x (tp2 h j x) /\ derivable_pt_lim (tq1 h j) x (tq2 h j x) /\
   0 <= tp2 h j x /\ 0 <= tq2 h j x.

Section Inner.
Variables (P : prob) (h : shape).
Notation n := (p_n P). Notation m := (p_m P).
Notation al := (ent (p_alpha P)). Notation be := (ent (p_beta P)).
Notation p0 := (ent (p_p0 P)). Notation q0 := (ent (p_q0 P)).
Notation pij := (ent2 (p_p P)). Notation qij := (ent2 (p_q P)).
Notation a := (ent (p_a P)). Notation c := (ent (p_c P)). Notation d := (ent (p_d P)). Notation b := (ent (p_b P)).

Record prob_ok : Prop := {
  k_a : length (p_a P) = m; k_c : length (p_c P) = m; k_d : length (p_d P) = m; k_b : length (p_b P) = m;
  k_p0 : length (p_p0 P) = n; k_q0 : length (p_q0 P) = n; k_al : length (p_alpha P) = n; k_be : length (p_beta P) = n;
  k_p : matf (p_p P) m n pij; k_q : matf (p_q P) m n qij;
  k_p0n : forall j, (j < n)%nat -> 0 <= p0 j; k_q0n : forall j, (j < n)%nat -> 0 <= q0 j;
  k_pn : forall i j, (i < m)%nat -> (j < n)%nat -> 0 <= pij i j; k_qn : forall i j, (i < m)%nat -> (j < n)%nat -> 0 <= qij i j;
  k_dn : forall i, (i < m)%nat -> 0 <= d i;
  k_ab : forall j, (j < n)%nat -> al j < be j;
  k_sep : sep_ok (p_sep P) n al be h }.
Hypothesis K : prob_ok.

Notation X w := (ent (w_x w)). Notation Y w := (ent (w_y w)). Notation La w := (ent (w_lambda w)).
Notation Ga w := (ent (w_gsi w)). Notation It w := (ent (w_ita w)). Notation Mu w := (ent (w_mu w)).
Notation Ss w := (ent (w_s w)).
Notation inside := (inside P). Notation shaped := (shaped P).
Notation i_sh := (i_sh P). Notation i_x := (i_x P). Notation i_y := (i_y P). Notation i_l := (i_l P). Notation i_g := (i_g P). Notation i_i := (i_i P).
Notation i_m := (i_m P). Notation i_s := (i_s P). Notation i_z := (i_z P). Notation z_l := (z_l P).

(** values *)
Definition PL w j := p0 j + bigsum m (fun i => La w i * pij i j).
Definition QL w j := q0 j + bigsum m (fun i => La w i * qij i j).
Definition GR w j := PL w j * tp1 h j (X w j) + QL w j * tq1 h j (X w j).
Definition CU w j := PL w j * tp2 h j (X w j) + QL w j * tq2 h j (X w j).
Definition AL w := bigsum m (fun i => La w i * a i).
Notation TV w := (con_value P h (w_x w)). Notation GG w := (con_slope P h (w_x w)).
Notation r_a := (res_x P h). Notation r_b := (res_y P). Notation r_c := (res_z P). Notation r_d := (res_con P h). Notation r_e := (res_lo P).
Notation r_f := (res_hi P). Notation r_g := res_mu. Notation r_h := res_zeta. Notation r_i := res_s.
Lemma GR_eq w j : obj_slope P h (w_x w) j + bigsum m (fun i => La w i * GG w i j) = GR w j.
Proof.
  unfold obj_slope, con_slope, GR, PL, QL. rewrite !Rmult_plus_distr_r, <- !bigsum_scal_r.
  rewrite (bigsum_ext m (fun i => La w i * _) (fun i => La w i * pij i j * tp1 h j (X w j) + La w i * qij i j * tq1 h j (X w j))) by (intros; ring).
  rewrite bigsum_plus. ring.
Qed.

Ltac vs H := pose proof (vecf_self _ _ H).
Lemma v_al : vecf (p_alpha P) n al. Proof. apply vecf_self, K. Qed.
Lemma v_be : vecf (p_beta P) n be. Proof. apply vecf_self, K. Qed.
Lemma v_a : vecf (p_a P) m a. Proof. apply vecf_self, K. Qed.
Lemma v_b : vecf (p_b P) m b. Proof. apply vecf_self, K. Qed.
Lemma v_c : vecf (p_c P) m c. Proof. apply vecf_self, K. Qed.
Lemma v_d : vecf (p_d P) m d. Proof. apply vecf_self, K. Qed.
Lemma v_p0 : vecf (p_p0 P) n p0. Proof. apply vecf_self, K. Qed.
Lemma v_q0 : vecf (p_q0 P) n q0. Proof. apply vecf_self, K. Qed.
Hint Resolve v_al v_be v_a v_b v_c v_d v_p0 v_q0 (k_p K) (k_q K) : vv.

Section W.
Variable w : point.
Hypothesis HI : shaped w.
Lemma v_x : vecf (w_x w) n (X w). Proof. apply vecf_self, HI. Qed.
Lemma v_y : vecf (w_y w) m (Y w). Proof. apply vecf_self, HI. Qed.
Lemma v_l : vecf (w_lambda w) m (La w). Proof. apply vecf_self, HI. Qed.
Lemma v_g : vecf (w_gsi w) n (Ga w). Proof. apply vecf_self, HI. Qed.
Lemma v_i : vecf (w_ita w) n (It w). Proof. apply vecf_self, HI. Qed.
Lemma v_m : vecf (w_mu w) m (Mu w). Proof. apply vecf_self, HI. Qed.
Lemma v_s : vecf (w_s w) m (Ss w). Proof. apply vecf_self, HI. Qed.
End W.
Hint Resolve v_x v_y v_l v_g v_i v_m v_s : vv.


Ltac rdx := repeat (first
  [ match goal with |- context [rd2 ?l ?i ?j] => erewrite (rdm l _ _ _ i j); [|solve [eauto with vv]|lia|lia] end
  | match goal with |- context [rd ?l ?i] => erewrite (rdv l _ _ i); [|solve [eauto with vv]|lia] end ]; cbn [bind]).
Ltac dv := repeat (rewrite Rdiv_res_ok by lra; cbn [bind]).
Ltac tabx H l := edestruct (tab_ok) as (l & -> & H); [|cbn [bind]].

Lemma coef_ok w u0 u f0 f : shaped w -> vecf u0 n f0 -> matf u m n f ->
  exists l, coef_lambda P (w_lambda w) u0 u = Ok l /\ vecf l n (fun j => f0 j + bigsum m (fun i => La w i * f i j)).
Proof.
  intros HS H0 H. unfold coef_lambda. apply tab_ok. intros j Hj. rdx.
  rewrite (addM_ok m _ (fun i => La w i * f i j)); [reflexivity|]. intros i Hi. rdx. reflexivity.
Qed.
Lemma sep_at w j p q : inside w -> (j < n)%nat ->
  s_term (p_sep P) j p q (X w j) = Ok (p * tp h j (X w j) + q * tq h j (X w j)) /\
  s_grad (p_sep P) j p q (X w j) = Ok (p * tp1 h j (X w j) + q * tq1 h j (X w j)) /\
  s_curv (p_sep P) j p q (X w j) = Ok (p * tp2 h j (X w j) + q * tq2 h j (X w j)).
Proof. intros HI Hj. apply (k_sep K j (X w j) Hj (i_x _ HI j Hj)). Qed.
Lemma inner_pt w : shaped w -> inner (w_lambda w) (p_a P) = Ok (AL w).
Proof.
  intros HS. unfold inner. rewrite inner_from_ok by (rewrite (z_l _ HS), (k_a K); lia). rewrite (z_l _ HS). f_equal. apply Rplus_0_l.
Qed.
Lemma term_ok w i j : inside w -> (i < m)%nat -> (j < n)%nat ->
  term_at P (w_x w) i j = Ok (pij i j * tp h j (X w j) + qij i j * tq h j (X w j)).
Proof.
  intros HI Hi Hj. unfold term_at. pose proof (i_sh _ HI) as HS. rdx. apply (sep_at w j _ _ HI Hj).
Qed.

(** ** the residual norm *)
Definition norm2 w eps := bigsum n (fun j => (r_a w j) ^ 2 + (r_e w eps j) ^ 2 + (r_f w eps j) ^ 2) +
  bigsum m (fun i => (r_b w i) ^ 2 + (r_d w i) ^ 2 + (r_g w eps i) ^ 2 + (r_i w eps i) ^ 2) + (r_c w) ^ 2 + (r_h w eps) ^ 2.
Lemma kkt_ok w eps : inside w -> kkt_norm P w eps = Ok (sqrt (norm2 w eps)).
Proof.
  intros HI. pose proof (i_sh _ HI) as HS. unfold kkt_norm.
  destruct (coef_ok w _ _ _ _ HS v_p0 (k_p K)) as (pl & -> & Hpl). cbn [bind].
  destruct (coef_ok w _ _ _ _ HS v_q0 (k_q K)) as (ql & -> & Hql). cbn [bind].
  destruct (tab_ok m (fun i => addM n (term_at P (w_x w) i) 0) (TV w)) as (g & -> & Hg).
  { intros i Hi. erewrite addM_ok by (intros; apply term_ok; auto). f_equal. apply Rplus_0_l. }
  cbn [bind].
  erewrite addM_ok.
  2:{ intros j Hj. rdx. rewrite (proj1 (proj2 (sep_at w j _ _ HI Hj))). cbn [bind]. reflexivity. }
  cbn [bind]. erewrite addM_ok.
  2:{ intros i Hi. rdx. reflexivity. }
  cbn [bind]. rewrite inner_pt by auto. cbn [bind]. do 2 f_equal. unfold norm2. do 2 f_equal. f_equal. ring_simplify.
  apply bigsum_ext. intros j Hj. unfold res_x. rewrite GR_eq. reflexivity.
Qed.

(** ** the Newton coefficients *)
Definition DX w j := CU w j + Ga w j / (X w j - al j) + It w j / (be j - X w j).
Definition DTX w eps j := GR w j - eps / (X w j - al j) + eps / (be j - X w j).
Definition DY w i := d i + Mu w i / Y w i.
Definition DTY w eps i := c i + d i * Y w i - La w i - eps / Y w i.
Definition DTZ w eps := p_a0 P - eps / w_z w - AL w.
Definition DLY w i := Ss w i / La w i + 1 / DY w i.
Definition DTLY w eps i := - a i * w_z w - Y w i - b i + eps / La w i + TV w i + DTY w eps i / DY w i.

Lemma DX_pos w j : inside w -> (j < n)%nat -> 0 < DX w j.
Proof.
  intros HI Hj. unfold DX. pose proof (i_x _ HI j Hj). pose proof (i_g _ HI j Hj). pose proof (i_i _ HI j Hj).
  assert (0 <= CU w j).
  { destruct (k_sep K j (X w j) Hj (i_x _ HI j Hj)) as (_ & _ & _ & _ & _ & A1 & A2). unfold CU, PL, QL.
    apply Rplus_le_le_0_compat; apply Rmult_le_pos; auto; (apply Rplus_le_le_0_compat; [now apply K|]); apply bigsum_nonneg; intros i Hi;
      (apply Rmult_le_pos; [left; now apply (i_l _ HI)|now apply K]). }
  assert (0 < Ga w j / (X w j - al j)) by (apply Rdiv_lt_0_compat; lra). assert (0 < It w j / (be j - X w j)) by (apply Rdiv_lt_0_compat; lra). lra.
Qed.
Lemma DY_pos w i : inside w -> (i < m)%nat -> 0 < DY w i.
Proof.
  intros HI Hi. unfold DY. pose proof (k_dn K i Hi). assert (0 < Mu w i / Y w i) by (apply Rdiv_lt_0_compat; [now apply (i_m _ HI)|now apply (i_y _ HI)]). lra.
Qed.
Lemma DLY_pos w i : inside w -> (i < m)%nat -> 0 < DLY w i.
Proof.
  intros HI Hi. unfold DLY. assert (0 < Ss w i / La w i) by (apply Rdiv_lt_0_compat; [now apply (i_s _ HI)|now apply (i_l _ HI)]).
  assert (0 < 1 / DY w i) by (apply Rdiv_lt_0_compat; [lra|now apply DY_pos]). lra.
Qed.

Definition coefs_are w eps (N : newton) : Prop :=
  matf (nt_G N) m n (GG w) /\ vecf (nt_Dx N) n (DX w) /\ vecf (nt_dtx N) n (DTX w eps) /\ vecf (nt_Dy N) m (DY w) /\
  vecf (nt_dty N) m (DTY w eps) /\ nt_dtz N = DTZ w eps /\ vecf (nt_Dly N) m (DLY w) /\ vecf (nt_dtly N) m (DTLY w eps).

Lemma newton_ok w eps : inside w -> exists N, newton_coefs P w eps = Ok N /\ coefs_are w eps N.
Proof.
  intros HI. pose proof (i_sh _ HI) as HS. unfold newton_coefs.
  destruct (coef_ok w _ _ _ _ HS v_p0 (k_p K)) as (pl & -> & Hpl). cbn [bind]. change (vecf pl n (PL w)) in Hpl.
  destruct (coef_ok w _ _ _ _ HS v_q0 (k_q K)) as (ql & -> & Hql). cbn [bind]. change (vecf ql n (QL w)) in Hql.
  match goal with |- context [tab2 ?r1 ?c1 ?f1] => destruct (tab2_ok r1 c1 f1 (GG w)) as (G & -> & HG) end.
  { intros i j Hi Hj. rdx. apply (sep_at w j _ _ HI Hj). }
  cbn [bind]. match goal with |- context [tab n ?f1] => destruct (tab_ok n f1 (DX w)) as (Dx & -> & HDx) end.
  { intros j Hj. rdx. rewrite (proj2 (proj2 (sep_at w j _ _ HI Hj))). cbn [bind]. pose proof (i_x _ HI j Hj). dv. reflexivity. }
  cbn [bind]. match goal with |- context [tab n ?f1] => destruct (tab_ok n f1 (DTX w eps)) as (dtx & -> & Hdtx) end.
  { intros j Hj. rdx. rewrite (proj1 (proj2 (sep_at w j _ _ HI Hj))). cbn [bind]. pose proof (i_x _ HI j Hj). dv. reflexivity. }
  cbn [bind]. match goal with |- context [tab m ?f1] => destruct (tab_ok m f1 (DY w)) as (Dy & -> & HDy) end.
  { intros i Hi. rdx. pose proof (i_y _ HI i Hi). dv. reflexivity. }
  cbn [bind]. match goal with |- context [tab m ?f1] => destruct (tab_ok m f1 (fun i => Ss w i / La w i)) as (Dl & -> & HDl) end.
  { intros i Hi. rdx. pose proof (i_l _ HI i Hi). dv. reflexivity. }
  cbn [bind]. match goal with |- context [tab m ?f1] => destruct (tab_ok m f1 (DTY w eps)) as (dty & -> & Hdty) end.
  { intros i Hi. rdx. pose proof (i_y _ HI i Hi). dv. reflexivity. }
  cbn [bind]. pose proof (i_z _ HI). dv. rewrite inner_pt by auto. cbn [bind].
  match goal with |- context [tab m ?f1] => destruct (tab_ok m f1 (fun i => - a i * w_z w - Y w i - b i + eps / La w i + TV w i)) as (dtl & -> & Hdtl) end.
  { intros i Hi. rdx. pose proof (i_l _ HI i Hi). dv. erewrite addM_ok by (intros; apply term_ok; auto). reflexivity. }
  cbn [bind]. match goal with |- context [tab m ?f1] => destruct (tab_ok m f1 (DLY w)) as (Dly & -> & HDly) end.
  { intros i Hi. rdx. pose proof (DY_pos w i HI Hi). dv. reflexivity. }
  cbn [bind]. match goal with |- context [tab m ?f1] => destruct (tab_ok m f1 (DTLY w eps)) as (dtly & -> & Hdtly) end.
  { intros i Hi. rdx. pose proof (DY_pos w i HI Hi). dv. reflexivity. }
  cbn [bind]. eexists; split; [reflexivity|]. unfold coefs_are; cbn; splits; auto.
Qed.

(** ** the reduced systems *)
Definition reduced w eps e (dx dl : nat -> R) (dz : R) : Prop :=
  (forall j, (j < n)%nat -> DX w j * dx j + bigsum m (fun i => GG w i j * dl i) = - DTX w eps j) /\
  (forall i, (i < m)%nat -> bigsum n (fun j => GG w i j * dx j) - a i * dz - DLY w i * dl i = - DTLY w eps i) /\
  bigsum m (fun i => a i * dl i) - (w_zeta w / w_z w + e) * dz = DTZ w eps.

Lemma bigsum_last k f : bigsum (S k) f = bigsum k f + f k.
Proof. reflexivity. Qed.

Lemma wide_nonsing w : inside w -> nonsingular (S m) (fun ii jj =>
    if (ii <? m)%nat then if (jj <? m)%nat then bigsum n (fun k => GG w ii k * GG w jj k / DX w k) + (if (ii =? jj)%nat then DLY w ii else 0) else a ii
    else if (jj <? m)%nat then a jj else - w_zeta w / w_z w).
Proof.
  intros HI x Hx.
  assert (R1 : forall i, (i < m)%nat -> bigsum n (fun k => GG w i k * (bigsum m (fun j => GG w j k * x j) / DX w k)) + DLY w i * x i + a i * x m = 0).
  { intros i Hi. rewrite <- (Hx i) by lia. rewrite bigsum_last. destruct (Nat.ltb_spec i m); [|lia]. rewrite Nat.ltb_irrefl.
    rewrite (bigsum_ext m _ (fun j => bigsum n (fun k => GG w i k * (GG w j k * x j / DX w k)) + DLY w i * x j * delta i j)).
    - rewrite bigsum_plus, bigsum_swap. f_equal. f_equal.
      + apply bigsum_ext. intros k Hk. unfold Rdiv. rewrite <- bigsum_scal_r, <- bigsum_scal. apply bigsum_ext. intros; ring.
      + rewrite (bigsum_single m i) by (auto; intros; rewrite delta_ne by auto; ring). rewrite delta_refl. ring.
    - intros j Hj. destruct (Nat.ltb_spec j m); [|lia]. unfold delta. rewrite Rmult_plus_distr_r. f_equal.
      + rewrite <- bigsum_scal_r. apply bigsum_ext. intros; unfold Rdiv; ring.
      + destruct (Nat.eqb_spec i j); ring. }
  assert (R2 : bigsum m (fun i => a i * x i) - w_zeta w / w_z w * x m = 0).
  { rewrite <- (Hx m) by lia. rewrite bigsum_last, Nat.ltb_irrefl. unfold Rminus. f_equal; [|unfold Rdiv; ring]. apply bigsum_ext. intros j Hj. destruct (Nat.ltb_spec j m); [reflexivity|lia]. }
  assert (E : bigsum n (fun k => (bigsum m (fun j => GG w j k * x j)) ^ 2 / DX w k) + bigsum m (fun i => DLY w i * x i ^ 2) + w_zeta w / w_z w * x m ^ 2 = 0).
  { transitivity (bigsum m (fun i => x i * (bigsum n (fun k => GG w i k * (bigsum m (fun j => GG w j k * x j) / DX w k)) + DLY w i * x i + a i * x m)) - x m * (bigsum m (fun i => a i * x i) - w_zeta w / w_z w * x m)).
    - rewrite (bigsum_ext m (fun i => x i * _) (fun i => bigsum n (fun k => GG w i k * x i * (bigsum m (fun j => GG w j k * x j) / DX w k)) + DLY w i * x i ^ 2 + a i * x i * x m)).
      + rewrite !bigsum_plus, bigsum_swap, bigsum_scal_r.
        rewrite (bigsum_ext n (fun k => _ ^ 2 / _) (fun k => bigsum m (fun i => GG w i k * x i * (bigsum m (fun j => GG w j k * x j) / DX w k)))); [ring|].
        intros k Hk. rewrite bigsum_scal_r. unfold Rdiv; ring.
      + intros i Hi. rewrite !Rmult_plus_distr_l, <- bigsum_scal. f_equal; [f_equal; [apply bigsum_ext; intros; ring|ring]|ring].
    - rewrite R2. rewrite (bigsum_zero m); [ring|]. intros i Hi. rewrite R1 by auto. ring. }
  assert (P1 : 0 <= bigsum n (fun k => (bigsum m (fun j => GG w j k * x j)) ^ 2 / DX w k)).
  { apply bigsum_nonneg. intros k Hk. apply Rmult_le_pos; [apply pow2_ge_0|left; apply Rinv_0_lt_compat, DX_pos; auto]. }
  assert (P2 : 0 <= bigsum m (fun i => DLY w i * x i ^ 2)).
  { apply bigsum_nonneg. intros k Hk. apply Rmult_le_pos; [left; now apply DLY_pos|apply pow2_ge_0]. }
  assert (P3 : 0 < w_zeta w / w_z w) by (apply Rdiv_lt_0_compat; apply HI).
  assert (P4 : 0 <= x m ^ 2) by apply pow2_ge_0.
  assert (P5 : 0 <= w_zeta w / w_z w * x m ^ 2) by (apply Rmult_le_pos; lra).
  intros j Hj. destruct (Nat.eq_dec j m) as [->|].
  - assert (E2 : w_zeta w / w_z w * x m ^ 2 = 0) by lra. apply Rmult_integral in E2 as [E2|E2]; [lra|]. cbn in E2. rewrite Rmult_1_r in E2. apply Rmult_integral in E2 as [|]; auto.
  - assert (E2 : bigsum m (fun i => DLY w i * x i ^ 2) = 0) by lra.
    assert (E3 : DLY w j * x j ^ 2 = 0).
    { apply (bigsum_nonneg_eq0 m (fun i => DLY w i * x i ^ 2)); auto; [|lia]. intros k Hk. apply Rmult_le_pos; [left; now apply DLY_pos|apply pow2_ge_0]. }
    pose proof (DLY_pos w j HI ltac:(lia)). apply Rmult_integral in E3 as [E3|E3]; [lra|]. cbn in E3. rewrite Rmult_1_r in E3. apply Rmult_integral in E3 as [|]; auto.
Qed.

Ltac nonz := match goal with |- ?x <> 0 => let H := fresh in assert (H : 0 < x) by auto; lra end.
Lemma sq0 x : x ^ 2 = 0 -> x = 0.
Proof. cbn. rewrite Rmult_1_r. intros H. apply Rmult_integral in H as [|]; auto. Qed.

Lemma wide_ok w eps N : inside w -> coefs_are w eps N ->
  exists dx dl dz DXF DLF, newton_wide P w N = Ok (dx, dl, dz) /\ vecf dx n DXF /\ vecf dl m DLF /\ reduced w eps 0 DXF DLF dz.
Proof.
  intros HI (HG & HDx & Hdtx & HDy & Hdty & Hdtz & HDly & Hdtly). pose proof (i_sh _ HI) as HS. unfold newton_wide.
  pose proof (i_z _ HI) as Hz. rewrite Rdiv_res_ok by lra. cbn [bind].
  match goal with |- context [tab2 ?r1 ?c1 ?f1] => destruct (tab2_ok r1 c1 f1 (fun ii jj =>
    if (ii <? m)%nat then if (jj <? m)%nat then bigsum n (fun k => GG w ii k * GG w jj k / DX w k) + (if (ii =? jj)%nat then DLY w ii else 0) else a ii
    else if (jj <? m)%nat then a jj else - w_zeta w / w_z w)) as (A & -> & HA) end.
  { intros ii jj Hi Hj. destruct (Nat.ltb_spec ii m), (Nat.ltb_spec jj m); try (rdx; reflexivity).
    erewrite addM_ok.
    2:{ intros k Hk. rdx. pose proof (DX_pos w k HI Hk). rewrite Rdiv_res_ok by lra. reflexivity. }
    cbn [bind]. destruct (Nat.eqb_spec ii jj); rdx; f_equal; ring. }
  cbn [bind].
  match goal with |- context [tab (S m) ?f1] => destruct (tab_ok (S m) f1 (fun ii =>
    if (ii <? m)%nat then DTLY w eps ii - bigsum n (fun j => GG w ii j * DTX w eps j / DX w j) else DTZ w eps)) as (B & -> & HB) end.
  { intros ii Hi. destruct (Nat.ltb_spec ii m); [|now rewrite Hdtz]. rdx. erewrite addM_ok.
    2:{ intros k Hk. rdx. pose proof (DX_pos w k HI Hk). rewrite Rdiv_res_ok by lra. cbn [bind]. reflexivity. }
    rewrite bigsum_opp. reflexivity. }
  cbn [bind].
  destruct (solvels_ok (S m) A B _ _ ltac:(lia) HA HB) as [(r & X & -> & Hr & HX & _)|(_ & HN)]; [|exfalso; apply HN, wide_nonsing; auto].
  cbn [bind]. destruct (tab_ok m (fun i => rd r i) X) as (dl & -> & Hdl). { intros; rdx; reflexivity. }
  cbn [bind]. rdx.
  match goal with |- context [tab n ?f1] => destruct (tab_ok n f1 (fun j => - DTX w eps j / DX w j - bigsum m (fun i => GG w i j * X i / DX w j))) as (dx & -> & Hdx) end.
  { intros j Hj. rdx. pose proof (DX_pos w j HI Hj). rewrite Rdiv_res_ok by lra. cbn [bind]. erewrite addM_ok.
    2:{ intros k Hk. rdx. rewrite Rdiv_res_ok by lra. cbn [bind]. reflexivity. }
    rewrite bigsum_opp. reflexivity. }
  cbn [bind]. do 5 eexists. split; [reflexivity|]. split; [exact Hdx|]. split; [exact Hdl|]. unfold reduced. splits.
  - intros j Hj. pose proof (DX_pos w j HI Hj). unfold Rdiv. rewrite bigsum_scal_r. field. lra.
  - intros i Hi. pose proof (HX i ltac:(lia)) as E. rewrite bigsum_last in E. destruct (Nat.ltb_spec i m); [|lia]. rewrite Nat.ltb_irrefl in E.
    rewrite (bigsum_ext m _ (fun j => bigsum n (fun k => GG w i k * (GG w j k * X j / DX w k)) + DLY w i * X j * delta i j)) in E.
    2:{ intros j Hj. destruct (Nat.ltb_spec j m); [|lia]. unfold delta. rewrite Rmult_plus_distr_r. f_equal.
        - rewrite <- bigsum_scal_r. apply bigsum_ext. intros; unfold Rdiv; ring.
        - destruct (Nat.eqb_spec i j); ring. }
    rewrite bigsum_plus, bigsum_swap in E.
    rewrite (bigsum_single m i (fun j => _ * delta i j)) in E by (auto; intros; rewrite delta_ne by auto; ring). rewrite delta_refl in E.
    rewrite (bigsum_ext n _ (fun k => - (GG w i k * DTX w eps k / DX w k) - bigsum m (fun j => GG w i k * (GG w j k * X j / DX w k)))).
    2:{ intros k Hk. rewrite bigsum_scal. unfold Rdiv. ring. }
    rewrite bigsum_minus, bigsum_opp. lra.
  - pose proof (HX m ltac:(lia)) as E. rewrite bigsum_last, Nat.ltb_irrefl in E. rewrite <- E. unfold Rminus. f_equal.
    + apply bigsum_ext. intros j Hj. destruct (Nat.ltb_spec j m); [reflexivity|lia].
    + unfold Rdiv; ring.
Qed.

Definition SA w := bigsum m (fun i => a i * a i / DLY w i).
Lemma SA_nonneg w : inside w -> 0 <= SA w.
Proof.
  intros HI. apply bigsum_nonneg. intros i Hi. pose proof (DLY_pos w i HI Hi). apply Rmult_le_pos; [apply Rle_0_sqr|left; now apply Rinv_0_lt_compat].
Qed.
Definition tallM w (ii jj : nat) : R :=
    if (ii <? n)%nat then if (jj <? n)%nat then bigsum m (fun k => GG w k ii * GG w k jj / DLY w k) + (if (ii =? jj)%nat then DX w ii else 0)
      else - bigsum m (fun k => GG w k ii * a k / DLY w k)
    else if (jj <? n)%nat then - bigsum m (fun k => GG w k jj * a k / DLY w k) else INR n * SA w + w_zeta w / w_z w.
(** the rows of the matrix in terms of v_k = sum_j G_kj x_j - a_k x_n *)
Lemma tall_row w x i : inside w -> (i < n)%nat -> bigsum (S n) (fun j => tallM w i j * x j) =
  bigsum m (fun k => GG w k i * ((bigsum n (fun j => GG w k j * x j) - a k * x n) / DLY w k)) + DX w i * x i.
Proof.
  intros HI Hi. rewrite bigsum_last. unfold tallM. destruct (Nat.ltb_spec i n); [|lia]. rewrite Nat.ltb_irrefl.
  rewrite (bigsum_ext n _ (fun j => bigsum m (fun k => GG w k i * (GG w k j * x j / DLY w k)) + DX w i * x j * delta i j)).
  2:{ intros j Hj. destruct (Nat.ltb_spec j n); [|lia]. unfold delta. rewrite Rmult_plus_distr_r. f_equal.
      - rewrite <- bigsum_scal_r. apply bigsum_ext. intros; unfold Rdiv; ring.
      - destruct (Nat.eqb_spec i j); ring. }
  rewrite bigsum_plus, bigsum_swap. rewrite (bigsum_single n i (fun j => _ * delta i j)) by (auto; intros; rewrite delta_ne by auto; ring). rewrite delta_refl.
  rewrite (bigsum_ext m (fun k => GG w k i * ((_ - _) / _)) (fun k => bigsum n (fun j => GG w k i * (GG w k j * x j / DLY w k)) - GG w k i * a k / DLY w k * x n)).
  2:{ intros k Hk. rewrite bigsum_scal. unfold Rdiv. rewrite bigsum_scal_r. ring. }
  rewrite bigsum_minus, (bigsum_scal_r m (x n)). ring.
Qed.
Lemma tall_last w x : inside w -> bigsum (S n) (fun j => tallM w n j * x j) =
  - bigsum m (fun k => a k * ((bigsum n (fun j => GG w k j * x j) - a k * x n) / DLY w k)) + ((INR n - 1) * SA w + w_zeta w / w_z w) * x n.
Proof.
  intros HI. rewrite bigsum_last. unfold tallM. rewrite Nat.ltb_irrefl.
  rewrite (bigsum_ext n _ (fun j => bigsum m (fun k => - (a k * (GG w k j * x j / DLY w k))))).
  2:{ intros j Hj. destruct (Nat.ltb_spec j n); [|lia]. rewrite bigsum_opp, <- Ropp_mult_distr_l. f_equal. rewrite <- bigsum_scal_r. apply bigsum_ext. intros; unfold Rdiv; ring. }
  rewrite bigsum_swap.
  rewrite (bigsum_ext m (fun k => a k * ((_ - _) / _)) (fun k => - bigsum n (fun j => - (a k * (GG w k j * x j / DLY w k))) - a k * a k / DLY w k * x n)).
  2:{ intros k Hk. rewrite bigsum_opp, bigsum_scal. unfold Rdiv. rewrite bigsum_scal_r. ring. }
  rewrite bigsum_minus, bigsum_opp, (bigsum_scal_r m (x n)). unfold SA. ring.
Qed.

Lemma tall_nonsing w : inside w -> nonsingular (S n) (tallM w).
Proof.
  intros HI x Hx. pose proof (Hx n ltac:(lia)) as Ez. rewrite tall_last in Ez by auto.
  set (v := fun k => (bigsum n (fun j => GG w k j * x j) - a k * x n)) in *.
  assert (P3 : 0 < w_zeta w / w_z w) by (apply Rdiv_lt_0_compat; apply HI).
  assert (E : bigsum m (fun k => v k ^ 2 / DLY w k) + bigsum n (fun i => DX w i * x i ^ 2) + ((INR n - 1) * SA w + w_zeta w / w_z w) * x n ^ 2 = 0).
  { transitivity (bigsum n (fun i => x i * bigsum (S n) (fun j => tallM w i j * x j)) + x n * bigsum (S n) (fun j => tallM w n j * x j)).
    - rewrite (bigsum_ext n (fun i => x i * bigsum (S n) _) (fun i => bigsum m (fun k => GG w k i * x i * (v k / DLY w k)) + DX w i * x i ^ 2)).
      + rewrite bigsum_plus, bigsum_swap, tall_last by auto. fold v.
        rewrite (bigsum_ext m (fun k => v k ^ 2 / DLY w k) (fun k => bigsum n (fun i => GG w k i * x i * (v k / DLY w k)) - a k * (v k / DLY w k) * x n)).
        2:{ intros k Hk. rewrite bigsum_scal_r. unfold v. unfold Rdiv. ring. }
        rewrite bigsum_minus, (bigsum_scal_r m (x n)). unfold v. ring.
      + intros i Hi. rewrite tall_row by auto. fold v. rewrite Rmult_plus_distr_l, <- bigsum_scal. f_equal; [apply bigsum_ext; intros; unfold v; ring|ring].
    - rewrite (Hx n) by lia. rewrite (bigsum_zero n); [ring|]. intros i Hi. rewrite Hx by lia. ring. }
  assert (P1 : 0 <= bigsum m (fun k => v k ^ 2 / DLY w k)).
  { apply bigsum_nonneg. intros k Hk. apply Rmult_le_pos; [apply pow2_ge_0|left; apply Rinv_0_lt_compat, DLY_pos; auto]. }
  assert (P2 : 0 <= bigsum n (fun i => DX w i * x i ^ 2)).
  { apply bigsum_nonneg. intros k Hk. apply Rmult_le_pos; [left; now apply DX_pos|apply pow2_ge_0]. }
  assert (P4 : 0 <= x n ^ 2) by apply pow2_ge_0. pose proof (SA_nonneg w HI) as P6.
  destruct (Nat.eq_dec n 0) as [Z|NZ].
  - assert (Ex : x n = 0).
    { pose proof (Hx n ltac:(lia)) as E0. rewrite bigsum_last, (bigsum_zero n) in E0 by (intros; lia). unfold tallM in E0. rewrite Nat.ltb_irrefl in E0.
      assert (EI : INR n = 0) by (rewrite Z; reflexivity). rewrite EI, Rmult_0_l, !Rplus_0_l in E0. apply Rmult_integral in E0 as [|]; auto. lra. }
    intros j Hj. now replace j with n by lia.
  - assert (P7 : 0 <= INR n - 1) by (assert (1 <= INR n) by (change 1 with (INR 1); apply le_INR; lia); lra).
    assert (P8 : 0 <= (INR n - 1) * SA w) by now apply Rmult_le_pos.
    assert (P9 : 0 <= ((INR n - 1) * SA w + w_zeta w / w_z w) * x n ^ 2) by (apply Rmult_le_pos; lra).
    intros j Hj. destruct (Nat.eq_dec j n) as [->|Hjn].
    + apply sq0. assert (E2 : ((INR n - 1) * SA w + w_zeta w / w_z w) * x n ^ 2 = 0) by lra. apply Rmult_integral in E2 as [E2|E2]; [lra|auto].
    + apply sq0. assert (E2 : bigsum n (fun i => DX w i * x i ^ 2) = 0) by lra.
      assert (E3 : DX w j * x j ^ 2 = 0).
      { apply (bigsum_nonneg_eq0 n (fun i => DX w i * x i ^ 2)); auto; [|lia]. intros k Hk. apply Rmult_le_pos; [left; now apply DX_pos|apply pow2_ge_0]. }
      pose proof (DX_pos w j HI ltac:(lia)). apply Rmult_integral in E3 as [E3|E3]; [lra|auto].
Qed.

Lemma tall_ok w eps N : inside w -> coefs_are w eps N ->
  exists dx dl dz DXF DLF, newton_tall P w N = Ok (dx, dl, dz) /\ vecf dx n DXF /\ vecf dl m DLF /\ reduced w eps ((INR n - 1) * SA w) DXF DLF dz.
Proof.
  intros HI (HG & HDx & Hdtx & HDy & Hdty & Hdtz & HDly & Hdtly). pose proof (i_sh _ HI) as HS. unfold newton_tall.
  pose proof (i_z _ HI) as Hz. rewrite Rdiv_res_ok by lra. cbn [bind].
  assert (GA : forall ii, (ii < n)%nat -> addM m (fun j => g <- rd2 (nt_G N) j ii ;; a <- rd (p_a P) j ;; d <- rd (nt_Dly N) j ;; q <- Rdiv_res (g * a) d ;; Ok (- q)) 0 =
     Ok (- bigsum m (fun k => GG w k ii * a k / DLY w k))).
  { intros ii Hi. erewrite addM_ok.
    2:{ intros k Hk. rdx. pose proof (DLY_pos w k HI Hk). rewrite Rdiv_res_ok by lra. cbn [bind]. reflexivity. }
    rewrite bigsum_opp. f_equal. ring. }
  match goal with |- context [tab2 ?r1 ?c1 ?f1] => destruct (tab2_ok r1 c1 f1 (tallM w)) as (A & -> & HA) end.
  { intros ii jj Hi Hj. unfold tallM. destruct (Nat.ltb_spec ii n), (Nat.ltb_spec jj n); try (apply GA; auto).
    - erewrite addM_ok.
      2:{ intros k Hk. rdx. pose proof (DLY_pos w k HI Hk). rewrite Rdiv_res_ok by lra. reflexivity. }
      cbn [bind]. destruct (Nat.eqb_spec ii jj); rdx; f_equal; ring.
    - rewrite (addM_ok n _ (fun _ => SA w)).
      2:{ intros _ _. erewrite addM_ok. 2:{ intros k Hk. rdx. pose proof (DLY_pos w k HI Hk). rewrite Rdiv_res_ok by lra. reflexivity. } f_equal. apply Rplus_0_l. }
      cbn [bind]. rewrite bigsum_const. f_equal. ring. }
  cbn [bind].
  match goal with |- context [tab (S n) ?f1] => destruct (tab_ok (S n) f1 (fun ii =>
    if (ii <? n)%nat then - DTX w eps ii - bigsum m (fun k => GG w k ii * DTLY w eps k / DLY w k) else - DTZ w eps + bigsum m (fun k => a k * DTLY w eps k / DLY w k))) as (B & -> & HB) end.
  { intros ii Hi. destruct (Nat.ltb_spec ii n).
    - rdx. erewrite addM_ok. 2:{ intros k Hk. rdx. pose proof (DLY_pos w k HI Hk). rewrite Rdiv_res_ok by lra. cbn [bind]. reflexivity. }
      rewrite bigsum_opp. reflexivity.
    - rewrite Hdtz. erewrite addM_ok. 2:{ intros k Hk. rdx. pose proof (DLY_pos w k HI Hk). rewrite Rdiv_res_ok by lra. reflexivity. } reflexivity. }
  cbn [bind].
  destruct (solvels_ok (S n) A B _ _ ltac:(lia) HA HB) as [(r & X & -> & Hr & HX & _)|(_ & HN)]; [|exfalso; apply HN, tall_nonsing; auto].
  cbn [bind]. destruct (tab_ok n (fun i => rd r i) X) as (dx & -> & Hdx). { intros; rdx; reflexivity. }
  cbn [bind]. rdx.
  match goal with |- context [tab m ?f1] => destruct (tab_ok m f1 (fun i => - a i * X n / DLY w i + DTLY w eps i / DLY w i + bigsum n (fun j => GG w i j * X j / DLY w i))) as (dl & -> & Hdl) end.
  { intros i Hi. rdx. pose proof (DLY_pos w i HI Hi). dv. erewrite addM_ok. 2:{ intros k Hk. rdx. rewrite Rdiv_res_ok by lra. reflexivity. } reflexivity. }
  cbn [bind]. do 5 eexists. split; [reflexivity|]. split; [exact Hdx|]. split; [exact Hdl|].
  assert (EL : forall i, (i < m)%nat -> - a i * X n / DLY w i + DTLY w eps i / DLY w i + bigsum n (fun j => GG w i j * X j / DLY w i) =
     (bigsum n (fun j => GG w i j * X j) - a i * X n) / DLY w i + DTLY w eps i / DLY w i).
  { intros i Hi. unfold Rdiv. rewrite bigsum_scal_r. ring. }
  unfold reduced. splits.
  - intros i Hi. pose proof (HX i ltac:(lia)) as E. rewrite tall_row in E by auto. destruct (Nat.ltb_spec i n); [|lia].
    rewrite (bigsum_ext m _ (fun k => GG w k i * ((bigsum n (fun j => GG w k j * X j) - a k * X n) / DLY w k) + GG w k i * DTLY w eps k / DLY w k)).
    2:{ intros k Hk. rewrite EL by auto. unfold Rdiv. ring. }
    rewrite bigsum_plus. lra.
  - intros i Hi. rewrite EL by auto. pose proof (DLY_pos w i HI Hi). field. lra.
  - pose proof (HX n ltac:(lia)) as E. rewrite tall_last in E by auto. rewrite Nat.ltb_irrefl in E.
    rewrite (bigsum_ext m _ (fun k => a k * ((bigsum n (fun j => GG w k j * X j) - a k * X n) / DLY w k) + a k * DTLY w eps k / DLY w k)).
    2:{ intros k Hk. rewrite EL by auto. unfold Rdiv. ring. }
    rewrite bigsum_plus. lra.
Qed.

(** ** the direction solves the linearised optimality conditions *)
Record linearised w eps e (g : point) : Prop := {
  n_sh : shaped g;
  n_a : forall j, (j < n)%nat -> CU w j * X g j + bigsum m (fun i => GG w i j * La g i) - Ga g j + It g j = - r_a w j;
  n_b : forall i, (i < m)%nat -> d i * Y g i - La g i - Mu g i = - r_b w i;
  n_c : - w_zeta g - bigsum m (fun i => a i * La g i) = - r_c w - e * w_z g;
  n_d : forall i, (i < m)%nat -> bigsum n (fun j => GG w i j * X g j) - a i * w_z g - Y g i + Ss g i = - r_d w i;
  n_e : forall j, (j < n)%nat -> Ga g j * (X w j - al j) + Ga w j * X g j = - r_e w eps j;
  n_f : forall j, (j < n)%nat -> It g j * (be j - X w j) - It w j * X g j = - r_f w eps j;
  n_g : forall i, (i < m)%nat -> Mu g i * Y w i + Mu w i * Y g i = - r_g w eps i;
  n_h : w_zeta g * w_z w + w_zeta w * w_z g = - r_h w eps;
  n_i : forall i, (i < m)%nat -> La g i * Ss w i + La w i * Ss g i = - r_i w eps i }.
Definition excess w := if (m <? n)%nat then 0 else (INR n - 1) * SA w.

Lemma vent l k g i : vecf l k g -> (i < k)%nat -> ent l i = g i.
Proof. intros (_ & H) Hi. now apply H. Qed.
Lemma vent_sum l k g f : vecf l k g -> bigsum k (fun i => f i * ent l i) = bigsum k (fun i => f i * g i).
Proof. intros H. apply bigsum_ext. intros i Hi. now rewrite (vent _ _ _ _ H). Qed.

Lemma direction_ok w eps : inside w -> exists g, direction P w eps = Ok g /\ linearised w eps (excess w) g.
Proof.
  intros HI. pose proof (i_sh _ HI) as HS. unfold direction. destruct (newton_ok w eps HI) as (N & -> & HN). cbn [bind].
  assert (HR : exists dx dl dz DXF DLF, (if (m <? n)%nat then newton_wide P w N else newton_tall P w N) = Ok (dx, dl, dz) /\ vecf dx n DXF /\ vecf dl m DLF /\ reduced w eps (excess w) DXF DLF dz).
  { unfold excess. destruct (m <? n)%nat; [now apply wide_ok|now apply tall_ok]. }
  destruct HR as (dx & dl & dz & DXF & DLF & -> & Hdx & Hdl & R1 & R2 & R3). cbn [bind].
  destruct HN as (HG & HDx & Hdtx & HDy & Hdty & Hdtz & HDly & Hdtly).
  match goal with |- context [tab m ?f1] => destruct (tab_ok m f1 (fun i => DLF i / DY w i - DTY w eps i / DY w i)) as (dy & -> & Hdy) end.
  { intros i Hi. rdx. pose proof (DY_pos w i HI Hi). dv. reflexivity. }
  cbn [bind]. match goal with |- context [tab m ?f1] => destruct (tab_ok m f1 (fun i => - Mu w i * (DLF i / DY w i - DTY w eps i / DY w i) / Y w i - Mu w i + eps / Y w i)) as (dmu & -> & Hdmu) end.
  { intros i Hi. rdx. pose proof (i_y _ HI i Hi). dv. reflexivity. }
  cbn [bind]. match goal with |- context [tab m ?f1] => destruct (tab_ok m f1 (fun i => - Ss w i * DLF i / La w i - Ss w i + eps / La w i)) as (ds & -> & Hds) end.
  { intros i Hi. rdx. pose proof (i_l _ HI i Hi). dv. reflexivity. }
  cbn [bind]. match goal with |- context [tab n ?f1] => destruct (tab_ok n f1 (fun j => - Ga w j * DXF j / (X w j - al j) - Ga w j + eps / (X w j - al j))) as (dg & -> & Hdg) end.
  { intros j Hj. rdx. pose proof (i_x _ HI j Hj). dv. reflexivity. }
  cbn [bind]. match goal with |- context [tab n ?f1] => destruct (tab_ok n f1 (fun j => It w j * DXF j / (be j - X w j) - It w j + eps / (be j - X w j))) as (di & -> & Hdi) end.
  { intros j Hj. rdx. pose proof (i_x _ HI j Hj). dv. reflexivity. }
  cbn [bind]. pose proof (i_z _ HI) as Hz. dv. eexists. split; [reflexivity|].
  constructor; cbn [w_x w_y w_z w_lambda w_gsi w_ita w_mu w_zeta w_s].
  - constructor; cbn; [apply Hdx|apply Hdy|apply Hdl|apply Hdg|apply Hdi|apply Hdmu|apply Hds].
  - intros j Hj. rewrite (vent_sum _ _ _ (fun i => GG w i j) Hdl), (vent _ _ _ j Hdx), (vent _ _ _ j Hdg), (vent _ _ _ j Hdi) by auto. pose proof (R1 j Hj) as E.
    pose proof (i_x _ HI j Hj). unfold res_x. rewrite GR_eq. unfold DX, DTX in E. unfold Rdiv in *. lra.
  - intros i Hi. rewrite (vent _ _ _ i Hdy), (vent _ _ _ i Hdl), (vent _ _ _ i Hdmu) by auto. pose proof (DY_pos w i HI Hi) as HD. pose proof (i_y _ HI i Hi).
    unfold res_y. set (y := DLF i / DY w i - DTY w eps i / DY w i).
    assert (Ey : DY w i * y = DLF i - DTY w eps i) by (unfold y; field; lra).
    unfold DY in Ey. unfold DTY in Ey. unfold Rdiv in *. lra.
  - rewrite (vent_sum _ _ _ a Hdl). unfold res_z. unfold DTZ, AL in R3. unfold Rdiv in *. lra.
  - intros i Hi. rewrite (vent_sum _ _ _ (GG w i) Hdx), (vent _ _ _ i Hdy), (vent _ _ _ i Hds) by auto. pose proof (R2 i Hi) as E. unfold res_con.
    unfold DLY, DTLY in E. unfold Rdiv in *. lra.
  - intros j Hj. rewrite (vent _ _ _ j Hdx), (vent _ _ _ j Hdg) by auto. pose proof (i_x _ HI j Hj). unfold res_lo. field. lra.
  - intros j Hj. rewrite (vent _ _ _ j Hdx), (vent _ _ _ j Hdi) by auto. pose proof (i_x _ HI j Hj). unfold res_hi. field. lra.
  - intros i Hi. rewrite (vent _ _ _ i Hdy), (vent _ _ _ i Hdmu) by auto. pose proof (i_y _ HI i Hi). pose proof (DY_pos w i HI Hi). unfold res_mu. field. lra.
  - unfold res_zeta. field. lra.
  - intros i Hi. rewrite (vent _ _ _ i Hdl), (vent _ _ _ i Hds) by auto. pose proof (i_l _ HI i Hi). unfold res_s. field. lra.
Qed.

(** ** step size, trial points, line search *)
Definition safe (v dv t : R) : Prop := t * (- (101/100) * dv) <= v.
Record step_safe w g t : Prop := {
  t_pos : 0 < t;
  t_xa : forall j, (j < n)%nat -> safe (X w j - al j) (X g j) t; t_xb : forall j, (j < n)%nat -> safe (be j - X w j) (- X g j) t;
  t_g : forall j, (j < n)%nat -> safe (Ga w j) (Ga g j) t; t_i : forall j, (j < n)%nat -> safe (It w j) (It g j) t;
  t_y : forall i, (i < m)%nat -> safe (Y w i) (Y g i) t; t_l : forall i, (i < m)%nat -> safe (La w i) (La g i) t;
  t_m : forall i, (i < m)%nat -> safe (Mu w i) (Mu g i) t; t_s : forall i, (i < m)%nat -> safe (Ss w i) (Ss g i) t;
  t_z : safe (w_z w) (w_z g) t; t_ze : safe (w_zeta w) (w_zeta g) t }.

Lemma safe_of v u M : 0 < v -> 1 <= M -> u / v <= M -> 1 / M * u <= v.
Proof.
  intros Hv HM Hu. apply (Rmult_le_reg_r M); [lra|]. replace (1 / M * u * M) with u by (field; lra).
  apply (Rmult_le_compat_r v) in Hu; [|lra]. replace (u / v * v) with u in Hu by (field; lra). lra.
Qed.
Lemma safe_half v dv t : 0 < v -> 0 < t -> safe v dv t -> safe v dv (t * (5/10)).
Proof. unfold safe. intros. nra. Qed.
Lemma safe_step v dv t : 0 < v -> 0 < t -> safe v dv t -> 0 < v + t * dv.
Proof. unfold safe. intros. nra. Qed.

Lemma step_ok w g : inside w -> shaped g -> exists t, step_size P w g = Ok t /\ step_safe w g t /\ t <= 1.
Proof.
  intros HI HS'. pose proof (i_sh _ HI) as HS. unfold step_size.
  match goal with |- context [maxM n ?f1] => edestruct (maxM_ok n f1) as (tx & -> & Htx0 & Htx) end.
  { intros j Hj. rdx. pose proof (i_x _ HI j Hj). pose proof (i_g _ HI j Hj). pose proof (i_i _ HI j Hj). dv. reflexivity. }
  cbn [bind]. match goal with |- context [maxM m ?f1] => edestruct (maxM_ok m f1) as (ty & -> & Hty0 & Hty) end.
  { intros i Hi. rdx. pose proof (i_y _ HI i Hi). pose proof (i_l _ HI i Hi). pose proof (i_m _ HI i Hi). pose proof (i_s _ HI i Hi). dv. reflexivity. }
  cbn [bind]. pose proof (i_z _ HI) as Hz. pose proof (i_ze _ _ HI) as Hze. dv.
  set (tz := _ / w_z w). set (te := _ / w_zeta w). set (M := Rmax 1 (Rmax tx (Rmax ty (Rmax tz te)))).
  assert (HM : 1 <= M /\ tx <= M /\ ty <= M /\ tz <= M /\ te <= M).
  { unfold M. repeat split.
    - apply Rmax_l.
    - eapply Rle_trans; [|apply Rmax_r]. apply Rmax_l.
    - eapply Rle_trans; [|apply Rmax_r]. eapply Rle_trans; [|apply Rmax_r]. apply Rmax_l.
    - do 3 (eapply Rle_trans; [|apply Rmax_r]). apply Rmax_l.
    - do 4 (eapply Rle_trans; [|apply Rmax_r]). lra. }
  destruct HM as (M1 & M2 & M3 & M4 & M5). rewrite Rdiv_res_ok by lra. eexists; split; [reflexivity|]. split.
  - assert (MX : forall u v y z t, Rmax u (Rmax v (Rmax y z)) <= t -> u <= t /\ v <= t /\ y <= t /\ z <= t).
    { intros u v y z t Hm. pose proof (Rmax_l u (Rmax v (Rmax y z))). pose proof (Rmax_r u (Rmax v (Rmax y z))).
      pose proof (Rmax_l v (Rmax y z)). pose proof (Rmax_r v (Rmax y z)). pose proof (Rmax_l y z). pose proof (Rmax_r y z). lra. }
    constructor; try (intros j Hj; (specialize (Htx j Hj) || specialize (Hty j Hj)); cbv beta in *;
      match goal with H : Rmax _ _ <= _ |- _ => apply MX in H as (U1 & U2 & U3 & U4) end); unfold safe.
    + apply Rdiv_lt_0_compat; lra.
    + apply safe_of; try lra. apply (i_x _ HI) in Hj. lra.
    + replace (- (101/100) * - X g j) with (101/100 * X g j) by lra. apply safe_of; try lra. apply (i_x _ HI) in Hj. lra.
    + apply safe_of; try lra. now apply (i_g _ HI).
    + apply safe_of; try lra. now apply (i_i _ HI).
    + apply safe_of; try lra. now apply (i_y _ HI).
    + apply safe_of; try lra. now apply (i_l _ HI).
    + apply safe_of; try lra. now apply (i_m _ HI).
    + apply safe_of; try lra. now apply (i_s _ HI).
    + apply safe_of; try lra. exact M4.
    + apply safe_of; try lra. exact M5.
  - apply (Rmult_le_reg_r M); [lra|]. unfold Rdiv. rewrite Rmult_assoc, Rinv_l by lra. lra.
Qed.

Lemma step_safe_half w g t : inside w -> step_safe w g t -> step_safe w g (t * (5/10)).
Proof.
  intros HI H. pose proof (t_pos _ _ _ H) as Ht. constructor; try lra; intros; apply safe_half; auto; try (now apply H); try (now apply HI).
  - pose proof (i_x _ HI j H0). lra.
  - pose proof (i_x _ HI j H0). lra.
Qed.

Lemma advance_ok w g t : inside w -> shaped g -> step_safe w g t -> exists w', advance P w g t = Ok w' /\ inside w'.
Proof.
  intros HI HS' H. pose proof (i_sh _ HI) as HS. pose proof (t_pos _ _ _ H) as Ht. unfold advance.
  Local Ltac st k F l Hl := match goal with |- context [tab k ?f1] => destruct (tab_ok k f1 F) as (l & -> & Hl); [intros; rdx; reflexivity|]; cbn [bind] end.
  st (p_n P) (fun i => X w i + t * X g i) lx Hx. st (p_n P) (fun i => Ga w i + t * Ga g i) lg Hg. st (p_n P) (fun i => It w i + t * It g i) li Hi.
  st (p_m P) (fun i => Y w i + t * Y g i) ly Hy. st (p_m P) (fun i => La w i + t * La g i) ll Hl. st (p_m P) (fun i => Mu w i + t * Mu g i) lm Hm. st (p_m P) (fun i => Ss w i + t * Ss g i) ls Hs.
  eexists; split; [reflexivity|]. constructor; cbn [w_x w_y w_z w_lambda w_gsi w_ita w_mu w_zeta w_s].
  - constructor; cbn; [apply Hx|apply Hy|apply Hl|apply Hg|apply Hi|apply Hm|apply Hs].
  - intros j Hj. rewrite (vent _ _ _ j Hx) by auto. pose proof (i_x _ HI j Hj) as B.
    pose proof (safe_step (X w j - al j) _ _ ltac:(lra) Ht (t_xa _ _ _ H j Hj)). pose proof (safe_step (be j - X w j) _ _ ltac:(lra) Ht (t_xb _ _ _ H j Hj)). lra.
  - intros i Hi'. rewrite (vent _ _ _ i Hy) by auto. apply safe_step; auto; [now apply (i_y _ HI)|now apply H].
  - intros i Hi'. rewrite (vent _ _ _ i Hl) by auto. apply safe_step; auto; [now apply (i_l _ HI)|now apply H].
  - intros i Hi'. rewrite (vent _ _ _ i Hg) by auto. apply safe_step; auto; [now apply (i_g _ HI)|now apply H].
  - intros i Hi'. rewrite (vent _ _ _ i Hi) by auto. apply safe_step; auto; [now apply (i_i _ HI)|now apply H].
  - intros i Hi'. rewrite (vent _ _ _ i Hm) by auto. apply safe_step; auto; [now apply (i_m _ HI)|now apply H].
  - intros i Hi'. rewrite (vent _ _ _ i Hs) by auto. apply safe_step; auto; [now apply (i_s _ HI)|now apply H].
  - apply safe_step; auto; [apply HI|apply H].
  - apply safe_step; auto; [apply HI|apply H].
Qed.

Lemma search_ok w g eps n0 : inside w -> shaped g -> forall k t last, step_safe w g t -> inside last ->
  exists w', line_search P w g eps n0 k t last = Ok w' /\ inside w'.
Proof.
  intros HI HS. induction k as [|k IH]; intros t last Ht HL; cbn [line_search]; [eauto|].
  destruct (advance_ok w g t HI HS Ht) as (w' & -> & HI'). cbn [bind]. rewrite kkt_ok by auto. cbn [bind]. destruct (Rltb _ _); [eauto|].
  apply IH; auto. now apply step_safe_half.
Qed.
Lemma pass_ok w eps : inside w -> exists w', inner_pass P w eps = Ok w' /\ inside w'.
Proof.
  intros HI. unfold inner_pass. destruct (direction_ok w eps HI) as (g & -> & Hg). cbn [bind]. pose proof (n_sh _ _ _ _ Hg) as HS.
  destruct (step_ok w g HI HS) as (t & -> & Ht & _). cbn [bind]. rewrite kkt_ok by auto. cbn [bind]. now apply search_ok.
Qed.

(** the loop stops only after a residual below 0.9 eps with eps <= 10^-6 *)
Lemma loop_ok : forall fuel w eps, inside w -> 0 < eps ->
  match inner_loop P fuel w eps with
  | Ok w' => inside w' /\ (1/10000000 < eps -> exists e, 1/10000000 < e <= eps /\ e <= 1/1000000 /\ sqrt (norm2 w' e) < 9/10 * e)
  | Fail f => f = OutOfFuel end.
Proof.
  induction fuel as [|fuel IH]; intros w eps HI He; cbn [inner_loop]; destruct (Rltb (1/10000000) eps) eqn:E.
  - reflexivity.
  - apply Rltb_false in E. split; auto. intros; lra.
  - apply Rltb_true in E. destruct (pass_ok w eps HI) as (w1 & -> & HI1). cbn [bind]. rewrite kkt_ok by auto. cbn [bind].
    destruct (Rltb (sqrt (norm2 w1 eps)) (9/10 * eps)) eqn:En.
    + apply Rltb_true in En. destruct (Rlt_dec (1/10000000) (eps * (1/10))) as [L|L].
      * specialize (IH w1 (eps * (1/10)) HI1 ltac:(lra)). destruct (inner_loop P fuel w1 (eps * (1/10))); auto. destruct IH as (IH1 & IH2). split; auto.
        intros _. destruct (IH2 L) as (e & H1 & H2 & H3). exists e. splits; auto; lra.
      * assert (EQ : inner_loop P fuel w1 (eps * (1/10)) = Ok w1) by (destruct fuel; cbn [inner_loop]; rewrite (proj2 (Rltb_false _ _)) by lra; reflexivity).
        rewrite EQ. split; auto. intros _. exists eps. splits; auto; lra.
    + rewrite Rmult_1_r. apply (IH w1 eps HI1 He).
  - apply Rltb_false in E. split; auto. intros; lra.
Qed.

Lemma start_ok : exists w, start P = Ok w /\ inside w /\ w_z w = 1 /\ w_zeta w = 1 /\
  (forall i, (i < m)%nat -> Y w i = 1 /\ La w i = 1 /\ Ss w i = 1 /\ Mu w i = Rmax 1 (5/10 * c i)) /\
  (forall j, (j < n)%nat -> X w j = 5/10 * (al j + be j)).
Proof.
  unfold start. match goal with |- context [tab m ?f1] => destruct (tab_ok m f1 (fun i => Rmax 1 (5/10 * c i))) as (lm & -> & Hm) end. { intros; rdx; reflexivity. }
  cbn [bind]. match goal with |- context [tab n ?f1] => destruct (tab_ok n f1 (fun j => 5/10 * (al j + be j))) as (lx & -> & Hx) end. { intros; rdx; reflexivity. }
  cbn [bind]. match goal with |- context [tab n ?f1] => destruct (tab_ok n f1 (fun j => Rmax 1 (1 / (5/10 * (al j + be j) - al j)))) as (lg & -> & Hg) end.
  { intros j Hj; rdx. pose proof (k_ab K j Hj). dv. reflexivity. }
  cbn [bind]. match goal with |- context [tab n ?f1] => destruct (tab_ok n f1 (fun j => Rmax 1 (1 / (be j - 5/10 * (al j + be j))))) as (li & -> & Hi) end.
  { intros j Hj; rdx. pose proof (k_ab K j Hj). dv. reflexivity. }
  cbn [bind]. eexists; split; [reflexivity|]. assert (R1 : forall u, 0 < Rmax 1 u) by (intros; eapply Rlt_le_trans; [|apply Rmax_l]; lra).
  assert (R0 : forall i, (i < m)%nat -> ent (repeat 1 m) i = 1). { intros i Hi'. unfold ent. assert (In (nth i (repeat 1 m) 0) (repeat 1 m)) by (apply nth_In; rewrite repeat_length; auto). now apply repeat_spec in H. }
  assert (RP : forall i, (i < m)%nat -> 0 < ent (repeat 1 m) i) by (intros i Hi'; rewrite R0 by auto; lra).
  split; [|cbn [w_x w_y w_z w_lambda w_gsi w_ita w_mu w_zeta w_s]; splits; auto; [intros i Hi'; splits; auto; now apply Hm|intros j Hj; now apply Hx]].
  constructor; cbn [w_x w_y w_z w_lambda w_gsi w_ita w_mu w_zeta w_s]; auto; try lra.
  - constructor; cbn; try apply repeat_length; [apply Hx|apply Hg|apply Hi|apply Hm].
  - intros j Hj. rewrite (vent _ _ _ j Hx) by auto. pose proof (k_ab K j Hj). lra.
  - intros j Hj. now rewrite (vent _ _ _ j Hg).
  - intros j Hj. now rewrite (vent _ _ _ j Hi).
  - intros j Hj. now rewrite (vent _ _ _ j Hm).
Qed.

Lemma solve_ok fuel : match (w <- start P ;; inner_loop P fuel w 1) with
  | Ok w => inside w /\ exists e, 1/10000000 < e <= 1/1000000 /\ sqrt (norm2 w e) < 9/10 * e
  | Fail f => f = OutOfFuel end.
Proof.
  destruct start_ok as (w & -> & HI & _). cbn [bind]. pose proof (loop_ok fuel w 1 HI ltac:(lra)) as H. destruct (inner_loop P fuel w 1); auto.
  destruct H as (H1 & H2). split; auto. destruct H2 as (e & H3 & H4 & H5); [lra|]. exists e. splits; auto; lra.
Qed.
End Inner.
