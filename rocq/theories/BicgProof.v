(** The states of BiCGSTAB and BiCGSTAB2 follow the recurrences of BicgMath. *)
From Coq Require Import List Arith Lia Bool Reals Lra FunctionalExtensionality.
From Verif Require Import Res SumR SparseModel SparseSpec DenseModel DenseR LUModel LUProof KrylovModel KrylovSpec KrylovProof CGMath KrylovProof2 KrylovProof3 BicgMath.
Import ListNotations.
Local Open Scope R_scope.

(** ** generic *)
Lemma finite_choice {X} (x0 : X) (P : nat -> X -> Prop) : forall N, (forall k, (k < N)%nat -> exists x, P k x) ->
  exists f, forall k, (k < N)%nat -> P k (f k).
Proof.
  induction N as [|N IH]; intros Hx.
  - exists (fun _ => x0). intros; lia.
  - destruct IH as [f Hf]; [intros; apply Hx; lia|]. destruct (Hx N ltac:(lia)) as [x Px].
    exists (fun k => if (k =? N)%nat then x else f k). intros k Hk. destruct (Nat.eqb_spec k N) as [->|]; auto. apply Hf. lia.
Qed.

(** a computation that succeeds with P or divides by zero *)
Definition okd {T} (P : T -> Prop) (x : res T) : Prop := match x with Ok v => P v | Fail e => e = DivByZero end.
Lemma okd_bind {S T} (P : S -> Prop) (Q : T -> Prop) x (f : S -> res T) :
  okd P x -> (forall v, P v -> okd Q (f v)) -> okd Q (bind x f).
Proof. destruct x; cbn; auto. Qed.
Lemma okd_div x y : okd (fun _ => True) (Rdiv_res x y).
Proof. unfold Rdiv_res. destruct (Req_EM_T y 0); cbn; auto. Qed.

Lemma rdiv_inv x y r : Rdiv_res x y = Ok r -> y <> 0 /\ r = x / y.
Proof. unfold Rdiv_res. destruct (Req_EM_T y 0); [discriminate|]. intros [= <-]. auto. Qed.

(** the loop, seen as a trace *)
Lemma iterate_trace {S} (step : nat -> S -> res S) (done : S -> res bool) : forall left k s,
  exists st : nat -> S, st 0%nat = s /\
  match iterate step done left k s with
  | Ok (false, _) => forall j, (j < left)%nat -> step (k + j)%nat (st j) = Ok (st (Datatypes.S j)) /\ done (st (Datatypes.S j)) = Ok false
  | Ok (true, _) => True
  | Fail e => exists m, (m < left)%nat /\
      (forall j, (j < m)%nat -> step (k + j)%nat (st j) = Ok (st (Datatypes.S j)) /\ done (st (Datatypes.S j)) = Ok false) /\
      (step (k + m)%nat (st m) = Fail e \/ exists s', step (k + m)%nat (st m) = Ok s' /\ done s' = Fail e)
  end.
Proof.
  induction left as [|left IH]; intros k s; cbn [iterate].
  - exists (fun _ => s). split; auto. intros; lia.
  - destruct (step k s) as [s'|e] eqn:E1; cbn [bind].
    + destruct (done s') as [d|e] eqn:E2; cbn [bind].
      * destruct d; [exists (fun _ => s); auto|].
        destruct (IH (Datatypes.S k) s') as (st & E0 & Hst).
        exists (fun j => match j with O => s | Datatypes.S j => st j end). split; auto.
        assert (Hs : forall m, (forall j, (j < m)%nat -> step (Datatypes.S k + j)%nat (st j) = Ok (st (Datatypes.S j)) /\ done (st (Datatypes.S j)) = Ok false) ->
          forall j, (j < Datatypes.S m)%nat ->
            step (k + j)%nat (match j with O => s | Datatypes.S j => st j end) = Ok (st j) /\ done (st j) = Ok false).
        { intros m Hm [|j] Hj.
          - rewrite Nat.add_0_r, E0. auto.
          - replace (k + Datatypes.S j)%nat with (Datatypes.S k + j)%nat by lia. apply Hm. lia. }
        destruct (iterate step done left (Datatypes.S k) s') as [[[|] s'']|e].
        -- exact I.
        -- now apply Hs.
        -- destruct Hst as (m & Hm & H1 & H2). exists (Datatypes.S m). split; [lia|]. split.
           ++ now apply Hs.
           ++ now replace (k + Datatypes.S m)%nat with (Datatypes.S k + m)%nat by lia.
      * exists (fun _ => s). split; auto. exists 0%nat. split; [lia|]. split; [intros; lia|]. right. exists s'. now rewrite Nat.add_0_r.
    + exists (fun _ => s). split; auto. exists 0%nat. split; [lia|]. split; [intros; lia|]. left. now rewrite Nat.add_0_r.
Qed.

Lemma converged_total n eps b r : length b = n -> length r = n -> exists d, converged eps b r = Ok d.
Proof. intros Lb Lr. unfold converged. rewrite !(inner_ok n) by auto. cbn [bind]. eauto. Qed.

Section Run.
Variables (n : nat) (A : csr R) (b : list R).
Hypothesis HA : square_csr n A.
Hypothesis Hb : length b = n.
Hypothesis Hnb : nonzero n (ix b).
Let Am := matvec n (entry A).

(** ** BiCGSTAB *)
Section Stab.
Variables (pre : list R -> res (list R)) (K : vec -> vec).
Hypothesis HK : computes n pre K.
Hypothesis Kext : forall u v, agree n u v -> agree n (K u) (K v).
Hypothesis Klin : forall x u y v i, (i < n)%nat -> K (lc x u y v) i = lc x (K u) y (K v) i.

Definition Bo (u : vec) : vec := Am (K u).
Lemma Bo_ext u v : agree n u v -> Bo u = Bo v.
Proof. intros E. apply functional_extensionality; intros i. apply matvec_ext. now apply Kext. Qed.
Lemma Bo_lin x u y v : Bo (lc x u y v) = lc x (Bo u) y (Bo v).
Proof.
  apply functional_extensionality; intros i. unfold Bo, Am.
  rewrite (matvec_ext n _ _ (lc x (K u) y (K v))) by (intros; now apply Klin).
  unfold lc. apply matvec_lin.
Qed.
Lemma pre_inv v w : length v = n -> pre v = Ok w -> length w = n /\ agree n (ix w) (K (ix v)).
Proof. intros Lv E. destruct (HK v Lv) as (w' & E' & L & V). rewrite E in E'. injection E' as <-. auto. Qed.
Lemma Bo_inv v w y : length v = n -> pre v = Ok w -> Amul A w = Ok y -> length y = n /\ agree n (ix y) (Bo (ix v)).
Proof.
  intros Lv E1 E2. destruct (pre_inv v w Lv E1) as [Lw Vw]. destruct (Amul_inv n A _ _ HA Lw E2) as [Ly Vy].
  split; auto. intros i Hi. rewrite Vy by auto. unfold Bo, Am. now apply matvec_ext.
Qed.

Definition stab_ok (rd : list R) (s : bcg_state) : Prop :=
  length (bs_x s) = n /\ length (bs_r s) = n /\ okd (fun p => length p = n) (bs_p s) /\ bs_rr s = dot n (ix rd) (ix (bs_r s)).

Definition stab_facts (rd : list R) (s s' : bcg_state) (c : R * R) : Prop :=
  let '(al, ze) := c in
  exists p, bs_p s = Ok p /\ length p = n /\
    let t := lc 1 (ix (bs_r s)) (- al) (Bo (ix p)) in
    al * dot n (ix rd) (Bo (ix p)) = bs_rr s /\
    agree n (ix (bs_r s')) (lc 1 t (- ze) (Bo t)) /\
    (forall c, norm2 n (ix (bs_r s')) <= norm2 n (lc 1 t (- c) (Bo t))) /\
    forall p', bs_p s' = Ok p' -> ze <> 0 /\ bs_rr s <> 0 /\ exists be,
      be * (ze * bs_rr s) = al * bs_rr s' /\
      agree n (ix p') (lc 1 (ix (bs_r s')) be (lc 1 (ix p) (- ze) (Bo (ix p)))).

Lemma min1 u v w om : dot n w u = om * dot n w w -> agree n v (lc 1 u (- om) w) ->
  forall c, norm2 n v <= norm2 n (lc 1 u (- c) w).
Proof.
  intros Hom Hv c. unfold norm2. apply sqrt_le_1_alt.
  rewrite (dot_ext n v (lc 1 u (- om) w) v (lc 1 u (- om) w)) by auto. unfold lc.
  rewrite !dot_lin_l, !dot_lin_r, (dot_sym n u w), Hom.
  assert (P := dot_nonneg n w). assert (Q : 0 <= (c - om) ^ 2 * dot n w w) by (apply Rmult_le_pos; [apply pow2_ge_0|auto]). lra.
Qed.

Lemma bcg_step_facts rd s s' : length rd = n -> stab_ok rd s -> bcg_step A pre rd s = Ok s' ->
  stab_ok rd s' /\ exists c, stab_facts rd s s' c.
Proof.
  intros Lrd (Lx & Lr & Lp & Hrr) E. unfold bcg_step in E.
  apply bind_Ok in E. destruct E as (p & Ep & E). rewrite Ep in Lp. cbn [okd] in Lp.
  apply bind_Ok in E. destruct E as (Mp & EMp & E).
  apply bind_Ok in E. destruct E as (AMp & EAMp & E). destruct (Bo_inv p Mp AMp Lp EMp EAMp) as [L1 V1].
  destruct (pre_inv p Mp Lp EMp) as [LMp _].
  rewrite (inner_ok n) in E by auto. cbn [bind] in E.
  apply bind_Ok in E. destruct E as (al & Eal & E). apply rdiv_inv in Eal. destruct Eal as [N1 Eal].
  apply bind_Ok in E. destruct E as (sk & Esk & E). apply (walk2_inv n) in Esk; auto. destruct Esk as [Ls Vs].
  apply bind_Ok in E. destruct E as (Ms & EMs & E).
  apply bind_Ok in E. destruct E as (AMs & EAMs & E). destruct (Bo_inv sk Ms AMs Ls EMs EAMs) as [L2 V2].
  destruct (pre_inv sk Ms Ls EMs) as [LMs _].
  rewrite !(inner_ok n) in E by auto. cbn [bind] in E.
  apply bind_Ok in E. destruct E as (om & Eom & E). apply rdiv_inv in Eom. destruct Eom as [N2 Eom].
  apply bind_Ok in E. destruct E as (x & Ex & E). apply (walk3_inv n) in Ex; auto. destruct Ex as [Lx' Vx].
  apply bind_Ok in E. destruct E as (r & Er & E). apply (walk2_inv n) in Er; auto. destruct Er as [Lr' Vr].
  rewrite (inner_ok n) in E by auto. cbn [bind] in E. injection E as <-.
  assert (Vt : agree n (ix sk) (lc 1 (ix (bs_r s)) (- al) (Bo (ix p)))).
  { intros i Hi. rewrite Vs, V1 by auto. reflexivity. }
  assert (Bt : Bo (ix sk) = Bo (lc 1 (ix (bs_r s)) (- al) (Bo (ix p)))) by now apply Bo_ext.
  assert (Vr' : agree n (ix r) (lc 1 (lc 1 (ix (bs_r s)) (- al) (Bo (ix p))) (- om) (Bo (lc 1 (ix (bs_r s)) (- al) (Bo (ix p)))))).
  { intros i Hi. rewrite Vr by auto. rewrite V2, Vt by auto. rewrite Bt. reflexivity. }
  split.
  - unfold stab_ok; cbn [bs_x bs_r bs_p bs_rr]. splits; auto.
    eapply okd_bind; [apply okd_div|]. intros ao _. eapply okd_bind; [apply okd_div|]. intros be _.
    destruct (walk3_ok (fun xi yi zi => be * xi + 1 * yi + - be * om * zi) p r AMp ltac:(lia) ltac:(lia)) as (p' & E' & L' & _).
    unfold xeaxpbypcz. rewrite E'. cbn. lia.
  - exists (al, om). exists p. cbn [bs_x bs_r bs_p bs_rr]. cbv zeta.
    split; auto. split; auto. split; [|split; [auto|split]].
    + rewrite Eal. rewrite (dot_ext n (ix rd) (ix rd) (ix AMp) (Bo (ix p))) in * by auto. field. auto.
    + intros c. apply (min1 _ _ _ om); auto. rewrite <- Bt.
      rewrite <- (dot_ext n (ix AMs) (Bo (ix sk)) (ix AMs) (Bo (ix sk))) by auto.
      rewrite (dot_ext n (Bo (ix sk)) (ix AMs) _ (ix sk)) by (intros; symmetry; auto). rewrite Eom. field. auto.
    + intros p' H. apply bind_Ok in H. destruct H as (ao & Eao & H). apply bind_Ok in H. destruct H as (be & Ebe & H).
      apply rdiv_inv in Eao, Ebe. destruct Eao as [N3 Eao], Ebe as [N4 Ebe].
      apply (walk3_inv n) in H; auto. destruct H as [_ V]. split; auto. split; auto. exists be. split.
      * rewrite Ebe, Eao. field. auto.
      * intros i Hi. rewrite V, V1 by auto. unfold lc. ring.
Qed.

Lemma bcg_step_total rd s : length rd = n -> stab_ok rd s -> okd (fun _ => True) (bcg_step A pre rd s).
Proof.
  intros Lrd (Lx & Lr & Lp & Hrr). unfold bcg_step.
  apply (okd_bind _ _ _ _ Lp). intros p Hp.
  destruct (HK p Hp) as (Mp & -> & LMp & _). cbn [bind].
  destruct (Amul_ok n A Mp HA LMp) as (AMp & -> & L1 & _). cbn [bind].
  rewrite (inner_ok n) by auto. cbn [bind].
  eapply okd_bind; [apply okd_div|]. intros al _.
  destruct (walk2_ok (fun xi yi => 1 * xi + - al * yi) (bs_r s) AMp ltac:(lia)) as (sk & E & Ls & _).
  unfold zeaxpby at 1. rewrite E. cbn [bind]. clear E. rewrite Lr in Ls.
  destruct (HK sk Ls) as (Ms & -> & LMs & _). cbn [bind].
  destruct (Amul_ok n A Ms HA LMs) as (AMs & -> & L2 & _). cbn [bind].
  rewrite !(inner_ok n) by auto. cbn [bind].
  eapply okd_bind; [apply okd_div|]. intros om _.
  unfold xeaxpbypcz at 1, zeaxpby.
  match goal with |- context [walk3 ?f (bs_x s) Mp Ms] =>
    destruct (walk3_ok f (bs_x s) Mp Ms ltac:(lia) ltac:(lia)) as (x & -> & Lx' & _) end. cbn [bind].
  match goal with |- context [walk2 ?f sk AMs] =>
    destruct (walk2_ok f sk AMs ltac:(lia)) as (r & -> & Lr' & _) end. cbn [bind].
  rewrite (inner_ok n) by (auto; lia). cbn [bind okd]. exact I.
Qed.

(** a run of N successful steps from the initial state *)
Lemma stab_run p0 (st : nat -> bcg_state) N :
  length p0 = n -> st 0%nat = mkBcg (repeat 0 (length b)) b (Ok p0) (dot n (ix b) (ix b)) ->
  (forall j, (j < N)%nat -> bcg_step A pre b (st j) = Ok (st (S j))) ->
  (forall j, (j <= N)%nat -> stab_ok b (st j)) /\
  exists c, forall j, (j < N)%nat -> stab_facts b (st j) (st (S j)) (c j).
Proof.
  intros Lp0 E0 Hst.
  assert (O : forall j, (j <= N)%nat -> stab_ok b (st j)).
  { induction j as [|j IH]; intros Hj.
    - rewrite E0. unfold stab_ok; cbn. splits; auto. now rewrite repeat_length.
    - apply (bcg_step_facts b (st j)); auto; apply IH; lia. }
  split; auto. apply (finite_choice (0, 0) (fun k c => stab_facts b (st k) (st (S k)) c)). intros k Hk.
  apply (bcg_step_facts b (st k)); auto. apply O; lia.
Qed.

Lemma stab_terminates p0 (st : nat -> bcg_state) :
  length p0 = n -> st 0%nat = mkBcg (repeat 0 (length b)) b (Ok p0) (dot n (ix b) (ix b)) ->
  (forall j, (j < S n)%nat -> bcg_step A pre b (st j) = Ok (st (S j))) ->
  agree n (ix (bs_r (st n))) (fun _ => 0).
Proof.
  intros Lp0 E0 Hst. destruct (stab_run p0 st (S n) Lp0 E0 Hst) as [O [c Hc]].
  set (al := fun k => fst (c k)). set (ze := fun k => snd (c k)).
  assert (F : forall k, (k < S n)%nat -> stab_facts b (st k) (st (S k)) (al k, ze k)).
  { intros k Hk. unfold al, ze. rewrite <- surjective_pairing. now apply Hc. }
  (* beta *)
  set (rho := fun k => dot n (ix b) (ix (bs_r (st k)))).
  set (be := fun k => al k * rho (S k) / (ze k * rho k)).
  assert (Rho : forall k, (k <= S n)%nat -> bs_rr (st k) = rho k) by (intros; now apply O).
  set (pv := fun k => ix (match bs_p (st k) with Ok p => p | Fail _ => [] end)).
  assert (F1 : forall k, (k < S n)%nat ->
    let t := lc 1 (ix (bs_r (st k))) (- al k) (Bo (pv k)) in
    al k * dot n (ix b) (Bo (pv k)) = rho k /\
    agree n (ix (bs_r (st (S k)))) (lc 1 t (- ze k) (Bo t)) /\
    ((k < n)%nat -> ze k <> 0 /\ rho k <> 0 /\
      agree n (pv (S k)) (lc 1 (ix (bs_r (st (S k)))) (be k) (lc 1 (pv k) (- ze k) (Bo (pv k)))))).
  { intros k Hk t. destruct (F k Hk) as (p & Ep & Lp & Ea & Er & _ & Hp). unfold t, pv at 1 2 3 4. rewrite Ep.
    split; [rewrite <- (Rho k) by lia; auto|]. split; [auto|]. intros Hkn.
    destruct (F (S k) ltac:(lia)) as (p' & Ep' & _). destruct (Hp p' Ep') as (Nz & Nr & be' & Ebe & V).
    split; auto. split; [rewrite <- (Rho k) by lia; auto|].
    unfold pv. rewrite Ep, Ep'. replace (be k) with be'; auto. unfold be. rewrite <- !Rho by lia.
    apply (Rmult_eq_reg_r (ze k * bs_rr (st k))); [|now apply Rmult_integral_contrapositive_currified].
    rewrite Ebe. field. auto. }
  set (et := fun _ : nat => 0).
  set (H := H Bo ze et). set (g := g Bo al be (ix b) (ix p0)). set (h := h Bo al be (ix b) (ix p0)).
  assert (GB : forall k u, Bo (G Bo ze et k u) = lc (ze k) (Bo (H k u)) 0 (Bo (H k u))).
  { intros [|k] u.
    - unfold G, H, BicgMath.H; cbn [HG fst snd]. apply Bo_lin.
    - rewrite G_S, Bo_lin. change (et (S k)) with 0. unfold lc. apply functional_extensionality; intros i. unfold H. ring. }
  assert (HS : forall k u, H (S k) u = lc 1 (H k u) (- ze k) (Bo (H k u))).
  { intros k u. unfold H. rewrite H_S, GB. unfold lc. apply functional_extensionality; intros i. unfold H. ring. }
  assert (HB : forall k u, H k (Bo u) = Bo (H k u)) by (intros; apply H_B, Bo_lin).
  assert (HL : forall k x u y v, H k (lc x u y v) = lc x (H k u) y (H k v)) by (intros; apply H_lin, Bo_lin).
  assert (M : forall k, (k <= n)%nat -> agree n (ix (bs_r (st k))) (H k (g k)) /\ agree n (pv k) (H k (h k))).
  { induction k as [|k IH]; intros Hk.
    - unfold pv. rewrite E0. cbn [bs_r bs_p]. split; intros i Hi; reflexivity.
    - destruct IH as [Ir Ip]; [lia|]. destruct (F1 k ltac:(lia)) as (_ & Er & Hp). destruct (Hp ltac:(lia)) as (_ & _ & Ep).
      rewrite (Bo_ext (pv k) (H k (h k))) in Er, Ep by auto.
      assert (T : agree n (lc 1 (ix (bs_r (st k))) (- al k) (Bo (H k (h k)))) (H k (g (S k)))).
      { intros i Hi. unfold g. rewrite g_S, HL, HB. unfold lc. rewrite Ir by auto. reflexivity. }
      rewrite (Bo_ext _ _ T) in Er.
      assert (Er' : agree n (ix (bs_r (st (S k)))) (H (S k) (g (S k)))).
      { intros i Hi. rewrite Er by auto. rewrite HS. unfold lc. rewrite <- T by auto. unfold lc. ring. }
      split; auto. intros i Hi. rewrite Ep by auto. unfold h. rewrite h_S, HL, !HS. unfold lc. rewrite Er', Ip by auto.
      rewrite HS. unfold lc, g, h. ring. }
  assert (Ml : forall k, (k <= n)%nat -> rho k = l n (ix b) (H k (g k))).
  { intros k Hk. unfold rho, l. apply dot_ext; auto. now apply M. }
  intros i Hi. rewrite (proj1 (M n ltac:(lia))) by auto.
  apply (bicg_terminates n Bo Bo_lin Bo_ext (ix b) al be ze et (ix b) (ix p0) n); auto.
  - intros k Hk. fold H g h. rewrite <- Ml by lia. unfold l.
    destruct (F1 k ltac:(lia)) as (E & _). rewrite (Bo_ext _ (pv k)); auto. intros j Hj. symmetry. apply M; auto; lia.
  - intros k Hk. fold H g h. rewrite <- !Ml by lia. destruct (F1 k ltac:(lia)) as (_ & _ & F2). destruct (F2 Hk) as (N1 & N2 & _).
    unfold be. field. auto.
  - intros k Hk. destruct (F1 k ltac:(lia)) as (_ & _ & F2). now apply F2.
  - intros k Hk. fold H g h. rewrite <- Ml by lia. destruct (F1 k ltac:(lia)) as (_ & _ & F2). now apply F2.
Qed.

Lemma bcg_terminates p0f p0 itrmax eps : p0f b = Ok p0 -> length p0 = n -> 0 < eps -> (n < itrmax)%nat ->
  okd (fun cx => fst cx = true) (bcg A pre p0f b itrmax eps).
Proof.
  intros Ep Lp He Hn. unfold bcg. destruct (start_ok n A b HA Hb) as (Ax & EAx & Eb). rewrite EAx. cbn [bind]. rewrite Eb. cbn [bind]. rewrite Ep. cbn [bind].
  rewrite (inner_ok n) by auto. cbn [bind].
  destruct (iterate_trace (fun _ => bcg_step A pre b) (fun s => converged eps b (bs_r s)) itrmax 0
    (mkBcg (repeat 0 (length b)) b (Ok p0) (dot n (ix b) (ix b)))) as (st & E0 & Hst).
  destruct (iterate _ _ _ _ _) as [[[|] s]|e]; cbn [bind okd].
  - reflexivity.
  - exfalso. assert (Z : agree n (ix (bs_r (st n))) (fun _ => 0)).
    { apply (stab_terminates p0 st); auto. intros j Hj. apply Hst. lia. }
    destruct (stab_run p0 st n Lp E0) as [O _]; [intros; apply Hst; lia|].
    destruct Hnb as (i0 & Hi0 & _). destruct n as [|n'] eqn:En; [lia|].
    destruct (Hst n' ltac:(lia)) as [_ D]. rewrite <- En in *. apply (not_converged_nonzero n b Hb) in D; auto.
    + destruct D as (i & Hi & Ni). apply Ni, Z. auto.
    + apply O. lia.
  - destruct Hst as (m & Hm & Hs & Hf).
    destruct (stab_run p0 st m Lp E0) as [O _]; [intros; now apply Hs|].
    assert (T := bcg_step_total b (st m) Hb (O m ltac:(lia))).
    destruct Hf as [Hf|(s' & Hf & Hd)]; [rewrite Hf in T; exact T|].
    destruct (bcg_step_facts b (st m) s' Hb (O m ltac:(lia)) Hf) as [(_ & L & _) _].
    destruct (converged_total n eps b (bs_r s') Hb L) as [d Ed]. rewrite Hd in Ed. discriminate.
Qed.
End Stab.

(** ** BiCGSTAB2 *)
Lemma Am_ext u v : agree n u v -> Am u = Am v.
Proof. intros E. apply functional_extensionality; intros i. now apply matvec_ext. Qed.
Lemma Am_lin x u y v : Am (lc x u y v) = lc x (Am u) y (Am v).
Proof. apply functional_extensionality; intros i. unfold lc. apply matvec_lin. Qed.

Definition b2_ok (k : nat) (rd : list R) (s : b2_state) : Prop :=
  b2_inv n A b k s /\ okd (fun _ => True) (b2_beta s) /\ okd (fun w => length w = n) (b2_w s) /\
  b2_rr s = dot n (ix rd) (ix (b2_r s)).

Definition b2_y (s s' : b2_state) (bk al : R) : vec :=
  fun i => ix (b2_t s) i - ix (b2_r s) i
    - al * (Am (ix (b2_t s)) i + bk * Am (ix (b2_p s)) i) + al * Am (ix (b2_p s')) i.

Definition b2_facts (rd : list R) (k : nat) (s s' : b2_state) (c : R * R * R) : Prop :=
  let '(al, ze, et) := c in
  exists bk, b2_beta s = Ok bk /\
    agree n (ix (b2_p s')) (fun i => bk * ix (b2_p s) i + ix (b2_r s) i - bk * ix (b2_u s) i) /\
    al * dot n (ix rd) (Am (ix (b2_p s'))) = b2_rr s /\
    agree n (ix (b2_t s')) (lc 1 (ix (b2_r s)) (- al) (Am (ix (b2_p s')))) /\
    (let y := b2_y s s' bk al in
     agree n (ix (b2_r s')) (fun i => ix (b2_t s') i - et * y i - ze * Am (ix (b2_t s')) i) /\
     dot n (Am (ix (b2_t s'))) (ix (b2_r s')) = 0 /\
     (Nat.even k = false -> dot n y (ix (b2_r s')) = 0)) /\
    agree n (ix (b2_u s')) (fun i => ze * Am (ix (b2_p s')) i + et * (ix (b2_t s) i - ix (b2_r s) i + bk * ix (b2_u s) i)) /\
    (Nat.even k = true -> et = 0) /\
    forall be, b2_beta s' = Ok be -> ze <> 0 /\ b2_rr s <> 0 /\ be * (ze * b2_rr s) = al * b2_rr s'.

Lemma b2_coef_facts k y t At ze et : length y = n -> length t = n -> length At = n ->
  b2_coef k y t At = Ok (ze, et) ->
  dot n (ix At) (ix t) - et * dot n (ix At) (ix y) - ze * dot n (ix At) (ix At) = 0 /\
  (Nat.even k = false -> dot n (ix y) (ix t) - et * dot n (ix y) (ix y) - ze * dot n (ix y) (ix At) = 0).
Proof.
  intros Ly Lt La E. unfold b2_coef in E. rewrite !(inner_ok n) in E by auto. cbn [bind] in E.
  destruct (Nat.even k).
  - apply bind_Ok in E. destruct E as (z & Ez & E). injection E as <- <-. apply rdiv_inv in Ez. destruct Ez as [N ->].
    split; [field; auto|discriminate].
  - apply bind_Ok in E. destruct E as (z & Ez & E). apply bind_Ok in E. destruct E as (e & Ee & E). injection E as <- <-.
    apply rdiv_inv in Ez, Ee. destruct Ez as [N ->], Ee as [_ ->].
    rewrite (dot_sym n (ix y) (ix At)). split; [|intros _]; field; auto.
Qed.

Lemma b2_step_facts rd k s s' : length rd = n -> b2_ok k rd s -> b2_step A rd k s = Ok s' ->
  b2_ok (S k) rd s' /\ exists c, b2_facts rd k s s' c.
Proof.
  intros Lrd (Hinv & Hbe & Hw' & Hrr) E. pose proof (b2_step_inv n A b HA rd k s s' Lrd Hinv E) as Hinv'.
  pose proof Hinv as (Lx & Lr & Lp & Lu & Lt & Lz & Lw & HR & Hz & Hw).
  unfold b2_step in E. apply bind_Ok in E. destruct E as (bk & Ebk & E). apply bind_Ok in E. destruct E as (wk & Ewk & E).
  specialize (Hw bk wk Ebk Ewk). specialize (Lw wk Ewk).
  apply bind_Ok in E. destruct E as (p & Ep & E). apply (walk3_inv n) in Ep; auto. destruct Ep as [L1 V1].
  apply bind_Ok in E. destruct E as (Ap & EAp & E). destruct (Amul_inv n A _ _ HA L1 EAp) as [L2 V2].
  rewrite (inner_ok n) in E by auto. cbn [bind] in E.
  apply bind_Ok in E. destruct E as (al & Eal & E). apply rdiv_inv in Eal. destruct Eal as [N1 Eal].
  apply bind_Ok in E. destruct E as (y & Ey & E). apply (walk4_inv n) in Ey; auto. destruct Ey as [L5 V5].
  apply bind_Ok in E. destruct E as (t & Et & E). apply (walk2_inv n) in Et; auto. destruct Et as [L6 V6].
  apply bind_Ok in E. destruct E as (At & EAt & E). destruct (Amul_inv n A _ _ HA L6 EAt) as [L7 V7].
  apply bind_Ok in E. destruct E as ([ze et] & Ec & E).
  apply bind_Ok in E. destruct E as (u & Eu & E). apply (walk4_inv n) in Eu; auto. destruct Eu as [L9 V9].
  apply bind_Ok in E. destruct E as (z & Ezz & E). apply (walk3_inv n) in Ezz; auto. destruct Ezz as [L10 V10].
  apply bind_Ok in E. destruct E as (x & Ex & E). apply (walk3_inv n) in Ex; auto. destruct Ex as [L11 V11].
  apply bind_Ok in E. destruct E as (r & Er & E). apply (walk3_inv n) in Er; auto. destruct Er as [L12 V12].
  rewrite (inner_ok n) in E by auto. cbn [bind] in E. injection E as <-.
  split.
  - split; [exact Hinv'|]. cbn [b2_beta b2_w b2_rr b2_r]. split; [apply okd_div|]. split; auto.
    eapply okd_bind; [apply okd_div|]. intros be _. unfold zeaxpby.
    match goal with |- context [walk2 ?f At Ap] => destruct (walk2_ok f At Ap ltac:(lia)) as (w & -> & Lw' & _) end. cbn. lia.
  - exists (al, ze, et). exists bk. unfold b2_y. cbn [b2_x b2_r b2_p b2_u b2_t b2_z b2_w b2_beta b2_rr]. cbv zeta.
    assert (Vy : agree n (ix y) (fun i => ix (b2_t s) i - ix (b2_r s) i - al * (Am (ix (b2_t s)) i + bk * Am (ix (b2_p s)) i) + al * Am (ix p) i)).
    { intros i Hi. rewrite V5, Hw, V2 by auto. unfold Am. ring. }
    assert (VAt : agree n (ix At) (Am (ix t))) by exact V7.
    assert (Vr : agree n (ix r) (fun i => 1 * ix t i + - et * ix y i + - ze * ix At i)) by exact V12.
    destruct (b2_coef_facts k y t At ze et L5 L6 L7 Ec) as [C1 C2].
    assert (D3 : forall q, dot n q (ix r) = dot n q (ix t) - et * dot n q (ix y) - ze * dot n q (ix At)).
    { intros q. rewrite (dot_ext n q q (ix r) (fun i => 1 * (fun i => 1 * ix t i + - et * ix y i) i + - ze * ix At i)) by (auto; intros; rewrite Vr by auto; ring).
      rewrite dot_lin_r. rewrite dot_lin_r. ring. }
    split; [exact Ebk|]. split. { intros i Hi. rewrite V1 by auto. ring. }
    split. { rewrite Eal. rewrite (dot_ext n (ix rd) (ix rd) (ix Ap) (Am (ix p))) in * by auto. field. auto. }
    split. { intros i Hi. rewrite V6, V2 by auto. reflexivity. }
    split; [split; [|split]|].
    + intros i Hi. rewrite Vr, Vy, VAt by auto. ring.
    + rewrite <- (dot_ext n (ix At) (Am (ix t)) (ix r) (ix r)) by auto. rewrite D3. exact C1.
    + intros Hk. rewrite <- (dot_ext n (ix y) _ (ix r) (ix r)) by auto. rewrite D3. now apply C2.
    + split. { intros i Hi. rewrite V9, V2 by auto. unfold Am. ring. }
      split. { intros Hk. eapply b2_coef_even; eauto. }
      intros be Ebe. apply rdiv_inv in Ebe. destruct Ebe as [N2 Ebe].
      assert (ze <> 0) by (intros ->; apply N2; ring). assert (b2_rr s <> 0) by (intros Z; apply N2; rewrite Z; ring).
      splits; auto. rewrite Ebe. field. auto.
Qed.

Lemma b2_step_total rd k s : length rd = n -> b2_ok k rd s -> okd (fun _ => True) (b2_step A rd k s).
Proof.
  intros Lrd (Hinv & Hbe & Hw' & Hrr). pose proof Hinv as (Lx & Lr & Lp & Lu & Lt & Lz & Lw & _). unfold b2_step.
  apply (okd_bind _ _ _ _ Hbe). intros bk _. apply (okd_bind _ _ _ _ Hw'). intros wk Lwk.
  unfold xeaxpbypcz, zeaxpby, zeavpbwpcxpdy, zeawpbxmypcz, zeawpbxpcy.
  match goal with |- context [walk3 ?f (b2_p s) ?y ?z] =>
    destruct (walk3_ok f (b2_p s) y z ltac:(lia) ltac:(lia)) as (p & -> & L1 & _) end. cbn [bind].
  destruct (Amul_ok n A p HA ltac:(lia)) as (Ap & -> & L2 & _). cbn [bind].
  rewrite (inner_ok n) by auto. cbn [bind]. eapply okd_bind; [apply okd_div|]. intros al _.
  match goal with |- context [walk4 ?f wk ?y ?z Ap] =>
    destruct (walk4_ok f wk y z Ap ltac:(lia) ltac:(lia) ltac:(lia)) as (y' & -> & L3 & _) end. cbn [bind].
  match goal with |- context [walk2 ?f (b2_r s) Ap] =>
    destruct (walk2_ok f (b2_r s) Ap ltac:(lia)) as (t & -> & L4 & _) end. cbn [bind].
  destruct (Amul_ok n A t HA ltac:(lia)) as (At & -> & L5 & _). cbn [bind].
  apply (okd_bind (fun _ => True)).
  { unfold b2_coef. rewrite !(inner_ok n) by lia. cbn [bind]. destruct (Nat.even k).
    - eapply okd_bind; [apply okd_div|]. cbn. auto.
    - eapply okd_bind; [apply okd_div|]. intros ze _. eapply okd_bind; [apply okd_div|]. cbn. auto. }
  intros [ze et] _. cbv beta iota.
  match goal with |- context [walk4 ?f (b2_u s) ?a ?y ?z] =>
    destruct (walk4_ok f (b2_u s) a y z ltac:(lia) ltac:(lia) ltac:(lia)) as (u & -> & L6 & _) end. cbn [bind].
  match goal with |- context [walk3 ?f (b2_z s) ?y ?z] =>
    destruct (walk3_ok f (b2_z s) y z ltac:(lia) ltac:(lia)) as (z' & -> & L7 & _) end. cbn [bind].
  match goal with |- context [walk3 ?f (b2_x s) ?y ?z] =>
    destruct (walk3_ok f (b2_x s) y z ltac:(lia) ltac:(lia)) as (x' & -> & L8 & _) end. cbn [bind].
  match goal with |- context [walk3 ?f y' ?y ?z] =>
    destruct (walk3_ok f y' y z ltac:(lia) ltac:(lia)) as (r & -> & L9 & _) end. cbn [bind].
  rewrite (inner_ok n) by (auto; lia). cbn. exact I.
Qed.

Definition b2_start : b2_state :=
  let o := repeat 0 (length b) in mkB2 o b o o o (Ok o) o (Ok 0) (dot n (ix b) (ix b)).

Lemma b2_run (st : nat -> b2_state) N : st 0%nat = b2_start ->
  (forall j, (j < N)%nat -> b2_step A b j (st j) = Ok (st (S j))) ->
  (forall j, (j <= N)%nat -> b2_ok j b (st j)) /\
  exists c, forall j, (j < N)%nat -> b2_facts b j (st j) (st (S j)) (c j).
Proof.
  intros E0 Hst.
  assert (O : forall j, (j <= N)%nat -> b2_ok j b (st j)).
  { induction j as [|j IH]; intros Hj.
    - rewrite E0. unfold b2_ok, b2_start; cbn [b2_beta b2_w b2_rr b2_r okd]. splits; auto.
      + unfold b2_inv; cbn. rewrite Hb. splits; auto using repeat_length.
        * intros v Ev. injection Ev as <-. apply repeat_length.
        * intros i Hi. now rewrite residual_0_b.
        * intros bk wk E1 E2. injection E1 as <-. injection E2 as <-. intros i Hi. rewrite ix_repeat.
          rewrite (matvec_ext n _ _ (fun _ => 0)), matvec_0 by (intros; apply ix_repeat). ring.
      + now rewrite repeat_length.
    - apply (b2_step_facts b j (st j)); auto; apply IH; lia. }
  split; auto. apply (finite_choice (0, 0, 0) (fun k c => b2_facts b k (st k) (st (S k)) c)). intros k Hk.
  apply (b2_step_facts b k (st k)); auto. apply O; lia.
Qed.

Lemma b2_terminates (st : nat -> b2_state) : st 0%nat = b2_start ->
  (forall j, (j < S n)%nat -> b2_step A b j (st j) = Ok (st (S j))) ->
  agree n (ix (b2_r (st n))) (fun _ => 0).
Proof.
  intros E0 Hst. destruct (b2_run st (S n) E0 Hst) as [O [c Hc]].
  set (al := fun k => fst (fst (c k))). set (ze := fun k => snd (fst (c k))). set (et := fun k => snd (c k)).
  assert (F : forall k, (k < S n)%nat -> b2_facts b k (st k) (st (S k)) (al k, ze k, et k)).
  { intros k Hk. unfold al, ze, et. rewrite <- !surjective_pairing. now apply Hc. }
  set (be := fun k => match b2_beta (st (S k)) with Ok v => v | Fail _ => 0 end).
  set (rho := fun k => dot n (ix b) (ix (b2_r (st k)))).
  assert (Rho : forall k, (k <= S n)%nat -> b2_rr (st k) = rho k) by (intros; now apply O).
  set (H := H Am ze et). set (G := G Am ze et). set (g := g Am al be (ix b) (ix b)). set (h := h Am al be (ix b) (ix b)).
  assert (HB : forall k u, H k (Am u) = Am (H k u)) by (intros; apply H_B, Am_lin).
  assert (GBt : forall k u, G k (Am u) = Am (G k u)) by (intros; apply G_B, Am_lin).
  assert (HL : forall k x u y v, H k (lc x u y v) = lc x (H k u) y (H k v)) by (intros; apply H_lin, Am_lin).
  assert (GL : forall k x u y v, G k (lc x u y v) = lc x (G k u) y (G k v)) by (intros; apply G_lin, Am_lin).
  assert (HS : forall k u i, H (S k) u i = H k u i - Am (G k u) i).
  { intros. unfold H. rewrite H_S. unfold lc. unfold G. ring. }
  assert (GS : forall k u i, G (S k) u i = ze (S k) * H (S k) u i + et (S k) * G k u i).
  { intros. unfold G. rewrite G_S. reflexivity. }
  assert (G0 : forall u i, G 0%nat u i = ze 0%nat * u i).
  { intros. unfold G, BicgMath.G; cbn. unfold lc. ring. }
  assert (gS : forall k i, g (S k) i = g k i - al k * Am (h k) i).
  { intros. unfold g. rewrite g_S. unfold lc. unfold h. ring. }
  assert (hS : forall k i, h (S k) i = g (S k) i + be k * h k i).
  { intros. unfold h. rewrite h_S. unfold lc, g. ring. }
  assert (Hg : forall k m i, H m (g (S k)) i = H m (g k) i - al k * Am (H m (h k)) i).
  { intros. unfold g. rewrite g_S, HL, HB. unfold lc, h, g. ring. }
  assert (Gg : forall k m i, G m (g (S k)) i = G m (g k) i - al k * Am (G m (h k)) i).
  { intros. unfold g. rewrite g_S, GL, GBt. unfold lc, h, g. ring. }
  assert (Hh : forall k m i, H m (h (S k)) i = H m (g (S k)) i + be k * H m (h k) i).
  { intros. unfold h. rewrite h_S, HL. unfold lc, h, g. ring. }
  assert (Gh : forall k m i, G m (h (S k)) i = G m (g (S k)) i + be k * G m (h k) i).
  { intros. unfold h. rewrite h_S, GL. unfold lc, h, g. ring. }
  (* A applied to pointwise combinations *)
  assert (AL : forall u v w x y i, (forall j, (j < n)%nat -> u j = x * v j + y * w j) -> Am u i = x * Am v i + y * Am w i).
  { intros u v w x y i E. rewrite (Am_ext u (lc x v y w)) by exact E. rewrite Am_lin. reflexivity. }
  set (Inv := fun k => agree n (ix (b2_r (st k))) (H k (g k)) /\
    (k <> 0%nat -> exists j, k = S j /\
      agree n (ix (b2_p (st k))) (H j (h j)) /\ agree n (ix (b2_t (st k))) (H j (g k)) /\
      agree n (ix (b2_u (st k))) (Am (G j (h j))))).
  assert (P : forall k, (k < S n)%nat -> Inv k -> agree n (ix (b2_p (st (S k)))) (H k (h k)) /\ Inv (S k)).
  { intros k Hk [Ir Iv]. destruct (F k Hk) as (bk & Ebk & Fp & Fa & Ft & (Fr & _ & _) & Fu & Fe & _).
    assert (Vp : agree n (ix (b2_p (st (S k)))) (H k (h k))).
    { destruct k as [|j].
      - rewrite E0 in Ebk. cbn in Ebk. injection Ebk as <-. intros i Hi. rewrite Fp, Ir by auto. unfold H, BicgMath.H, g, h; cbn. ring.
      - destruct (Iv ltac:(lia)) as (j' & Ej & Ip & It & Iu). injection Ej as <-.
        assert (Eb : bk = be j) by (unfold be; now rewrite Ebk). subst bk.
        intros i Hi. rewrite Fp, Ip, Ir, Iu by auto. rewrite Hh, !HS. ring. }
    rewrite (Am_ext _ _ Vp) in Ft.
    assert (Vt : agree n (ix (b2_t (st (S k)))) (H k (g (S k)))).
    { intros i Hi. rewrite Ft, Hg by auto. unfold lc. rewrite Ir by auto. ring. }
    rewrite (Am_ext _ _ Vt) in Fr.
    split; auto. split.
    - intros i Hi. rewrite Fr, Vt by auto. rewrite HS. unfold b2_y. rewrite (Am_ext _ _ Vp).
      destruct k as [|j].
      + rewrite Fe by auto. rewrite (AL (G 0%nat (g 1%nat)) (H 0%nat (g 1%nat)) (g 0%nat) (ze 0%nat) 0) by (intros; rewrite G0; unfold H, BicgMath.H; cbn; ring). ring.
      + destruct (Iv ltac:(lia)) as (j' & Ej & Ip & It & Iu). injection Ej as <-.
        assert (Eb : bk = be j) by (unfold be; now rewrite Ebk). subst bk.
        rewrite (Am_ext _ _ Ip), (Am_ext _ _ It). rewrite It, Ir by auto.
        rewrite (AL (G (S j) (g (S (S j)))) (H (S j) (g (S (S j)))) (G j (g (S (S j)))) (ze (S j)) (et (S j))) by (intros; apply GS).
        assert (Y : H j (g (S j)) i - H (S j) (g (S j)) i - al (S j) * (Am (H j (g (S j))) i + be j * Am (H j (h j)) i)
                    + al (S j) * Am (H (S j) (h (S j))) i = Am (G j (g (S (S j)))) i).
        { rewrite (AL (G j (g (S (S j)))) (G j (g (S j))) (Am (G j (h (S j)))) 1 (- al (S j))) by (intros; rewrite Gg; ring).
          rewrite (AL (H (S j) (h (S j))) (H j (h (S j))) (Am (G j (h (S j)))) 1 (-1)) by (intros; rewrite HS; ring).
          rewrite (AL (H j (h (S j))) (H j (g (S j))) (H j (h j)) 1 (be j)) by (intros; rewrite Hh; ring).
          rewrite HS. ring. }
        rewrite Y. ring.
    - intros _. exists k. split; auto. split; auto. split; auto.
      intros i Hi. rewrite Fu by auto. rewrite (Am_ext _ _ Vp).
      destruct k as [|j].
      + rewrite Fe by auto. rewrite (AL (G 0%nat (h 0%nat)) (H 0%nat (h 0%nat)) (h 0%nat) (ze 0%nat) 0) by (intros; rewrite G0; unfold H, BicgMath.H; cbn; ring). ring.
      + destruct (Iv ltac:(lia)) as (j' & Ej & Ip & It & Iu). injection Ej as <-.
        assert (Eb : bk = be j) by (unfold be; now rewrite Ebk). subst bk.
        rewrite It, Ir, Iu by auto. rewrite (AL (G (S j) (h (S j))) (H (S j) (h (S j))) (G j (h (S j))) (ze (S j)) (et (S j))) by (intros; apply GS).
        rewrite (AL (G j (h (S j))) (G j (g (S j))) (G j (h j)) 1 (be j)) by (intros; rewrite Gh; ring).
        rewrite HS. ring. }
  assert (M : forall k, (k <= n)%nat -> Inv k).
  { induction k as [|k IH]; intros Hk.
    - split; [|lia]. rewrite E0. intros i Hi. reflexivity.
    - apply P; [lia|]. apply IH. lia. }
  assert (Ml : forall k, (k <= n)%nat -> rho k = l n (ix b) (H k (g k))).
  { intros k Hk. unfold rho, l. apply dot_ext; auto. now apply M. }
  assert (Fb : forall k, (k < n)%nat -> ze k <> 0 /\ rho k <> 0 /\ be k * (ze k * rho k) = al k * rho (S k)).
  { intros k Hk. destruct (F k ltac:(lia)) as (_ & _ & _ & _ & _ & _ & _ & _ & Hbk).
    destruct (F (S k) ltac:(lia)) as (bk & Ebk & _). unfold be. rewrite Ebk. rewrite <- !Rho by lia. now apply Hbk. }
  intros i Hi. rewrite (proj1 (M n ltac:(lia))) by auto.
  apply (bicg_terminates n Am Am_lin Am_ext (ix b) al be ze et (ix b) (ix b) n); auto.
  - intros k Hk. fold H g h. rewrite <- Ml by lia. unfold l.
    destruct (F k ltac:(lia)) as (_ & _ & _ & E & _). rewrite <- Rho by lia. rewrite <- E.
    f_equal. f_equal. apply Am_ext. intros j Hj. symmetry. apply P; auto; try lia. apply M. lia.
  - intros k Hk. fold H g h. rewrite <- !Ml by lia. now apply Fb.
  - intros k Hk. now apply Fb.
  - intros k Hk. fold H g h. rewrite <- Ml by lia. now apply Fb.
Qed.

Lemma bicgstab2_terminates itrmax eps : 0 < eps -> (n < itrmax)%nat ->
  okd (fun cx => fst cx = true) (bicgstab2 A b itrmax eps).
Proof.
  intros He Hn. unfold bicgstab2. destruct (start_ok n A b HA Hb) as (Ax & EAx & Eb).
  rewrite EAx. cbn [bind]. rewrite Eb. cbn [bind].
  rewrite (inner_ok n) by auto. cbn [bind]. fold b2_start.
  destruct (iterate_trace (b2_step A b) (fun s => converged eps b (b2_r s)) itrmax 0 b2_start) as (st & E0 & Hst).
  destruct (iterate _ _ _ _ _) as [[[|] s]|e]; cbn [bind okd].
  - reflexivity.
  - exfalso. assert (Z : agree n (ix (b2_r (st n))) (fun _ => 0)).
    { apply (b2_terminates st); auto. intros j Hj. apply Hst. lia. }
    destruct (b2_run st n E0) as [O _]; [intros; apply Hst; lia|].
    destruct Hnb as (i0 & Hi0 & _). destruct n as [|n'] eqn:En; [lia|].
    destruct (Hst n' ltac:(lia)) as [_ D]. rewrite <- En in *. apply (not_converged_nonzero n b Hb) in D; auto.
    + destruct D as (i & Hi & Ni). apply Ni, Z. auto.
    + destruct (O n ltac:(lia)) as ((_ & L & _) & _). exact L.
  - destruct Hst as (m & Hm & Hs & Hf).
    destruct (b2_run st m E0) as [O _]; [intros; now apply Hs|].
    assert (T := b2_step_total b m (st m) Hb (O m ltac:(lia))).
    destruct Hf as [Hf|(s' & Hf & Hd)]; [cbn in Hf; rewrite Hf in T; exact T|].
    destruct (b2_step_facts b m (st m) s' Hb (O m ltac:(lia)) Hf) as [((_ & L & _) & _) _].
    destruct (converged_total n eps b (b2_r s') Hb L) as [d Ed]. rewrite Hd in Ed. discriminate.
Qed.
End Run.
