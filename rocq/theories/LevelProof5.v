(** One pass of the loop. *)
From Coq Require Import List Arith Lia Bool Reals Lra.
From Verif Require Import Res SumR DenseModel DenseR DenseSpec ShapeModel QuadModel QuadSpec ElemModel ElemSpec SparseModel SparseSpec AssemblyModel AssemblySpec KrylovSpec PatchSpec StableSpec GenModel GenSpec ThetaModel ThetaSpec TopModel TopSpec LevelModel LevelSpec.
From Verif Require Import DenseProof DenseMain SparseProof AssemblyProof AssemblyProof2 AssemblyProof3 ElemProof ElemProof2 ElemMain HomMain KrylovProof PatchProof StableProof StableProof2 StableProof3 StableProof4 GenMain ThetaProof ThetaProof3 ThetaProof4 ThetaProof5 TopProof TopProof2 TopProof3 TopProof4 TopProof5 LanczosProof LevelProof LevelProof2 LevelProof3 LevelProof4.
Import ListNotations.
Local Open Scope R_scope.

Lemma bits_shares l tmax st : level_state l tmax st -> shares l (ls_str st).
Proof. intros H. split; [apply (lz_str _ _ _ H)|]. intros i Hi. destruct (lz_bit _ _ _ H i Hi) as [-> | ->]; lra. Qed.

Section Pass.
Variables (solve : csr R -> list R -> res (list R)) (l : level).
Hypothesis (HS : spd_solver solve) (HL : level_ok l).
Variables (u1 : list (list R)) (t : table) (n : nat).
Hypothesis (TB : tables (level_top l) u1 t n).
Let N := length (lv_x l).

Lemma free_num i j : num t i j <> None <-> free_dof l i j.
Proof.
  rewrite (tb_none _ _ _ _ TB). unfold free_dof, fixed_in. cbn [tp_ufixed tp_x level_top]. split.
  - intros H. destruct (Nat.lt_ge_cases i (length (lv_x l))) as [A|A]; [|exfalso; apply H; right; lia]. destruct (Nat.lt_ge_cases j 2) as [B|B]; [|exfalso; apply H; right; lia]. split; auto. split; auto. intros v Hv. apply H. left. eauto.
  - intros (A & B & C) [[v Hv]|H]; [exact (C v Hv)|apply H; auto].
Qed.
Lemma zero_num i j : num t i j = None <-> ~ free_dof l i j.
Proof. rewrite <- free_num. destruct (num t i j); split; intros H; try congruence; try reflexivity; try (intros X; apply X; reflexivity); exfalso; apply H; congruence. Qed.

Definition unloaded : Prop := forall i j, free_dof l i j -> nodal_load (lv_qfixed l) i j = 0.
Lemma bits_zero str u : shares l str -> (forall i j, num t i j = None -> uval u i j = 0) -> (forall i j, num t i j <> None -> internal_force (kels l str) u i j = nodal_load (lv_qfixed l) i j) ->
  (unloaded <-> forall i j, uval u i j = 0).
Proof.
  intros SH HF HE. split.
  - intros HU. assert (V : sum_over (kels l str) (fun e => bil e (e_dofs e) (uval u) (uval u)) = 0).
    { rewrite (es_virtual (kels l str) [] t n u (uval u) (tb_num _ _ _ _ TB) HF); [reflexivity|]. intros i j H. rewrite (HE i j H), (HU i j); [reflexivity|now apply free_num]. }
    apply (no_energy l (smod l str) (lv_nu l) t n u1 (uval u) HL TB).
    + intros i Hi. now apply smod_pos.
    + pose proof (lk_poisson l HL). lra.
    + exact HF.
    + intros i Hi. assert (HI : In (lelem l (smod l str i) (lv_nu l) (lel l i)) (kels l str)) by (unfold kels; apply in_map_iff; exists i; split; auto; apply in_seq; lia).
      rewrite <- bil_energy. apply (sum_zero_each (kels l str) (fun e => bil e (e_dofs e) (uval u) (uval u))); auto. intros e He. rewrite bil_energy.
      unfold kels in He. apply in_map_iff in He. destruct He as (i' & <- & Hi'). apply in_seq in Hi'. pose proof (lk_poisson l HL). apply lenergy; [auto|apply lel_in; lia|apply smod_pos; auto; lia|lra].
  - intros HU i j Hf. rewrite <- (HE i j); [|now apply free_num]. unfold internal_force. apply AssemblyProof.sum_zero. intros e He. apply AssemblyProof.sum_zero. intros a Ha.
    rewrite AssemblyProof.sum_zero; [destruct (at_dof i j a); reflexivity|]. intros b Hb. unfold duval. rewrite HU. ring.
Qed.

Lemma sums_abs tdn : (forall k, (k < N)%nat -> 0 <= uval tdn k 0) -> nodal_abs l tdn = nodal_sum l tdn /\ 0 <= nodal_sum l tdn.
Proof.
  intros H. split; [apply bigsum_ext; intros k Hk; apply Rabs_right, Rle_ge, H, Hk|]. apply bigsum_nonneg. exact H.
Qed.
Lemma tdn_facts str u tdn : shares l str -> (forall i j, num t i j = None -> uval u i j = 0) -> (forall i j, num t i j <> None -> internal_force (kels l str) u i j = nodal_load (lv_qfixed l) i j) ->
  (forall k, (k < N)%nat -> uval tdn k 0 = mean_with 0 (received 0 (tds l str (uval u)) (lv_elements l) k)) ->
  (forall k, (k < N)%nat -> 0 <= uval tdn k 0) /\ (nodal_sum l tdn = 0 <-> unloaded).
Proof.
  intros SH HF HE HM. assert (P : forall k, (k < N)%nat -> 0 <= uval tdn k 0) by (intros k Hk; rewrite HM by auto; apply mean_nonneg; intros x Hx; now apply (received_nonneg l str (uval u) k)).
  split; [exact P|]. rewrite (bits_zero str u SH HF HE). split.
  - intros H0. apply (no_energy l (fun _ => cE l) (cc l) t n u1 (uval u) HL TB).
    + intros _ _. apply (cpos l HL).
    + apply (cpos l HL).
    + exact HF.
    + intros i Hi. destruct (td_nonneg l str (uval u) i HL SH Hi) as (W & D & _). fold (tel l i). destruct (Req_dec (denergy (tel l i) (uval u)) 0) as [Z|Z]; [exact Z|exfalso].
      assert (PT : 0 < tdv l str (uval u) i) by (apply Rmult_lt_0_compat; lra). pose proof (lel_in l i Hi) as Hel. pose proof (el_nonempty l _ HL Hel) as NE.
      destruct (lel l i) as [|k el] eqn:EL; [congruence|]. assert (Hk : (k < N)%nat) by (apply (lk_nodes l HL (lel l i)); [rewrite EL; exact Hel|rewrite EL; now left]).
      assert (X : 0 < uval tdn k 0).
      { rewrite HM by auto. apply (mean_positive _ (tdv l str (uval u) i)); [intros x Hx; now apply (received_nonneg l str (uval u) k)| |exact PT]. rewrite <- nth_tds by auto. apply in_received; [exact Hi|]. fold (lel l i). rewrite EL. now left. }
      enough (0 < nodal_sum l tdn) by lra. unfold nodal_sum. apply (bigsum_pos _ _ k P Hk X).
  - intros HU. unfold nodal_sum. apply bigsum_zero. intros k Hk. rewrite HM by auto. apply mean_zero. intros x Hx. apply received_in in Hx. destruct Hx as (i & Hi & _ & ->). rewrite nth_tds by auto. unfold tdv, denergy.
    rewrite AssemblyProof.sum_zero; [ring|]. intros a Ha. apply AssemblyProof.sum_zero. intros b Hb. rewrite HU. ring.
Qed.

(** the test of convergence *)
Definition near5 (hist : list R) (tt : nat) : Prop := forall k, (1 <= k <= 5)%nat -> Rabs (nth tt hist 0 - nth (tt - k) hist 0) < 1/100 * Rabs (nth tt hist 0).
Lemma near_value hist tt k : (tt < length hist)%nat -> (k <= tt)%nat -> lv_near hist tt k = Ok (if Rlt_dec (Rabs (nth tt hist 0 - nth (tt - k) hist 0)) (1/100 * Rabs (nth tt hist 0)) then true else false).
Proof. intros H Hk. unfold lv_near. rewrite (rd_nth hist tt 0) by lia. cbn [bind]. destruct (Nat.ltb_spec tt k); [lia|]. rewrite (rd_nth hist (tt - k) 0) by lia. reflexivity. Qed.
Definition testing (tt : nat) (vol : R) : Prop := lv_nvol l < INR tt /\ Rabs (vol - lv_Vmax l) < 5/1000.
Lemma testing_dec tt vol : testing tt vol \/ ~ testing tt vol.
Proof. unfold testing. destruct (Rlt_dec (lv_nvol l) (INR tt)), (Rlt_dec (Rabs (vol - lv_Vmax l)) (5/1000)); tauto. Qed.
Lemma converged_off hist tt vol : ~ testing tt vol -> lv_converged l hist tt vol = Ok false.
Proof. intros H. unfold lv_converged. destruct (Rlt_dec _ _); auto. destruct (Rlt_dec _ _); auto. exfalso. apply H. split; auto. Qed.
Lemma converged_early hist tt vol : testing tt vol -> (tt < length hist)%nat -> (tt < 5)%nat -> lv_converged l hist tt vol = Fail OutOfBounds.
Proof.
  intros [A B] H H5. unfold lv_converged. destruct (Rlt_dec _ _); [|contradiction]. destruct (Rlt_dec _ _); [|contradiction]. cbn [foldM]. unfold lv_near at 1. rewrite (rd_nth hist tt 0) by lia. cbn [bind]. destruct (Nat.ltb_spec tt 5); [reflexivity|lia].
Qed.
Lemma converged_late hist tt vol : testing tt vol -> (tt < length hist)%nat -> (5 <= tt)%nat -> exists b, lv_converged l hist tt vol = Ok b /\ (b = true <-> near5 hist tt).
Proof.
  intros [A B] H H5. unfold lv_converged. destruct (Rlt_dec _ _); [|contradiction]. destruct (Rlt_dec _ _); [|contradiction]. clear A B.
  assert (G : forall ks b, (forall k, In k ks -> (1 <= k <= 5)%nat) -> exists b', foldM (fun (b : bool) k => if b then lv_near hist tt k else Ok false) ks b = Ok b' /\ (b' = true <-> b = true /\ forall k, In k ks -> Rabs (nth tt hist 0 - nth (tt - k) hist 0) < 1/100 * Rabs (nth tt hist 0))).
  { induction ks as [|k ks IH]; intros b Hk; cbn [foldM]; [exists b; split; auto; split; [intros X; split; auto; intros k []|tauto]|].
    assert (Hk1 : (1 <= k <= 5)%nat) by (apply Hk; now left). destruct b.
    - rewrite near_value by lia. cbn [bind]. destruct (IH (if Rlt_dec (Rabs (nth tt hist 0 - nth (tt - k) hist 0)) (1/100 * Rabs (nth tt hist 0)) then true else false)) as (b' & E & X); [intros k' Hk'; apply Hk; now right|]. exists b'. split; [exact E|]. rewrite X. destruct (Rlt_dec _ _) as [Y|Y].
      + split; intros [_ Z]; split; auto; [intros k' [<-|Hk']; auto|intros k' Hk'; apply Z; now right].
      + split; [intros [Z _]; discriminate Z|]. intros [_ Z]. exfalso. apply Y, Z. now left.
    - cbn [bind]. destruct (IH false) as (b' & E & X); [intros k' Hk'; apply Hk; now right|]. exists b'. split; [exact E|]. rewrite X. split; intros [Z _]; discriminate Z. }
  destruct (G [5; 4; 3; 2; 1]%nat true) as (b & E & X); [cbn [In]; intros k; lia|]. exists b. split; [exact E|]. rewrite X. unfold near5. split; [intros [_ Y] k Hk; apply Y; cbn [In]; lia|]. intros Y. split; auto. intros k Hk. apply Y. cbn [In] in Hk. lia.
Qed.

(** ** The pass *)
Definition hist' (st : lv_state) (tt : nat) (o : R) : list R := upd (ls_obj st) tt (nth tt (ls_obj st) 0 + o).
Record analysed (str : list R) (u tdn : list (list R)) (obj : R) : Prop := mkAna {
  an_obj : obj = bigsum (nle l) (fun i => denergy (kel l str i) (uval u));
  an_run : lv_analysis solve l str = Ok (mkLv u obj (map (fun x => [x]) (tds l str (uval u))) tdn);
  an_len : length u = length (lv_x l);
  an_in : forall i j, in_table u i j <-> (i < length (lv_x l))%nat /\ (j < 2)%nat;
  an_fix : forall i j, num t i j = None -> uval u i j = 0;
  an_eq : forall i j, num t i j <> None -> internal_force (kels l str) u i j = nodal_load (lv_qfixed l) i j;
  an_field : nodal_field l tdn;
  an_mean : forall k, (k < N)%nat -> uval tdn k 0 = mean_with 0 (received 0 (tds l str (uval u)) (lv_elements l) k) }.
Lemma analysed_exists str : shares l str -> exists u tdn obj, analysed str u tdn obj.
Proof.
  intros SH. destruct (analysis_value solve l str u1 t n HS HL SH TB) as (u & tdn & E & _ & L & I1 & F1 & E1 & NF & M). exists u, tdn, (bigsum (nle l) (fun i => denergy (kel l str i) (uval u))). split; auto.
Qed.
Definition step_rest (vi : R) (tt : nat) (st : lv_state) (tdn : list (list R)) (h : list R) : res (bool * lv_state) :=
  C <- Rdiv_res (INR (nle l)) (nodal_sum l tdn) ;;
  phi <- lv_diffuse solve l tdn C (multiplier l tdn (volume l (ls_str st)) (target l vi tt)) (ls_phi st) ;;
  phi <- lv_clamp l phi ;;
  str <- lv_structure l phi (ls_str st) ;;
  Ok (false, mkLs h phi str).
Lemma pass_eq vi tt tmax st u tdn obj : 0 <= vi -> level_state l tmax st -> (tt < tmax)%nat -> analysed (ls_str st) u tdn obj ->
  lv_pass solve l vi tt st = (stop <- lv_converged l (hist' st tt obj) tt (volume l (ls_str st)) ;; if stop then Ok (true, mkLs (hist' st tt obj) (ls_phi st) (ls_str st)) else step_rest vi tt st tdn (hist' st tt obj)).
Proof.
  intros Hv HZ Ht HA. pose proof (bits_shares _ _ _ HZ) as SH. unfold lv_pass. rewrite (an_run _ _ _ _ HA). cbn [bind lr_obj lr_tdn]. rewrite (rd_nth (ls_obj st) tt 0) by (rewrite (lz_obj _ _ _ HZ); lia). cbn [bind]. rewrite wr_Ok by (rewrite (lz_obj _ _ _ HZ); lia). cbn [bind]. fold (hist' st tt obj).
  rewrite (volume_value l _ HL (lz_str _ _ _ HZ)). cbn [bind]. rewrite (target_value l vi tt HL). cbn [bind]. rewrite (lambda_value l tdn _ _ HL (an_field _ _ _ _ HA)) by (pose proof (target_pos l vi tt HL Hv); lra). cbn [bind].
  destruct (lv_converged _ _ _ _) as [[|]|]; cbn [bind]; auto. unfold step_rest. rewrite (scale_value l tdn (an_field _ _ _ _ HA)).
  destruct (tdn_facts (ls_str st) u tdn SH (an_fix _ _ _ _ HA) (an_eq _ _ _ _ HA) (an_mean _ _ _ _ HA)) as [P _]. destruct (sums_abs tdn P) as [-> _]. reflexivity.
Qed.

(** what a pass that does not stop does to the level set function and the structure *)
Record updated (vi : R) (tt : nat) (st st' : lv_state) (tdn : list (list R)) : Prop := mkUpd {
  up_steps : exists phi0 phi1 esM esK, lv_diffuse solve l tdn (INR (nle l) / nodal_sum l tdn) (multiplier l tdn (volume l (ls_str st)) (target l vi tt)) (ls_phi st) = Ok phi1 /\
    zero_edge l (ls_phi st) phi0 /\ nodal_field l phi1 /\ diffusion_elems l tdn (INR (nle l) / nodal_sum l tdn) (multiplier l tdn (volume l (ls_str st)) (target l vi tt)) esM esK /\
    (forall i, (i < N)%nat -> ~ free_node l i -> uval phi1 i 0 = 0) /\ (forall i, free_node l i -> theta_balance esM esK (lv_dt l) 1 phi0 phi1 i 0) /\
    (forall psi, nodal_field l psi -> (forall i, (i < N)%nat -> ~ free_node l i -> uval psi i 0 = 0) ->
       ((forall i, free_node l i -> theta_balance esM esK (lv_dt l) 1 phi0 psi i 0) -> psi = phi1) /\ step_energy esM esK (lv_dt l) phi0 phi1 <= step_energy esM esK (lv_dt l) phi0 psi) /\
    (forall i, (i < N)%nat -> uval (ls_phi st') i 0 = clamped (uval phi1 i 0));
  up_field : nodal_field l (ls_phi st');
  up_edge : forall i, (i < N)%nat -> ~ free_node l i -> uval (ls_phi st') i 0 = 0;
  up_len : length (ls_str st') = nle l;
  up_str : forall i, (i < nle l)%nat -> nth i (ls_str st') 0 = if Rlt_dec (el_mean l (ls_phi st') i) 0 then 0 else 1 }.
Lemma rest_value vi tt tmax st u tdn obj h : level_state l tmax st -> analysed (ls_str st) u tdn obj -> ~ unloaded ->
  exists phi str, step_rest vi tt st tdn h = Ok (false, mkLs h phi str) /\ updated vi tt st (mkLs h phi str) tdn.
Proof.
  intros HZ HA HU. pose proof (bits_shares _ _ _ HZ) as SH.
  destruct (tdn_facts (ls_str st) u tdn SH (an_fix _ _ _ _ HA) (an_eq _ _ _ _ HA) (an_mean _ _ _ _ HA)) as [P Q]. assert (NZ : nodal_sum l tdn <> 0) by tauto.
  unfold step_rest, Rdiv_res. destruct (Req_EM_T _ 0) as [Z|_]; [contradiction|]. cbn [bind]. set (C := INR (nle l) / nodal_sum l tdn). set (lam := multiplier l tdn _ _).
  destruct (diffuse_value solve l tdn C lam HS HL (an_field _ _ _ _ HA) (ls_phi st) (lz_phi _ _ _ HZ)) as (phi0 & phi1 & esM & esK & E1 & ZE & NF & DE & ZF & BA & UN). rewrite E1. cbn [bind].
  destruct (clamp_value l phi1 NF) as (phi2 & E2 & NF2 & CV). rewrite E2. cbn [bind].
  destruct (structure_value l phi2 (ls_str st) HL NF2 (lz_str _ _ _ HZ)) as (str & E3 & L3 & V3). rewrite E3. cbn [bind].
  exists phi2, str. split; [reflexivity|]. split; cbn [ls_phi ls_str]; auto.
  - exists phi0, phi1, esM, esK. fold C lam. split; [exact E1|]. split; [exact ZE|]. split; [exact NF|]. split; [exact DE|]. split; [exact ZF|]. split; [exact BA|]. split; [exact UN|]. exact CV.
  - intros i Hi Hf. rewrite (CV i Hi), (ZF i Hi Hf). unfold clamped, Rmax, Rmin. destruct (Rle_dec 1 0); [lra|]. destruct (Rle_dec 0 (-1)); lra.
Qed.
Lemma updated_state vi tt tmax st h phi str tdn : length h = tmax -> updated vi tt st (mkLs h phi str) tdn -> level_state l tmax (mkLs h phi str).
Proof.
  intros HH HU. split; cbn [ls_obj ls_phi ls_str]; auto.
  - apply (up_field _ _ _ _ _ HU).
  - intros i Hi. destruct (up_steps _ _ _ _ _ HU) as (phi0 & phi1 & esM & esK & _ & _ & _ & _ & _ & _ & _ & CV). cbn [ls_phi] in CV. rewrite (CV i Hi). apply clamped_range.
  - apply (up_len _ _ _ _ _ HU).
  - intros i Hi. pose proof (up_str _ _ _ _ _ HU i Hi) as X. cbn [ls_str] in X. rewrite X. destruct (Rlt_dec _ _); auto.
Qed.
Lemma hist_len st tt o : length (hist' st tt o) = length (ls_obj st).
Proof. apply upd_length. Qed.

Lemma pass_cases vi tt tmax st u tdn obj : 0 <= vi -> level_state l tmax st -> (tt < tmax)%nat -> analysed (ls_str st) u tdn obj ->
  (testing tt (volume l (ls_str st)) /\ (tt < 5)%nat /\ lv_pass solve l vi tt st = Fail OutOfBounds) \/
  (testing tt (volume l (ls_str st)) /\ (5 <= tt)%nat /\ near5 (hist' st tt obj) tt /\ lv_pass solve l vi tt st = Ok (true, mkLs (hist' st tt obj) (ls_phi st) (ls_str st))) \/
  ((testing tt (volume l (ls_str st)) -> (5 <= tt)%nat /\ ~ near5 (hist' st tt obj) tt) /\ unloaded /\ lv_pass solve l vi tt st = Fail DivByZero) \/
  ((testing tt (volume l (ls_str st)) -> (5 <= tt)%nat /\ ~ near5 (hist' st tt obj) tt) /\ ~ unloaded /\
     exists phi str, lv_pass solve l vi tt st = Ok (false, mkLs (hist' st tt obj) phi str) /\ updated vi tt st (mkLs (hist' st tt obj) phi str) tdn).
Proof.
  intros Hv HZ Ht HA. rewrite (pass_eq vi tt tmax st u tdn obj Hv HZ Ht HA). pose proof (bits_shares _ _ _ HZ) as SH.
  assert (LH : (tt < length (hist' st tt obj))%nat) by (rewrite hist_len, (lz_obj _ _ _ HZ); exact Ht).
  destruct (tdn_facts (ls_str st) u tdn SH (an_fix _ _ _ _ HA) (an_eq _ _ _ _ HA) (an_mean _ _ _ _ HA)) as [P Q].
  assert (REST : (testing tt (volume l (ls_str st)) -> (5 <= tt)%nat /\ ~ near5 (hist' st tt obj) tt) -> lv_converged l (hist' st tt obj) tt (volume l (ls_str st)) = Ok false ->
    ((testing tt (volume l (ls_str st)) -> (5 <= tt)%nat /\ ~ near5 (hist' st tt obj) tt) /\ unloaded /\ (stop <- lv_converged l (hist' st tt obj) tt (volume l (ls_str st)) ;; if stop then Ok (true, mkLs (hist' st tt obj) (ls_phi st) (ls_str st)) else step_rest vi tt st tdn (hist' st tt obj)) = Fail DivByZero) \/
    ((testing tt (volume l (ls_str st)) -> (5 <= tt)%nat /\ ~ near5 (hist' st tt obj) tt) /\ ~ unloaded /\
     exists phi str, (stop <- lv_converged l (hist' st tt obj) tt (volume l (ls_str st)) ;; if stop then Ok (true, mkLs (hist' st tt obj) (ls_phi st) (ls_str st)) else step_rest vi tt st tdn (hist' st tt obj)) = Ok (false, mkLs (hist' st tt obj) phi str) /\ updated vi tt st (mkLs (hist' st tt obj) phi str) tdn)).
  { intros A B. rewrite B. cbn [bind]. destruct (Req_dec (nodal_sum l tdn) 0) as [Z|Z].
    - left. split; [exact A|]. split; [tauto|]. unfold step_rest, Rdiv_res. destruct (Req_EM_T _ 0); [reflexivity|contradiction].
    - right. split; [exact A|]. split; [tauto|]. apply (rest_value vi tt tmax st u tdn obj _ HZ HA). tauto. }
  destruct (testing_dec tt (volume l (ls_str st))) as [T|T].
  - destruct (Nat.lt_ge_cases tt 5) as [H5|H5].
    + left. split; auto. split; auto. now rewrite (converged_early _ _ _ T LH H5).
    + destruct (converged_late _ _ _ T LH H5) as ([|] & E & X).
      * right. left. split; auto. split; auto. split; [tauto|]. now rewrite E.
      * right. right. apply REST; auto. intros _. split; auto. intros Y. apply X in Y. discriminate Y.
  - right. right. apply REST; [contradiction|]. now apply converged_off.
Qed.
End Pass.
