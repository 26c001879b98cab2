(** The whole loop; scaled loads. *)
From Coq Require Import List Arith Lia Bool Reals Lra.
From Verif Require Import Res SumR DenseModel DenseR DenseSpec ShapeModel QuadModel QuadSpec ElemModel ElemSpec SparseModel SparseSpec AssemblyModel AssemblySpec KrylovSpec PatchSpec StableSpec LoadSpec GenModel GenSpec ThetaModel ThetaSpec TopModel TopSpec LevelModel LevelSpec.
From Verif Require Import DenseProof DenseMain SparseProof AssemblyProof AssemblyProof2 AssemblyProof3 ElemProof ElemProof2 ElemMain HomMain ElemProof3 LoadProof KrylovProof PatchProof StableProof StableProof2 StableProof3 StableProof4 GenMain ThetaProof ThetaProof3 ThetaProof4 ThetaProof5 TopProof TopProof2 TopProof3 TopProof4 TopProof5 LanczosProof LevelProof LevelProof2 LevelProof3 LevelProof4 LevelProof5.
Import ListNotations.
Local Open Scope R_scope.

Lemma mean_el_zero l phi i : (forall k, In k (lel l i) -> uval phi k 0 = 0) -> el_mean l phi i = 0.
Proof. intros H. apply mean_zero. intros x Hx. apply in_map_iff in Hx. destruct Hx as (k & <- & Hk). auto. Qed.
Definition kept (l : level) (st : lv_state) : Prop := forall i, (i < nle l)%nat -> (forall k, In k (lel l i) -> ~ free_node l k) -> nth i (ls_str st) 0 = 1.

Section Run.
Variables (solve : csr R -> list R -> res (list R)) (l : level).
Hypothesis (HS : spd_solver solve) (HL : level_ok l).
Lemma have_tables : exists u1 t n, tables (level_top l) u1 t n.
Proof. apply tables_exist. now apply level_top_ok. Qed.
Lemma updated_kept vi tt st st' tdn : updated solve l vi tt st st' tdn -> kept l st'.
Proof.
  intros HU i Hi Hf. rewrite (up_str _ _ _ _ _ _ _ HU i Hi), mean_el_zero; [destruct (Rlt_dec 0 0); lra|].
  intros k Hk. apply (up_edge _ _ _ _ _ _ _ HU); auto. apply (lk_nodes l HL (lel l i)); auto. now apply lel_in.
Qed.
Lemma pass_ok vi tt tmax st : 0 <= vi -> level_state l tmax st -> (tt < tmax)%nat -> ~ unloaded l -> ((tt < 5)%nat -> INR tt <= lv_nvol l) -> kept l st ->
  exists stop st', lv_pass solve l vi tt st = Ok (stop, st') /\ level_state l tmax st' /\ kept l st'.
Proof.
  intros Hv HZ Ht HU H5 HK. destruct have_tables as (u1 & t & n & TB). destruct (analysed_exists solve l HS HL u1 t n TB (ls_str st) (bits_shares _ _ _ HZ)) as (u & tdn & obj & HA).
  assert (HL' : length (hist' st tt obj) = tmax) by (rewrite hist_len; apply (lz_obj _ _ _ HZ)).
  destruct (pass_cases solve l HS HL u1 t n TB vi tt tmax st u tdn obj Hv HZ Ht HA) as [((X & _) & Y & _)|[(_ & _ & _ & E)|[(_ & Y & _)|(_ & _ & phi & str & E & UP)]]].
  - exfalso. specialize (H5 Y). lra.
  - exists true, (mkLs (hist' st tt obj) (ls_phi st) (ls_str st)). split; [exact E|]. split; [|exact HK]. destruct HZ. split; auto.
  - contradiction.
  - exists false, (mkLs (hist' st tt obj) phi str). split; [exact E|]. split; [exact (updated_state solve l vi tt tmax st _ phi str tdn HL' UP)|exact (updated_kept _ _ _ _ _ UP)].
Qed.
Lemma run_ok vi tmax : 0 <= vi -> ~ unloaded l -> 4 <= lv_nvol l -> forall todo tt st, (tt + todo = tmax)%nat -> level_state l tmax st -> kept l st ->
  exists stop st', lv_run solve l vi tt todo st = Ok (stop, st') /\ level_state l tmax st' /\ kept l st'.
Proof.
  intros Hv HU H4. induction todo as [|todo IH]; intros tt st Ht HZ HK; cbn [lv_run]; [exists false, st; auto|].
  destruct (pass_ok vi tt tmax st Hv HZ ltac:(lia) HU) as (stop & st' & E & HZ' & HK'); auto.
  { intros H5. assert (X : (tt <= 4)%nat) by lia. apply le_INR in X. cbn [INR] in X. lra. }
  rewrite E. cbn [bind]. destruct stop; [exists true, st'; auto|]. apply IH; auto. lia.
Qed.
Lemma init_state tmax : level_state l tmax (mkLs (repeat 0 tmax) (repeat [1] (length (lv_x l))) (repeat 1 (length (lv_elements l)))) /\ kept l (mkLs (repeat 0 tmax) (repeat [1] (length (lv_x l))) (repeat 1 (length (lv_elements l)))).
Proof.
  split; [split|]; cbn [ls_obj ls_phi ls_str].
  - apply repeat_length.
  - split; [apply repeat_length|]. intros i Hi. rewrite nth_repeat_in. destruct (Nat.ltb_spec i (length (lv_x l))); [reflexivity|lia].
  - intros i Hi. unfold uval. rewrite nth_repeat_in. destruct (Nat.ltb_spec i (length (lv_x l))); [|lia]. cbn [nth]. lra.
  - apply repeat_length.
  - intros i Hi. right. rewrite nth_repeat_in. destruct (Nat.ltb_spec i (length (lv_elements l))); [reflexivity|lia].
  - intros i Hi _. cbn [ls_str]. rewrite nth_repeat_in. destruct (Nat.ltb_spec i (length (lv_elements l))); [reflexivity|unfold nle in Hi; lia].
Qed.
Lemma init_volume : lv_volume l (repeat 1 (length (lv_elements l))) = Ok 1.
Proof.
  rewrite (volume_value l _ HL (repeat_length _ _)). f_equal. unfold volume. rewrite (bigsum_ext (nle l) _ (fun _ => 1)).
  - rewrite bigsum_const. pose proof (nle_pos l HL). field. lra.
  - intros i Hi. rewrite nth_repeat_in. unfold nle in *; destruct (Nat.ltb_spec i (length (lv_elements l))); [reflexivity|lia].
Qed.
End Run.

(** ** Scaled loads *)
Section Scale.
Variables (solve : csr R -> list R -> res (list R)) (l : level) (k : R).
Hypothesis (HS : spd_solver solve) (HL : level_ok l) (Hk : k <> 0).
Let l' := with_loads l (scale_loads k (lv_qfixed l)).
Lemma scaled_ok : level_ok l'.
Proof.
  destruct HL as [A1 A2 A3 A4 A5 A6 A7 A8 A9 A10 A11 A12 A13 A14]. split; auto. intros i j v H. cbn [l' with_loads lv_qfixed] in H. unfold l', with_loads, scale_loads in H. cbn [lv_qfixed] in H. apply in_map_iff in H. destruct H as ([[a b] w] & E & Hin). cbn [fst snd] in E. injection E as <- <- _. exact (A6 a b w Hin).
Qed.
Lemma scaled_tables u1 t n : tables (level_top l) u1 t n -> tables (level_top l') u1 t n.
Proof. intros [A B C D E F G]. split; auto. Qed.
Lemma scaled_load f i j : nodal_load (scale_loads k f) i j = k * nodal_load f i j.
Proof. unfold nodal_load, scale_loads. rewrite sum_map, <- sum_over_scal. apply sum_ext. intros w _. cbn [fst snd]. destruct (_ && _)%bool; cbn [ind]; ring. Qed.
Lemma scaled_unloaded : unloaded l' <-> unloaded l.
Proof.
  unfold unloaded. split; intros H i j Hf.
  - specialize (H i j Hf). cbn [l' with_loads lv_qfixed] in H. unfold l', with_loads in H. cbn [lv_qfixed] in H. rewrite scaled_load in H. apply Rmult_integral in H. destruct H; [contradiction|auto].
  - unfold l', with_loads. cbn [lv_qfixed]. rewrite scaled_load, (H i j Hf). ring.
Qed.
Lemma scaled_u str u tdn obj u' tdn' obj' u1 t n : shares l str -> tables (level_top l) u1 t n -> analysed solve l t str u tdn obj -> analysed solve l' t str u' tdn' obj' ->
  forall i j, uval u' i j = k * uval u i j.
Proof.
  intros SH TB HA HA'. set (w := fun i j => 1 * uval u' i j + (- k) * uval u i j).
  assert (W : vs t w) by (intros i j H; unfold w; rewrite (an_fix _ _ _ _ _ _ _ HA i j H), (an_fix _ _ _ _ _ _ _ HA' i j H); ring).
  pose proof (es_virtual (kels l str) (lv_qfixed l) t n u w (tb_num _ _ _ _ TB) W (an_eq _ _ _ _ _ _ _ HA)) as V1.
  pose proof (es_virtual (kels l str) (scale_loads k (lv_qfixed l)) t n u' w (tb_num _ _ _ _ TB) W (an_eq _ _ _ _ _ _ _ HA')) as V2.
  assert (V3 : sum_over (kels l str) (fun e => bil e (e_dofs e) w w) = 0).
  { transitivity (sum_over (kels l str) (fun e => bil e (e_dofs e) w (uval u')) + - k * sum_over (kels l str) (fun e => bil e (e_dofs e) w (uval u))).
    - rewrite <- sum_over_scal, <- sum_over_plus. apply sum_ext. intros e _. unfold w at 2. rewrite bil_r. ring.
    - rewrite V1, V2. unfold scale_loads. rewrite sum_map, <- sum_over_scal, <- sum_over_plus. apply AssemblyProof.sum_zero. intros q _. cbn [fst snd]. ring. }
  assert (Z : forall i j, w i j = 0).
  { apply (no_energy l (smod l str) (lv_nu l) t n u1 w HL TB).
    - intros i Hi. now apply smod_pos.
    - pose proof (lk_poisson l HL). lra.
    - exact W.
    - intros i Hi. assert (HI : In (lelem l (smod l str i) (lv_nu l) (lel l i)) (kels l str)) by (unfold kels; apply in_map_iff; exists i; split; auto; apply in_seq; lia).
      rewrite <- bil_energy. apply (sum_zero_each (kels l str) (fun e => bil e (e_dofs e) w w)); auto. intros e He. rewrite bil_energy.
      unfold kels in He. apply in_map_iff in He. destruct He as (i' & <- & Hi'). apply in_seq in Hi'. pose proof (lk_poisson l HL). apply lenergy; [auto|apply lel_in; lia|apply smod_pos; auto; lia|lra]. }
  intros i j. specialize (Z i j). unfold w in Z. lra.
Qed.
Lemma denergy_scal e v v' c : (forall i j, v' i j = c * v i j) -> denergy e v' = c ^ 2 * denergy e v.
Proof. intros H. unfold denergy. rewrite <- sum_over_scal. apply sum_ext. intros a _. rewrite <- sum_over_scal. apply sum_ext. intros b _. rewrite !H. ring. Qed.
Lemma scaled_tdn str u tdn obj u' tdn' obj' u1 t n : shares l str -> tables (level_top l) u1 t n -> analysed solve l t str u tdn obj -> analysed solve l' t str u' tdn' obj' ->
  obj' = k ^ 2 * obj /\ forall i, (i < length (lv_x l))%nat -> uval tdn' i 0 = k ^ 2 * uval tdn i 0.
Proof.
  intros SH TB HA HA'. pose proof (scaled_u str u tdn obj u' tdn' obj' u1 t n SH TB HA HA') as U. split.
  - rewrite (an_obj _ _ _ _ _ _ _ HA), (an_obj _ _ _ _ _ _ _ HA'), <- bigsum_scal. apply bigsum_ext. intros i Hi. now apply (denergy_scal (kel l str i)).
  - intros i Hi. rewrite (an_mean _ _ _ _ _ _ _ HA' i Hi), (an_mean _ _ _ _ _ _ _ HA i Hi), <- mean_scal, received_map. rewrite Rmult_0_r. f_equal. f_equal. unfold tds. rewrite map_map. apply map_ext. intros a.
    change (tdv l' str (uval u') a) with (tdv l str (uval u') a). unfold tdv. rewrite (denergy_scal (tel l a) _ _ k U). ring.
Qed.

Lemma reaction_scaled el tdn tdn' c C C' lam lam' : In el (lv_elements l) -> nodal_field l tdn -> nodal_field l tdn' -> (forall i, (i < length (lv_x l))%nat -> uval tdn' i 0 = c * uval tdn i 0) -> C' * c = C -> lam' = c * lam ->
  ReactionDiffusionReaction (lv_s l) (lv_q l) el [0%nat] (lv_x l) tdn' (fun u _ => C' * (u - lam')) = ReactionDiffusionReaction (lv_s l) (lv_q l) el [0%nat] (lv_x l) tdn (fun u _ => C * (u - lam)).
Proof.
  intros Hel N1 N2 HT HC HLm. destruct (lk_piece l HL el Hel) as (_ & He & _). cbn [p_shape p_rule p_nodes] in He.
  destruct (reaction_works _ _ el [0%nat] _ tdn (fun u _ => C * (u - lam)) He (tdn_nodes l tdn HL N1 el Hel) eq_refl) as (F & ne & v & E & V & Hn & HW).
  destruct (reaction_works _ _ el [0%nat] _ tdn' (fun u _ => C' * (u - lam')) He (tdn_nodes l tdn' HL N2 el Hel) eq_refl) as (F' & ne' & v' & E' & V' & Hn' & HW').
  rewrite E, E'. rewrite (ElemMain.numbered_eq _ _ _ _ _ Hn' Hn). f_equal. f_equal. rewrite Nat.mul_1_l in *.
  assert (EL : sf_n (lv_s l) = length el) by (symmetry; apply He).
  assert (EV : forall a, (a < length el)%nat -> v' a = v a).
  { intros a Ha. specialize (HW (unitv 1 a)). specialize (HW' (unitv 1 a)). cbv beta in HW, HW'.
    assert (S : forall g : nat -> R, bigsum (length el) (fun b => g b * unitv 1 a (b / 1)%nat (b mod 1)%nat) = g a).
    { intros g. rewrite (bigsum_single _ a); auto; unfold unitv; rewrite ?Nat.div_1_r, ?Nat.mod_1_r, ?Nat.mul_1_l, ?Nat.add_0_r.
      - rewrite Nat.eqb_refl. ring.
      - intros b Hb Hne. rewrite Nat.div_1_r, Nat.mod_1_r, Nat.mul_1_l, Nat.add_0_r. destruct (Nat.eqb_spec b a); [contradiction|ring]. }
    rewrite S in HW, HW'. rewrite HW, HW'. apply quad_ext. intros g Hg. f_equal. f_equal. set (p := pt (lv_q l) g).
    replace (field_value (lv_s l) p (nodal el tdn') 0) with (c * field_value (lv_s l) p (nodal el tdn) 0); [rewrite HLm, <- HC; ring|].
    unfold field_value. rewrite <- bigsum_scal. apply bigsum_ext. intros i Hi. rewrite EL in Hi. unfold nodal.
    pose proof (HT (nth i el 0%nat)) as X. unfold uval in X. rewrite X; [ring|]. apply (lk_nodes l HL el); auto. now apply nth_In. }
  apply (nth_ext _ _ 0 0); [destruct V as [-> _], V' as [-> _]; reflexivity|]. intros a Ha. destruct V as (L & G & _), V' as (L' & G' & _). rewrite L' in Ha.
  assert (X : forall (x : list R) y, vget x a = Ok y -> nth a x 0 = y). { intros x y Hx. unfold vget, assert_ in Hx. destruct (Nat.ltb_spec a (length x)) as [Q|Q]; cbn [bind] in Hx; [|discriminate Hx]. rewrite (rd_nth x a 0 Q) in Hx. now injection Hx. }
  rewrite (X _ _ (G a Ha)), (X _ _ (G' a Ha)). now apply EV.
Qed.
Lemma diffuse_scaled tdn tdn' c C C' lam lam' phi : nodal_field l tdn -> nodal_field l tdn' -> (forall i, (i < length (lv_x l))%nat -> uval tdn' i 0 = c * uval tdn i 0) -> C' * c = C -> lam' = c * lam ->
  lv_diffuse solve l' tdn' C' lam' phi = lv_diffuse solve l tdn C lam phi.
Proof.
  intros N1 N2 HT HC HLm. unfold lv_diffuse. change (lv_x l') with (lv_x l). change (lv_phifixed l') with (lv_phifixed l). change (lv_elements l') with (lv_elements l).
  destruct (set_dirichlet _ _) as [[phi0 t0]|]; [|reflexivity]. cbn [bind]. destruct (renumber t0) as [t n].
  rewrite (AssemblyProof.foldM_ext (lv_diffuse_add l' tdn' C' lam' phi0 t) (lv_diffuse_add l tdn C lam phi0 t)); [reflexivity|].
  intros acc i Hi. apply in_seq in Hi. unfold lv_diffuse_add. change (lv_elements l') with (lv_elements l). rewrite (rd_nth _ i []) by lia. cbn [bind].
  change (lv_s l') with (lv_s l). change (lv_q l') with (lv_q l). change (lv_x l') with (lv_x l). change (lv_tau l') with (lv_tau l). change (lv_dt l') with (lv_dt l).
  rewrite (reaction_scaled (nth i (lv_elements l) []) tdn tdn' c C C' lam lam'); auto. apply nth_In. lia.
Qed.

(** the histories *)
Definition squared (st : lv_state) : lv_state := mkLs (map (Rmult (k ^ 2)) (ls_obj st)) (ls_phi st) (ls_str st).
Lemma k2 : 0 < k ^ 2.
Proof. replace (k ^ 2) with (k * k) by ring. apply Rsqr_pos_lt, Hk. Qed.
Lemma squared_state tmax st : level_state l tmax st -> level_state l' tmax (squared st).
Proof. intros [A B C D E]. split; auto. cbn [squared ls_obj]. now rewrite map_length. Qed.
Lemma nth_scal c m i : nth i (map (Rmult c) m) 0 = c * nth i m 0.
Proof. rewrite <- (map_nth (Rmult c)). now rewrite Rmult_0_r. Qed.
Lemma squared_hist st tt o : hist' (squared st) tt (k ^ 2 * o) = map (Rmult (k ^ 2)) (hist' st tt o).
Proof.
  unfold hist'. cbn [squared ls_obj]. apply (nth_ext _ _ 0 0); [now rewrite map_length, !upd_length, map_length|]. intros i _. rewrite nth_scal, !nth_upd, !nth_scal, map_length. rewrite ?nth_upd. destruct (_ && _)%bool; ring.
Qed.
Lemma squared_near hist tt : near5 (map (Rmult (k ^ 2)) hist) tt <-> near5 hist tt.
Proof.
  pose proof k2 as P. unfold near5. split; intros H j Hj; specialize (H j Hj); rewrite ?nth_scal in *.
  - rewrite <- Rmult_minus_distr_l, !Rabs_mult, (Rabs_right (k ^ 2)) in H by lra. nra.
  - rewrite <- Rmult_minus_distr_l, !Rabs_mult, (Rabs_right (k ^ 2)) by lra. nra.
Qed.
Lemma squared_converged hist tt vol : (tt < length hist)%nat -> lv_converged l' (map (Rmult (k ^ 2)) hist) tt vol = lv_converged l hist tt vol.
Proof.
  intros H. destruct (testing_dec l tt vol) as [T|T].
  - assert (H' : (tt < length (map (Rmult (k ^ 2)) hist))%nat) by now rewrite map_length. destruct (Nat.lt_ge_cases tt 5) as [H5|H5].
    + now rewrite (converged_early l hist tt vol T H H5), (converged_early l' _ tt vol T H' H5).
    + destruct (converged_late l hist tt vol T H H5) as (b & -> & X). destruct (converged_late l' _ tt vol T H' H5) as (b' & -> & X'). rewrite squared_near in X'. f_equal. destruct b, b'; auto; exfalso; [assert (false = true) by tauto|assert (false = true) by tauto]; discriminate.
  - rewrite (converged_off l hist tt vol T). now apply (converged_off l').
Qed.
Lemma pass_scaled vi tt tmax st : 0 <= vi -> level_state l tmax st -> (tt < tmax)%nat ->
  lv_pass solve l' vi tt (squared st) = ' (stop, st') <- lv_pass solve l vi tt st ;; Ok (stop, squared st').
Proof.
  intros Hv HZ Ht. destruct (have_tables l HL) as (u1 & t & n & TB). pose proof (bits_shares _ _ _ HZ) as SH. pose proof (scaled_tables _ _ _ TB) as TB'. pose proof scaled_ok as HL'.
  destruct (analysed_exists solve l HS HL u1 t n TB (ls_str st) SH) as (u & tdn & obj & HA).
  destruct (analysed_exists solve l' HS HL' u1 t n TB' (ls_str (squared st)) SH) as (u' & tdn' & obj' & HA').
  destruct (scaled_tdn _ _ _ _ _ _ _ u1 t n SH TB HA HA') as (-> & HT).
  rewrite (pass_eq solve l HL u1 t n TB vi tt tmax st u tdn obj Hv HZ Ht HA), (pass_eq solve l' HL' u1 t n TB' vi tt tmax (squared st) u' tdn' _ Hv (squared_state tmax st HZ) Ht HA').
  rewrite squared_hist, squared_converged by (rewrite hist_len, (lz_obj _ _ _ HZ); exact Ht). change (volume l' (ls_str (squared st))) with (volume l (ls_str st)).
  destruct (lv_converged l _ tt _) as [[|]|]; cbn [bind]; try reflexivity. unfold step_rest. change (nle l') with (nle l). change (ls_phi (squared st)) with (ls_phi st). change (ls_str (squared st)) with (ls_str st). change (volume l' (ls_str st)) with (volume l (ls_str st)). change (target l' vi tt) with (target l vi tt).
  assert (NS : nodal_sum l' tdn' = k ^ 2 * nodal_sum l tdn) by (unfold nodal_sum; rewrite <- bigsum_scal; apply bigsum_ext; exact HT).
  pose proof k2 as P. unfold Rdiv_res. rewrite NS. destruct (Req_EM_T (nodal_sum l tdn) 0) as [Z|Z], (Req_EM_T (k ^ 2 * nodal_sum l tdn) 0) as [Z'|Z']; try reflexivity.
  - exfalso. apply Z'. rewrite Z. ring.
  - exfalso. apply Rmult_integral in Z'. destruct Z'; lra.
  - cbn [bind]. rewrite (diffuse_scaled tdn tdn' (k ^ 2) (INR (nle l) / nodal_sum l tdn) _ (multiplier l tdn (volume l (ls_str st)) (target l vi tt))).
    + destruct (lv_diffuse solve l tdn _ _ _) as [phi1|]; [|reflexivity]. cbn [bind]. change (lv_clamp l' phi1) with (lv_clamp l phi1). destruct (lv_clamp l phi1) as [phi2|]; [|reflexivity]. cbn [bind]. change (lv_structure l' phi2 (ls_str st)) with (lv_structure l phi2 (ls_str st)). destruct (lv_structure l phi2 _); reflexivity.
    + apply (an_field _ _ _ _ _ _ _ HA).
    + apply (an_field _ _ _ _ _ _ _ HA').
    + exact HT.
    + field. split; lra.
    + unfold multiplier. rewrite NS. change (lv_x l') with (lv_x l). change (lv_p l') with (lv_p l). change (lv_d l') with (lv_d l). unfold Rdiv. ring.
Qed.
Lemma pass_state vi tt tmax st stop st' : 0 <= vi -> level_state l tmax st -> (tt < tmax)%nat -> lv_pass solve l vi tt st = Ok (stop, st') -> level_state l tmax st'.
Proof.
  intros Hv HZ Ht E. destruct (have_tables l HL) as (u1 & t & n & TB). destruct (analysed_exists solve l HS HL u1 t n TB (ls_str st) (bits_shares _ _ _ HZ)) as (u & tdn & obj & HA).
  assert (LH : length (hist' st tt obj) = tmax) by (rewrite hist_len; apply (lz_obj _ _ _ HZ)).
  destruct (pass_cases solve l HS HL u1 t n TB vi tt tmax st u tdn obj Hv HZ Ht HA) as [(_ & _ & E1)|[(_ & _ & _ & E1)|[(_ & _ & E1)|(_ & _ & phi & str & E1 & UP)]]]; rewrite E in E1; try discriminate E1.
  - injection E1 as -> ->. destruct HZ. split; auto.
  - injection E1 as -> ->. exact (updated_state solve l vi tt tmax st _ phi str tdn LH UP).
Qed.
Lemma run_scaled vi tmax : 0 <= vi -> forall todo tt st, (tt + todo = tmax)%nat -> level_state l tmax st ->
  lv_run solve l' vi tt todo (squared st) = ' (stop, st') <- lv_run solve l vi tt todo st ;; Ok (stop, squared st').
Proof.
  intros Hv. induction todo as [|todo IH]; intros tt st Ht HZ; cbn [lv_run]; [reflexivity|]. rewrite (pass_scaled vi tt tmax st Hv HZ) by lia.
  destruct (lv_pass solve l vi tt st) as [[stop st']|] eqn:E; [|reflexivity]. cbn [bind]. destruct stop; [reflexivity|]. apply IH; [lia|]. apply (pass_state vi tt tmax st false st' Hv HZ ltac:(lia) E).
Qed.
Lemma optimize_scaled tmax : lv_optimize solve l' tmax = ' (stop, st') <- lv_optimize solve l tmax ;; Ok (stop, squared st').
Proof.
  unfold lv_optimize. change (lv_elements l') with (lv_elements l). change (lv_x l') with (lv_x l). change (lv_volume l' (repeat 1 (length (lv_elements l)))) with (lv_volume l (repeat 1 (length (lv_elements l)))). rewrite (init_volume l HL). cbn [bind].
  rewrite <- (run_scaled 1 tmax Rle_0_1 tmax 0 _ eq_refl (proj1 (init_state l tmax))). f_equal. unfold squared. cbn [ls_obj ls_phi ls_str]. f_equal. induction tmax as [|m IH]; cbn [repeat map]; [reflexivity|]. rewrite Rmult_0_r. now f_equal.
Qed.
End Scale.
