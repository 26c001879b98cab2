(** Objective and topological derivative. *)
From Coq Require Import List Arith Lia Bool Reals Lra.
From Verif Require Import Res SumR DenseModel DenseR DenseSpec ShapeModel QuadModel QuadSpec ElemModel ElemSpec SparseModel SparseSpec AssemblyModel AssemblySpec KrylovSpec PatchSpec StableSpec GenModel GenSpec TopModel TopSpec LevelModel LevelSpec.
From Verif Require Import DenseProof DenseMain SparseProof AssemblyProof AssemblyProof2 AssemblyProof3 ElemProof ElemProof2 ElemProof3 ElemMain HomMain KrylovProof PatchProof PatchProof2 StableProof StableProof2 StableProof3 GenMain ThetaProof ThetaProof3 ThetaProof4 ThetaProof5 TopProof TopProof2 TopProof3 TopProof4 TopProof5 LanczosProof LevelProof.
Import ListNotations.
Local Open Scope R_scope.

Lemma vdot_scal s a b v : vdot R_ops a b = Ok v -> vdot R_ops (vscal R_ops s a) b = Ok (s * v).
Proof.
  intros H. assert (L : length a = length b). { unfold vdot in H. destruct (Nat.eqb_spec (length a) (length b)); auto. discriminate H. }
  assert (Va : is_vec a (length a) (fun i => nth i a 0)) by apply is_vec_of_list. assert (Vb : is_vec b (length a) (fun i => nth i b 0)) by (rewrite L; apply is_vec_of_list).
  rewrite (vdot_ok R R_ops _ _ _ _ _ Va Vb), gsum_bigsum in H. injection H as <-.
  assert (Vs : is_vec (vscal R_ops s a) (length a) (fun i => nth i a 0 * s)).
  { apply (Rvscal s a (length a) (fun i => nth i a 0)), Va. }
  rewrite (vdot_ok R R_ops _ _ _ _ _ Vs Vb), gsum_bigsum. f_equal. rewrite <- bigsum_scal. apply bigsum_ext. intros i _. cbn [omul R_ops]. ring.
Qed.

Definition weight (str : list R) (i : nat) : R := 1/10000 + nth i str 0 * (1 - 1/10000).
Definition kel (l : level) (str : list R) (i : nat) : elem := lelem l (smod l str i) (lv_nu l) (lel l i).
Definition tel (l : level) (i : nat) : elem := lelem l (cE l) (cc l) (lel l i).
Definition tdv (l : level) (str : list R) (w : field) (i : nat) : R := weight str i * denergy (tel l i) w.
Lemma element_value l str u i : level_ok l -> shares l str -> (i < nle l)%nat -> (forall i j, in_table u i j <-> (i < length (lv_x l))%nat /\ (j < 2)%nat) ->
  lv_element l (cA1 l) (cA2 l) (cc l) str u i = Ok (denergy (kel l str i) (uval u), tdv l str (uval u) i).
Proof.
  intros HL HS Hi HU. pose proof (kel_ok l str i HL HS Hi) as KK. pose proof (tel_ok l i HL Hi) as TK. fold (kel l str i) in KK. fold (tel l i) in TK.
  destruct (le_mat _ _ _ _ _ KK) as (k & Hk). destruct (le_mat _ _ _ _ _ TK) as (k' & Hk').
  assert (IN : forall a c, In a (lel l i) -> In c [0%nat; 1%nat] -> in_table u a c).
  { intros a c Ha Hc. apply HU. split; [apply (lk_nodes l HL (lel l i)); auto; now apply lel_in|destruct Hc as [<-|[<-|[]]]; lia]. }
  destruct (action 2 [0%nat; 1%nat] (lel l i) (e_nte (kel l str i)) (e_K (kel l str i)) k u (le_num _ _ _ _ _ KK) eq_refl Hk IN) as (ue & y & E1 & E2 & _ & _ & E3).
  destruct (action 2 [0%nat; 1%nat] (lel l i) (e_nte (tel l i)) (e_K (tel l i)) k' u (le_num _ _ _ _ _ TK) eq_refl Hk' IN) as (ue' & y' & E1' & E2' & _ & _ & E3').
  pose proof (ElemMain.numbered_eq _ _ _ _ _ (le_num _ _ _ _ _ TK) (le_num _ _ _ _ _ KK)) as NE. rewrite NE, E1 in E1'. injection E1' as <-.
  unfold lv_element. rewrite (rd_nth _ i []) by auto. cbn [bind]. rewrite (rd_nth str i 0) by (destruct HS as [-> _]; auto). cbn [bind]. fold (lel l i). fold (smod l str i). rewrite (le_call _ _ _ _ _ KK). cbn [bind].
  rewrite E1. cbn [bind]. rewrite E2. cbn [bind]. rewrite E3. cbn [bind]. fold (cE l). rewrite (le_call _ _ _ _ _ TK). cbn [bind]. rewrite E2'. cbn [bind]. rewrite (vdot_scal _ _ _ _ E3'). cbn [bind].
  unfold tdv. rewrite <- !bil_energy. unfold e_dofs. rewrite (le_nodes _ _ _ _ _ KK), (le_nodes _ _ _ _ _ TK). reflexivity.
Qed.

(** ** Means *)
Lemma received_map {A B} (f : A -> B) d ue els n : map f (received d ue els n) = received (f d) (map f ue) els n.
Proof.
  unfold received. induction (seq 0 (length els)) as [|i s IH]; [reflexivity|]. cbn [flat_map]. rewrite map_app, IH. f_equal.
  rewrite map_nth. induction (count_occ Nat.eq_dec (nth i els []) n) as [|c IHc]; [reflexivity|]. cbn [repeat map]. now rewrite IHc.
Qed.
Lemma in_received ue els k i : (i < length els)%nat -> In k (nth i els []) -> In (nth i ue 0) (received 0 ue els k).
Proof.
  intros Hi Hk. unfold received. apply in_flat_map. exists i. split; [apply in_seq; lia|]. apply (count_occ_In Nat.eq_dec) in Hk. destruct (count_occ Nat.eq_dec (nth i els []) k); [lia|]. now left.
Qed.
Lemma received_in x ue els k : In x (received 0 ue els k) -> exists i, (i < length els)%nat /\ In k (nth i els []) /\ x = nth i ue 0.
Proof.
  intros H. unfold received in H. apply in_flat_map in H. destruct H as (i & Hi & Hx). apply in_seq in Hi. pose proof (repeat_spec _ _ _ Hx) as Ex.
  exists i. splits; auto; [lia|]. apply (count_occ_In Nat.eq_dec). destruct (count_occ Nat.eq_dec (nth i els []) k); [destruct Hx|lia].
Qed.
Lemma sumlist_nonneg l : (forall x, In x l -> 0 <= x) -> 0 <= sumlist l.
Proof. induction l as [|a l IH]; intros H; cbn [sumlist fold_right]; [unfold sumlist; cbn; lra|]. pose proof (H a (or_introl eq_refl)). pose proof (IH (fun x Hx => H x (or_intror Hx))). unfold sumlist in *. lra. Qed.
Lemma sumlist_pos l x : (forall x, In x l -> 0 <= x) -> In x l -> 0 < x -> 0 < sumlist l.
Proof.
  induction l as [|a l IH]; intros H Hx Px; [destruct Hx|]. cbn. pose proof (H a (or_introl eq_refl)) as Ha. pose proof (sumlist_nonneg l (fun x Hx => H x (or_intror Hx))) as Hl. unfold sumlist in *.
  destruct Hx as [->|Hx]; [lra|]. pose proof (IH (fun x Hx => H x (or_intror Hx)) Hx Px) as HP. unfold sumlist in HP. lra.
Qed.
Lemma mean_nonneg l : (forall x, In x l -> 0 <= x) -> 0 <= mean_with 0 l.
Proof.
  intros H. unfold mean_with. destruct l as [|a l]; [cbn; unfold Rdiv; rewrite Rplus_0_r, Rmult_0_l; lra|].
  pose proof (sumlist_nonneg _ H). apply Rmult_le_pos; [lra|]. apply Rlt_le, Rinv_0_lt_compat, lt_0_INR. cbn. lia.
Qed.
Lemma mean_positive l x : (forall x, In x l -> 0 <= x) -> In x l -> 0 < x -> 0 < mean_with 0 l.
Proof.
  intros H Hx Px. unfold mean_with. pose proof (sumlist_pos l x H Hx Px). apply Rdiv_lt_0_compat; [lra|]. apply lt_0_INR. destruct l; [destruct Hx|cbn; lia].
Qed.
Lemma mean_scal c l : mean_with 0 (map (Rmult c) l) = c * mean_with 0 l.
Proof. unfold mean_with. rewrite map_length. replace (sumlist (map (Rmult c) l)) with (c * sumlist l); [unfold Rdiv; ring|]. unfold sumlist. induction l as [|a l IH]; cbn [map fold_right]; [ring|]. rewrite <- IH. ring. Qed.
Lemma mean_zero l : (forall x, In x l -> x = 0) -> mean_with 0 l = 0.
Proof. intros H. unfold mean_with. replace (sumlist l) with 0; [unfold Rdiv; ring|]. symmetry. induction l as [|a l IH]; [reflexivity|]. cbn. rewrite (H a (or_introl eq_refl)). unfold sumlist in IH. rewrite IH by (intros x Hx; apply H; now right). ring. Qed.

(** ** The analysis *)
Definition tds (l : level) (str : list R) (w : field) : list R := map (tdv l str w) (seq 0 (nle l)).
Lemma mesh_of l : level_ok l -> mesh_ok (length (lv_x l)) (lv_elements l).
Proof. intros HL e n. apply (lk_nodes l HL). Qed.
Lemma analysis_value solve l str u1 t n : spd_solver solve -> level_ok l -> shares l str -> tables (level_top l) u1 t n ->
  exists u tdn, lv_analysis solve l str = Ok (mkLv u (bigsum (nle l) (fun i => denergy (kel l str i) (uval u))) (map (fun x => [x]) (tds l str (uval u))) tdn) /\
    lv_displacement solve l str = Ok u /\
    length u = length (lv_x l) /\ (forall i j, in_table u i j <-> (i < length (lv_x l))%nat /\ (j < 2)%nat) /\ (forall i j, num t i j = None -> uval u i j = 0) /\
    (forall i j, num t i j <> None -> internal_force (kels l str) u i j = nodal_load (lv_qfixed l) i j) /\
    nodal_field l tdn /\ (forall k, (k < length (lv_x l))%nat -> uval tdn k 0 = mean_with 0 (received 0 (tds l str (uval u)) (lv_elements l) k)).
Proof.
  intros HS HL HD TB. destruct (ldisplacement solve l str u1 t n HS HL HD TB) as (u & E1 & LU & IU & ZU & EU).
  set (TD := map (fun x : R => [x]) (tds l str (uval u))).
  assert (LTD : length TD = nle l) by (unfold TD, tds; now rewrite !map_length, seq_length).
  destruct (foldM_range (fun (s : R * list (list R)) i => let '(obj, td) := s in ' (e, d) <- lv_element l (cA1 l) (cA2 l) (cc l) str u i ;; td <- wr td i [d] ;; Ok (obj + e, td))
    (fun k s => fst s = bigsum k (fun i => denergy (kel l str i) (uval u)) /\ length (snd s) = nle l /\ forall i, (i < k)%nat -> nth i (snd s) [] = [tdv l str (uval u) i]) (nle l) 0 (0, repeat (vnew R_ops 1) (nle l))) as ([o td] & E2 & Ho & Ltd & Htd).
  { cbn [fst snd bigsum]. splits; auto; [apply repeat_length|intros i Hi; lia]. }
  { intros k [o td] Hk (A & B & C). cbn [fst snd] in *. rewrite element_value by (auto; lia). cbn [bind]. rewrite wr_Ok by lia. cbn [bind]. eexists. split; [reflexivity|]. cbn [fst snd bigsum]. splits.
    - now rewrite A.
    - now rewrite upd_length.
    - intros i Hi. rewrite nth_upd. destruct (Nat.eqb_spec k i) as [->|N]; cbn [andb]; [replace (i <? length td)%nat with true by (symmetry; apply Nat.ltb_lt; lia); reflexivity|apply C; lia]. }
  cbn [fst snd] in Ho, Ltd, Htd. assert (ET : td = TD).
  { apply (nth_ext _ _ [] []); [congruence|]. intros i Hi. rewrite Htd by (cbn; lia). unfold TD, tds. rewrite map_map. rewrite (nth_indep _ [] ((fun x => [tdv l str (uval u) x]) O)) by (rewrite map_length, seq_length; lia). rewrite (map_nth (fun x => [tdv l str (uval u) x]) (seq 0 (nle l)) O i). rewrite seq_nth by lia. reflexivity. }
  subst td. destruct (C95_nodal_vector_pf (length (lv_x l)) 1 (vnew R_ops 1) TD (lv_elements l) (mesh_of l HL)) as (tdn & E3 & LN & HN).
  { fold (nle l). lia. } { reflexivity. } { apply Forall_forall. intros x Hx. unfold TD in Hx. apply in_map_iff in Hx. destruct Hx as (y & <- & _). reflexivity. } { apply (lk_cover l HL). }
  exists u, tdn. split.
  - unfold lv_analysis. destruct (cpos l HL) as (EC & _). rewrite EC. cbn [bind]. rewrite E1. cbn [bind]. fold (nle l). rewrite E2. cbn [bind]. rewrite E3. cbn [bind]. rewrite Ho. reflexivity.
  - split; [exact E1|]. splits; auto.
    + split; [exact LN|]. intros i Hi. apply HN, Hi.
    + intros k Hk. unfold uval. destruct (HN k Hk) as [_ V]. rewrite (V O ltac:(lia)). cbn [vnew repeat o0 R_ops nth]. rewrite (received_map (fun u0 : list R => nth 0 u0 0)). cbn [nth]. do 2 f_equal. unfold TD. rewrite map_map. cbn [nth]. now rewrite map_id.
Qed.

Lemma td_nonneg l str w i : level_ok l -> shares l str -> (i < nle l)%nat -> 0 < weight str i /\ 0 <= denergy (tel l i) w /\ 0 <= tdv l str w i.
Proof.
  intros HL [_ HS] Hi. destruct (HS i Hi) as [A B]. assert (W : 0 < weight str i) by (unfold weight; lra). destruct (cpos l HL) as (_ & _ & _ & _ & C1 & C2).
  destruct (lenergy l (cE l) (cc l) (lel l i) w HL (lel_in l i Hi) C2 C1) as [P _]. fold (tel l i) in P. splits; auto. unfold tdv. apply Rmult_le_pos; lra.
Qed.
Lemma nth_tds l str w i : (i < nle l)%nat -> nth i (tds l str w) 0 = tdv l str w i.
Proof. intros Hi. unfold tds. rewrite (nth_indep _ 0 (tdv l str w O)) by (now rewrite map_length, seq_length). rewrite map_nth, seq_nth by auto. reflexivity. Qed.
Lemma received_nonneg l str w k x : level_ok l -> shares l str -> In x (received 0 (tds l str w) (lv_elements l) k) -> 0 <= x.
Proof. intros HL HS H. apply received_in in H. destruct H as (i & Hi & _ & ->). rewrite nth_tds by auto. now apply td_nonneg. Qed.
