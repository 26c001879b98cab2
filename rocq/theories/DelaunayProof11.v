(** What every run of the triangle mesher keeps, without any condition on the
    mesh: the corners of the elements, the boundary nodes, the flags. *)
From Coq Require Import List Arith ZArith Lia Bool Reals Lra Psatz.
From Verif Require Import Res DenseModel DenseR LUModel DelaunayModel DelaunaySpec DelaunaySpec2 DelaunayProof DelaunayProof2 DelaunayProof6.
Import ListNotations.
Local Open Scope R_scope.

Ltac binv H := let a := fresh "v" in let E := fresh "E" in apply bind_Ok in H; destruct H as (a & E & H).

(** all corners satisfy [Q], and the element is active if [b], otherwise not
    checked *)
Definition cq (Q : nat -> Prop) (b : bool) (e : delem) : Prop :=
  (Q (at3 (en e) 0) /\ Q (at3 (en e) 1) /\ Q (at3 (en e) 2)) /\ (if b then eact e = true else echk e = false).
Definition cs (Q : nat -> Prop) (b : bool) (es : list delem) : Prop := Forall (cq Q b) es.
Lemma cq_at Q b e j : (j < 3)%nat -> cq Q b e -> Q (at3 (en e) j).
Proof. intros Hj ((H0 & H1 & H2) & _). case3 j Hj; assumption. Qed.
Lemma cs_In (Q : nat -> Prop) b es e : cs Q b es -> In e es -> cq Q b e.
Proof. intros H. now apply (proj1 (Forall_forall _ _) H). Qed.
Lemma cs_rd (Q : nat -> Prop) b es a e : cs Q b es -> rd es a = Ok e -> cq Q b e.
Proof. intros H R. apply rd_Ok in R. eapply cs_In; eauto. eapply nth_error_In; eauto. Qed.
Lemma In_upd {A} (l : list A) i x y : In y (upd l i x) -> y = x \/ In y l.
Proof. revert i. induction l as [|z l IH]; intros [|i] H; cbn in *; auto. destruct H as [->|H]; auto. destruct H as [->|H]; auto. apply IH in H. tauto. Qed.
Lemma cs_wr (Q : nat -> Prop) b es a e es' : wr es a e = Ok es' -> cs Q b es -> cq Q b e -> cs Q b es' /\ length es' = length es.
Proof.
  intros W H He. apply wr_inv in W. destruct W as [_ ->]. split; [|apply upd_length]. apply Forall_forall. intros f Hf.
  apply In_upd in Hf. destruct Hf as [->|Hf]; auto. eapply cs_In; eauto.
Qed.
Lemma cs_relink (Q : nat -> Prop) b es k o n es' : cs Q b es -> relink es k o n = Ok es' -> cs Q b es' /\ length es' = length es.
Proof.
  intros H W. destruct k as [k|]; cbn in W; [|inversion W; subst; auto]. binv W. binv W.
  eapply cs_wr; [exact W|exact H|]. assert (He := cs_rd _ _ _ _ _ H E). destruct He as (He & Ha). split; auto.
Qed.
Lemma cs_swap (Q : nat -> Prop) b es s t n p1 m1 es' : (n < 3)%nat -> cs Q b es -> swap_do es s t n p1 m1 = Ok es' -> cs Q b es' /\ length es' = length es.
Proof.
  intros Hn H W. unfold swap_do in W. binv W. rename v into tmp. assert (Ht := cs_rd _ _ _ _ _ H E).
  binv W. destruct (cs_relink _ _ _ _ _ _ _ H E0) as [H0 L0]. binv W. binv W. destruct (cs_relink _ _ _ _ _ _ _ H0 E2) as [H1 L1].
  binv W. binv W. assert (HS := cs_rd _ _ _ _ _ H1 E3). assert (HT := cs_rd _ _ _ _ _ H1 E4).
  binv W. destruct (cs_wr Q b _ _ _ _ E5 H1) as [H2 L2].
  { split; [|exact (proj2 HT)]. cbn [en at3 a30 a31 a32]. split; [apply (cq_at Q b v2 0); auto|]. split; [apply (cq_at Q b tmp n); auto|apply (cq_at Q b v2 2); auto]. }
  binv W. assert (HS2 := cs_rd _ _ _ _ _ H2 E6).
  binv W. destruct (cs_wr Q b _ _ _ _ E7 H2) as [H3 L3].
  { split; [|exact (proj2 HS2)]. cbn [en at3 a30 a31 a32]. split; [apply (cq_at Q b v5 0); auto|]. split; [apply (cq_at Q b v5 1); auto|apply (cq_at Q b tmp n); auto]. }
  binv W. assert (HS3 := cs_rd _ _ _ _ _ H3 E8). destruct (isadj _ _ _).
  - binv W. destruct (cs_wr Q b _ _ _ _ E9 H3) as [H4 L4]; [destruct HS3; split; auto|].
    binv W. assert (HT3 := cs_rd _ _ _ _ _ H4 E10). destruct (cs_wr Q b _ _ _ _ W H4) as [H5 L5]; [destruct HT3; split; auto|].
    split; auto. congruence.
  - inversion W; subst. split; auto. congruence.
Qed.
Lemma find_lt3 (f : nat -> bool) n : find f [0; 1; 2]%nat = Some n -> (n < 3)%nat.
Proof. intros H. apply find_some in H. destruct H as [H _]. cbn in H. lia. Qed.
Lemma opp_lt e k n : oppositenode e k = Some n -> (n < 3)%nat.
Proof. apply find_lt3. Qed.
Lemma idx_Ok o n : idx o = Ok n -> o = Some n.
Proof. destruct o; cbn; congruence. Qed.
Lemma cs_swapping (Q : nat -> Prop) b ns p1 m1 : forall fuel es st es', cs Q b es -> swapping fuel ns es st p1 m1 = Ok es' -> cs Q b es' /\ length es' = length es.
Proof.
  induction fuel as [|fuel IH]; intros es [|s st] es' H W; cbn [swapping] in W; try discriminate W; try (inversion W; subst; auto; fail).
  binv W. destruct (at3 (enb v) 0) as [t|]; [|now apply IH in W]. binv W. destruct (eact v0); [|now apply IH in W].
  binv W. apply idx_Ok, opp_lt in E1. binv W. destruct v2; [|now apply IH in W]. binv W.
  destruct (cs_swap _ _ _ _ _ _ _ _ _ E1 H E3) as [H1 L1]. apply IH in W; auto. destruct W. split; auto. congruence.
Qed.
Lemma cs_app (Q : nat -> Prop) b es l : cs Q b es -> Forall (cq Q b) l -> cs Q b (es ++ l).
Proof. intros. apply Forall_app. auto. Qed.
Lemma cq_with (Q : nat -> Prop) b x y z nb sd : Q x -> Q y -> Q z -> cq Q b (elem_with (A3 x y z) nb sd).
Proof. intros. split; cbn; auto. now destruct b. Qed.
Lemma cs_split_in (Q : nat -> Prop) b es k p p1 m1 es' st : Q p -> cs Q b es -> split_in es k p p1 m1 = Ok (es', st) -> cs Q b es' /\ length es' = (length es + 2)%nat.
Proof.
  intros Hp H W. unfold split_in in W. binv W. cbv zeta in W. binv W. binv W. binv W. binv W.
  assert (He := cs_rd _ _ _ _ _ H E). assert (Q0 := cq_at Q b v 0 ltac:(lia) He). assert (Q1 := cq_at Q b v 1 ltac:(lia) He). assert (Q2 := cq_at Q b v 2 ltac:(lia) He).
  destruct (cs_relink _ _ _ _ _ _ _ H E0) as [H0 L0]. destruct (cs_relink _ _ _ _ _ _ _ H0 E2) as [H1 L1].
  destruct (cs_wr Q b _ _ _ _ E3 H1) as [H2 L2]. { now apply cq_with. }
  inversion W; subst. split. { apply cs_app; auto. repeat constructor; auto; now destruct b. } rewrite app_length. cbn [length]. lia.
Qed.
(** the nodes of a run in which no node is added or moved *)
Definition same_nodes (ns ns' : list dnode) : Prop :=
  map dx ns' = map dx ns /\ map isset ns' = map isset ns /\ forall i, onb ns i = true -> onb ns' i = true.
Lemma same_refl ns : same_nodes ns ns.
Proof. split; [|split]; auto. Qed.
Lemma same_trans a b c : same_nodes a b -> same_nodes b c -> same_nodes a c.
Proof. intros (A1 & A2 & A3) (B1 & B2 & B3). split; [|split]; try congruence. auto. Qed.
Lemma same_mark (fl : bool) ns p ns' : (if fl then set_onb ns p else Ok ns) = Ok ns' -> same_nodes ns ns'.
Proof.
  destruct fl; [|intros H; inversion H; apply same_refl]. intros H. unfold set_onb in H. binv H. assert (L := rd_inv _ _ _ E).
  apply rd_Ok in E. apply wr_inv in H. destruct H as [_ ->].
  assert (M : forall (A : Type) (f : dnode -> A) l q y, nth_error l q = Some v -> f y = f v -> map f (upd l q y) = map f l).
  { intros A f. clear. induction l as [|z l IH]; intros [|q] y Hq Hf; cbn in *; try discriminate; f_equal; auto. inversion Hq; congruence. }
  split; [now apply M|]. split; [now apply M|]. intros i Hi. unfold onb in *. rewrite nth_upd. destruct (_ && _); auto.
Qed.
Lemma cs_split_on (Q : nat -> Prop) b ns es k j p p1 m1 ns' es' st : (j < 3)%nat -> Q p -> cs Q b es -> split_on ns es k j p p1 m1 = Ok (ns', es', st) ->
  cs Q b es' /\ (length es < length es')%nat /\ same_nodes ns ns'.
Proof.
  intros Hj Hp H W.
  assert (Nx := nx3_lt j). assert (Pv := pv3_lt j).
  assert (One : split_on1 ns es k j p p1 m1 = Ok (ns', es', st) -> cs Q b es' /\ (length es < length es')%nat /\ same_nodes ns ns').
  { clear W. intros W. unfold split_on1 in W. binv W. cbv zeta in W. binv W. binv W. binv W. assert (He := cs_rd _ _ _ _ _ H E).
    assert (Q0 := cq_at Q b v j Hj He). assert (Q1 := cq_at Q b v _ Nx He). assert (Q2 := cq_at Q b v _ Pv He).
    destruct (cs_relink _ _ _ _ _ _ _ H E0) as [H0 L0]. destruct (cs_wr Q b _ _ _ _ E2 H0) as [H2 L2]. { now apply cq_with. }
    inversion W; subst. splits. { apply cs_app; auto. repeat constructor; auto; now destruct b. } { rewrite app_length. cbn [length]. lia. } eapply same_mark; eauto. }
  unfold split_on in W. binv W. destruct (at3 (enb v) j) as [t|]; [|now apply One]. binv W. destruct (eact v0); [|now apply One].
  unfold split_on2 in W. binv W. binv W. binv W. cbv zeta in W. apply idx_Ok, opp_lt in E3. assert (He := cs_rd _ _ _ _ _ H E1). assert (Hf := cs_rd _ _ _ _ _ H E2).
  assert (Q0 := cq_at Q b v1 j Hj He). assert (Q1 := cq_at Q b v1 _ Nx He). assert (Q2 := cq_at Q b v1 _ Pv He). assert (Q3 := cq_at Q b v2 _ E3 Hf).
  binv W. binv W. binv W. binv W. binv W. binv W.
  destruct (cs_relink _ _ _ _ _ _ _ H E4) as [H0 L0]. destruct (cs_relink _ _ _ _ _ _ _ H0 E6) as [H1 L1].
  destruct (cs_wr Q b _ _ _ _ E8 H1) as [H2 L2]. { now apply cq_with. }
  destruct (cs_wr Q b _ _ _ _ E9 H2) as [H3 L3]. { now apply cq_with. }
  inversion W; subst. splits. { apply cs_app; auto. repeat constructor; auto; now destruct b. } { rewrite app_length. cbn [length]. lia. } eapply same_mark; eauto.
Qed.
Lemma cs_getin (Q : nat -> Prop) b fuel ns es k p1 p m1 M' : Q p -> cs Q b es -> getelementin fuel (mkMesh ns es) k p1 p m1 = Ok M' ->
  cs Q b (mes M') /\ mns M' = ns /\ (length es < length (mes M'))%nat.
Proof.
  intros Hp H W. unfold getelementin in W. cbn [mes mns] in W. binv W. destruct v as [es1 st]. binv W. inversion W; subst. cbn [mes mns].
  destruct (cs_split_in _ _ _ _ _ _ _ _ _ Hp H E) as [H1 L1]. destruct (cs_swapping _ _ _ _ _ _ _ _ _ H1 E0) as [H2 L2]. splits; auto. lia.
Qed.
Lemma cs_geton (Q : nat -> Prop) b fuel ns es k j p1 p m1 M' : (j < 3)%nat -> Q p -> cs Q b es -> getelementon fuel (mkMesh ns es) k j p1 p m1 = Ok M' ->
  cs Q b (mes M') /\ same_nodes ns (mns M') /\ (length es < length (mes M'))%nat.
Proof.
  intros Hj Hp H W. unfold getelementon in W. cbn [mes mns] in W. binv W. destruct v as [[ns1 es1] st]. binv W. inversion W; subst. cbn [mes mns].
  destruct (cs_split_on _ _ _ _ _ _ _ _ _ _ _ _ Hj Hp H E) as (H1 & L1 & S). destruct (cs_swapping _ _ _ _ _ _ _ _ _ H1 E0) as [H2 L2]. splits; auto. lia.
Qed.
Lemma inouton_range e k ns z : inouton e k ns = Ok z -> (-3 <= z <= 3)%Z.
Proof. unfold inouton. intros W. do 10 binv W. injection W as <-. repeat match goal with |- context [if ?c then _ else _] => destruct c end; lia. Qed.
Lemma cs_search (Q : nat -> Prop) b fuel l i p : Q p -> forall steps M now M', cs Q b (mes M) -> insert_search fuel steps M l i p now = Ok M' ->
  cs Q b (mes M') /\ same_nodes (mns M) (mns M').
Proof.
  intros Hp. induction steps as [|steps IH]; intros M now M' H W; cbn [insert_search] in W.
  { inversion W; subst. split; auto. apply same_refl. }
  binv W. binv W. destruct ((v0 <? 0)%Z || negb (eact v)) eqn:C.
  - binv W. destruct (at3 (enb v) v1); now apply IH in W.
  - binv W. destruct v1 as [p1 m1]. apply inouton_range in E0. apply orb_false_iff in C. destruct C as [C _]. apply Z.ltb_ge in C. destruct M as [ns es]. cbn [mes mns] in *.
    destruct (Z.eqb_spec v0 0).
    + destruct (cs_getin Q b _ _ _ _ _ _ _ _ Hp H W) as (A1 & -> & _). split; auto. apply same_refl.
    + assert (J : (Z.to_nat v0 - 1 < 3)%nat) by lia. destruct (cs_geton Q b _ _ _ _ _ _ _ _ _ J Hp H W) as (A1 & A2 & _). split; auto.
Qed.

(** ** the rough mesh *)
Definition mset (ns : list dnode) (k : nat) : Prop := exists m, nth_error ns k = Some m /\ isset m = true.
Lemma cs_mono (Q Q' : nat -> Prop) b es : (forall k, Q k -> Q' k) -> cs Q b es -> cs Q' b es.
Proof. intros HQ. apply Forall_impl. intros e ((H0 & H1 & H2) & Ha). split; auto. Qed.
Lemma mset_map ns ns' k : map isset ns' = map isset ns -> mset ns k -> mset ns' k.
Proof.
  intros E (m & Hm & S). assert (Q : nth_error (map isset ns') k = Some true) by (rewrite E, nth_error_map, Hm; cbn; now rewrite S).
  rewrite nth_error_map in Q. destruct (nth_error ns' k) as [m'|] eqn:E'; cbn in Q; inversion Q. exists m'. auto.
Qed.
Record rough (X : list (list R)) (n : nat) (D : nat -> Prop) (M : dmesh) : Prop := mkRough {
  rg_dx : map dx (mns M) = X;
  rg_set : forall k, mset (mns M) k <-> D k;
  rg_onb : forall m, In m (mns M) -> isset m = true -> isonb m = true;
  rg_cs : cs (fun k => (n <= k < n + 3)%nat \/ mset (mns M) k) false (mes M)
}.
Lemma rough_ext X n D D' M : (forall k, D k <-> D' k) -> rough X n D M -> rough X n D' M.
Proof. intros HD [A1 A2 A3 A4]. constructor; auto. intros k. rewrite A2. apply HD. Qed.
Lemma same_onb ns ns' : same_nodes ns ns' -> (forall m, In m ns -> isset m = true -> isonb m = true) -> forall m, In m ns' -> isset m = true -> isonb m = true.
Proof.
  intros (S1 & S2 & S3) H m Hm Sm. apply In_nth_error in Hm. destruct Hm as (i & Hi).
  assert (Q : nth_error (map isset ns) i = Some true) by (rewrite <- S2, nth_error_map, Hi; cbn; now rewrite Sm).
  rewrite nth_error_map in Q. destruct (nth_error ns i) as [m0|] eqn:E; cbn in Q; [injection Q as Q'|discriminate Q].
  assert (B := H m0 (nth_error_In _ _ E) Q'). assert (O : onb ns i = true) by (unfold onb; now rewrite (nth_error_nth _ _ _ E)).
  apply S3 in O. unfold onb in O. rewrite (nth_error_nth _ _ _ Hi) in O. exact O.
Qed.
Lemma rough_step X n D fuel l M i p M' : rough X n D M -> rd l i = Ok p ->
  (n0 <- rd (mns M) p ;;
   if isset n0 then Ok M
   else ns <- wr (mns M) p (mkNode (dx n0) true true) ;;
        insert_search fuel (length (mes M)) (mkMesh ns (mes M)) l i p (length (mes M) - 1)) = Ok M' ->
  rough X n (fun k => D k \/ k = p) M'.
Proof.
  intros [A1 A2 A3 A4] Hp W. binv W. destruct (isset v) eqn:Sv.
  - inversion W; subst M'. constructor; auto. intros k. rewrite A2. split; [auto|]. intros [H|H]; auto. subst k. apply A2. exists v. apply rd_Ok in E. auto.
  - binv W. assert (Lp := rd_inv _ _ _ E). apply rd_Ok in E. apply wr_inv in E0. destruct E0 as [_ ->].
    set (ns := upd (mns M) p (mkNode (dx v) true true)) in *.
    assert (Mp : mset ns p) by (exists (mkNode (dx v) true true); split; auto; now apply nth_error_upd_eq).
    assert (Mk : forall k, mset ns k <-> (D k \/ k = p)).
    { intros k. destruct (Nat.eq_dec k p) as [->|Ne].
      - split; auto.
      - rewrite <- A2. unfold mset, ns. rewrite nth_error_upd_ne by auto. split; [auto|]. intros [H|H]; auto. congruence. }
    destruct (cs_search (fun k => (n <= k < n + 3)%nat \/ mset ns k) false fuel l i p (or_intror Mp)) with (2 := W) as (C & S).
    { cbn [mes]. eapply cs_mono; [|exact A4]. intros k [H|H]; auto. right. apply Mk. left. now apply A2. }
    cbn [mns] in S. assert (S' := S). destruct S as (S1 & S2 & S3). constructor.
    + rewrite S1, <- A1. unfold ns. clear -E. revert p E. induction (mns M) as [|z l IH]; intros [|q] Hq; cbn in *; try discriminate; f_equal; auto. now inversion Hq.
    + intros k. rewrite <- Mk. split; apply mset_map; auto.
    + apply (same_onb ns); auto. intros m Hm Sm. apply In_upd in Hm. destruct Hm as [->|Hm]; auto.
    + eapply cs_mono; [|exact C]. intros k [H|H]; auto. right. eapply mset_map; eauto.
Qed.
Lemma rough_list X n fuel l : forall m s D M M', rough X n D M ->
  foldM (fun M i => p <- rd l i ;; n0 <- rd (mns M) p ;;
    if isset n0 then Ok M
    else ns <- wr (mns M) p (mkNode (dx n0) true true) ;;
         insert_search fuel (length (mes M)) (mkMesh ns (mes M)) l i p (length (mes M) - 1)) (seq s m) M = Ok M' ->
  rough X n (fun k => D k \/ exists i, (s <= i < s + m)%nat /\ nth_error l i = Some k) M'.
Proof.
  induction m as [|m IH]; intros s D M M' Rg W; cbn [seq] in W.
  { inversion W; subst. eapply rough_ext; [|exact Rg]. intros k. split; auto. intros [H|(i & H & _)]; auto. lia. }
  rewrite foldM_cons in W. binv W. binv E. assert (R1 := rough_step X n D fuel l M s v0 v Rg E0 E).
  eapply rough_ext; [|exact (IH (S s) _ _ _ R1 W)]. intros k. apply rd_Ok in E0. split.
  - intros [[H| ->]|(i & H & Hi)]; auto; right. { exists s. split; auto. lia. } exists i. split; auto. lia.
  - intros [H|(i & H & Hi)]; auto. destruct (Nat.eq_dec i s) as [->|]. { left. right. congruence. } right. exists i. split; auto. lia.
Qed.
Lemma rough_one X n D fuel M l M' : rough X n D M -> makeroughmesh fuel M l = Ok M' -> rough X n (fun k => D k \/ In k l) M'.
Proof.
  intros Rg W. unfold makeroughmesh in W. eapply rough_ext; [|exact (rough_list X n fuel l _ _ _ _ _ Rg W)].
  intros k. split.
  - intros [H|(i & _ & Hi)]; auto. right. eapply nth_error_In; eauto.
  - intros [H|H]; auto. right. apply In_nth_error in H. destruct H as (i & Hi). exists i. split; auto. apply nth_error_lt in Hi. lia.
Qed.
Lemma rough_all X n fuel : forall L D M M', rough X n D M -> foldM (makeroughmesh fuel) L M = Ok M' -> rough X n (fun k => D k \/ exists l, In l L /\ In k l) M'.
Proof.
  induction L as [|l L IH]; intros D M M' Rg W.
  { inversion W; subst. eapply rough_ext; [|exact Rg]. intros k. split; auto. intros [H|(l & [] & _)]; auto. }
  rewrite foldM_cons in W. binv W. assert (R1 := rough_one _ _ _ _ _ _ _ Rg E). eapply rough_ext; [|exact (IH _ _ _ R1 W)].
  intros k. cbn [In]. split.
  - intros [[H|H]|(l' & Hl & H)]; auto; right; eauto.
  - intros [H|(l' & [<-|Hl] & H)]; auto. right; eauto.
Qed.
Lemma rough_start x M : getsupertriangle (map node_of x) = Ok M -> exists X, length X = (length x + 3)%nat /\ firstn (length x) X = x /\ rough X (length x) (fun _ => False) M.
Proof.
  unfold getsupertriangle. intros W. binv W. cbv zeta in W. set (T := map (fun i => node_xy (-2 * v * sin (2 * PI * INR i / 3)) (2 * v * cos (2 * PI * INR i / 3))) [0; 1; 2]%nat) in *. assert (LT : length T = 3%nat) by reflexivity.
  assert (NT : forall m, In m T -> isset m = false). { intros m Hm. apply in_map_iff in Hm. destruct Hm as (i & <- & _). reflexivity. }
  clearbody T. injection W as <-. exists (x ++ map dx T). splits.
  - rewrite app_length, map_length, LT. reflexivity.
  - rewrite firstn_app, Nat.sub_diag, firstn_all, firstn_O, app_nil_r. reflexivity.
  - constructor; cbn [mns mes].
    + rewrite map_app, map_map. assert (Q : forall l : list (list R), map (fun y => dx (node_of y)) l = l) by (induction l as [|y l IH]; [reflexivity|cbn [map]; rewrite IH; reflexivity]). rewrite Q. reflexivity.
    + intros k. split; [|tauto]. intros (m & Hm & Sm). apply nth_error_In, in_app_or in Hm. destruct Hm as [Hm|Hm].
      * apply in_map_iff in Hm. destruct Hm as (y & <- & _). discriminate Sm.
      * rewrite NT in Sm by assumption. discriminate.
    + intros m Hm Sm. apply in_app_or in Hm. destruct Hm as [Hm|Hm].
      * apply in_map_iff in Hm. destruct Hm as (y & <- & _). discriminate Sm.
      * rewrite NT in Sm by assumption. discriminate.
    + constructor; [|constructor]. split; [|reflexivity]. cbn [elem3 en at3 a30 a31 a32]. rewrite app_length, map_length, LT. splits; left; lia.
Qed.
(** what the deactivation says of an element *)
Definition passed (outer inner : list (list nat)) (e : delem) : Prop :=
  (exists l a b c, In l outer /\ order l (at3 (en e) 0) = Some a /\ order l (at3 (en e) 1) = Some b /\ order l (at3 (en e) 2) = Some c /\ cyc a b c = false) \/
  (exists l, In l inner /\ (exists j, (j < 3)%nat /\ order l (at3 (en e) j) <> None) /\
     forall a b c, order l (at3 (en e) 0) = Some a -> order l (at3 (en e) 1) = Some b -> order l (at3 (en e) 2) = Some c -> cyc a b c = false).
Definition cd (Q : nat -> Prop) (outer inner : list (list nat)) (e : delem) : Prop :=
  (forall j, (j < 3)%nat -> Q (at3 (en e) j)) /\ (echk e = true -> eact e = true -> passed outer inner e).
Lemma passed_mono o i o' i' e : (forall l, In l o -> In l o') -> (forall l, In l i -> In l i') -> passed o i e -> passed o' i' e.
Proof. intros Ho Hi [(l & a & b & c & Hl & H)|(l & Hl & H)]; [left; exists l, a, b, c; auto|right; exists l; auto]. Qed.
Lemma deact_outer Q o l M : Forall (cd Q o []) (mes M) -> Forall (cd Q (o ++ [l]) []) (mes (deactivateelements M l true)).
Proof.
  intros H. unfold deactivateelements. cbn [mes]. apply Forall_forall. intros e He. apply in_map_iff in He. destruct He as (f & <- & Hf).
  assert (C := proj1 (Forall_forall _ _) H f Hf). destruct C as [C0 C1].
  assert (Up : passed o [] f -> passed (o ++ [l]) [] f) by (apply passed_mono; auto; intros; apply in_or_app; auto).
  unfold deactivate1. destruct (echk f) eqn:K. { split; auto. }
  destruct (order l (at3 (en f) 0)) as [a|] eqn:A, (order l (at3 (en f) 1)) as [b|] eqn:B, (order l (at3 (en f) 2)) as [c|] eqn:Cc; try (split; auto; fail); try (split; [exact C0|]; intros Z; congruence).
  split; [exact C0|]. cbn [echk eact]. intros _ Ac. left. exists l, a, b, c. cbn [en]. splits; auto. { apply in_or_app. cbn. auto. } destruct (cyc a b c); [discriminate|reflexivity].
Qed.
Lemma deact_inner Q o i l M : Forall (cd Q o i) (mes M) -> Forall (cd Q o (i ++ [l])) (mes (deactivateelements M l false)).
Proof.
  intros H. unfold deactivateelements. cbn [mes]. apply Forall_forall. intros e He. apply in_map_iff in He. destruct He as (f & <- & Hf).
  assert (C := proj1 (Forall_forall _ _) H f Hf). destruct C as [C0 C1].
  assert (Up : passed o i f -> passed o (i ++ [l]) f) by (apply passed_mono; auto; intros; apply in_or_app; auto).
  assert (Il : In l (i ++ [l])) by (apply in_or_app; cbn; auto).
  unfold deactivate1. destruct (echk f) eqn:K. { split; auto. }
  destruct (order l (at3 (en f) 0)) as [a|] eqn:A, (order l (at3 (en f) 1)) as [b|] eqn:B, (order l (at3 (en f) 2)) as [c|] eqn:Cc; try (split; [exact C0|]; intros Z; congruence); (split; [exact C0|]); cbn [echk eact]; intros _ Ac; right; exists l; cbn [en]; (split; [exact Il|]); rewrite ?A, ?B, ?Cc; split;
    try (exists 0%nat; split; [lia|congruence]); try (exists 1%nat; split; [lia|congruence]); try (exists 2%nat; split; [lia|congruence]); try (intros; congruence).
  intros a' b' c' Qa Qb Qc. injection Qa as <-. injection Qb as <-. injection Qc as <-. destruct (cyc a b c); [discriminate|reflexivity].
Qed.
Lemma deact_outers Q : forall L o M, Forall (cd Q o []) (mes M) -> let M' := fold_left (fun M l => deactivateelements M l true) L M in mns M' = mns M /\ Forall (cd Q (o ++ L) []) (mes M').
Proof.
  induction L as [|l L IH]; intros o M H; cbn [fold_left]. { rewrite app_nil_r. auto. }
  apply (deact_outer Q o l M) in H. destruct (IH _ _ H) as [A B]. rewrite <- app_assoc in B. split; auto.
Qed.
Lemma deact_inners Q o : forall L i M, Forall (cd Q o i) (mes M) -> let M' := fold_left (fun M l => deactivateelements M l false) L M in mns M' = mns M /\ Forall (cd Q o (i ++ L)) (mes M').
Proof.
  induction L as [|l L IH]; intros i M H; cbn [fold_left]. { rewrite app_nil_r. auto. }
  apply (deact_inner Q o i l M) in H. destruct (IH _ _ H) as [A B]. rewrite <- app_assoc in B. split; auto.
Qed.
Definition listed (outer inner : list (list nat)) (k : nat) : bool := existsb (fun l => existsb (Nat.eqb k) l) (outer ++ inner).
Lemma listed_iff outer inner k : listed outer inner k = true <-> exists l, In l (outer ++ inner) /\ In k l.
Proof.
  unfold listed. rewrite existsb_exists. split; intros (l & Hl & H); exists l; split; auto.
  - apply existsb_exists in H. destruct H as (y & Hy & E). apply Nat.eqb_eq in E. now subst.
  - apply existsb_exists. exists k. split; auto. apply Nat.eqb_refl.
Qed.
Lemma filter_index (l : list dnode) (g : nat -> bool) : (forall i m, nth_error l i = Some m -> isset m = g i) ->
  map dx (filter isset l) = map (fun i => nth i (map dx l) []) (filter g (seq 0 (length l))).
Proof.
  assert (G : forall pre l, (forall i m, nth_error l i = Some m -> isset m = g (length pre + i)%nat) ->
    map dx (filter isset l) = map (fun i => nth i (map dx (pre ++ l)) []) (filter g (seq (length pre) (length l)))).
  { intros pre l0. revert pre. induction l0 as [|m l0 IH]; intros pre H; [reflexivity|]. cbn [filter length seq].
    assert (Q := IH (pre ++ [m])). rewrite app_length in Q. cbn [length] in Q. replace (length pre + 1)%nat with (S (length pre)) in Q by lia.
    rewrite <- app_assoc in Q. cbn [app] in Q. assert (Hm := H 0%nat m eq_refl). rewrite Nat.add_0_r in Hm. rewrite Hm.
    assert (Q' := Q ltac:(intros i m' Hi; replace (S (length pre) + i)%nat with (length pre + S i)%nat by lia; now apply H)).
    destruct (g (length pre)); cbn [map]; [|exact Q']. f_equal; [|exact Q'].
    rewrite map_app, app_nth2; rewrite map_length; [|lia]. now rewrite Nat.sub_diag. }
  intros H. exact (G [] l H).
Qed.
Lemma roughmesh_ok fuel x outer inner M : roughmesh fuel x outer inner = Ok M -> (forall k, listed outer inner k = true -> (k < length x)%nat) ->
  exists ns es, M = sortnode (mkMesh ns es) /\ (forall m, In m ns -> isset m = true -> isonb m = true) /\
    map dx (filter isset ns) = map (fun i => nth i x []) (filter (listed outer inner) (seq 0 (length x))) /\
    (forall k, mset ns k <-> listed outer inner k = true) /\
    forall e, In e es -> eact e = true /\ passed outer inner e /\ forall j, (j < 3)%nat -> mset ns (at3 (en e) j).
Proof.
  intros W HL. unfold roughmesh in W. binv W. binv W. binv W. cbv zeta in W. injection W as <-.
  destruct (rough_start x v E) as (X & LX & FX & R0). assert (R1 := rough_all _ _ _ _ _ _ _ R0 E0). assert (R2 := rough_all _ _ _ _ _ _ _ R1 E1).
  destruct R2 as [A1 A2 A3 A4]. set (ns := mns v1) in *.
  assert (A5 : Forall (cd (fun k => (length x <= k < length x + 3)%nat \/ mset (mns v1) k) [] []) (mes v1)).
  { apply Forall_forall. intros e He. assert (C := cs_In _ _ _ _ A4 He). split; [intros j Hj; exact (cq_at _ _ _ j Hj C)|]. intros K. destruct C as [_ C]. congruence. }
  destruct (deact_outers _ outer [] v1 A5) as [B1 B2]. destruct (deact_inners _ _ inner [] _ B2) as [C1 C2]. cbn [app] in C2.
  set (M2 := fold_left (fun M l => deactivateelements M l false) inner _) in *. rewrite B1 in C1. fold ns in C1.
  assert (Ln : length ns = (length x + 3)%nat) by (rewrite <- LX, <- A1; unfold ns; now rewrite map_length).
  set (M3 := deleteelement (deactivatesupertriangle M2)).
  assert (N3 : mns M3 = ns) by exact C1.
  assert (K3 : forall e, In e (mes M3) -> eact e = true /\ passed outer inner e /\ forall j, (j < 3)%nat -> mset ns (at3 (en e) j)).
  { intros e He. unfold M3, deleteelement in He. cbn [mes] in He. apply filter_In in He. destruct He as [He F]. apply negb_true_iff, orb_false_iff in F. destruct F as [F1 F2].
    apply negb_false_iff in F1. apply negb_false_iff in F2. split; [exact F1|].
    unfold deactivatesupertriangle in He. cbn [mes] in He. cbv zeta in He. apply in_map_iff in He. destruct He as (f & Ef & Hf). rewrite C1, Ln in Ef.
    assert (Cf := proj1 (Forall_forall _ _) C2 f Hf). destruct (_ || _ || _)%bool eqn:Hit in Ef. { rewrite <- Ef in F1. discriminate F1. }
    subst f. destruct Cf as [Cf Cp]. split; [now apply Cp|]. intros j Hj. assert (P := Cf j Hj). cbn beta in P. destruct P as [P|P]; auto. exfalso.
    apply orb_false_iff in Hit. destruct Hit as [Hit I2]. apply orb_false_iff in Hit. destruct Hit as [I0 I1].
    assert (Z : forall k, ((k =? length x + 3 - 1) || (k =? length x + 3 - 2) || (k =? length x + 3 - 3))%nat = false -> ~ (length x <= k < length x + 3)%nat).
    { intros k Hk Rk. apply orb_false_iff in Hk. destruct Hk as [Hk K2]. apply orb_false_iff in Hk. destruct Hk as [K0 K1].
      apply Nat.eqb_neq in K0, K1, K2. lia. }
    case3 j Hj; [exact (Z _ I0 P)|exact (Z _ I1 P)|exact (Z _ I2 P)]. }
  assert (Ls : forall k, mset ns k <-> listed outer inner k = true).
  { intros k. rewrite A2, listed_iff. split.
    - intros [[[]|(l & Hl & Hk)]|(l & Hl & Hk)]; exists l; split; auto; apply in_or_app; auto.
    - intros (l & Hl & Hk). apply in_app_or in Hl. destruct Hl as [Hl|Hl]; [left; right|right]; exists l; auto. }
  exists ns, (mes (sortelement M3)). splits; auto.
  - unfold M3 in *. f_equal. unfold sortelement. cbn [mns mes]. f_equal. exact C1.
  - rewrite (filter_index ns (fun i => listed outer inner i)).
    + rewrite Ln. rewrite seq_app, filter_app, map_app. replace (filter _ (seq (0 + length x) 3)) with (@nil nat).
      * cbn [map]. rewrite app_nil_r. apply map_ext_in. intros i Hi. apply filter_In in Hi. destruct Hi as [Hi _]. apply in_seq in Hi.
        rewrite A1. transitivity (nth i (firstn (length x) X) []); [|now rewrite FX]. clear -Hi LX. revert X i Hi LX. generalize (length x). induction n as [|n IH]; intros [|y X] [|i] Hi LX; cbn in *; try lia; auto. apply IH; lia.
      * symmetry. cbn [plus seq filter]. assert (Z : forall k, (length x <= k)%nat -> listed outer inner k = false).
        { intros k Hk. destruct (listed outer inner k) eqn:Q; auto. apply HL in Q. lia. } rewrite !Z by lia. reflexivity.
    + intros i m Hm. destruct (isset m) eqn:Sm, (listed outer inner i) eqn:Li; auto.
      * assert (Q : mset ns i) by (exists m; auto). apply Ls in Q. congruence.
      * apply Ls in Li. destruct Li as (m' & Hm' & Sm'). rewrite Hm in Hm'. inversion Hm'; subst m'. congruence.
  - intros e He. unfold sortelement in He. cbn [mes] in He. apply in_map_iff in He. destruct He as ((a & f) & <- & Hf). cbn [fst snd eact].
    apply (K3 f). apply In_index in Hf. destruct Hf as [_ Hf]. eapply nth_error_In; eauto.
Qed.
