(** The loop of swaps: it keeps the triangulation, and it ends. *)
From Coq Require Import List Arith ZArith Lia Bool Reals Lra Psatz Wf_nat.
From Verif Require Import Res DenseModel DenseR LUModel DelaunayModel DelaunaySpec DelaunayProof DelaunayProof2.
Import ListNotations.
Local Open Scope R_scope.

(** node numbers that are no corner of the mesh *)
Definition noadj (es : list delem) (p1 m1 : Z) : Prop :=
  forall e j, In e es -> (j < 3)%nat -> Z.of_nat (at3 (en e) j) <> p1 /\ Z.of_nat (at3 (en e) j) <> m1.
Lemma noadj_isadj es p1 m1 e j : noadj es p1 m1 -> In e es -> (j < 3)%nat -> isadj (at3 (en e) j) p1 m1 = false.
Proof. intros H He Hj. destruct (H e j He Hj) as [A B]. unfold isadj. apply orb_false_iff. split; now apply Z.eqb_neq. Qed.
Lemma noadj_m2 es : noadj es (-2) (-2).
Proof. intros e j _ _. lia. Qed.

Lemma code_m1_iff v0 v1 v2 : selfeps < v0 -> v1 < 0 -> code v0 v1 v2 = (-1)%Z.
Proof.
  intros H0 H1. assert (E := selfeps_pos). unfold code.
  assert (A : Rltb v0 0 = false) by (apply Rltb_f; lra).
  assert (B : Rleb (Rabs v0) selfeps = false) by (apply Rleb_f; rewrite Rabs_pos_eq; lra).
  assert (C : Rltb 0 v0 = true) by (apply Rltb_t; lra).
  assert (D : Rltb v1 0 = true) by (apply Rltb_t; lra).
  rewrite A, B, C, D. cbn [andb orb]. rewrite andb_false_r. reflexivity.
Qed.
Lemma code_m2_iff v0 v1 v2 : selfeps < v1 -> v2 < 0 -> code v0 v1 v2 = (-2)%Z.
Proof.
  intros H0 H1. assert (E := selfeps_pos). unfold code.
  assert (A : Rltb v1 0 = false) by (apply Rltb_f; lra).
  assert (B : Rleb (Rabs v1) selfeps = false) by (apply Rleb_f; rewrite Rabs_pos_eq; lra).
  assert (C : Rltb 0 v1 = true) by (apply Rltb_t; lra).
  assert (D : Rltb v2 0 = true) by (apply Rltb_t; lra).
  assert (F : Rltb 0 v2 = false) by (apply Rltb_f; lra).
  rewrite A, B, C, D, F. cbn [andb orb]. rewrite andb_false_r. reflexivity.
Qed.
Lemma code_m3_iff v0 v1 v2 : selfeps < v2 -> v0 < 0 -> code v0 v1 v2 = (-3)%Z.
Proof.
  intros H0 H1. assert (E := selfeps_pos). unfold code.
  assert (C : Rltb 0 v2 = true) by (apply Rltb_t; lra).
  assert (D : Rltb v0 0 = true) by (apply Rltb_t; lra).
  rewrite C, D. reflexivity.
Qed.

Section Cond.
Variables (ns : list dnode) (es : list delem) (s t n : nat) (S T : delem) (p1 m1 : Z).
Hypothesis OK : mesh_ok ns es.
Hypothesis HS : nth_error es s = Some S.
Hypothesis HT : nth_error es t = Some T.
Hypothesis Hn : (n < 3)%nat.
Hypothesis NS : at3 (enb S) 0 = Some t.
Hypothesis NT : at3 (enb T) n = Some s.
Hypothesis NA : noadj es p1 m1.
Notation P := (at3 (en S) 0). Notation B := (at3 (en S) 1). Notation C := (at3 (en S) 2). Notation Q := (at3 (en T) n).

Lemma swap_cond_ok : exists c, swap_cond ns es s t n p1 m1 = Ok c /\
  (c = true -> pdist (xy ns P) (xy ns Q) < pdist (xy ns B) (xy ns C) /\ at3 (esd S) 0 = false /\
     0 < tri2 (xy ns P) (xy ns B) (xy ns Q) /\ 0 < tri2 (xy ns P) (xy ns Q) (xy ns C)) /\
  (c = false -> at3 (esd S) 0 = false -> selfeps < tri2 (xy ns P) (xy ns B) (xy ns Q) ->
     selfeps < tri2 (xy ns P) (xy ns Q) (xy ns C) -> pdist (xy ns B) (xy ns C) <= pdist (xy ns P) (xy ns Q)).
Proof.
  assert (F := ok_flat _ _ OK).
  assert (IS := ok_ids _ _ OK S (nth_error_In _ _ HS)). assert (IT := ok_ids _ _ OK T (nth_error_In _ _ HT)).
  assert (PS := ok_pos _ _ OK S (nth_error_In _ _ HS)). assert (PT := ok_pos _ _ OK T (nth_error_In _ _ HT)).
  rewrite (area2_rot ns T n Hn) in PT.
  destruct (swap_nodes ns es s t n S T OK HS HT Hn NS NT) as [EC EB]. rewrite EC, EB in PT.
  destruct (flat_rd ns B F (IS 1%nat ltac:(lia))) as (nb & Rb & Lb & Xb).
  destruct (flat_rd ns C F (IS 2%nat ltac:(lia))) as (nc & Rc & Lc & Xc).
  destruct (flat_rd ns P F (IS 0%nat ltac:(lia))) as (np & Rp & Lp & Xp).
  destruct (flat_rd ns Q F (IT n Hn)) as (nq & Rq & Lq & Xq).
  unfold swap_cond. rewrite (rd_nth_error _ _ _ HS), (rd_nth_error _ _ _ HT). cbn [bind].
  rewrite Rb, Rc. cbn [bind]. rewrite ndist_ok by assumption. cbn [bind]. rewrite Rp, Rq. cbn [bind].
  rewrite ndist_ok by assumption. cbn [bind]. rewrite Xb, Xc, Xp, Xq.
  destruct (NA T n (nth_error_In _ _ HT) Hn) as [A1 A2].
  assert (Z1 : (Z.of_nat Q =? p1)%Z || (Z.of_nat Q =? m1)%Z = false) by (apply orb_false_iff; split; now apply Z.eqb_neq).
  rewrite Z1.
  assert (I2 : exists c2, inouton T P ns = Ok c2 /\ (c2 = (- (Z.of_nat n + 1))%Z -> 0 < tri2 (xy ns P) (xy ns Q) (xy ns C)) /\
     (selfeps < tri2 (xy ns P) (xy ns B) (xy ns Q) -> selfeps < tri2 (xy ns P) (xy ns Q) (xy ns C) -> c2 = (- (Z.of_nat n + 1))%Z)).
  { rewrite (inouton_ok ns T P F IT (IS 0%nat ltac:(lia))). eexists; split; [reflexivity|].
    unfold area2 in PS.
    assert (Z3 : tri2 (xy ns C) (xy ns B) (xy ns P) < 0) by (unfold tri2 in *; lra).
    revert EC EB PT Z3. case3 n Hn; unfold nx3, pv3; cbn [Nat.add Nat.modulo Nat.divmod fst snd Nat.sub]; intros EC EB PT Z3; split.
    - intros E. change (- (Z.of_nat 0 + 1))%Z with (-1)%Z in E. apply code_m1 in E. rewrite EC in E. unfold tri2 in *. lra.
    - intros U V. change (- (Z.of_nat 0 + 1))%Z with (-1)%Z. apply code_m1_iff; rewrite ?EC, ?EB; unfold tri2 in *; lra.
    - intros E. change (- (Z.of_nat 1 + 1))%Z with (-2)%Z in E. apply code_m2 in E. rewrite EC in E. unfold tri2 in *. lra.
    - intros U V. change (- (Z.of_nat 1 + 1))%Z with (-2)%Z. apply code_m2_iff; rewrite ?EC, ?EB; unfold tri2 in *; lra.
    - intros E. change (- (Z.of_nat 2 + 1))%Z with (-3)%Z in E. apply code_m3 in E. rewrite EC in E. unfold tri2 in *. lra.
    - intros U V. change (- (Z.of_nat 2 + 1))%Z with (-3)%Z. apply code_m3_iff; rewrite ?EC, ?EB; unfold tri2 in *; lra. }
  destruct I2 as (c2 & I2 & I3 & I4).
  destruct (Rltb_spec (pdist (xy ns P) (xy ns Q)) (pdist (xy ns B) (xy ns C))) as [Hlt|Hge].
  - rewrite (inouton_ok ns S Q F IS (IT n Hn)). cbn [bind].
    set (c1 := code _ _ _).
    destruct (Z.eqb_spec c1 (-1)) as [E1|E1].
    + rewrite I2. cbn [bind]. rewrite orb_false_r. eexists. split; [reflexivity|]. split.
      * intros H. apply andb_true_iff in H. destruct H as [H1 H2]. apply Z.eqb_eq in H1. apply negb_true_iff in H2.
        splits; auto. unfold c1 in E1. apply code_m1 in E1. tauto.
      * intros H Hs U V. exfalso. rewrite (I4 U V), Hs in H. rewrite Z.eqb_refl in H. discriminate.
    + cbn [bind]. eexists. split; [reflexivity|]. split; [discriminate|].
      intros _ Hs U V. exfalso. apply E1. unfold c1. apply code_m1_iff; auto. unfold tri2 in *; lra.
  - cbn [bind]. eexists. split; [reflexivity|]. split; [discriminate|]. intros; lra.
Qed.
End Cond.

(** the sum of the perimeters *)
Definition per (ns : list dnode) (t : arr3 nat) : R :=
  pdist (xy ns (at3 t 0)) (xy ns (at3 t 1)) + pdist (xy ns (at3 t 1)) (xy ns (at3 t 2)) + pdist (xy ns (at3 t 2)) (xy ns (at3 t 0)).
Definition pers (ns : list dnode) (l : list (arr3 nat)) : R := fold_right (fun t s => per ns t + s) 0 l.
Lemma pers_esum ns es : pers ns (map en es) = esum (fun e => per ns (en e)) es.
Proof. unfold esum, pers. induction es as [|e es IH]; cbn; auto. now rewrite IH. Qed.
Lemma pdist_sym a b : pdist a b = pdist b a.
Proof. unfold pdist. f_equal. ring. Qed.

Definition triples (n : nat) : list (arr3 nat) :=
  flat_map (fun a => flat_map (fun b => map (fun c => A3 a b c) (seq 0 n)) (seq 0 n)) (seq 0 n).
Lemma triples_In n t : (forall j, (j < 3)%nat -> (at3 t j < n)%nat) -> In t (triples n).
Proof.
  intros H. destruct t as [a b c]. unfold triples.
  assert (H0 := H 0%nat ltac:(lia)). assert (H1 := H 1%nat ltac:(lia)). assert (H2 := H 2%nat ltac:(lia)). cbn in *.
  apply in_flat_map. exists a. split; [apply in_seq; lia|].
  apply in_flat_map. exists b. split; [apply in_seq; lia|].
  apply in_map. apply in_seq; lia.
Qed.
Fixpoint lists_of {A} (X : list A) (m : nat) : list (list A) :=
  match m with O => [[]] | S m => flat_map (fun x => map (cons x) (lists_of X m)) X end.
Lemma lists_of_In {A} (X : list A) l : (forall x, In x l -> In x X) -> In l (lists_of X (length l)).
Proof.
  induction l as [|x l IH]; intros H; cbn; auto.
  apply in_flat_map. exists x. split; [apply H; cbn; auto|]. apply in_map. apply IH. intros; apply H; cbn; auto.
Qed.
Definition rank (ns : list dnode) (es : list delem) : nat :=
  length (filter (fun l => Rltb (pers ns l) (pers ns (map en es))) (lists_of (triples (length ns)) (length es))).
Lemma filter_lt {A} (f g : A -> bool) l x : (forall y, f y = true -> g y = true) -> In x l -> f x = false -> g x = true ->
  (length (filter f l) < length (filter g l))%nat.
Proof.
  intros H. assert (W : forall l, (length (filter f l) <= length (filter g l))%nat).
  { clear - H. induction l as [|y l IH]; cbn; auto. destruct (f y) eqn:E; [rewrite (H y E); cbn; lia|]. destruct (g y); cbn; lia. }
  induction l as [|y l IH]; intros Hin Hf Hg; cbn in *; [tauto|].
  destruct Hin as [->|Hin].
  - rewrite Hf, Hg. cbn. specialize (W l). lia.
  - specialize (IH Hin Hf Hg). destruct (f y) eqn:E; [rewrite (H y E); cbn; lia|]. destruct (g y); cbn; lia.
Qed.
Lemma rank_lt ns es es' : length es' = length es -> (forall e, In e es' -> ids_ok (length ns) e) ->
  pers ns (map en es') < pers ns (map en es) -> (rank ns es' < rank ns es)%nat.
Proof.
  intros L H P. unfold rank. rewrite L. apply (filter_lt _ _ _ (map en es')).
  - intros l Hl. apply Rltb_t in Hl. apply Rltb_t. lra.
  - rewrite <- L, <- (map_length en es'). apply lists_of_In. intros x Hx. apply in_map_iff in Hx. destruct Hx as (e & <- & He).
    apply triples_In. now apply H.
  - apply Rltb_f. lra.
  - apply Rltb_t. lra.
Qed.

(** no swap is possible at element [a] *)
Definition settled (ns : list dnode) (es : list delem) (a : nat) : Prop :=
  forall S t T n, nth_error es a = Some S -> at3 (enb S) 0 = Some t -> nth_error es t = Some T -> (n < 3)%nat -> at3 (enb T) n = Some a ->
  at3 (esd S) 0 = false ->
  selfeps < tri2 (xy ns (at3 (en S) 0)) (xy ns (at3 (en S) 1)) (xy ns (at3 (en T) n)) ->
  selfeps < tri2 (xy ns (at3 (en S) 0)) (xy ns (at3 (en T) n)) (xy ns (at3 (en S) 2)) ->
  pdist (xy ns (at3 (en S) 1)) (xy ns (at3 (en S) 2)) <= pdist (xy ns (at3 (en S) 0)) (xy ns (at3 (en T) n)).

(** the elements at node [p] have it as first corner and are settled or on the stack *)
Definition star_ok (ns : list dnode) (es : list delem) (st : list nat) (p : nat) : Prop :=
  (forall e j, In e es -> (j < 3)%nat -> at3 (en e) j = p -> j = 0%nat) /\
  (forall a e, In a st -> nth_error es a = Some e -> at3 (en e) 0 = p) /\
  (forall a e, nth_error es a = Some e -> at3 (en e) 0 = p -> In a st \/ settled ns es a).

Section SwapStar.
Variables (ns : list dnode) (es : list delem) (s t n : nat) (S T : delem).
Hypothesis OK : mesh_ok ns es.
Hypothesis HS : nth_error es s = Some S.
Hypothesis HT : nth_error es t = Some T.
Hypothesis Hn : (n < 3)%nat.
Hypothesis NS : at3 (enb S) 0 = Some t.
Hypothesis NT : at3 (enb T) n = Some s.
Hypothesis G1 : 0 < tri2 (xy ns (at3 (en S) 0)) (xy ns (at3 (en S) 1)) (xy ns (at3 (en T) n)).
Hypothesis G2 : 0 < tri2 (xy ns (at3 (en S) 0)) (xy ns (at3 (en T) n)) (xy ns (at3 (en S) 2)).
Variable st : list nat.
Variable p : nat.
Hypothesis ST : star_ok ns es (s :: st) p.
Notation es' := (swap_es es S T s t n).

Lemma swap_star : star_ok ns es' (t :: s :: st) p.
Proof.
  destruct ST as (S1 & S2 & S3).
  assert (EP : at3 (en S) 0 = p) by (apply (S2 s); cbn; auto).
  assert (OK' := swap_mesh_ok ns es s t n S T OK HS HT Hn NS NT G1 G2).
  destruct (dist_BPQ ns n S T G1 G2) as (D1 & D2 & D3 & D4 & D5).
  assert (Ss : nth_error es' s = Some (swapS S T s t n)) by (eapply swap_s; eauto).
  assert (Tt : nth_error es' t = Some (swapT S T s t n)) by (eapply swap_t; eauto).
  assert (X1 : forall e j, In e es' -> (j < 3)%nat -> at3 (en e) j = p -> j = 0%nat).
  { intros e j He Hj E. destruct (swap_In ns es s t n S T OK HS HT Hn NS NT G1 G2 e He) as [ -> | [ -> | (e0 & H0 & E' & _) ] ].
    - case3 j Hj; auto; cbn [swapS en] in E; [change (at3 (en S) 1 = p) in E|change (at3 (en T) n = p) in E]; congruence.
    - case3 j Hj; auto; cbn [swapT en] in E; [change (at3 (en T) n = p) in E|change (at3 (en S) 2 = p) in E]; congruence.
    - apply (S1 e0); auto. congruence. }
  split; [exact X1|]. split.
  - intros a e Ha H.
    destruct (Nat.eq_dec a s) as [->|As]. { rewrite Ss in H; inversion H; subst e. exact EP. }
    destruct (Nat.eq_dec a t) as [->|At]. { rewrite Tt in H; inversion H; subst e. exact EP. }
    destruct Ha as [Ha|[Ha|Ha]]; try congruence.
    assert (Hl : (a < length es)%nat) by (rewrite <- (swap_length es s t n S T); eapply nth_error_lt; eauto).
    destruct (nth_error es a) as [e0|] eqn:H0; [|apply nth_error_None in H0; lia].
    destruct (swap_other ns es s t n S T OK HS HT Hn NS NT G1 G2 a e0 As At H0) as (f & Hf & F1 & _).
    rewrite H in Hf; inversion Hf; subst f. rewrite F1. apply (S2 a); cbn; auto.
  - intros a e H E.
    destruct (Nat.eq_dec a s) as [->|As]; [left; cbn; auto|].
    destruct (Nat.eq_dec a t) as [->|At]; [left; cbn; auto|].
    assert (Hl : (a < length es)%nat) by (rewrite <- (swap_length es s t n S T); eapply nth_error_lt; eauto).
    destruct (nth_error es a) as [e0|] eqn:H0; [|apply nth_error_None in H0; lia].
    destruct (swap_other ns es s t n S T OK HS HT Hn NS NT G1 G2 a e0 As At H0) as (f & Hf & F1 & F2 & F3 & F4).
    rewrite H in Hf; inversion Hf; subst f. clear Hf.
    destruct (S3 a e0 H0 ltac:(congruence)) as [Hin|Hset]; [left; cbn in *; destruct Hin; auto; congruence|].
    right. intros A c Cc k HA NA HC Hk NC Mk U V. rewrite H in HA; inversion HA; subst A. clear HA.
    (* the neighbor is one of the new elements: its far corner is p *)
    assert (far : forall Z, nth_error es' c = Some Z -> at3 (en Z) 0 = p -> False).
    { intros Z HZ EZ. rewrite HC in HZ; inversion HZ; subst Z.
      assert (k = 0)%nat.
      { destruct (ok_link _ _ OK' a e 0%nat c H ltac:(lia) NA) as (Z & k' & HZ' & Hk' & NZ & Sd & _).
        rewrite HC in HZ'; inversion HZ'; subst Z.
        assert (k' = k) by (apply (one_side ns es' OK' c Cc k' k a); auto). subst k'.
        assert (Pe := ok_pos _ _ OK' e (nth_error_In _ _ H)).
        assert (Q1 := pos_distinct ns e 0 1 Pe ltac:(lia) ltac:(lia) ltac:(lia)).
        assert (Q2 := pos_distinct ns e 0 2 Pe ltac:(lia) ltac:(lia) ltac:(lia)).
        unfold side, rev_side in Sd. cbn [fst snd] in Sd. injection Sd as Sd1 Sd2.
        change (at3 (en Cc) (nx3 k) = at3 (en e) 2) in Sd1. change (at3 (en Cc) (pv3 k) = at3 (en e) 1) in Sd2.
        case3 k Hk; auto; unfold nx3, pv3 in Sd1, Sd2; cbn [Nat.add Nat.modulo Nat.divmod fst snd Nat.sub] in Sd1, Sd2; congruence. }
      subst k. rewrite EZ, E, tri2_aba in U. generalize selfeps_pos; lra. }
    destruct (Nat.eq_dec c s) as [->|Cs]. { exfalso. apply (far _ Ss). exact EP. }
    destruct (Nat.eq_dec c t) as [->|Ct]. { exfalso. apply (far _ Tt). exact EP. }
    assert (Hcl : (c < length es)%nat) by (rewrite <- (swap_length es s t n S T); eapply nth_error_lt; eauto).
    destruct (nth_error es c) as [c0|] eqn:Hc0; [|apply nth_error_None in Hc0; lia].
    destruct (swap_other ns es s t n S T OK HS HT Hn NS NT G1 G2 c c0 Cs Ct Hc0) as (g & Hg & K1 & K2 & K3 & K4).
    rewrite HC in Hg; inversion Hg; subst g. clear Hg.
    rewrite F1, K1 in *. apply (Hset e0 c c0 k); auto.
    + rewrite F4 in NA by lia. destruct (_ && _) in NA; [congruence|]. destruct (_ && _) in NA; congruence.
    + rewrite K4 in NC by lia. destruct (_ && _) in NC; [congruence|]. destruct (_ && _) in NC; congruence.
    + now rewrite <- F2.
Qed.
End SwapStar.

Lemma swapping_ok ns p1 m1 p : forall r es, (rank ns es = r) -> forall st,
  mesh_ok ns es -> noadj es p1 m1 -> (forall s, In s st -> (s < length es)%nat) -> star_ok ns es st p ->
  exists N es', (forall fuel, (N <= fuel)%nat -> swapping fuel ns es st p1 m1 = Ok es') /\
    mesh_ok ns es' /\ noadj es' p1 m1 /\ length es' = length es /\ total2 ns es' = total2 ns es /\
    (border_ok ns es -> border_ok ns es') /\
    (forall i, (exists e j, In e es /\ (j < 3)%nat /\ at3 (en e) j = i) <-> (exists e j, In e es' /\ (j < 3)%nat /\ at3 (en e) j = i)) /\
    star_ok ns es' [] p.
Proof.
  intros r. induction (lt_wf r) as [r _ IH]. intros es Hr st. revert es Hr.
  induction st as [|s st IHs]; intros es Hr OK NA Hst ST.
  { exists 0%nat, es. splits; auto; try tauto. intros [|fuel] _; reflexivity. }
  assert (Hs : (s < length es)%nat) by (apply Hst; cbn; auto).
  destruct (nth_error es s) as [S|] eqn:HS; [|apply nth_error_None in HS; lia].
  (* dropping s from the stack *)
  assert (Drop : settled ns es s -> exists N es', (forall fuel, (N <= fuel)%nat -> swapping fuel ns es st p1 m1 = Ok es') /\
    mesh_ok ns es' /\ noadj es' p1 m1 /\ length es' = length es /\ total2 ns es' = total2 ns es /\
    (border_ok ns es -> border_ok ns es') /\
    (forall i, (exists e j, In e es /\ (j < 3)%nat /\ at3 (en e) j = i) <-> (exists e j, In e es' /\ (j < 3)%nat /\ at3 (en e) j = i)) /\
    star_ok ns es' [] p).
  { intros Hset. apply IHs; auto. intros; apply Hst; cbn; auto.
    destruct ST as (S1 & S2 & S3). split; [exact S1|]. split; [intros; apply (S2 a); cbn; auto|].
    intros a e H E. destruct (S3 a e H E) as [[->|Hin]|Hs']; auto. }
  destruct (at3 (enb S) 0) as [t|] eqn:NS.
  2: { destruct Drop as (N & es' & H & Rest).
       - intros A t T n HA NA'. congruence.
       - exists (Datatypes.S N), es'. split; [|exact Rest]. intros [|fuel] Hf; [lia|]. cbn [swapping].
         rewrite (rd_nth_error _ _ _ HS). cbn [bind]. rewrite NS. apply H. lia. }
  destruct (ok_link _ _ OK s S 0%nat t HS ltac:(lia) NS) as (T & n & HT & Hn & NT & _ & _).
  assert (Opp := opp_ok ns es OK t T n s HT Hn NT).
  destruct (swap_cond_ok ns es s t n S T p1 m1 OK HS HT Hn NS NT NA) as (c & Hc & C1 & C2).
  destruct c.
  - destruct (C1 eq_refl) as (Hd & Hm & G1 & G2).
    assert (OK' := swap_mesh_ok ns es s t n S T OK HS HT Hn NS NT G1 G2).
    assert (L' := swap_length es s t n S T).
    assert (Rk : (rank ns (swap_es es S T s t n) < r)%nat).
    { rewrite <- Hr. apply rank_lt; auto. exact (ok_ids _ _ OK').
      rewrite !pers_esum, (swap_esum ns es s t n S T OK HS HT Hn NS NT) by reflexivity.
      destruct (swap_nodes ns es s t n S T OK HS HT Hn NS NT) as [EC EB].
      assert (PT : per ns (en T) = pdist (xy ns (at3 (en T) n)) (xy ns (at3 (en S) 2)) + pdist (xy ns (at3 (en S) 2)) (xy ns (at3 (en S) 1)) + pdist (xy ns (at3 (en S) 1)) (xy ns (at3 (en T) n))).
      { rewrite <- EC, <- EB. unfold per. clear - Hn. case3 n Hn; unfold nx3, pv3; cbn [Nat.add Nat.modulo Nat.divmod fst snd Nat.sub]; ring. }
      rewrite PT. unfold per. cbn [swapS swapT en at3 a30 a31 a32]. 
      change (a30 (en S)) with (at3 (en S) 0). change (a31 (en S)) with (at3 (en S) 1). change (a32 (en S)) with (at3 (en S) 2).
      rewrite (pdist_sym (xy ns (at3 (en S) 2)) (xy ns (at3 (en S) 1))), (pdist_sym (xy ns (at3 (en T) n)) (xy ns (at3 (en S) 0))).
      lra. }
    destruct (IH _ Rk _ eq_refl (t :: s :: st)) as (N & es' & H & OK2 & NA2 & L2 & A2 & B2 & K2 & ST2); auto.
    + intros e j He Hj. destruct (proj2 (swap_corner ns es s t n S T OK HS HT Hn NS NT G1 G2 (at3 (en e) j))) as (e0 & j0 & He0 & Hj0 & E0); [eauto|].
      rewrite <- E0. now apply NA.
    + rewrite L'. intros x [<-|[<-|Hx]]; auto. eapply nth_error_lt; eauto. apply Hst; cbn; auto.
    + now apply swap_star.
    + exists (Datatypes.S N), es'. splits; auto.
      * intros [|fuel] Hf; [lia|]. cbn [swapping].
        rewrite (rd_nth_error _ _ _ HS). cbn [bind]. rewrite NS, (rd_nth_error _ _ _ HT). cbn [bind].
        rewrite (ok_act _ _ OK T (nth_error_In _ _ HT)), Opp. cbn [idx bind]. rewrite Hc. cbn [bind].
        rewrite (swap_do_ok ns es s t n S T OK HS HT Hn NS NT G1 G2 p1 m1) by exact (noadj_isadj es p1 m1 T n NA (nth_error_In _ _ HT) Hn).
        cbn [bind]. apply H. lia.
      * congruence.
      * rewrite A2. now apply swap_total.
      * intros Hb. apply B2. now apply swap_border.
      * intros i. rewrite (swap_corner ns es s t n S T OK HS HT Hn NS NT G1 G2 i). apply K2.
  - destruct Drop as (N & es' & H & Rest).
    + intros A t' T' n' HA NA' HT' Hn' NT' Mk U V. rewrite HS in HA; inversion HA; subst A.
      rewrite NS in NA'; inversion NA'; subst t'. rewrite HT in HT'; inversion HT'; subst T'.
      assert (n' = n) by (apply (one_side ns es OK t T n' n s); auto). subst n'. now apply C2.
    + exists (Datatypes.S N), es'. split; [|exact Rest]. intros [|fuel] Hf; [lia|]. cbn [swapping].
      rewrite (rd_nth_error _ _ _ HS). cbn [bind]. rewrite NS, (rd_nth_error _ _ _ HT). cbn [bind].
      rewrite (ok_act _ _ OK T (nth_error_In _ _ HT)), Opp. cbn [idx bind]. rewrite Hc. cbn [bind]. apply H. lia.
Qed.
