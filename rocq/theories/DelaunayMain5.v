(** Property C104: what the triangle mesher hands out: the proofs. *)
From Coq Require Import List Arith ZArith Lia Bool Reals Lra Sorted.
From Verif Require Import Res DenseModel DenseR LUModel DelaunayModel DelaunaySpec DelaunaySpec2 DelaunaySpec3 DelaunayMain DelaunayMain2 DelaunayMain3 DelaunayMain4.
Import ListNotations.
Local Open Scope R_scope.
From Verif Require Import DelaunayProof DelaunayProof2 DelaunayProof6 DelaunayProof7 DelaunayProof15.

Lemma edges_in M l : In l (gen_edges M) <-> exists e j, In e (mes M) /\ eact e = true /\ (j < 3)%nat /\ at3 (esd e) j = true /\ l = [fst (side e j); snd (side e j)].
Proof.
  unfold gen_edges. rewrite in_flat_map. split.
  - intros (e & He & Hl). destruct (eact e) eqn:Ac; [|destruct Hl]. apply in_flat_map in Hl. destruct Hl as (j & Hj & Hl).
    destruct (at3 (esd e) j) eqn:Mk; [|destruct Hl]. destruct Hl as [<-|[]]. exists e, j. splits; auto. cbn in Hj. lia.
  - intros (e & j & He & Ac & Hj & Mk & ->). exists e. split; auto. rewrite Ac. apply in_flat_map. exists j. split; [cbn; lia|]. rewrite Mk. now left.
Qed.
Lemma elements_in M l : In l (gen_elements M) <-> exists e, In e (mes M) /\ eact e = true /\ l = [at3 (en e) 0; at3 (en e) 1; at3 (en e) 2].
Proof.
  unfold gen_elements. rewrite in_flat_map. split.
  - intros (e & He & Hl). destruct (eact e) eqn:Ac; [|destruct Hl]. destruct Hl as [<-|[]]. exists e. auto.
  - intros (e & He & Ac & ->). exists e. split; auto. rewrite Ac. now left.
Qed.
Lemma elements_map M : (forall e, In e (mes M) -> eact e = true) -> gen_elements M = map (fun e => [at3 (en e) 0; at3 (en e) 1; at3 (en e) 2]) (mes M).
Proof.
  intros H. unfold gen_elements. induction (mes M) as [|e l IH]; [reflexivity|]. cbn [flat_map map]. rewrite (H e (or_introl eq_refl)), IH by (intros; apply H; now right). reflexivity.
Qed.
Lemma nx3_lt j : (j < 3)%nat -> (nx3 j < 3)%nat /\ (pv3 j < 3)%nat.
Proof. intros H. case3 j H; cbn; lia. Qed.
Lemma nxy_gen ns k : (k < length ns)%nat -> (nth 0 (nth k (map dx ns) []) 0, nth 1 (nth k (map dx ns) []) 0) = xy ns k.
Proof. intros H. unfold xy, nxy. rewrite (nth_indep _ [] (dx (mkNode [] false false))) by (now rewrite map_length). now rewrite map_nth. Qed.
Lemma fold_min_le us u : forall x, In x (u :: us) -> (fold_left Z.min us u <= x)%Z.
Proof.
  revert u. induction us as [|v us IH]; intros u x Hx; cbn [fold_left].
  - destruct Hx as [->|[]]. lia.
  - destruct Hx as [->|[->|Hx]].
    + assert (Q := IH (Z.min x v) _ (or_introl eq_refl)). lia.
    + assert (Q := IH (Z.min u x) _ (or_introl eq_refl)). lia.
    + apply IH. now right.
Qed.
Lemma fold_min_in us u : In (fold_left Z.min us u) (u :: us).
Proof.
  revert u. induction us as [|v us IH]; intros u; cbn [fold_left]; [now left|].
  destruct (IH (Z.min u v)) as [E|E]; [|right; now right]. rewrite <- E. destruct (Z.min_spec u v) as [[_ ->]|[_ ->]]; [now left|right; now left].
Qed.
Lemma sorted_three K : StronglySorted lt K -> (forall k, In k K <-> (k = 0 \/ k = 1 \/ k = 2)%nat) -> K = [0; 1; 2]%nat.
Proof.
  intros SK P. assert (ND : NoDup K). { clear -SK. induction SK as [|a K SK IH F]; constructor; auto. intros Hin. apply (proj1 (Forall_forall _ _) F) in Hin. lia. }
  assert (L : length K = 3%nat).
  { apply Nat.le_antisymm.
    - change 3%nat with (length [0; 1; 2]%nat). apply NoDup_incl_length; [exact ND|]. intros k Hk. apply P in Hk. cbn. lia.
    - change 3%nat with (length [0; 1; 2]%nat). apply NoDup_incl_length; [repeat constructor; cbn; lia|]. intros k Hk. apply P. cbn in Hk. lia. }
  destruct K as [|a [|b [|c [|]]]]; try discriminate L.
  assert (Pa := proj1 (P a) ltac:(cbn; auto)). assert (Pb := proj1 (P b) ltac:(cbn; auto)). assert (Pc := proj1 (P c) ltac:(cbn; auto)).
  inversion SK as [|? ? S1 F1]; subst. inversion S1 as [|? ? S2 F2]; subst. inversion F1; subst. inversion F2; subst. repeat f_equal; lia.
Qed.
Lemma NoDup_app_in {A} (l1 l2 : list A) : NoDup l1 -> NoDup l2 -> (forall a, In a l1 -> ~ In a l2) -> NoDup (l1 ++ l2).
Proof.
  induction 1 as [|a l1 Ha ND IH]; intros N2 D; cbn [app]; auto. constructor.
  - rewrite in_app_iff. intros [H|H]; [auto|]. exact (D a (or_introl eq_refl) H).
  - apply IH; auto. intros b Hb. apply D. now right.
Qed.
Lemma gap_area : rsum (fun l => tri2 (xy arrow_nodes (nth 0 l 0%nat)) (xy arrow_nodes (nth 1 l 0%nat)) (xy arrow_nodes (nth 2 l 0%nat))) (gen_elements (mkMesh arrow_nodes arrow_elems)) = 12.
Proof. unfold rsum, tri2, xy, nxy. cbn. lra. Qed.
Lemma arrow_marks : marks_ok arrow_elems.
Proof. exact (mesh_marks _ _ arrow_ok). Qed.
Lemma arrow_act e : In e arrow_elems -> eact e = true.
Proof. exact (ok_act _ _ arrow_ok e). Qed.


Lemma C104_outputs_pf : forall rounds fuel x outer inner maxsize M,
  delaunay rounds fuel x outer inner maxsize = Ok M -> (forall k, on_list outer inner k -> (k < length x)%nat) ->
  exists K r, StronglySorted lt K /\ (forall k, In k K <-> on_list outer inner k) /\ (1 <= r <= rounds)%nat /\
    length (gen_nodes M) = (length K + r)%nat /\ firstn (length K) (gen_nodes M) = map (fun k => nth k x []) K /\
    length (gen_elements M) = length (mes M) /\ (r + 1 <= length (gen_elements M))%nat /\
    (forall l, In l (gen_elements M) -> length l = 3%nat /\ forall k, In k l -> (k < length (gen_nodes M))%nat) /\
    (forall l, In l (gen_edges M) -> length l = 2%nat /\ forall k, In k l -> (k < length (gen_nodes M))%nat).
Proof.
  intros rounds fuel x outer inner maxsize [ns es] H Hk.
  destruct (C103_constructor_pf _ _ _ _ _ _ _ _ H Hk) as (K & r & SK & HK & Hr & L1 & L2 & Nd & El & _).
  assert (Le : length (gen_elements (mkMesh ns es)) = length es) by (rewrite elements_map, map_length; [reflexivity|intros e He; apply (El e He)]).
  assert (Ln : length (gen_nodes (mkMesh ns es)) = length ns) by (unfold gen_nodes; apply map_length).
  exists K, r. rewrite Le, Ln. splits; auto; try lia.
  - unfold gen_nodes. cbn [mns]. apply (nth_ext _ _ [] []).
    + rewrite firstn_length, !map_length. lia.
    + intros i Hi. rewrite firstn_length, map_length in Hi. destruct (nth_error K i) as [k|] eqn:Ek; [|apply nth_error_None in Ek; lia].
      destruct (Nd i k Ek) as (n & Hn & Dn & _).
      assert (Q1 : nth_error (firstn (length K) (map dx ns)) i = Some (dx n)).
      { clear -Hn Hi. revert i Hn Hi. generalize (length K) as m. intros m. revert ns. induction m as [|m IH]; intros ns i Hn Hi; [lia|].
        destruct ns as [|y ns]; [destruct i; discriminate|]. cbn [map firstn]. destruct i as [|i]; cbn [nth_error] in *; [congruence|]. apply IH; auto. cbn [length] in Hi. lia. }
      rewrite (nth_error_nth _ _ _ Q1). symmetry. apply nth_error_nth. rewrite Dn. now apply map_nth_error with (f := fun k => nth k x []).
  - intros l Hl. apply elements_in in Hl. destruct Hl as (e & He & _ & ->). split; [reflexivity|]. destruct (El e He) as [_ Id].
    intros k Hin. cbn [In] in Hin. destruct Hin as [<-|[<-|[<-|[]]]]; apply Id; lia.
  - intros l Hl. apply edges_in in Hl. destruct Hl as (e & j & He & _ & Hj & _ & ->). split; [reflexivity|]. destruct (El e He) as [_ Id]. destruct (nx3_lt j Hj).
    intros k Hin. cbn [In side fst snd] in Hin. destruct Hin as [<-|[<-|[]]]; apply Id; auto.
Qed.

Lemma C104_shoelace_pf : forall ns es, topo_ok ns es -> marks_ok es -> (forall e, In e es -> eact e = true) ->
  (forall e j, In e es -> (j < 3)%nat -> at3 (enb e) j = None -> at3 (esd e) j = true) ->
  let p k := (nth 0 (nth k (gen_nodes (mkMesh ns es)) []) 0, nth 1 (nth k (gen_nodes (mkMesh ns es)) []) 0) in
  rsum (fun l => fst (p (nth 0 l 0%nat)) * snd (p (nth 1 l 0%nat)) - fst (p (nth 1 l 0%nat)) * snd (p (nth 0 l 0%nat))) (gen_edges (mkMesh ns es)) =
  rsum (fun l => tri2 (p (nth 0 l 0%nat)) (p (nth 1 l 0%nat)) (p (nth 2 l 0%nat))) (gen_elements (mkMesh ns es)).
Proof.
  intros ns es OK Mk Ac Un p.
  transitivity (rsum (fun e => (fun s => fst (p (fst s)) * snd (p (snd s)) - fst (p (snd s)) * snd (p (fst s))) (side e 0) +
    (fun s => fst (p (fst s)) * snd (p (snd s)) - fst (p (snd s)) * snd (p (fst s))) (side e 1) +
    (fun s => fst (p (fst s)) * snd (p (snd s)) - fst (p (snd s)) * snd (p (fst s))) (side e 2)) es).
  - apply (edges_sum ns es (fun s => fst (p (fst s)) * snd (p (snd s)) - fst (p (snd s)) * snd (p (fst s)))); auto.
    + intros e He. split; auto. now apply (tp_proper _ _ OK).
    + apply (tp_mutual _ _ OK).
    + intros s. unfold rev_side. cbn [fst snd]. lra.
  - rewrite elements_map by exact Ac. cbn [mes]. rewrite rsum_map. apply rsum_ext. intros e _. unfold side, tri2. cbn [fst snd nth nx3 pv3 Nat.add Nat.modulo Nat.divmod Nat.sub at3]. lra.
Qed.

Lemma C104_closed_pf : forall ns es i, topo_ok ns es -> marks_ok es -> (forall e, In e es -> eact e = true) ->
  (forall e j, In e es -> (j < 3)%nat -> at3 (enb e) j = None -> at3 (esd e) j = true) ->
  length (filter (fun l => (nth 0 l 0 =? i)%nat) (gen_edges (mkMesh ns es))) = length (filter (fun l => (nth 1 l 0 =? i)%nat) (gen_edges (mkMesh ns es))).
Proof.
  intros ns es i OK Mk Ac Un. apply INR_eq.
  enough (Q : rsum (fun l => ind (nth 0 l 0 =? i)%nat - ind (nth 1 l 0 =? i)%nat) (gen_edges (mkMesh ns es)) = 0).
  { rewrite rsum_sub, !rsum_count in Q. lra. }
  set (g := fun s : nat * nat => ind (fst s =? i)%nat - ind (snd s =? i)%nat).
  transitivity (rsum (fun e => g (side e 0) + g (side e 1) + g (side e 2)) es).
  - apply (edges_sum ns es g); auto.
    + intros e He. split; auto. now apply (tp_proper _ _ OK).
    + apply (tp_mutual _ _ OK).
    + intros s. unfold g, rev_side. cbn [fst snd]. lra.
  - apply rsum_zero. intros e _. unfold g, side. cbn [fst snd nx3 pv3 Nat.add Nat.modulo Nat.divmod Nat.sub at3]. lra.
Qed.

Lemma C104_fixedlist_pf : forall M ul P,
  (ul = [] -> gen_fixed M ul P = Fail OutOfBounds) /\
  (ul <> [] -> (exists u, In u ul /\ (u < 0)%Z) -> gen_fixed M ul P = Fail AssertFail) /\
  (ul <> [] -> (forall u, In u ul -> (0 <= u)%Z) -> exists l, gen_fixed M ul P = Ok l /\
     (forall i u v, In ((i, u), v) l <-> v = 0 /\ In u ul /\ exists y, nth_error (gen_nodes M) i = Some y /\ P y = true) /\
     (NoDup ul -> NoDup l)).
Proof.
  intros M ul P. split; [intros ->; reflexivity|]. split.
  - intros Ne (u & Hu & Neg). destruct ul as [|v us]; [congruence|]. unfold gen_fixed. assert (Q := fold_min_le us v u Hu).
    rewrite (proj2 (Z.leb_gt _ _)) by lia. reflexivity.
  - intros Ne Pos. destruct ul as [|v us]; [congruence|]. unfold gen_fixed. assert (Q := Pos _ (fold_min_in us v)). rewrite (proj2 (Z.leb_le _ _)) by lia. cbn [assert_ bind].
    eexists. split; [reflexivity|]. split.
    + intros i u w. rewrite in_flat_map. split.
      * intros ([k n] & Hk & Hin). cbn [fst snd] in Hin. destruct (P (dx n)) eqn:Pn; [|destruct Hin]. apply in_map_iff in Hin. destruct Hin as (u' & E & Hu). injection E as -> -> <-.
        splits; auto. exists (dx n). split; auto. apply In_index in Hk. destruct Hk as [_ Hk]. rewrite Nat.sub_0_r in Hk. unfold gen_nodes. rewrite nth_error_map, Hk. reflexivity.
      * intros (-> & Hu & y & Hy & Py). unfold gen_nodes in Hy. rewrite nth_error_map in Hy. destruct (nth_error (mns M) i) as [n|] eqn:En; [|discriminate]. injection Hy as <-.
        exists (i, n). split; [now apply (index_In _ 0)|]. cbn [fst snd]. rewrite Py. apply in_map_iff. exists u. auto.
    + intros ND. set (ul := v :: us) in *. generalize 0%nat as s. induction (mns M) as [|n l IH]; intros s; [constructor|].
      cbn [length seq combine flat_map fst snd]. destruct (P (dx n)); [|apply IH].
      apply NoDup_app_in.
      * apply FinFun.Injective_map_NoDup; auto. intros a b E. now injection E.
      * apply IH.
      * intros q H1 H2. apply in_map_iff in H1. destruct H1 as (a & <- & _). apply in_flat_map in H2. destruct H2 as ([k m] & Hk & Hin). cbn [fst snd] in Hin.
        apply in_combine_l, in_seq in Hk. destruct (P (dx m)); [|destruct Hin]. apply in_map_iff in Hin. destruct Hin as (b & E & _). injection E as E. lia.
Qed.
