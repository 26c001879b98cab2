(** The generators of the triangle mesher: sums over the marked sides. *)
From Coq Require Import List Arith ZArith Lia Bool Reals Lra Psatz Permutation.
From Verif Require Import Res DenseModel DenseR LUModel DelaunayModel DelaunaySpec DelaunaySpec2 DelaunaySpec3 DelaunayProof DelaunayProof2 DelaunayProof6 DelaunayProof7.
Import ListNotations.
Local Open Scope R_scope.

Lemma rsum_cons {A} (f : A -> R) a l : rsum f (a :: l) = f a + rsum f l.
Proof. reflexivity. Qed.
Lemma rsum_app {A} (f : A -> R) l1 l2 : rsum f (l1 ++ l2) = rsum f l1 + rsum f l2.
Proof. induction l1 as [|a l1 IH]; cbn [app]; [unfold rsum at 2; cbn; lra|]. rewrite !rsum_cons. lra. Qed.
Lemma rsum_flat {A B} (f : B -> R) (g : A -> list B) l : rsum f (flat_map g l) = rsum (fun a => rsum f (g a)) l.
Proof. induction l as [|a l IH]; [reflexivity|]. cbn [flat_map]. rewrite rsum_app, IH. reflexivity. Qed.
Lemma rsum_map {A B} (f : B -> R) (g : A -> B) l : rsum f (map g l) = rsum (fun a => f (g a)) l.
Proof. induction l as [|a l IH]; [reflexivity|]. cbn [map]. rewrite !rsum_cons. now rewrite IH. Qed.
Lemma rsum_ext {A} (f g : A -> R) l : (forall a, In a l -> f a = g a) -> rsum f l = rsum g l.
Proof. intros H. induction l as [|a l IH]; [reflexivity|]. rewrite !rsum_cons, IH by (intros; apply H; now right). now rewrite (H a (or_introl eq_refl)). Qed.
Lemma rsum_perm {A} (f : A -> R) l l' : Permutation l l' -> rsum f l = rsum f l'.
Proof. induction 1; rewrite ?rsum_cons; try lra. Qed.
Lemma rsum_opp {A} (f : A -> R) l : rsum (fun a => - f a) l = - rsum f l.
Proof. induction l as [|a l IH]; [unfold rsum; cbn; lra|]. rewrite !rsum_cons. lra. Qed.
Lemma rsum_filter {A} (f : A -> R) (p : A -> bool) l : rsum f l = rsum f (filter p l) + rsum f (filter (fun a => negb (p a)) l).
Proof. induction l as [|a l IH]; [unfold rsum; cbn; lra|]. cbn [filter]. destruct (p a); cbn [negb]; rewrite !rsum_cons; lra. Qed.
Lemma NoDup_map_in {A B} (g : A -> B) l : NoDup l -> (forall a b, In a l -> In b l -> g a = g b -> a = b) -> NoDup (map g l).
Proof.
  intros ND H. induction ND as [|a l Ha ND IH]; cbn [map]; constructor.
  - rewrite in_map_iff. intros (b & E & Hb). apply Ha. rewrite <- (H b a); auto; [now right|now left].
  - apply IH. intros b c Hb Hc. apply H; now right.
Qed.
(** a sum over a set that an involution maps to itself with the sign changed *)
Lemma rsum_invol {A} (f : A -> R) (g : A -> A) l : NoDup l -> (forall a, In a l -> In (g a) l /\ g (g a) = a /\ f (g a) = - f a) -> rsum f l = 0.
Proof.
  intros ND H. assert (P : Permutation l (map g l)).
  { apply NoDup_Permutation; auto.
    - apply NoDup_map_in; auto. intros a b Ha Hb E. destruct (H a Ha) as (_ & Ea & _), (H b Hb) as (_ & Eb & _). congruence.
    - intros a. rewrite in_map_iff. split.
      + intros Ha. destruct (H a Ha) as (Hg & E & _). exists (g a). auto.
      + intros (b & <- & Hb). apply (H b Hb). }
  assert (E := rsum_perm f _ _ P). rewrite rsum_map in E. rewrite (rsum_ext (fun a => f (g a)) (fun a => - f a)), rsum_opp in E by (intros a Ha; apply (H a Ha)). lra.
Qed.

(** ** the sides of all elements *)
Definition slots (es : list delem) : list (nat * nat) := flat_map (fun a => [(a, 0%nat); (a, 1%nat); (a, 2%nat)]) (seq 0 (length es)).
Definition elem_at (es : list delem) (a : nat) : delem := nth a es (elem3 0 0 0).
Definition side_at (es : list delem) (q : nat * nat) : nat * nat := side (elem_at es (fst q)) (snd q).
Definition mark_at (es : list delem) (q : nat * nat) : bool := at3 (esd (elem_at es (fst q))) (snd q).
Lemma in_slots es q : In q (slots es) <-> (fst q < length es)%nat /\ (snd q < 3)%nat.
Proof.
  unfold slots. rewrite in_flat_map. destruct q as [a j]. cbn [fst snd]. split.
  - intros (b & Hb & Hin). apply in_seq in Hb. cbn in Hin. destruct Hin as [E|[E|[E|[]]]]; inversion E; subst; lia.
  - intros [Ha Hj]. exists a. split; [apply in_seq; lia|]. case3 j Hj; cbn; auto.
Qed.
Lemma nodup_slots es : NoDup (slots es).
Proof.
  unfold slots. enough (G : forall n s, NoDup (flat_map (fun a => [(a, 0%nat); (a, 1%nat); (a, 2%nat)]) (seq s n))) by apply G.
  induction n as [|n IH]; intros s; cbn [seq flat_map]; [constructor|].
  assert (Q : forall j, ~ In (s, j) (flat_map (fun a => [(a, 0%nat); (a, 1%nat); (a, 2%nat)]) (seq (S s) n))).
  { intros j Hin. apply in_flat_map in Hin. destruct Hin as (b & Hb & Hin). apply in_seq in Hb. cbn in Hin. destruct Hin as [E|[E|[E|[]]]]; inversion E; lia. }
  cbn [app]. repeat (constructor; [cbn [In]; intros H; repeat (destruct H as [H|H]; [discriminate H|]); exact (Q _ H)|]). apply IH.
Qed.
Lemma elem_at_nth es a e : nth_error es a = Some e -> elem_at es a = e.
Proof. intros H. unfold elem_at. now apply nth_error_nth. Qed.
Lemma nth_elem_at es a : (a < length es)%nat -> nth_error es a = Some (elem_at es a).
Proof. intros H. unfold elem_at. now apply nth_error_nth'. Qed.
(** the slot beyond a slot *)
Definition beyond (es : list delem) (q : nat * nat) : nat * nat :=
  match at3 (enb (elem_at es (fst q))) (snd q) with
  | Some b => let s := rev_side (side_at es q) in
      (b, if (fst (side_at es (b, 0%nat)) =? fst s)%nat && (snd (side_at es (b, 0%nat)) =? snd s)%nat then 0%nat
          else if (fst (side_at es (b, 1%nat)) =? fst s)%nat && (snd (side_at es (b, 1%nat)) =? snd s)%nat then 1%nat else 2%nat)
  | None => q
  end.
Lemma proper_sides e j j' : proper e -> (j < 3)%nat -> (j' < 3)%nat -> side e j = side e j' -> j = j'.
Proof. intros (P0 & P1 & P2) Hj Hj' E. unfold side in E. cbn in P0, P1, P2. case3 j Hj; case3 j' Hj'; auto; cbn in E; injection E as E1 E2; congruence. Qed.
Lemma beyond_eq es q b j' : (forall e, In e es -> proper e) -> at3 (enb (elem_at es (fst q))) (snd q) = Some b -> (b < length es)%nat -> (j' < 3)%nat ->
  side_at es (b, j') = rev_side (side_at es q) -> beyond es q = (b, j').
Proof.
  intros P E Hb Hj' Es. unfold beyond. rewrite E. cbv zeta. f_equal. rewrite <- Es. unfold side_at at 1 2 3 4 5 6 7 8. cbn [fst snd].
  assert (Pb := P _ (nth_error_In _ _ (nth_elem_at es b Hb))). set (f := elem_at es b) in *. clearbody f.
  assert (U := proper_sides f). case3 j' Hj'.
  - now rewrite !Nat.eqb_refl.
  - destruct (Nat.eqb_spec (fst (side f 0)) (fst (side f 1))), (Nat.eqb_spec (snd (side f 0)) (snd (side f 1))); cbn [andb]; rewrite ?Nat.eqb_refl; auto.
    exfalso. assert (0%nat = 1%nat); [|lia]. apply (U 0%nat 1%nat); auto; try lia. destruct (side f 0), (side f 1). cbn in *. congruence.
  - destruct (Nat.eqb_spec (fst (side f 0)) (fst (side f 2))), (Nat.eqb_spec (snd (side f 0)) (snd (side f 2))); cbn [andb];
      [exfalso; assert (0%nat = 2%nat); [|lia]; apply (U 0%nat 2%nat); auto; try lia; destruct (side f 0), (side f 2); cbn in *; congruence| | |];
      (destruct (Nat.eqb_spec (fst (side f 1)) (fst (side f 2))), (Nat.eqb_spec (snd (side f 1)) (snd (side f 2))); cbn [andb]; auto;
       exfalso; assert (1%nat = 2%nat); [|lia]; apply (U 1%nat 2%nat); auto; try lia; destruct (side f 1), (side f 2); cbn in *; congruence).
Qed.
Lemma beyond_ok es q : (forall e, In e es -> proper e) -> mutual es -> marks_ok es ->
  (forall e j, In e es -> (j < 3)%nat -> at3 (enb e) j = None -> at3 (esd e) j = true) ->
  In q (slots es) -> mark_at es q = false ->
  In (beyond es q) (slots es) /\ mark_at es (beyond es q) = false /\ beyond es (beyond es q) = q /\ side_at es (beyond es q) = rev_side (side_at es q).
Proof.
  intros P Mu Mk Un Hq Hm. apply in_slots in Hq. destruct q as [a j]. cbn [fst snd] in Hq. destruct Hq as [Ha Hj].
  assert (He := nth_elem_at es a Ha). unfold mark_at in Hm. cbn [fst snd] in Hm.
  destruct (at3 (enb (elem_at es a)) j) as [b|] eqn:Nb; [|rewrite (Un _ _ (nth_error_In _ _ He) Hj Nb) in Hm; discriminate].
  destruct (Mu a _ j b He Hj Nb) as (e' & j' & He' & Hj' & Nb' & Es). assert (Hb := nth_error_lt _ _ _ He'). assert (E' := elem_at_nth _ _ _ He').
  assert (Be : beyond es (a, j) = (b, j')).
  { apply beyond_eq; auto. unfold side_at. cbn [fst snd]. now rewrite E'. }
  rewrite Be. split; [apply in_slots; cbn; auto|]. split; [|split].
  - unfold mark_at. cbn [fst snd]. rewrite E'. rewrite (Mk a _ j b e' j' He Hj Nb He' Hj' Es). exact Hm.
  - apply beyond_eq; auto; cbn [fst snd].
    + now rewrite E'.
    + unfold side_at. cbn [fst snd]. rewrite E', Es. unfold rev_side. cbn [fst snd]. now destruct (side (elem_at es a) j).
  - unfold side_at. cbn [fst snd]. now rewrite E'.
Qed.
Lemma rsum_elems es (h : delem -> R) : rsum (fun a => h (elem_at es a)) (seq 0 (length es)) = rsum h es.
Proof.
  rewrite <- (rsum_map h (elem_at es)). f_equal.
  apply (nth_ext _ _ (elem3 0 0 0) (elem3 0 0 0)). { now rewrite map_length, seq_length. }
  intros n Hn. rewrite map_length, seq_length in Hn. rewrite (nth_indep _ _ (elem_at es 0)) by (now rewrite map_length, seq_length). rewrite map_nth, seq_nth by assumption. reflexivity.
Qed.
Lemma slots_sum es (g : nat * nat -> R) : rsum (fun q => g (side_at es q)) (slots es) = rsum (fun e => g (side e 0) + g (side e 1) + g (side e 2)) es.
Proof.
  unfold slots. rewrite rsum_flat. rewrite <- (rsum_elems es). apply rsum_ext. intros a _. rewrite !rsum_cons. unfold side_at, rsum. cbn [fst snd fold_right]. lra.
Qed.
Lemma edges_slots ns es (g : nat * nat -> R) : (forall e, In e es -> eact e = true) ->
  rsum (fun l => g (nth 0 l 0%nat, nth 1 l 0%nat)) (gen_edges (mkMesh ns es)) = rsum (fun q => g (side_at es q)) (filter (mark_at es) (slots es)).
Proof.
  intros Ac. unfold gen_edges, slots. cbn [mes]. rewrite rsum_flat.
  assert (Q : filter (mark_at es) (flat_map (fun a => [(a, 0%nat); (a, 1%nat); (a, 2%nat)]) (seq 0 (length es)))
    = flat_map (fun a => filter (mark_at es) [(a, 0%nat); (a, 1%nat); (a, 2%nat)]) (seq 0 (length es))).
  { generalize (seq 0 (length es)). intros l. induction l as [|a l IH]; [reflexivity|]. cbn [flat_map]. now rewrite filter_app, IH. }
  rewrite Q, rsum_flat.
  rewrite <- (rsum_elems es).
  apply rsum_ext. intros a Ha. apply in_seq in Ha. rewrite (Ac _ (nth_error_In _ _ (nth_elem_at es a ltac:(lia)))).
  rewrite rsum_flat, !rsum_cons. cbn [filter]. unfold mark_at. cbn [fst snd].
  destruct (at3 (esd (elem_at es a)) 0), (at3 (esd (elem_at es a)) 1), (at3 (esd (elem_at es a)) 2); rewrite ?rsum_cons; unfold rsum, side_at, side; cbn [fold_right fst snd nth]; lra.
Qed.
(** the sides that are not marked cancel *)
Lemma edges_sum ns es (g : nat * nat -> R) : (forall e, In e es -> proper e /\ eact e = true) -> mutual es -> marks_ok es ->
  (forall e j, In e es -> (j < 3)%nat -> at3 (enb e) j = None -> at3 (esd e) j = true) -> (forall s, g (rev_side s) = - g s) ->
  rsum (fun l => g (nth 0 l 0%nat, nth 1 l 0%nat)) (gen_edges (mkMesh ns es)) = rsum (fun e => g (side e 0) + g (side e 1) + g (side e 2)) es.
Proof.
  intros P Mu Mk Un An. rewrite edges_slots by (intros e He; apply (P e He)). rewrite <- slots_sum.
  rewrite (rsum_filter _ (mark_at es) (slots es)).
  rewrite (rsum_invol (fun q => g (side_at es q)) (beyond es) (filter (fun q => negb (mark_at es q)) (slots es))); [lra|apply NoDup_filter, nodup_slots|].
  intros q Hq. apply filter_In in Hq. destruct Hq as [Hq Hm]. apply negb_true_iff in Hm.
  destruct (beyond_ok es q (fun e He => proj1 (P e He)) Mu Mk Un Hq Hm) as (B1 & B2 & B3 & B4).
  split; [apply filter_In; split; auto; now rewrite B2|]. split; auto. now rewrite B4.
Qed.
Lemma mesh_marks ns es : mesh_ok ns es -> marks_ok es.
Proof.
  intros OK a e j b e' j' He Hj Nb He' Hj' Es. destruct (ok_link _ _ OK a e j b He Hj Nb) as (f & i & Hf & Hi & _ & Ei & Mi).
  assert (f = e') as -> by congruence. replace j' with i; [exact Mi|].
  apply (proper_sides e'); auto; [|congruence]. apply (tp_proper _ _ (mesh_topo _ _ OK)). eapply nth_error_In; eauto.
Qed.
Definition ind (b : bool) : R := if b then 1 else 0.
Lemma rsum_sub {A} (f g : A -> R) l : rsum (fun a => f a - g a) l = rsum f l - rsum g l.
Proof. induction l as [|a l IH]; [unfold rsum; cbn; lra|]. rewrite !rsum_cons. lra. Qed.
Lemma rsum_count {A} (p : A -> bool) l : rsum (fun a => ind (p a)) l = INR (length (filter p l)).
Proof.
  induction l as [|a l IH]; [reflexivity|]. rewrite rsum_cons, IH. cbn [filter]. destruct (p a); unfold ind; cbn [length]; [rewrite S_INR|]; lra.
Qed.
Lemma rsum_zero {A} (f : A -> R) l : (forall a, In a l -> f a = 0) -> rsum f l = 0.
Proof. intros H. rewrite (rsum_ext f (fun _ => 0)) by exact H. clear. induction l as [|a l IH]; [reflexivity|]. rewrite rsum_cons. lra. Qed.
