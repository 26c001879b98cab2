(** Property C102: the renumbering of the triangle mesher: the proofs. *)
From Coq Require Import List Arith ZArith Lia Bool Reals Lra.
From Verif Require Import Res DenseModel DenseR LUModel DelaunayModel DelaunaySpec DelaunaySpec2 DelaunayMain DelaunayMain2.
Import ListNotations.
Local Open Scope R_scope.
From Verif Require Import DelaunayProof DelaunayProof2 DelaunayProof6 DelaunayProof10.

(** ** a square with a node in the middle that is not set, cut along a diagonal *)
Definition gap_nodes : list dnode :=
  [mkNode [0; 0] true true; mkNode [1 / 2; 1 / 2] false false; mkNode [1; 0] true true; mkNode [1; 1] true true; mkNode [5; 5] false false; mkNode [0; 1] true true].
Definition gap_elems : list delem :=
  [elem3 0 2 3; elem3 0 3 5].
Lemma gap_unique : unique_sides gap_elems.
Proof.
  intros a b e f j i He Hf Hj Hi E.
  destruct a as [|[|a]]; [| |destruct a; discriminate He]; (destruct b as [|[|b]]; [| |destruct b; discriminate Hf]); inversion He; inversion Hf; subst e f; case3 j Hj; case3 i Hi; try discriminate E; auto.
Qed.
Lemma gap_set : corners_set gap_nodes gap_elems.
Proof.
  intros e j He Hj. repeat (destruct He as [<-|He]; [case3 j Hj; eexists; split; reflexivity|]). destruct He.
Qed.


Lemma C102_sortelement_pf : forall ns es, exists es', sortelement (mkMesh ns es) = mkMesh ns es' /\ length es' = length es /\
  forall a e, nth_error es a = Some e -> exists e', nth_error es' a = Some e' /\
    en e' = en e /\ esd e' = esd e /\ eact e' = eact e /\ echk e' = echk e /\
    forall j, (j < 3)%nat ->
      (forall b, at3 (enb e') j = Some b <-> (b <> a /\ has_rev es b (side e j) /\ forall c, (c < b)%nat -> c <> a -> ~ has_rev es c (side e j))) /\
      (at3 (enb e') j = None <-> forall b, b <> a -> ~ has_rev es b (side e j)).
Proof.
  intros ns es. exists (resort es). split; [apply sortelement_eq|]. split; [apply resort_length|]. intros a e He.
  destruct (resort_nth es a e He) as (e' & H & E1 & E2 & E3 & E4 & E5). exists e'. splits; auto. intros j Hj. rewrite E5 by assumption.
  assert (N := nbr_ok es a e j). destruct (nbr es a e j) as [b|].
  - destruct N as (N1 & N2 & N3). split.
    + intros b'. split.
      * intros Q. inversion Q; subst b'. auto.
      * intros (Q1 & Q2 & Q3). f_equal. destruct (Nat.lt_trichotomy b b') as [L|[L|L]]; auto.
        { exfalso. now apply (Q3 b). } { exfalso. now apply (N3 b'). }
    + split; [discriminate|]. intros Q. exfalso. now apply (Q b).
  - split; [|split; auto]. intros b. split; [discriminate|]. intros (Q1 & Q2 & _). exfalso. now apply (N b).
Qed.

Lemma C102_mutual_pf : forall ns es, unique_sides es -> mutual (mes (sortelement (mkMesh ns es))).
Proof. intros ns es U. rewrite sortelement_eq. cbn [mes]. now apply resort_mutual. Qed.

Lemma C102_sortnode_pf : forall ns es, corners_set ns es ->
  exists es', sortnode (mkMesh ns es) = mkMesh (filter isset ns) es' /\ length es' = length es /\
  (forall a e, nth_error es a = Some e -> exists e', nth_error es' a = Some e' /\
     enb e' = enb e /\ esd e' = esd e /\ eact e' = eact e /\ echk e' = echk e /\ area2 (filter isset ns) e' = area2 ns e /\
     (forall j, (j < 3)%nat -> nth_error (filter isset ns) (at3 (en e') j) = nth_error ns (at3 (en e) j)) /\
     forall b f f' j i, nth_error es b = Some f -> nth_error es' b = Some f' -> (j < 3)%nat -> (i < 3)%nat ->
       (at3 (en e') j = at3 (en f') i <-> at3 (en e) j = at3 (en f) i)).
Proof.
  intros ns es Hs. exists (map (renumber ns) es). split; [apply sortnode_eq|]. split; [apply map_length|]. intros a e He.
  assert (Kn : forall e j, In e es -> (j < 3)%nat -> exists n, nth_error ns (at3 (en e) j) = Some n /\ isset n = true /\ at3 (en (renumber ns e)) j = below ns (at3 (en e) j)).
  { intros g j Hg Hj. destruct (Hs g j Hg Hj) as (n & Hn & Sn). exists n. splits; auto. unfold renumber. cbn [en]. rewrite map3_at by assumption.
    apply renum_below. apply nth_error_lt in Hn. lia. }
  assert (Ie : In e es) by (eapply nth_error_In; eauto).
  assert (Cn : forall j, (j < 3)%nat -> nth_error (filter isset ns) (at3 (en (renumber ns e)) j) = nth_error ns (at3 (en e) j)).
  { intros j Hj. destruct (Kn e j Ie Hj) as (n & Hn & Sn & ->). rewrite Hn. now apply below_nth. }
  exists (renumber ns e). splits; auto.
  - rewrite nth_error_map, He. reflexivity.
  - assert (X : forall j, (j < 3)%nat -> xy (filter isset ns) (at3 (en (renumber ns e)) j) = xy ns (at3 (en e) j)).
    { intros j Hj. assert (Q := Cn j Hj). destruct (Kn e j Ie Hj) as (n & Hn & _ & _). rewrite Hn in Q. unfold xy.
      rewrite (nth_error_nth _ _ _ Q), (nth_error_nth _ _ _ Hn). reflexivity. }
    unfold area2. rewrite !X by lia. reflexivity.
  - intros b f f' j i Hf Hf' Hj Hi. rewrite nth_error_map, Hf in Hf'. inversion Hf'; subst f'.
    destruct (Kn e j Ie Hj) as (n & Hn & Sn & ->). destruct (Kn f i (nth_error_In _ _ Hf) Hi) as (m & Hm & Sm & ->).
    split; [|congruence]. intros E. now apply (below_inj ns _ _ n m).
Qed.
