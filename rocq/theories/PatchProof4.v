(** The patch test: rules, rectangles, and the inner nodes of the meshes. *)
From Coq Require Import List Arith ZArith Lia Bool Reals Lra Permutation.
From Verif Require Import Res SumR DenseModel DenseR DenseSpec ShapeModel QuadModel QuadSpec ElemModel ElemSpec AssemblyModel AssemblySpec PatchSpec.
From Verif Require MeshSpec MeshModel MeshProof MeshMain.
From Verif Require Import QuadMain PatchProof.
Import ListNotations.
Local Open Scope R_scope.

(** ** Rules *)
Lemma mom_eq k : mom k = (1 - (-1) ^ (k + 1)) / INR (k + 1).
Proof. unfold mom. rewrite pow1, Nat.add_1_r. reflexivity. Qed.
Lemma rule_pairs s q : In (s, q) [(sf_3Triangle, Gauss1Triangle); (sf_3Triangle, Gauss3Triangle); (sf_6Triangle, Gauss3Triangle);
   (sf_4Square, Gauss1Square); (sf_4Square, Gauss4Square); (sf_4Square, Gauss9Square); (sf_8Square, Gauss4Square); (sf_8Square, Gauss9Square)] -> plane_pair s q /\ rule_ok 2 q.
Proof.
  assert (S2 : 1 / sqrt 2 * (1 / sqrt 2) = 1 / 2).
  { pose proof (sqrt_lt_R0 2 ltac:(lra)). pose proof (sqrt_def 2 ltac:(lra)). replace (1 / sqrt 2 * (1 / sqrt 2)) with (1 / (sqrt 2 * sqrt 2)) by (field; lra). rewrite H0. reflexivity. }
  assert (S6 : 1 / sqrt 6 * (1 / sqrt 6) = 1 / 6).
  { pose proof (sqrt_lt_R0 6 ltac:(lra)). pose proof (sqrt_def 6 ltac:(lra)). replace (1 / sqrt 6 * (1 / sqrt 6)) with (1 / (sqrt 6 * sqrt 6)) by (field; lra). rewrite H0. reflexivity. }
  assert (T3 : forall i j, (i + j <= 2)%nat -> triangle_mono Gauss3Triangle i j).
  { intros i j H. unfold triangle_mono. unq. replace (1 * (1 / sqrt 6) * (1 / sqrt 6)) with (1 / 6) by lra || idtac.
    destruct i as [|[|[|i]]], j as [|[|[|j]]]; try lia; cbn [pow fact Nat.add Nat.mul INR]; rewrite ?S6, ?Rmult_1_l; lra. }
  assert (Q1 : forall i j, (i <= 1)%nat -> (j <= 1)%nat -> square_mono Gauss1Square i j).
  { intros i j Hi Hj. unfold square_mono. rewrite <- !mom_eq, <- (g1_mom i Hi), <- (g1_mom j Hj). rewrite (q_sq1 (fun x y => x ^ i * y ^ j)). unfold g1. ring. }
  assert (Q4 : forall i j, (i <= 3)%nat -> (j <= 3)%nat -> square_mono Gauss4Square i j).
  { intros i j Hi Hj. unfold square_mono. rewrite <- !mom_eq, <- (g2_mom i Hi), <- (g2_mom j Hj). rewrite (q_sq4 (fun x y => x ^ i * y ^ j)). unfold g2. ring. }
  assert (Q9 : forall i j, (i <= 3)%nat -> (j <= 3)%nat -> square_mono Gauss9Square i j).
  { intros i j Hi Hj. unfold square_mono. rewrite <- !mom_eq, <- (g3_mom i ltac:(lia)), <- (g3_mom j ltac:(lia)). rewrite (q_sq9 (fun x y => x ^ i * y ^ j)). unfold g3. ring. }
  assert (RK : forall q, In q [Gauss1Triangle; Gauss3Triangle; Gauss1Square; Gauss4Square; Gauss9Square] -> rule_ok 2 q).
  { intros q' H. cbn [In] in H. repeat (destruct H as [<-|H]; [|]); try contradiction.
    all: unfold rule_ok, Gauss1Triangle, Gauss3Triangle, Gauss1Square, Gauss4Square, Gauss9Square; cbn [q_n q_points q_weights length]; splits; try lia; intros g Hg; do 9 (destruct g as [|g]; [cbn; lia|]); lia. }
  intros H. cbn [In] in H. repeat (destruct H as [H|H]; [injection H as <- <-; split; [|apply RK; cbn; tauto]|]); [..|destruct H]; unfold plane_pair.
  - left. split; auto. unfold triangle_mono. unq. cbn [pow fact Nat.add Nat.mul INR]. rewrite ?Rmult_1_l. rewrite ?S2. lra.
  - left. split; auto.
  - right. left. split; auto.
  - do 2 right. left. split; auto.
  - do 2 right. left. split; auto.
  - do 2 right. left. split; auto.
  - do 3 right. split; auto.
  - do 3 right. split; auto.
Qed.

(** ** Inner nodes *)
Lemma inner_nodup els i : NoDup (flat_map sides els) -> (forall sd, In i sd -> In sd (flat_map sides els) -> In (rev sd) (flat_map sides els)) -> inner els i.
Proof.
  intros ND H sd Hi. set (L := flat_map sides els) in *.
  assert (C : forall x, count_occ dec L x = if in_dec dec x L then 1%nat else O).
  { intros x. destruct (in_dec dec x L) as [Hx|Hx]; [|now apply count_occ_not_In]. now apply (proj1 (NoDup_count_occ' dec L) ND). }
  rewrite !C. destruct (in_dec dec sd L) as [A|A], (in_dec dec (rev sd) L) as [B|B]; auto; exfalso.
  - apply B. now apply H.
  - apply A. rewrite <- (rev_involutive sd). apply H; auto. now rewrite <- in_rev.
Qed.
Lemma sides_four els : (forall e, In e els -> length e = 4%nat) -> flat_map sides els = map (fun p : nat * nat => [fst p; snd p]) (MeshSpec.all_sides els).
Proof.
  induction els as [|e els IH]; intros H; [reflexivity|]. unfold MeshSpec.all_sides in *. cbn [flat_map]. rewrite map_app, <- IH by auto with datatypes. f_equal.
  specialize (H e (or_introl eq_refl)). destruct e as [|a [|b [|c [|d [|? e]]]]]; try discriminate H. reflexivity.
Qed.
Lemma conforming_inner N els edges i : MeshSpec.conforming N els -> MeshSpec.boundary els edges -> (forall l, In l edges -> ~ In i l) -> inner els i.
Proof.
  intros [H1 H2] [_ H3] H4. assert (L4 : forall e, In e els -> length e = 4%nat) by (intros e He; apply (H1 e He)).
  apply inner_nodup; rewrite sides_four by auto.
  - apply FinFun.Injective_map_NoDup; auto. intros [a b] [c d] E. cbn in E. congruence.
  - intros sd Hi Hs. apply in_map_iff in Hs. destruct Hs as ([a b] & <- & Hab). cbn [fst snd] in *.
    destruct (in_dec (fun p q : nat * nat => ltac:(decide equality; apply Nat.eq_dec)) (b, a) (MeshSpec.all_sides els)) as [Hin|Hn].
    + apply in_map_iff. exists (b, a). split; auto.
    + exfalso. apply (H4 [a; b]); auto. apply H3. exists a, b. split; auto. split; auto.
Qed.
Lemma sides_eight els : (forall e, In e els -> length e = 8%nat) -> flat_map sides els = map (fun p : nat * nat * nat => [fst (fst p); snd p; snd (fst p)]) (MeshSpec.all_sides2 els).
Proof.
  induction els as [|e els IH]; intros H; [reflexivity|]. unfold MeshSpec.all_sides2 in *. cbn [flat_map]. rewrite map_app, <- IH by auto with datatypes. f_equal.
  specialize (H e (or_introl eq_refl)). do 8 (destruct e as [|? e]; [discriminate H|]). destruct e; [reflexivity|discriminate H].
Qed.
Lemma conforming2_inner N els edges i : MeshSpec.conforming2 N els -> MeshSpec.boundary2 els edges -> (forall l, In l edges -> ~ In i l) -> inner els i.
Proof.
  intros (H1 & H2 & H5 & _) [_ H3] H4. assert (L8 : forall e, In e els -> length e = 8%nat) by (intros e He; apply (H1 e He)).
  apply inner_nodup; rewrite sides_eight by auto.
  - apply FinFun.Injective_map_NoDup; [|eapply NoDup_map_inv; exact H2]. intros [[a b] m] [[c d] m'] E. cbn in E. congruence.
  - intros sd Hi Hs. apply in_map_iff in Hs. destruct Hs as ([[a b] m] & <- & Hab). cbn [fst snd] in *.
    destruct (in_dec (fun p q : nat * nat => ltac:(decide equality; apply Nat.eq_dec)) (b, a) (map fst (MeshSpec.all_sides2 els))) as [Hin|Hn].
    + apply in_map_iff in Hin. destruct Hin as ([p m'] & E & Hin). cbn [fst] in E. subst p. assert (m = m') as <- by (eapply H5; eauto).
      apply in_map_iff. exists (b, a, m). split; auto.
    + exfalso. apply (H4 [a; b; m]); [|cbn in *; tauto]. apply H3. exists a, b, m. split; auto. split; auto.
      intros m' Hm'. apply Hn. apply in_map_iff. exists (b, a, m'). auto.
Qed.

(** ** Rectangles *)
Lemma rectangle_corners nodes e x0 y0 x1 y1 : MeshSpec.rectangle nodes e x0 y0 x1 y1 -> exists a b c d r, e = a :: b :: c :: d :: r /\
  nth a nodes [] = [x0; y0] /\ nth b nodes [] = [x1; y0] /\ nth c nodes [] = [x1; y1] /\ nth d nodes [] = [x0; y1] /\ x0 < x1 /\ y0 < y1.
Proof.
  intros (E & Hx & Hy). destruct e as [|a [|b [|c [|d r]]]]; try discriminate E. cbn [firstn map] in E.
  injection E as E1 E2 E3 E4. exists a, b, c, d, r. splits; auto.
Qed.
Lemma nth_two_lt (nodes : list (list R)) k u v : nth k nodes [] = [u; v] -> (k < length nodes)%nat.
Proof. intros H. destruct (Nat.lt_ge_cases k (length nodes)); auto. rewrite nth_overflow in H by auto. discriminate. Qed.
Lemma rect4_ok nodes e q x0 y0 x1 y1 : MeshSpec.rectangle nodes e x0 y0 x1 y1 -> length e = 4%nat -> rule_ok 2 q -> element_ok 2 sf_4Square q e nodes.
Proof.
  intros HR HL HQ. destruct (rectangle_corners _ _ _ _ _ _ HR) as (a & b & c & d & r & -> & Ea & Eb & Ec & Ed & Hx & Hy).
  destruct r; [|discriminate HL]. unfold element_ok. splits; auto; try (cbn; tauto).
  - intros k Hk. cbn in Hk. destruct Hk as [<-|[<-|[<-|[<-|[]]]]]; (split; [eapply nth_two_lt; eauto|rewrite ?Ea, ?Eb, ?Ec, ?Ed; cbn; lia]).
  - intros g Hg. set (p := pt q g). assert (E : jac sf_4Square (nodal [a; b; c; d] nodes) p = (x1 - x0) * (y1 - y0) / 4).
    { unfold jac, detd, det2, tangent, dshp, nodal, sf_4Square, dN_4Square. cbn [sf_d sf_n sf_dN bigsum nth]. rewrite Ea, Eb, Ec, Ed. cbn [nth]. field. }
    rewrite E. pose proof (Rmult_lt_0_compat (x1 - x0) (y1 - y0)). lra.
Qed.
Lemma rect8_ok nodes e q x0 y0 x1 y1 : MeshSpec.rectangle nodes e x0 y0 x1 y1 -> length e = 8%nat -> rule_ok 2 q ->
  (forall k, In k e -> (k < length nodes)%nat /\ length (nth k nodes []) = 2%nat) ->
  (forall a b m, In (a, b, m) (MeshSpec.sides2 e) -> MeshSpec.px nodes m = (MeshSpec.px nodes a + MeshSpec.px nodes b) / 2 /\ MeshSpec.py nodes m = (MeshSpec.py nodes a + MeshSpec.py nodes b) / 2) ->
  element_ok 2 sf_8Square q e nodes.
Proof.
  intros HR HL HQ HN HM. destruct (rectangle_corners _ _ _ _ _ _ HR) as (a & b & c & d & r & -> & Ea & Eb & Ec & Ed & Hx & Hy).
  destruct r as [|ab [|bc [|cd [|da [|? r]]]]]; try discriminate HL. unfold element_ok. splits; auto; try (cbn; tauto).
  - intros k Hk. destruct (HN k Hk) as [A B]. split; [auto|lia].
  - intros g Hg. set (p := pt q g). cbn [MeshSpec.sides2] in HM. unfold MeshSpec.px, MeshSpec.py in HM.
    destruct (HM a b ab ltac:(cbn; tauto)) as [X1 Y1]. destruct (HM b c bc ltac:(cbn; tauto)) as [X2 Y2].
    destruct (HM c d cd ltac:(cbn; tauto)) as [X3 Y3]. destruct (HM d a da ltac:(cbn; tauto)) as [X4 Y4].
    rewrite ?Ea, ?Eb, ?Ec, ?Ed in *. cbn [nth] in *.
    assert (E : jac sf_8Square (nodal [a; b; c; d; ab; bc; cd; da] nodes) p = (x1 - x0) * (y1 - y0) / 4).
    { unfold jac, detd, det2, tangent, dshp, nodal, sf_8Square, dN_8Square. cbn [sf_d sf_n sf_dN bigsum nth]. rewrite Ea, Eb, Ec, Ed. cbn [nth].
      rewrite X1, X2, X3, X4, Y1, Y2, Y3, Y4. field. }
    rewrite E. pose proof (Rmult_lt_0_compat (x1 - x0) (y1 - y0)). lra.
Qed.
