(** The geometric predicates of the mesher. *)
From Coq Require Import List Arith ZArith Lia Bool Reals Lra Psatz.
From Verif Require Import Res DenseModel DenseR LUModel DelaunayModel DelaunaySpec.
Import ListNotations.
Local Open Scope R_scope.

Lemma vecpro_ok a b c : length (dx a) = 2%nat -> length (dx b) = 2%nat -> length (dx c) = 2%nat ->
  vecpro a b c = Ok (tri2 (nxy a) (nxy b) (nxy c)).
Proof.
  destruct a as [xa sa ba], b as [xb sb bb], c as [xc sc bc]; cbn [dx]. intros Ha Hb Hc.
  destruct xa as [|a0 [|a1 [|]]]; try discriminate Ha.
  destruct xb as [|b0 [|b1 [|]]]; try discriminate Hb.
  destruct xc as [|c0 [|c1 [|]]]; try discriminate Hc.
  reflexivity.
Qed.

Lemma ndist_ok a b : length (dx a) = 2%nat -> length (dx b) = 2%nat ->
  ndist a b = Ok (pdist (nxy a) (nxy b)).
Proof.
  destruct a as [xa sa ba], b as [xb sb bb]; cbn [dx]. intros Ha Hb.
  destruct xa as [|a0 [|a1 [|]]]; try discriminate Ha.
  destruct xb as [|b0 [|b1 [|]]]; try discriminate Hb.
  unfold ndist, pdist, nxy. cbn. do 2 f_equal. ring.
Qed.

Lemma rd_xy ns i n : rd ns i = Ok n -> nxy n = xy ns i.
Proof. unfold rd, xy. destruct (nth_error ns i) eqn:E; intros H; inversion H; subst. now rewrite (nth_error_nth _ _ _ E). Qed.

Lemma flat_rd ns i : flat ns -> (i < length ns)%nat ->
  exists n, rd ns i = Ok n /\ length (dx n) = 2%nat /\ nxy n = xy ns i.
Proof.
  intros F H. destruct (nth_error ns i) as [n|] eqn:E.
  - exists n. assert (rd ns i = Ok n) by (unfold rd; now rewrite E).
    splits; auto. apply F. eapply nth_error_In; eauto. now apply rd_xy.
  - apply nth_error_None in E. lia.
Qed.

(** the value of [inouton] *)
Definition code (v0 v1 v2 : R) : Z :=
  if Rltb 0 v2 && (Rltb v0 0 || (Rleb (Rabs v0) selfeps && Rltb v1 0)) then (-3)%Z
  else if Rltb 0 v0 && (Rltb v1 0 || (Rleb (Rabs v1) selfeps && Rltb v2 0)) then (-1)%Z
  else if Rltb 0 v1 && (Rltb v2 0 || (Rleb (Rabs v2) selfeps && Rltb v0 0)) then (-2)%Z
  else if Rleb (Rabs v0) selfeps then 3%Z
  else if Rleb (Rabs v1) selfeps then 1%Z
  else if Rleb (Rabs v2) selfeps then 2%Z
  else 0%Z.

Lemma Rltb_spec x y : reflect (x < y) (Rltb x y).
Proof. unfold Rltb. destruct (Rlt_dec x y); constructor; auto. Qed.
Lemma Rleb_spec x y : reflect (x <= y) (Rleb x y).
Proof. unfold Rleb. destruct (Rle_dec x y); constructor; auto. Qed.
Lemma Rltb_iff a b c d : (a < b <-> c < d) -> Rltb a b = Rltb c d.
Proof. intros H. destruct (Rltb_spec a b), (Rltb_spec c d); tauto. Qed.

Lemma inouton_ok ns e k : flat ns -> ids_ok (length ns) e -> (k < length ns)%nat ->
  inouton e k ns = Ok (code (tri2 (xy ns (at3 (en e) 0)) (xy ns (at3 (en e) 1)) (xy ns k))
                            (tri2 (xy ns (at3 (en e) 1)) (xy ns (at3 (en e) 2)) (xy ns k))
                            (tri2 (xy ns (at3 (en e) 2)) (xy ns (at3 (en e) 0)) (xy ns k))).
Proof.
  intros F Hi Hk.
  destruct (flat_rd _ _ F (Hi 0%nat ltac:(lia))) as (n0 & R0 & L0 & X0).
  destruct (flat_rd _ _ F (Hi 1%nat ltac:(lia))) as (n1 & R1 & L1 & X1).
  destruct (flat_rd _ _ F (Hi 2%nat ltac:(lia))) as (n2 & R2 & L2 & X2).
  destruct (flat_rd _ _ F Hk) as (p & Rp & Lp & Xp).
  unfold inouton. rewrite R0, R1, R2, Rp. cbn [bind].
  rewrite !vecpro_ok by assumption. cbn [bind]. rewrite X0, X1, X2, Xp. unfold code.
  set (a := xy ns (at3 (en e) 0)). set (b := xy ns (at3 (en e) 1)). set (c := xy ns (at3 (en e) 2)). set (q := xy ns k).
  rewrite (Rltb_iff 0 (tri2 c b q) (tri2 b c q) 0), (Rltb_iff 0 (tri2 a c q) (tri2 c a q) 0), (Rltb_iff 0 (tri2 b a q) (tri2 a b q) 0).
  - reflexivity.
  - unfold tri2; split; nra.
  - unfold tri2; split; nra.
  - unfold tri2; split; nra.
Qed.

Lemma selfeps_pos : 0 < selfeps.
Proof. unfold selfeps. lra. Qed.
Lemma abs0_eps : Rleb (Rabs 0) selfeps = true.
Proof. rewrite Rabs_R0. destruct (Rleb_spec 0 selfeps); auto. generalize selfeps_pos; lra. Qed.

Lemma Rltb_t x y : Rltb x y = true <-> x < y.
Proof. destruct (Rltb_spec x y); split; congruence || tauto. Qed.
Lemma Rltb_f x y : Rltb x y = false <-> y <= x.
Proof. destruct (Rltb_spec x y); split; intros; try congruence; try lra; auto. Qed.
Lemma Rleb_t x y : Rleb x y = true <-> x <= y.
Proof. destruct (Rleb_spec x y); split; congruence || tauto. Qed.
Lemma Rleb_f x y : Rleb x y = false <-> y < x.
Proof. destruct (Rleb_spec x y); split; intros; try congruence; try lra; auto. Qed.

Ltac codes := unfold code; generalize selfeps_pos; intros Heps;
  repeat match goal with |- context [if ?b then _ else _] => destruct b eqn:? end;
  repeat rewrite ?andb_true_iff, ?orb_true_iff, ?andb_false_iff, ?orb_false_iff, ?Rltb_t, ?Rltb_f, ?Rleb_t, ?Rleb_f in *.
Ltac dor := repeat match goal with H : _ \/ _ |- _ => destruct H | H : _ /\ _ |- _ => destruct H end.

Lemma abs_case x : (0 <= x /\ Rabs x = x) \/ (x < 0 /\ Rabs x = - x).
Proof. unfold Rabs. destruct (Rcase_abs x); [right|left]; split; lra. Qed.

Lemma code_ge v0 v1 v2 : 0 < v0 + v1 + v2 -> (0 <= code v0 v1 v2)%Z <-> 0 <= v0 /\ 0 <= v1 /\ 0 <= v2.
Proof.
  intros H. destruct (abs_case v0) as [[A0 B0]|[A0 B0]], (abs_case v1) as [[A1 B1]|[A1 B1]], (abs_case v2) as [[A2 B2]|[A2 B2]];
  codes; rewrite ?B0, ?B1, ?B2 in *; split; intros; try lia; try (exfalso; dor; lra); lra.
Qed.
Lemma code_0 v0 v1 v2 : 0 < v0 + v1 + v2 -> code v0 v1 v2 = 0%Z <-> selfeps < v0 /\ selfeps < v1 /\ selfeps < v2.
Proof.
  intros H. destruct (abs_case v0) as [[A0 B0]|[A0 B0]], (abs_case v1) as [[A1 B1]|[A1 B1]], (abs_case v2) as [[A2 B2]|[A2 B2]];
  codes; rewrite ?B0, ?B1, ?B2 in *; split; intros; try lia; try (exfalso; dor; lra); lra.
Qed.
Lemma code_m1 v0 v1 v2 : code v0 v1 v2 = (-1)%Z -> 0 < v0 /\ (v1 < 0 \/ (Rabs v1 <= selfeps /\ v2 < 0)).
Proof. codes; intros; try lia; assumption. Qed.
Lemma code_m2 v0 v1 v2 : code v0 v1 v2 = (-2)%Z -> 0 < v1 /\ (v2 < 0 \/ (Rabs v2 <= selfeps /\ v0 < 0)).
Proof. codes; intros; try lia; assumption. Qed.
Lemma code_m3 v0 v1 v2 : code v0 v1 v2 = (-3)%Z -> 0 < v2 /\ (v0 < 0 \/ (Rabs v0 <= selfeps /\ v1 < 0)).
Proof. codes; intros; try lia; assumption. Qed.
Lemma code_on v0 v1 v2 : (code v0 v1 v2 = 1%Z -> Rabs v1 <= selfeps) /\ (code v0 v1 v2 = 2%Z -> Rabs v2 <= selfeps) /\ (code v0 v1 v2 = 3%Z -> Rabs v0 <= selfeps).
Proof. codes; splits; intros; try lia; assumption. Qed.
Lemma code_range v0 v1 v2 : (-3 <= code v0 v1 v2 <= 3)%Z.
Proof. codes; lia. Qed.

Lemma tri2_sum a b c p : tri2 a b p + tri2 b c p + tri2 c a p = tri2 a b c.
Proof. unfold tri2. ring. Qed.
Lemma tri2_rot a b c : tri2 b c a = tri2 a b c.
Proof. unfold tri2. ring. Qed.
Lemma tri2_rot2 a b c : tri2 c a b = tri2 a b c.
Proof. unfold tri2. ring. Qed.
Lemma tri2_swap a b c : tri2 b a c = - tri2 a b c.
Proof. unfold tri2. ring. Qed.
Lemma tri2_aab a b : tri2 a a b = 0. Proof. unfold tri2. ring. Qed.
Lemma tri2_aba a b : tri2 a b a = 0. Proof. unfold tri2. ring. Qed.
Lemma tri2_abb a b : tri2 a b b = 0. Proof. unfold tri2. ring. Qed.

Lemma bary a b c p : 0 < tri2 a b c ->
  let A := tri2 a b c in
  fst p = tri2 b c p / A * fst a + tri2 c a p / A * fst b + tri2 a b p / A * fst c /\
  snd p = tri2 b c p / A * snd a + tri2 c a p / A * snd b + tri2 a b p / A * snd c /\
  tri2 b c p / A + tri2 c a p / A + tri2 a b p / A = 1.
Proof.
  intros H A. subst A. unfold tri2 in *. destruct a as [a0 a1], b as [b0 b1], c as [c0 c1], p as [p0 p1]; cbn [fst snd] in *.
  splits; field; lra.
Qed.
Lemma bary_inv a b c p l m n : l + m + n = 1 ->
  fst p = l * fst a + m * fst b + n * fst c -> snd p = l * snd a + m * snd b + n * snd c ->
  tri2 b c p = l * tri2 a b c /\ tri2 c a p = m * tri2 a b c /\ tri2 a b p = n * tri2 a b c.
Proof.
  intros H1 H2 H3. assert (l = 1 - m - n) by lra. subst l.
  unfold tri2. rewrite H2, H3. splits; ring.
Qed.

Lemma in_triangle_iff a b c p : 0 < tri2 a b c ->
  in_triangle a b c p <-> 0 <= tri2 a b p /\ 0 <= tri2 b c p /\ 0 <= tri2 c a p.
Proof.
  intros H. split.
  - intros (l & m & n & Hl & Hm & Hn & Hs & Hx & Hy).
    destruct (bary_inv a b c p l m n Hs Hx Hy) as (E1 & E2 & E3). rewrite E1, E2, E3.
    splits; apply Rmult_le_pos; lra.
  - intros (H0 & H1 & H2). destruct (bary a b c p H) as (E1 & E2 & E3).
    exists (tri2 b c p / tri2 a b c), (tri2 c a p / tri2 a b c), (tri2 a b p / tri2 a b c).
    splits; auto; apply Rmult_le_pos; auto; left; now apply Rinv_0_lt_compat.
Qed.
Lemma inside_triangle_iff a b c p : 0 < tri2 a b c ->
  inside_triangle a b c p <-> 0 < tri2 a b p /\ 0 < tri2 b c p /\ 0 < tri2 c a p.
Proof.
  intros H. split.
  - intros (l & m & n & Hl & Hm & Hn & Hs & Hx & Hy).
    destruct (bary_inv a b c p l m n Hs Hx Hy) as (E1 & E2 & E3). rewrite E1, E2, E3.
    splits; apply Rmult_lt_0_compat; lra.
  - intros (H0 & H1 & H2). destruct (bary a b c p H) as (E1 & E2 & E3).
    exists (tri2 b c p / tri2 a b c), (tri2 c a p / tri2 a b c), (tri2 a b p / tri2 a b c).
    splits; auto; apply Rmult_lt_0_compat; auto; now apply Rinv_0_lt_compat.
Qed.
