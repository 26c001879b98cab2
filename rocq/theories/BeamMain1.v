(** The straight beam and the flat shell. *)
From Coq Require Import List Arith Lia Bool Reals Lra.
From Verif Require Import Res SumR DenseModel DenseR DenseSpec DenseProof DenseMain ShapeModel ShapeMain QuadModel QuadSpec ElemModel ElemSpec ElemProof ElemProof2 ElemProof3 ElemMain FlowModel BeamModel BeamSpec BeamProof BeamProof2 BeamMain0.
Import ListNotations.
Local Open Scope R_scope.

(** ** algebra *)
Lemma along_dyads (a0 a1 a2 G0 G1 G2 p r : nat -> R) :
  2 * along (strain (fun l c => a0 l * G0 c + a1 l * G1 c + a2 l * G2 c)) p r =
  dot3 p a0 * dot3 G0 r + dot3 p a1 * dot3 G1 r + dot3 p a2 * dot3 G2 r + dot3 r a0 * dot3 G0 p + dot3 r a1 * dot3 G1 p + dot3 r a2 * dot3 G2 p.
Proof. unfold along, strain, dot3. cbn [bigsum]. field. Qed.
Lemma binet a b c d : dot3 (cross3 a b) (cross3 c d) = dot3 a c * dot3 b d - dot3 a d * dot3 b c.
Proof. unfold dot3. cbn [bigsum cross3]. ring. Qed.
Lemma triple_r a b : dot3 (cross3 a b) b = 0.
Proof. unfold dot3. cbn [bigsum cross3]. ring. Qed.
Lemma triple a b c : dot3 (cross3 a b) c = dot3 a (cross3 b c).
Proof. unfold dot3. cbn [bigsum cross3]. ring. Qed.
Lemma cross_anti a b c : dot3 c (cross3 b a) = - dot3 c (cross3 a b).
Proof. unfold dot3. cbn [bigsum cross3]. ring. Qed.
Lemma unit3_multiple r d : 0 < r -> dot3 d d = 1 -> forall c, unit3 (fun c => r * d c) c = d c.
Proof.
  intros Hr Hd c. unfold unit3. replace (dot3 (fun c0 => r * d c0) (fun c0 => r * d c0)) with (r * r * dot3 d d) by (unfold dot3; cbn [bigsum]; ring).
  rewrite Hd, Rmult_1_r, sqrt_square by lra. field. lra.
Qed.

Section Straight.
Variables (elem dou : list nat) (xs v1s v2s : list (list R)) (E v a b len : R) (d1 d2 : nat -> R) (q1 : rule).
Hypothesis Hlen : length elem = 2%nat.
Hypothesis Hxs : nodes_ok 3 elem xs.
Hypothesis Hv1 : nodes3 elem v1s.
Hypothesis Hv2 : nodes3 elem v2s.
Hypothesis Hq1 : rule_ok 2 q1.
Hypothesis Hsec : section_rule q1.
Hypothesis Ha : 0 < a.
Hypothesis Hb : 0 < b.
Hypothesis Hl : 0 < len.
Hypothesis Hst : straight elem xs v1s v2s len d1 d2.
Hypothesis Hv : 1 + v <> 0.
Hypothesis Hdou : length dou = 6%nat.
Let D11 : dot3 d1 d1 = 1. Proof. apply Hst. Qed.
Let D22 : dot3 d2 d2 = 1. Proof. apply Hst. Qed.
Let D12 : dot3 d1 d2 = 0. Proof. apply Hst. Qed.
Let t := cross3 d1 d2.
Let Dtt : dot3 t t = 1. Proof. unfold t. rewrite binet, D11, D22, D12, (dot3_comm d2 d1), D12. ring. Qed.
Let Dt1 : dot3 t d1 = 0. Proof. unfold t, dot3. cbn [bigsum cross3]. ring. Qed.
Let Dt2 : dot3 t d2 = 0. Proof. apply triple_r. Qed.
Let V := beam_dirs elem v1s v2s.
Let x := nodal elem xs.
Let w := half_sides a b.
Let dir (j : nat) : nat -> R := match j with O => d1 | _ => d2 end.
Lemma straight_dirs j i c : (i < 2)%nat -> (c < 3)%nat -> V j i c = dir j c.
Proof.
  intros Hi Hc. destruct Hst as (_ & _ & _ & _ & H). destruct (H i Hi) as (r1 & r2 & P1 & P2 & Q). unfold V, beam_dirs, dir. destruct j.
  - rewrite (unit3_ext _ (fun c => r1 * d1 c)) by (auto; intros; now apply Q). now apply unit3_multiple.
  - rewrite (unit3_ext _ (fun c => r2 * d2 c)) by (auto; intros; now apply Q). now apply unit3_multiple.
Qed.
Lemma line_tangent (y : nat -> nat -> R) (Y : nat -> nat -> nat -> R) p xi k c : (k < 3)%nat ->
  layer_tangent sf_2Line 2 w y Y p xi k c =
  match k with
  | O => (y 1%nat c + (a / 2 * xi 0%nat * Y 0%nat 1%nat c + b / 2 * xi 1%nat * Y 1%nat 1%nat c) - (y 0%nat c + (a / 2 * xi 0%nat * Y 0%nat 0%nat c + b / 2 * xi 1%nat * Y 1%nat 0%nat c))) / 2
  | 1%nat => a / 2 * ((1 - p 0%nat) / 2 * Y 0%nat 0%nat c + (1 + p 0%nat) / 2 * Y 0%nat 1%nat c)
  | _ => b / 2 * ((1 - p 0%nat) / 2 * Y 1%nat 0%nat c + (1 + p 0%nat) / 2 * Y 1%nat 1%nat c)
  end.
Proof.
  intros Hk. unfold layer_tangent, dshp, shp, w. destruct k as [|[|[|k]]]; try lia;
    cbn [Nat.ltb Nat.leb sf_2Line sf_d sf_n bigsum Nat.sub half_sides N_2Line dN_2Line sf_N sf_dN nth]; field.
Qed.
Lemma straight_T p xi k l : (k < 3)%nat -> (l < 3)%nat -> layer_tangent sf_2Line 2 w x V p xi k l =
  match k with O => len / 2 * t l | 1%nat => a / 2 * d1 l | _ => b / 2 * d2 l end.
Proof.
  intros Hk Hl'. rewrite line_tangent by auto. rewrite !straight_dirs by (auto; lia). cbn [dir].
  destruct Hst as (_ & _ & _ & HX & _). specialize (HX l Hl'). fold x t in HX. destruct k as [|[|[|k]]]; try lia; [|field|field].
  replace (len / 2 * t l) with ((x 1%nat l - x 0%nat l) / 2) by (rewrite HX; field). field.
Qed.
Lemma straight_det p xi : det3 (layer_tangent sf_2Line 2 w x V p xi) = len * a * b / 8.
Proof.
  unfold det3. rewrite !straight_T by lia.
  transitivity (len * a * b / 8 * dot3 t t); [|rewrite Dtt; ring]. unfold t, dot3. cbn [bigsum cross3]. field.
Qed.
Lemma straight_ok : beam_ok sf_2Line Gauss1Line q1 elem xs v1s v2s a b.
Proof.
  unfold beam_ok. splits; auto.
  - cbn; auto.
  - unfold rule_ok. cbn. splits; try lia. intros g Hg. destruct g; [|lia]. cbn. lia.
  - intros i Hi. rewrite Hlen in Hi. destruct Hst as (_ & _ & _ & _ & H). destruct (H i Hi) as (r1 & r2 & P1 & P2 & Q).
    split; apply dot3_nonzero; [rewrite (dot3_ext _ (fun c => r1 * d1 c) _ (fun c => r1 * d1 c)) by (intros; now apply Q); replace (dot3 _ _) with (r1 * r1 * dot3 d1 d1) by (unfold dot3; cbn [bigsum]; ring); rewrite D11
      |rewrite (dot3_ext _ (fun c => r2 * d2 c) _ (fun c => r2 * d2 c)) by (intros; now apply Q); replace (dot3 _ _) with (r2 * r2 * dot3 d2 d2) by (unfold dot3; cbn [bigsum]; ring); rewrite D22]; nra.
  - intros g h _ _. fold w x V. rewrite straight_det. assert (0 < len * a * b / 8); [|lra]. apply Rdiv_lt_0_compat; [|lra]. repeat apply Rmult_lt_0_compat; auto.
Qed.
Let Gk (y : nat -> nat -> R) p xi k c := layer_tangent sf_2Line 2 w y (rotated V y) p xi k c.
Let G (y : nat -> nat -> R) p xi : nat -> nat -> R := fun l c =>
  (2 / len * t l) * Gk y p xi 0 c + (2 / a * d1 l) * Gk y p xi 1 c + (2 / b * d2 l) * Gk y p xi 2 c.
Lemma straight_gradients y : layer_gradients sf_2Line Gauss1Line q1 2 w x V y (rotated V y) (G y).
Proof.
  intros g h _ _. generalize (pt Gauss1Line g) (pt q1 h). intros p xi k c Hk Hc. unfold G. fold (Gk y p xi k c).
  rewrite (bigsum_ext 3 _ (fun l => (match k with O => len / 2 * t l | 1%nat => a / 2 * d1 l | _ => b / 2 * d2 l end) *
     (2 / len * t l * Gk y p xi 0 c + 2 / a * d1 l * Gk y p xi 1 c + 2 / b * d2 l * Gk y p xi 2 c))) by (intros; now rewrite straight_T).
  set (g0 := Gk y p xi 0 c). set (g1 := Gk y p xi 1 c). set (g2 := Gk y p xi 2 c).
  assert (S : forall m e : R, forall u : nat -> R, bigsum 3 (fun l => m * u l * (2 / len * t l * g0 + 2 / a * d1 l * g1 + 2 / b * d2 l * g2)) =
    m * (2 / len * dot3 t u * g0 + 2 / a * dot3 d1 u * g1 + 2 / b * dot3 d2 u * g2)) by (intros; unfold dot3; cbn [bigsum]; ring).
  destruct k as [|[|[|k]]]; try lia; rewrite (S _ 0); rewrite ?Dtt, ?Dt1, ?Dt2, ?D11, ?D22, ?D12, ?(dot3_comm d1 t), ?(dot3_comm d2 t), ?(dot3_comm d2 d1), ?Dt1, ?Dt2, ?D12; [change (Gk y p xi 0 c) with g0|change (Gk y p xi 1 c) with g1|change (Gk y p xi 2 c) with g2]; field; lra.
Qed.
(** the tangents of the displacement in the frame *)
Let dth (y : nat -> nat -> R) : nat -> R := fun c => y 1%nat (3 + c)%nat - y 0%nat (3 + c)%nat.
Let mth (y : nat -> nat -> R) : nat -> R := fun c => (y 0%nat (3 + c)%nat + y 1%nat (3 + c)%nat) / 2.
Lemma rot_dir y j i c : (i < 2)%nat -> (c < 3)%nat -> rotated V y j i c = cross3 (fun k => y i (3 + k)%nat) (dir j) c.
Proof. intros Hi Hc. unfold rotated. apply cross3_ext; auto. intros k Hk. now apply straight_dirs. Qed.
Lemma G0_dot y p xi r : dot3 (Gk y p xi 0) r =
  (stretch y r + a / 2 * xi 0%nat * dot3 (cross3 (dth y) d1) r + b / 2 * xi 1%nat * dot3 (cross3 (dth y) d2) r) / 2.
Proof.
  unfold Gk, dot3 at 1. cbn [bigsum]. rewrite !line_tangent, !rot_dir by lia. unfold dot3, stretch, dth, dot3. cbn [bigsum cross3 dir]. field.
Qed.
Lemma Gj_dot y p xi r j : p 0%nat = 0 -> (j < 2)%nat -> dot3 (Gk y p xi (S j)) r = w j * dot3 (cross3 (mth y) (dir j)) r.
Proof.
  intros Hp Hj. unfold Gk, dot3 at 1. cbn [bigsum]. rewrite !line_tangent, !rot_dir, Hp by lia.
  unfold dot3, mth, w. destruct j as [|[|j]]; try lia; cbn [bigsum cross3 dir half_sides]; field.
Qed.
Lemma beam_sides p : (forall c, (c < 3)%nat -> beam_side sf_2Line V 0 p c = d1 c) /\ (forall c, (c < 3)%nat -> beam_side sf_2Line V 1 p c = d2 c) /\
  (forall c, (c < 3)%nat -> beam_axis sf_2Line V p c = t c).
Proof.
  assert (S : forall j c, (j < 2)%nat -> (c < 3)%nat -> beam_side sf_2Line V j p c = dir j c).
  { intros j c Hj Hc. unfold beam_side. rewrite (unit3_ext _ (dir j)); auto.
    - apply unit3_unit. destruct j as [|[|j]]; try lia; cbn [dir]; auto.
    - intros k Hk. unfold shp. cbn [sf_2Line sf_n bigsum]. rewrite !straight_dirs by (auto; lia). cbn [sf_2Line sf_N N_2Line nth]. field. }
  split; [|split]; intros c Hc.
  - apply (S 0%nat); auto; lia.
  - apply (S 1%nat); auto; lia.
  - unfold beam_axis. rewrite (unit3_ext _ t); auto; [now apply unit3_unit|]. intros k Hk. unfold t. apply cross3_ext; intros; [apply (S 0%nat)|apply (S 1%nat)]; auto; lia.
Qed.
Lemma along_ext2 e p p' r r' : (forall c, (c < 3)%nat -> p c = p' c) -> (forall c, (c < 3)%nat -> r c = r' c) -> along e p r = along e p' r'.
Proof. intros H1 H2. unfold along. apply bigsum_ext; intros l Hl'. apply bigsum_ext; intros c Hc. now rewrite H1, H2. Qed.
Lemma frame_scal p m u : dot3 p (fun l => m * u l) = m * dot3 p u.
Proof. unfold dot3. cbn [bigsum]. ring. Qed.
Lemma rot_t1 th : dot3 (cross3 th d1) t = - dot3 th d2.
Proof. unfold t. rewrite binet, D11, D12. ring. Qed.
Lemma rot_t2 th : dot3 (cross3 th d2) t = dot3 th d1.
Proof. unfold t. rewrite binet, D22, (dot3_comm d2 d1), D12. ring. Qed.
Lemma rot_12 th : dot3 (cross3 th d1) d2 = dot3 th t.
Proof. apply triple. Qed.
Lemma rot_21 th : dot3 (cross3 th d2) d1 = - dot3 th t.
Proof. rewrite triple. apply cross_anti. Qed.
Lemma straight_tt y p xi : along (strain (G y p xi)) t t = (stretch y t + a / 2 * xi 0%nat * (- turn y d2) + b / 2 * xi 1%nat * turn y d1) / len.
Proof.
  apply (Rmult_eq_reg_l 2); [|lra]. unfold G. rewrite along_dyads, !frame_scal, Dtt, Dt1, Dt2, G0_dot, rot_t1, rot_t2.
  change (dot3 (dth y) d1) with (turn y d1). change (dot3 (dth y) d2) with (turn y d2). field. lra.
Qed.
Lemma straight_t1 y p xi : p 0%nat = 0 -> 2 * along (strain (G y p xi)) t d1 = (stretch y d1 - len * mean_turn y d2 + b / 2 * xi 1%nat * (- turn y t)) / len.
Proof.
  intros Hp. unfold G. rewrite along_dyads, !frame_scal, Dtt, Dt1, Dt2, (dot3_comm d1 t), Dt1, D11, D12, G0_dot, !(Gj_dot y p xi) by (auto; lia).
  cbn [dir w half_sides]. unfold w; cbn [half_sides]. rewrite rot_t1, rot_21, triple_r.
  change (dot3 (dth y) t) with (turn y t). change (dot3 (mth y) d2) with (mean_turn y d2). field. lra.
Qed.
Lemma straight_t2 y p xi : p 0%nat = 0 -> 2 * along (strain (G y p xi)) t d2 = (stretch y d2 + len * mean_turn y d1 + a / 2 * xi 0%nat * turn y t) / len.
Proof.
  intros Hp. unfold G. rewrite along_dyads, !frame_scal, Dtt, Dt1, Dt2, (dot3_comm d2 t), Dt2, D22, (dot3_comm d2 d1), D12, G0_dot, !(Gj_dot y p xi) by (auto; lia).
  cbn [dir w half_sides]. unfold w; cbn [half_sides]. rewrite rot_t2, rot_12, triple_r.
  change (dot3 (dth y) t) with (turn y t). change (dot3 (mth y) d1) with (mean_turn y d1). field. lra.
Qed.
Lemma section_product A0 A1 A2 B0 B1 B2 : quad 2 q1 (fun xi => (A0 + A1 * xi 0%nat + A2 * xi 1%nat) * (B0 + B1 * xi 0%nat + B2 * xi 1%nat)) =
  4 * (A0 * B0) + 4 / 3 * (A1 * B1 + A2 * B2).
Proof.
  destruct Hsec as (M0 & M1 & M2 & M11 & M22 & M12).
  rewrite (quad_ext _ _ _ (fun xi => 1 * (A0 * B0) + xi 0%nat * (A0 * B1 + A1 * B0) + xi 1%nat * (A0 * B2 + A2 * B0) + xi 0%nat * xi 0%nat * (A1 * B1) + xi 1%nat * xi 1%nat * (A2 * B2) + xi 0%nat * xi 1%nat * (A1 * B2 + A2 * B1))) by (intros; ring).
  rewrite !quad_plus, !quad_scal, M0, M1, M2, M11, M22, M12. ring.
Qed.
Lemma straight_call : exists K ne k, BeamLinearIsotropicElastic sf_2Line Gauss1Line q1 elem dou xs v1s v2s E v a b = Ok (K, ne) /\
  is_mat K 12 12 k /\ numbered 6 2 dou ne /\ forall y z, form 6 2 k y z = timoshenko E (lame_mu E v) len a b d1 d2 y z.
Proof.
  destruct (beam_call _ _ _ _ dou _ _ _ E v _ _ straight_ok Hdou Hv) as (K & ne & k & EK & MK & NK & FK). rewrite Hlen in MK, NK, FK.
  exists K, ne, k. splits; auto. intros y z. rewrite (FK y z _ _ (straight_gradients y) (straight_gradients z)).
  unfold quad at 1. cbn [Gauss1Line q_n q_points q_weights bigsum wprod nth sf_2Line sf_d]. set (p := fun k0 => nth k0 [0] 0). assert (Hp : p 0%nat = 0) by reflexivity.
  fold w x V. set (mu := lame_mu E v).
  rewrite (quad_ext 2 q1 _ (fun xi => (stretch y t + (- (a / 2 * turn y d2)) * xi 0%nat + (b / 2 * turn y d1) * xi 1%nat) * (stretch z t + (- (a / 2 * turn z d2)) * xi 0%nat + (b / 2 * turn z d1) * xi 1%nat) * (E * (a * b / (8 * len)))
     + ((stretch y d1 - len * mean_turn y d2) + 0 * xi 0%nat + (- (b / 2 * turn y t)) * xi 1%nat) * ((stretch z d1 - len * mean_turn z d2) + 0 * xi 0%nat + (- (b / 2 * turn z t)) * xi 1%nat) * (5 / 6 * mu * (a * b / (8 * len)))
     + ((stretch y d2 + len * mean_turn y d1) + (a / 2 * turn y t) * xi 0%nat + 0 * xi 1%nat) * ((stretch z d2 + len * mean_turn z d1) + (a / 2 * turn z t) * xi 0%nat + 0 * xi 1%nat) * (5 / 6 * mu * (a * b / (8 * len))))).
  - rewrite !quad_plus, !quad_scal, !section_product. unfold timoshenko. fold t mu. field. lra.
  - intros h _. generalize (pt q1 h). intros xi. rewrite straight_det. unfold beam_W, beam_energy. fold mu.
    destruct (beam_sides p) as (S1 & S2 & S0).
    rewrite !(along_ext2 _ (beam_axis sf_2Line V p) t (beam_axis sf_2Line V p) t), !(along_ext2 _ (beam_axis sf_2Line V p) t (beam_side sf_2Line V 0 p) d1), !(along_ext2 _ (beam_axis sf_2Line V p) t (beam_side sf_2Line V 1 p) d2) by auto.
    rewrite !straight_tt, !straight_t1, !straight_t2 by auto. field. lra.
Qed.
End Straight.
