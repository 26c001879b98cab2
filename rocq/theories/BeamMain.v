(** Properties C97-C98: the beam and the shells: the proofs. *)
From Coq Require Import List Arith Lia Bool Reals Lra.
From Verif Require Import Res SumR DenseModel DenseR DenseSpec ShapeModel QuadModel QuadSpec ElemModel ElemSpec BeamModel BeamSpec ElemProof ElemMain BeamMain1 BeamMain2.
Import ListNotations.
Local Open Scope R_scope.
From Verif Require Import DenseProof DenseMain ShapeMain QuadMain ElemProof ElemProof2 ElemProof3 ElemMain BeamProof BeamProof2 BeamMain0 BeamMain1 BeamMain2.

(** ** concrete elements for the examples *)
Lemma section4 : section_rule Gauss4Square.
Proof.
  unfold section_rule. rewrite (q_sq4 (fun _ _ => 1)), (q_sq4 (fun x _ => x)), (q_sq4 (fun _ y => y)), (q_sq4 (fun x _ => x * x)), (q_sq4 (fun _ y => y * y)), (q_sq4 (fun x y => x * y)).
  unfold g2. pose proof s3_sq as S. replace (- 1 / sqrt 3) with (- (1 / sqrt 3)) by (unfold Rdiv; ring). set (k := 1 / sqrt 3) in *. clearbody k. splits; nra.
Qed.
Lemma thickness2 : thickness_rule Gauss2Line.
Proof.
  unfold thickness_rule, quad. cbn [Gauss2Line q_n q_points q_weights bigsum wprod nth].
  pose proof s3_sq as S. replace (- 1 / sqrt 3) with (- (1 / sqrt 3)) by (unfold Rdiv; ring). set (k := 1 / sqrt 3) in *. clearbody k. splits; nra.
Qed.
Definition axis_y (c : nat) : R := match c with 1%nat => 1 | _ => 0 end.
Definition axis_z (c : nat) : R := match c with 2%nat => 1 | _ => 0 end.
Definition beam_xs : list (list R) := [[0; 0; 0]; [2; 0; 0]].
Definition beam_v1s : list (list R) := [[0; 3; 0]; [0; 1; 0]].
Definition beam_v2s : list (list R) := [[0; 0; 1]; [0; 0; 2]].
Lemma straight_beam : straight [0; 1]%nat beam_xs beam_v1s beam_v2s 2 axis_y axis_z.
Proof.
  unfold straight, dot3. cbn [bigsum axis_y axis_z]. splits; try ring.
  - intros c Hc. destruct c as [|[|[|c]]]; try lia; cbn; ring.
  - intros i Hi. destruct i as [|[|i]]; [exists 3, 1|exists 1, 2|lia]; splits; try lra; intros c Hc; destruct c as [|[|[|c]]]; try lia; cbn; split; ring.
Qed.
Lemma list_nodes elem xs : forallb (fun e => (e <? length xs)%nat && (length (nth e xs []) =? 3)%nat) elem = true -> nodes3 elem xs /\ nodes_ok 3 elem xs.
Proof.
  intros H. rewrite forallb_forall in H. split; intros e He; specialize (H e He); apply andb_prop in H as [H1 H2]; apply Nat.ltb_lt in H1; apply Nat.eqb_eq in H2; split; auto; lia.
Qed.
Lemma list_rule d q : (q_n q <=? length (q_points q))%nat && (q_n q <=? length (q_weights q))%nat &&
  forallb (fun g => (d <=? length (nth g (q_points q) []))%nat && (d <=? length (nth g (q_weights q) []))%nat) (seq 0 (q_n q)) = true -> rule_ok d q.
Proof.
  intros H. apply andb_prop in H as [H H3]. apply andb_prop in H as [H1 H2]. apply Nat.leb_le in H1, H2. rewrite forallb_forall in H3. unfold rule_ok. splits; auto.
  intros g Hg. specialize (H3 g). rewrite in_seq in H3. specialize (H3 ltac:(lia)). apply andb_prop in H3 as [H3 H4]. apply Nat.leb_le in H3, H4. auto.
Qed.
Lemma beam_example_ok : beam_ok sf_2Line Gauss1Line Gauss4Square [0; 1]%nat beam_xs beam_v1s beam_v2s 1 3.
Proof.
  apply (straight_ok [0; 1]%nat [0; 1; 2; 3; 4; 5]%nat beam_xs beam_v1s beam_v2s 1 3 2 axis_y axis_z Gauss4Square); try lra; auto; try (now apply list_nodes).
  - now apply list_rule.
  - exact straight_beam.
Qed.
Definition plate_xs : list (list R) := [[0; 0; 0]; [1; 0; 0]; [0; 2; 0]].
Lemma plate_jac r : jac sf_3Triangle (nodal [0; 1; 2]%nat plate_xs) r = 2.
Proof. unfold jac, detd, det2, tangent, dshp, nodal. cbn. ring. Qed.
Lemma flat_plate : flat sf_3Triangle Gauss1Triangle [0; 1; 2]%nat plate_xs.
Proof.
  unfold flat. splits; auto.
  - cbn; auto 10.
  - now apply list_nodes.
  - now apply list_rule.
  - intros i Hi. rewrite plate_jac. split; [|lra]. destruct i as [|[|[|i]]]; cbn in Hi |- *; try lia; reflexivity.
  - intros g _. rewrite plate_jac. lra.
  - left. unfold first_side, nodal. cbn. lra.
Qed.
Lemma shell_example_ok : shell_ok sf_3Triangle Gauss1Triangle Gauss2Line [0; 1; 2]%nat plate_xs 1.
Proof. apply flat_ok; [exact flat_plate|now apply list_rule|lra]. Qed.


Lemma C97_beam_form_pf : forall s q0 q1 elem dou xs v1s v2s E v a b,
  beam_ok s q0 q1 elem xs v1s v2s a b -> length dou = 6%nat -> 1 + v <> 0 ->
  let V := beam_dirs elem v1s v2s in
  layer_stiffness_of 6 2 s q0 q1 (half_sides a b) V (rotated V) (beam_W s V E v) elem dou xs
    (BeamLinearIsotropicElastic s q0 q1 elem dou xs v1s v2s E v a b).
Proof. exact got_beam_form. Qed.

Lemma C97_beam_definite_pf : forall s q0 q1 elem dou xs v1s v2s E v a b,
  beam_ok s q0 q1 elem xs v1s v2s a b -> length dou = 6%nat -> 1 + v <> 0 ->
  let r := BeamLinearIsotropicElastic s q0 q1 elem dou xs v1s v2s E v a b in
  symmetric_result (6 * length elem) r /\
  (0 <= E -> 0 < 1 + v -> positive_layer s q0 q1 2 (layer_tangent s 2 (half_sides a b) (nodal elem xs) (beam_dirs elem v1s v2s)) ->
   psd_result (6 * length elem) r).
Proof. exact got_beam_definite. Qed.

Lemma C97_beam_rigid_pf : forall s q0 q1 elem dou xs v1s v2s E v a b c0 om z,
  beam_ok s q0 q1 elem xs v1s v2s a b -> length dou = 6%nat -> 1 + v <> 0 ->
  (forall i c, (i < length elem)%nat -> (c < 3)%nat -> z i c = c0 c + cross3 om (nodal elem xs i) c /\ z i (3 + c)%nat = om c) ->
  kills 6 (length elem) (BeamLinearIsotropicElastic s q0 q1 elem dou xs v1s v2s E v a b) z.
Proof. exact got_beam_rigid. Qed.

Lemma C97_straight_beam_pf : forall q1 elem dou xs v1s v2s E v a b len d1 d2,
  length elem = 2%nat -> nodes_ok 3 elem xs -> nodes3 elem v1s -> nodes3 elem v2s -> rule_ok 2 q1 -> section_rule q1 ->
  0 < a -> 0 < b -> 0 < len -> straight elem xs v1s v2s len d1 d2 -> 1 + v <> 0 -> length dou = 6%nat ->
  exists K ne k, BeamLinearIsotropicElastic sf_2Line Gauss1Line q1 elem dou xs v1s v2s E v a b = Ok (K, ne) /\
    is_mat K 12 12 k /\ numbered 6 2 dou ne /\ forall y z, form 6 2 k y z = timoshenko E (lame_mu E v) len a b d1 d2 y z.
Proof. intros. now apply straight_call. Qed.

Lemma C98_shell_form_pf : forall s q0 q1 elem dou xs E v t,
  shell_ok s q0 q1 elem xs t -> 1 - v * v <> 0 ->
  let x := nodal elem xs in let l := first_side elem xs in
  (length dou = 5%nat -> layer_stiffness_of 5 1 s q0 q1 (fun _ => t / 2) (shell_dirs s x) (tilted s x l) (shell_W s x l E v t) elem dou xs
     (ShellLinearIsotropicElastic s q0 q1 elem dou xs E v t)) /\
  (length dou = 6%nat -> layer_stiffness_of 6 1 s q0 q1 (fun _ => t / 2) (shell_dirs s x) (rotated (shell_dirs s x)) (shell_W s x l E v t) elem dou xs
     (ShellLinearIsotropicElastic2 s q0 q1 elem dou xs E v t)).
Proof. exact got_shell_form. Qed.

Lemma C98_shell_definite_pf : forall s q0 q1 elem dou5 dou6 xs E v t,
  shell_ok s q0 q1 elem xs t -> length dou5 = 5%nat -> length dou6 = 6%nat -> 1 - v * v <> 0 ->
  let r5 := ShellLinearIsotropicElastic s q0 q1 elem dou5 xs E v t in
  let r6 := ShellLinearIsotropicElastic2 s q0 q1 elem dou6 xs E v t in
  symmetric_result (5 * length elem) r5 /\ symmetric_result (6 * length elem) r6 /\
  (0 <= E -> -1 < v < 1 -> positive_layer s q0 q1 1 (shell_T s t (nodal elem xs)) ->
   psd_result (5 * length elem) r5 /\ psd_result (6 * length elem) r6).
Proof. exact got_shell_definite. Qed.

Lemma C98_shell_rigid_pf : forall s q0 q1 elem dou5 dou6 xs E v t c0 om z5 z6,
  shell_ok s q0 q1 elem xs t -> length dou5 = 5%nat -> length dou6 = 6%nat -> 1 - v * v <> 0 ->
  let x := nodal elem xs in let l := first_side elem xs in
  (forall i c, (i < length elem)%nat -> (c < 3)%nat -> z5 i c = c0 c + cross3 om (x i) c) ->
  (forall i, (i < length elem)%nat -> z5 i 3%nat = dot3 om (shell_v1 s x l i) /\ z5 i 4%nat = dot3 om (shell_v2 s x l i)) ->
  (forall i c, (i < length elem)%nat -> (c < 3)%nat -> z6 i c = c0 c + cross3 om (x i) c /\ z6 i (3 + c)%nat = om c) ->
  kills 5 (length elem) (ShellLinearIsotropicElastic s q0 q1 elem dou5 xs E v t) z5 /\
  kills 6 (length elem) (ShellLinearIsotropicElastic2 s q0 q1 elem dou6 xs E v t) z6.
Proof. exact got_shell_rigid. Qed.

Lemma C98_drilling_pf : forall s q0 q1 elem dou xs E v t tau z,
  shell_ok s q0 q1 elem xs t -> length dou = 6%nat -> 1 - v * v <> 0 ->
  (forall i c, (i < length elem)%nat -> (c < 3)%nat -> z i c = 0 /\ z i (3 + c)%nat = tau i * shell_v3 s (nodal elem xs) i c) ->
  kills 6 (length elem) (ShellLinearIsotropicElastic2 s q0 q1 elem dou xs E v t) z.
Proof. exact got_drilling. Qed.

Lemma C98_same_energy_pf : forall s q0 q1 elem dou5 dou6 xs E v t,
  shell_ok s q0 q1 elem xs t -> length dou5 = 5%nat -> length dou6 = 6%nat -> 1 - v * v <> 0 ->
  exists K5 ne5 k5 K6 ne6 k6,
    ShellLinearIsotropicElastic s q0 q1 elem dou5 xs E v t = Ok (K5, ne5) /\ is_mat K5 (5 * length elem) (5 * length elem) k5 /\
    ShellLinearIsotropicElastic2 s q0 q1 elem dou6 xs E v t = Ok (K6, ne6) /\ is_mat K6 (6 * length elem) (6 * length elem) k6 /\
    forall y z, form 6 (length elem) k6 y z =
      form 5 (length elem) k5 (projected s (nodal elem xs) (first_side elem xs) y) (projected s (nodal elem xs) (first_side elem xs) z).
Proof. exact got_same_energy. Qed.

Lemma C98_flat_shell_pf : forall s q0 q1 elem dou xs E v t,
  flat s q0 elem xs -> rule_ok 1 q1 -> thickness_rule q1 -> 0 < t -> 1 - v * v <> 0 -> length dou = 6%nat ->
  let x := nodal elem xs in
  exists K ne k, ShellLinearIsotropicElastic2 s q0 q1 elem dou xs E v t = Ok (K, ne) /\
    is_mat K (6 * length elem) (6 * length elem) k /\ numbered 6 (length elem) dou ne /\
    forall y z Hy Ky Hz Kz, gradients s q0 x 3 y Hy -> gradients s q0 x 2 (tilt y) Ky -> gradients s q0 x 3 z Hz -> gradients s q0 x 2 (tilt z) Kz ->
      form 6 (length elem) k y z = quad 2 q0 (fun p => jac s x p *
        plate_energy E v t (Hy p) (Ky p) (field_value s p (tilt y)) (Hz p) (Kz p) (field_value s p (tilt z))).
Proof. intros. now apply flat_call. Qed.

Lemma C98_flat_membrane_pf : forall s q0 q1 elem dou dou2 xs E v t,
  flat s q0 elem xs -> rule_ok 1 q1 -> thickness_rule q1 -> 0 < t -> 1 - v * v <> 0 -> length dou = 6%nat -> length dou2 = 2%nat ->
  exists K ne k K2 ne2 k2,
    ShellLinearIsotropicElastic2 s q0 q1 elem dou xs E v t = Ok (K, ne) /\ is_mat K (6 * length elem) (6 * length elem) k /\
    PlaneStressStiffness s q0 elem dou2 xs E v t = Ok (K2, ne2) /\ is_mat K2 (2 * length elem) (2 * length elem) k2 /\
    forall y z, (forall i c, (i < length elem)%nat -> (2 <= c < 6)%nat -> y i c = 0) -> form 6 (length elem) k y z = form 2 (length elem) k2 y z.
Proof. intros. now apply flat_membrane. Qed.
