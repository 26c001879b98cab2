(** Property C118: the static heat and solid samples: the proofs. *)
From Coq Require Import List Arith Lia Bool Reals Lra.
From Verif Require Import Res SumR DenseModel DenseR DenseSpec ShapeModel QuadModel QuadSpec ElemModel ElemSpec SparseModel SparseSpec AssemblyModel AssemblySpec PatchSpec StableSpec TopSpec TopMain StaticModel StaticSpec StaticSpec2.
Import ListNotations.
Local Open Scope R_scope.
From Verif Require Import SpringMain TopProof4 PatchMain StableMain StaticPiece StaticBrick StaticProof StaticProof2 StaticProof3.

(** the unit cube, held at x = 0 and loaded at two nodes *)
Definition cube_xs : list (list R) := [[0; 0; 0]; [1; 0; 0]; [1; 1; 0]; [0; 1; 0]; [0; 0; 1]; [1; 0; 1]; [1; 1; 1]; [0; 1; 1]].
Definition cube_el : list nat := [0; 1; 2; 3; 4; 5; 6; 7]%nat.
Definition cube_fix : list (nat * nat * R) := concat (map (fun i : nat => [(i, 0%nat, 0); (i, 1%nat, 0); (i, 2%nat, 0)]) [0; 3; 4; 7]%nat).
Definition cube : static :=
  mkStatic cube_xs [cube_el] [cube_fix] [(2%nat, 1%nat, -100); (6%nat, 1%nat, -100)] 3 sf_8Cubic Gauss8Cubic
    (fun s q el => SolidLinearIsotropicElastic s q el [0; 1; 2]%nat cube_xs 210000 (3 / 10)).
Definition half : nat -> nat -> R := fun l c => if (l =? c)%nat then 1 / 2 else 0.
Lemma cube_brick : brick cube_xs cube_el (fun _ => 1 / 2) half.
Proof.
  split; [reflexivity|]. split; [intros k Hk; cbn in Hk; repeat (destruct Hk as [<-|Hk]; [cbn; lia|]); contradiction|].
  intros i c Hi Hc. unfold nodal, cube_el, cube_xs, half, pts_8Cubic. do 8 (destruct i as [|i]; [do 3 (destruct c as [|c]; [cbn; lra|]); lia|]). lia.
Qed.
Lemma half_det : 0 < det3 half.
Proof. unfold det3, half. cbn [Nat.eqb]. lra. Qed.
Lemma cube_ok : static_ok cube 3.
Proof.
  constructor.
  - change (seq 0 (st_m cube)) with [0; 1; 2]%nat. change (st_m cube) with 3%nat. apply (sr_solid [0; 1; 2]%nat cube_xs 210000 (3 / 10)); lra.
  - intros p Hp. destruct Hp as [<-|[]]. exact (brick_sound cube_xs cube_el _ half cube_brick half_det 3 (or_intror eq_refl)).
  - intros el k [<-|[]] Hk. unfold cube_el in Hk. cbn in Hk |- *. lia.
  - intros i j v H. cbn in H. cbn [cube st_x st_m cube_xs length]. repeat (destruct H as [H|H]; [injection H as <- <- _; lia|]). contradiction.
  - intros i j v H. cbn in H. cbn [cube st_x st_m cube_xs length]. repeat (destruct H as [H|H]; [injection H as <- <- _; lia|]). contradiction.
  - assert (B : forall k, In k [0; 3; 4; 7]%nat -> held (st_x cube) (st_m cube) (st_elements cube) (fun k => forall c, (c < st_m cube)%nat -> last_value (st_fx cube) k c <> None) k).
    { intros k Hk. apply held_base. intros c Hc. cbn [st_m cube] in Hc. cbn in Hk. repeat (destruct Hk as [<-|Hk]; [do 3 (destruct c as [|c]; [cbn; discriminate|]); lia|]). contradiction. }
    intros i Hi. apply (held_elem _ _ _ _ cube_el [0; 3; 4]%nat).
    + now left.
    + apply sup3. cbn [st_x cube cube_xs nth]. exists 1%nat, 2%nat. split; [lia|]. split; [lia|]. cbn [nth]. lra.
    + intros k Hk. cbn in Hk |- *. lia.
    + intros k Hk. apply B. cbn in Hk |- *. lia.
    + cbn [st_x cube cube_xs length] in Hi. cbn. lia.
Qed.
(** four triangles between a wall at 300 and a wall at 0 *)
Definition room_xs : list (list R) := [[0; 0]; [1; 0]; [1; 1]; [0; 1]; [1 / 3; 1 / 4]; [1 / 2; 0]].
Definition room_els : list (list nat) := [[0; 5; 4]; [5; 1; 4]; [1; 2; 4]; [2; 3; 4]; [3; 0; 4]]%nat.
Definition room_left : list (nat * nat * R) := [(0%nat, 0%nat, 0); (3%nat, 0%nat, 0)].
Definition room_right : list (nat * nat * R) := [(1%nat, 0%nat, 0); (2%nat, 0%nat, 0)].
Definition room := st_heat room_xs room_els room_left room_right 300 5 1.
Lemma room_stable p : In p (st_pieces room) -> stable_piece 2 room_xs p.
Proof.
  intros Hp. destruct (C106_rules_pf sf_3Triangle Gauss1Triangle ltac:(cbn; tauto)) as (PP & RK & WP).
  apply in_map_iff in Hp. destruct Hp as (l & <- & Hl). cbn [st_s st_q room st_heat].
  assert (J : forall r, 0 < jac sf_3Triangle (nodal l room_xs) r).
  { intros r. cbn in Hl. repeat (destruct Hl as [<-|Hl]; [unfold jac, detd, det2, tangent, dshp, nodal, room_xs, sf_3Triangle, dN_3Triangle; cbn [sf_d sf_n sf_dN bigsum nth]; lra|]). contradiction. }
  split; [exact PP|]. cbn [p_shape p_rule p_nodes]. split.
  - unfold element_ok. split; [cbn; tauto|]. split; [reflexivity|].
    cbn in Hl. repeat (destruct Hl as [<-|Hl]; [split; [reflexivity|]; split; [intros k Hk; cbn in Hk; destruct Hk as [<-|[<-|[<-|[]]]]; cbn; lia|]; split; [exact RK|]; intros g _; apply Rgt_not_eq, J|]). contradiction.
  - intros g Hg. split; [apply J|now apply WP].
Qed.
Lemma room_ok : static_ok room 2.
Proof.
  constructor.
  - change (seq 0 (st_m room)) with [0]%nat. change (st_m room) with 1%nat. apply (sr_heat [0]%nat room_xs 5 1); lra.
  - intros p Hp. apply stable_sound; [now left|]. now apply room_stable.
  - intros el k He Hk. cbn in He. cbn [room st_heat st_x room_xs length]. repeat (destruct He as [<-|He]; [cbn in Hk; lia|]). contradiction.
  - intros i j v H. cbn in H. cbn [room st_heat st_x st_m room_xs length]. repeat (destruct H as [H|H]; [injection H as <- <- _; lia|]). contradiction.
  - intros i j v H. destruct H.
  - assert (B : forall k, In k [0; 1; 2; 3]%nat -> held (st_x room) (st_m room) (st_elements room) (fun k => forall c, (c < st_m room)%nat -> last_value (st_fx room) k c <> None) k).
    { intros k Hk. apply held_base. intros c Hc. cbn [st_m room st_heat] in Hc. assert (c = 0%nat) as -> by lia. cbn in Hk. repeat (destruct Hk as [<-|Hk]; [cbn; discriminate|]). contradiction. }
    intros i Hi. cbn [room st_heat st_x room_xs length] in Hi. destruct (le_lt_dec 4 i) as [H|H]; [|apply B; cbn; lia].
    apply (held_elem _ _ _ _ [0; 5; 4]%nat [0]%nat); [now left|apply sup1|cbn; lia|intros k [<-|[]]; apply B; cbn; lia|cbn; lia].
Qed.
(** the sides of the room at the two free nodes *)
Lemma room_sides i : (i < 6)%nat -> last_value (st_fx room) i 0 = None -> enclosed room_xs room_els i.
Proof.
  intros Hi Hn sd Hin. assert (H45 : i = 4%nat \/ i = 5%nat) by (do 4 (destruct i as [|i]; [cbn in Hn; discriminate Hn|]); lia).
  set (L := flat_map sides room_els). destruct (in_dec (list_eq_dec Nat.eq_dec) sd L) as [Hs|Hs].
  - unfold L in Hs. cbn in Hs.
    repeat (destruct Hs as [<-|Hs]; [first [right; reflexivity | left; intros k k' Hk Hk'; cbn in Hk, Hk'; destruct Hk as [<-|[<-|[]]], Hk' as [<-|[<-|[]]]; cbn; lra | exfalso; cbn in Hin; lia]|]). contradiction.
  - destruct (in_dec (list_eq_dec Nat.eq_dec) (rev sd) L) as [Hr|Hr].
    + assert (E : sd = rev (rev sd)) by (now rewrite rev_involutive). unfold L in Hr. cbn in Hr. rewrite E in Hin |- *. clear E Hs. set (sd' := rev sd) in *. clearbody sd'.
      repeat (destruct Hr as [<-|Hr]; [first [right; reflexivity | left; intros k k' Hk Hk'; cbn in Hk, Hk'; destruct Hk as [<-|[<-|[]]], Hk' as [<-|[<-|[]]]; cbn; lra | exfalso; cbn in Hin; lia]|]). contradiction.
    + right. fold L. rewrite (proj1 (count_occ_not_In _ _ _) Hs), (proj1 (count_occ_not_In _ _ _) Hr). reflexivity.
Qed.
Lemma cube_zero i j v : In (i, j, v) (st_fx cube) -> v = 0.
Proof. unfold st_fx, cube, cube_fix. cbn [st_fixed concat map app In]. intros H. repeat (destruct H as [H|H]; [now injection H|]). destruct H. Qed.
Lemma cube_last i j v : last_value (st_fx cube) i j = Some v -> v = 0.
Proof. intros H. pose proof (TopProof4.last_value_in (st_fx cube) i j) as Q. rewrite H in Q. exact (cube_zero i j v Q). Qed.
Lemma no_energy es : sum_over es (fun e => sum_over (e_dofs e) (fun a => sum_over (e_dofs e) (fun b => 0 * e_k e (dloc a) (dloc b) * 0))) = 0.
Proof. apply SpringMain.sum_over_zero. intros e _. apply SpringMain.sum_over_zero. intros a _. apply SpringMain.sum_over_zero. intros b _. ring. Qed.

Lemma C118_run_pf : forall solve d dim, spd_solver solve -> static_ok d dim ->
  (exists es, Forall2 (made_by (st_f d)) (st_pieces d) es) /\
  exists u, st_run solve d = Ok u /\ sshape d u /\
    forall es, Forall2 (made_by (st_f d)) (st_pieces d) es -> balanced d es u /\ forall u', sshape d u' -> balanced d es u' -> forall i j, uval u' i j = uval u i j.
Proof. exact static_all. Qed.

Lemma C118_brick_pf : forall xs el o e m, brick xs el o e -> 0 < det3 e -> (m = 1 \/ m = 3)%nat -> sound_piece 3 m xs (mkPiece sf_8Cubic Gauss8Cubic el).
Proof. intros xs el o e m HB HD. exact (brick_sound xs el o e HB HD m). Qed.

Lemma C118_stable_pf : forall d m xs p, (m = 1 \/ m = d)%nat -> stable_piece d xs p -> sound_piece d m xs p.
Proof. exact stable_sound. Qed.

Lemma C118_profile_pf : forall solve xs els left right hot cold alpha t x0 x1, let d := st_heat xs els left right hot alpha t in
  spd_solver solve -> static_ok d 2 -> x0 <> x1 ->
  (forall i j v, In (i, j, v) left -> nth 0 (nth i xs []) 0 = x0) -> (forall i j v, In (i, j, v) right -> nth 0 (nth i xs []) 0 = x1 /\ v = cold) ->
  (forall i, (i < length xs)%nat -> last_value (st_fx d) i 0 = None -> enclosed xs els i) ->
  exists u, st_run solve d = Ok u /\ sshape d u /\ forall i, (i < length xs)%nat -> uval u i 0 = hot + (cold - hot) * ((nth 0 (nth i xs []) 0 - x0) / (x1 - x0)).
Proof. exact profile. Qed.

Lemma C118_scale_pf : forall solve d dim c, spd_solver solve -> static_ok d dim ->
  exists u u', st_run solve d = Ok u /\ st_run solve (st_scaled c d) = Ok u' /\ forall i j, uval u' i j = c * uval u i j.
Proof. exact scale. Qed.

Lemma C118_reciprocal_pf : forall solve d dim P Q, spd_solver solve -> static_ok d dim -> st_fit d P -> st_fit d Q -> (forall i j v, In (i, j, v) (st_fx d) -> v = 0) ->
  exists u v, st_run solve (st_loaded d P) = Ok u /\ st_run solve (st_loaded d Q) = Ok v /\
    sum_over P (fun w => snd w * uval v (fst (fst w)) (snd (fst w))) = sum_over Q (fun w => snd w * uval u (fst (fst w)) (snd (fst w))).
Proof. exact static_reciprocal. Qed.

Lemma C118_least_pf : forall solve d dim es u z, spd_solver solve -> static_ok d dim -> Forall2 (made_by (st_f d)) (st_pieces d) es -> st_run solve d = Ok u ->
  (forall i j v, last_value (st_fx d) i j = Some v -> z i j = v) -> st_potential d es (uval u) <= st_potential d es z.
Proof. exact static_least. Qed.
