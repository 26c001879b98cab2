(** Reciprocity of the loads of the static samples. *)
From Coq Require Import List Arith Lia Bool Reals Lra.
From Verif Require Import Res SumR DenseModel DenseR DenseSpec ShapeModel QuadModel QuadSpec ElemModel ElemSpec SparseModel SparseSpec AssemblyModel AssemblySpec KrylovSpec PatchSpec StableSpec TopSpec StaticModel StaticSpec StaticSpec2.
From Verif Require Import AssemblyProof AssemblyProof2 AssemblyProof3 PatchProof2 PatchMain StableProof3 StableMain TopProof4 StaticPiece StaticProof StaticProof2.
Import ListNotations.
Local Open Scope R_scope.

Section work.
Variables (N m : nat).
Lemma gen_force_work es u y : (forall e a, In e es -> In a (e_dofs e) -> (dnode a < N)%nat /\ (ddof a < m)%nat) ->
  sum_over es (fun e => sum_over (e_dofs e) (fun a => sum_over (e_dofs e) (fun b => y (dnode a) (ddof a) * e_k e (dloc a) (dloc b) * uval u (dnode b) (ddof b)))) =
  bigsum N (fun i => bigsum m (fun j => y i j * internal_force es u i j)).
Proof.
  intros HB. unfold internal_force. rewrite (bigsum_ext _ _ (fun i => sum_over es (fun e => sum_over (e_dofs e) (fun a => bigsum m (fun j => y i j * ind (at_dof i j a) (sum_over (e_dofs e) (fun b => e_k e (dloc a) (dloc b) * duval u b))))))).
  2:{ intros i _. rewrite (bigsum_ext _ _ (fun j => sum_over es (fun e => sum_over (e_dofs e) (fun a => y i j * ind (at_dof i j a) (sum_over (e_dofs e) (fun b => e_k e (dloc a) (dloc b) * duval u b)))))).
      - rewrite bigsum_over. apply sum_ext. intros e _. now rewrite bigsum_over.
      - intros j _. rewrite <- sum_over_scal. apply sum_ext. intros e _. now rewrite <- sum_over_scal. }
  rewrite bigsum_over. apply sum_ext. intros e Hin. rewrite bigsum_over. apply sum_ext. intros a Ha. destruct (HB e a Hin Ha) as [Hi Hj].
  rewrite (bigsum_single _ (dnode a)); auto.
  - rewrite (bigsum_single _ (ddof a)); auto.
    + unfold at_dof. rewrite !Nat.eqb_refl. cbn [andb ind]. rewrite <- sum_over_scal. apply sum_ext. intros b _. unfold duval. ring.
    + intros j' _ Hne. unfold at_dof. replace (ddof a =? j')%nat with false by (symmetry; apply Nat.eqb_neq; auto). rewrite andb_false_r. cbn [ind]. ring.
  - intros i' _ Hne. apply bigsum_zero. intros j' _. unfold at_dof. replace (dnode a =? i')%nat with false by (symmetry; apply Nat.eqb_neq; auto). cbn [andb ind]. ring.
Qed.
Lemma gen_load_work L y : (forall i j v, In (i, j, v) L -> (i < N)%nat /\ (j < m)%nat) ->
  bigsum N (fun i => bigsum m (fun j => y i j * nodal_load L i j)) = sum_over L (fun w => snd w * y (fst (fst w)) (snd (fst w))).
Proof.
  intros HL. unfold nodal_load. rewrite (bigsum_ext _ _ (fun i => sum_over L (fun w => bigsum m (fun j => y i j * ind ((fst (fst w) =? i) && (snd (fst w) =? j))%nat (snd w))))).
  2:{ intros i _. rewrite <- bigsum_over. apply bigsum_ext. intros j _. now rewrite <- sum_over_scal. }
  rewrite bigsum_over. apply sum_ext. intros [[i j] v] Hin. cbn [fst snd]. destruct (HL i j v Hin) as [Hi Hj]. rewrite (bigsum_single _ i), (bigsum_single _ j); auto.
  - rewrite !Nat.eqb_refl. cbn [andb ind]. ring.
  - intros j' _ Hne. replace (j =? j')%nat with false by (symmetry; apply Nat.eqb_neq; auto). rewrite andb_false_r. cbn [ind]. ring.
  - intros i' _ Hne. apply bigsum_zero. intros j' _. replace (i =? i')%nat with false by (symmetry; apply Nat.eqb_neq; auto). cbn [andb ind]. ring.
Qed.
End work.
Lemma st_loaded_ok d P dim : static_ok d dim -> st_fit d P -> static_ok (st_loaded d P) dim.
Proof. intros [] HP. constructor; auto. Qed.

Lemma static_reciprocal solve d dim P Q : spd_solver solve -> static_ok d dim -> st_fit d P -> st_fit d Q -> (forall i j v, In (i, j, v) (st_fx d) -> v = 0) ->
  exists u v, st_run solve (st_loaded d P) = Ok u /\ st_run solve (st_loaded d Q) = Ok v /\
    sum_over P (fun w => snd w * uval v (fst (fst w)) (snd (fst w))) = sum_over Q (fun w => snd w * uval u (fst (fst w)) (snd (fst w))).
Proof.
  intros HS HD HP HQ HZ. destruct (static_all solve _ dim HS (st_loaded_ok d P dim HD HP)) as (_ & u & E & _ & BU). destruct (static_all solve _ dim HS (st_loaded_ok d Q dim HD HQ)) as (_ & v & E' & _ & BV).
  exists u, v. splits; auto. clear E E'.
  destruct (sound_runs (seq 0 (st_m d)) (st_x d) dim (st_m d) (st_f d) (st_pieces d) (sk_routine d dim HD) (seq_length _ _) (sk_piece d dim HD)) as (es & HF & HE).
  destruct (BU es HF) as [[B1 B2] _]. destruct (BV es HF) as [[C1 C2] _]. change (st_fx (st_loaded d P)) with (st_fx d) in *. change (st_fx (st_loaded d Q)) with (st_fx d) in *. cbn [st_loaded st_x st_m st_loads] in *.
  assert (HB : forall e a, In e es -> In a (e_dofs e) -> (dnode a < length (st_x d))%nat /\ (ddof a < st_m d)%nat).
  { intros e a He Ha. destruct (HE e He) as [_ HT]. set (t := repeat (repeat (Some 0%nat) (st_m d)) (length (st_x d))).
    assert (FT : elem_fits t e). { apply HT. intros p k c Hp Hk Hc. apply in_rep. apply in_seq in Hc. split; [|lia]. unfold st_pieces in Hp. apply in_map_iff in Hp. destruct Hp as (el & <- & Hel). exact (sk_nodes d dim HD el k Hel Hk). }
    apply (in_rep (Some 0%nat) (st_m d)). exact (proj1 (proj2 (proj2 FT) a Ha)). }
  assert (Z : forall t, (forall i j x, last_value (st_fx d) i j = Some x -> uval t i j = x) -> forall i j, last_value (st_fx d) i j <> None -> uval t i j = 0).
  { intros t Ht i j Hn. destruct (last_value (st_fx d) i j) as [x|] eqn:Ex; [|congruence]. rewrite (Ht _ _ _ Ex). pose proof (last_value_in (st_fx d) i j) as R1. rewrite Ex in R1. exact (HZ _ _ _ R1). }
  assert (W : forall L s t, (forall i j, (i < length (st_x d))%nat -> (j < st_m d)%nat -> last_value (st_fx d) i j = None -> internal_force es s i j = nodal_load L i j) -> st_fit d L ->
     (forall i j x, last_value (st_fx d) i j = Some x -> uval t i j = x) ->
     sum_over L (fun w => snd w * uval t (fst (fst w)) (snd (fst w))) =
     sum_over es (fun e => sum_over (e_dofs e) (fun a => sum_over (e_dofs e) (fun b => uval t (dnode a) (ddof a) * e_k e (dloc a) (dloc b) * uval s (dnode b) (ddof b))))).
  { intros L s t Hs HL Ht. rewrite <- (gen_load_work (length (st_x d)) (st_m d) L (uval t) HL), (gen_force_work (length (st_x d)) (st_m d) es s (uval t) HB).
    apply bigsum_ext. intros i Hi. apply bigsum_ext. intros j Hj. destruct (last_value (st_fx d) i j) eqn:El; [rewrite (Z t Ht i j) by congruence; lra|]. now rewrite Hs. }
  rewrite (W P u v B2 HP C1), (W Q v u C2 HQ B1). apply sum_ext. intros e He.
  destruct (Forall2_In_r _ _ _ HF e He) as (p & Hp & Hm). destruct (element_sound _ _ _ _ _ p e (fun _ _ => 0) (sk_routine d dim HD) (seq_length _ _) (sk_piece d dim HD p Hp) Hm) as (_ & SY & _).
  rewrite sum_over_swap. apply sum_ext. intros b Hb. apply sum_ext. intros a Ha. rewrite (SY a b Ha Hb). ring.
Qed.
Lemma static_least solve d dim es u z : spd_solver solve -> static_ok d dim -> Forall2 (made_by (st_f d)) (st_pieces d) es -> st_run solve d = Ok u ->
  (forall i j v, last_value (st_fx d) i j = Some v -> z i j = v) -> st_potential d es (uval u) <= st_potential d es z.
Proof.
  intros HS HD HF E Hz. destruct (static_all solve d dim HS HD) as (_ & u' & E' & _ & BU). rewrite E in E'. injection E' as <-. destruct (BU es HF) as [[B1 B2] _]. clear E BU.
  destruct (sound_runs (seq 0 (st_m d)) (st_x d) dim (st_m d) (st_f d) (st_pieces d) (sk_routine d dim HD) (seq_length _ _) (sk_piece d dim HD)) as (es0 & HF0 & HE0).
  assert (SE : forall e, In e es -> 0 <= denergy e (fun i j => z i j - uval u i j) /\ forall a b, In a (e_dofs e) -> In b (e_dofs e) -> e_k e (dloc a) (dloc b) = e_k e (dloc b) (dloc a)).
  { intros e He. destruct (Forall2_In_r _ _ _ HF e He) as (p & Hp & Hm). destruct (element_sound _ _ _ _ _ p e (fun i j => z i j - uval u i j) (sk_routine d dim HD) (seq_length _ _) (sk_piece d dim HD p Hp) Hm) as (EN & SY & _). auto. }
  assert (HB : forall e a, In e es -> In a (e_dofs e) -> (dnode a < length (st_x d))%nat /\ (ddof a < st_m d)%nat).
  { intros e a He Ha. destruct (Forall2_In_r _ _ _ HF e He) as (p & Hp & Hm).
    assert (X : exists e0, In e0 es0 /\ e_dofs e0 = e_dofs e).
    { clear - HF0 Hp Hm. induction HF0 as [|p0 e0 P0 es1 M0 HF1 IH]; [destruct Hp|]. destruct Hp as [->|Hp].
      - exists e0. split; [now left|]. destruct Hm as [N1 F1], M0 as [N2 F2]. rewrite F1 in F2. injection F2 as _ F3. unfold e_dofs. now rewrite N1, N2, F3.
      - destruct (IH Hp) as (e1 & H1 & H2). exists e1. split; [now right|exact H2]. }
    destruct X as (e0 & H0 & ED). destruct (HE0 e0 H0) as [_ HT]. set (t := repeat (repeat (Some 0%nat) (st_m d)) (length (st_x d))).
    assert (FT : elem_fits t e0). { apply HT. intros p' k c Hp' Hk Hc. apply in_rep. apply in_seq in Hc. split; [|lia]. unfold st_pieces in Hp'. apply in_map_iff in Hp'. destruct Hp' as (el & <- & Hel). exact (sk_nodes d dim HD el k Hel Hk). }
    apply (in_rep (Some 0%nat) (st_m d)). rewrite <- ED in Ha. exact (proj1 (proj2 (proj2 FT) a Ha)). }
  set (y := fun i j => z i j - uval u i j).
  assert (W : sum_over es (fun e => sum_over (e_dofs e) (fun a => sum_over (e_dofs e) (fun b => y (dnode a) (ddof a) * e_k e (dloc a) (dloc b) * uval u (dnode b) (ddof b)))) = sum_over (st_loads d) (fun w => snd w * y (fst (fst w)) (snd (fst w)))).
  { rewrite <- (gen_load_work (length (st_x d)) (st_m d) _ y (sk_loads d dim HD)), (gen_force_work (length (st_x d)) (st_m d) es u y HB).
    apply bigsum_ext. intros i Hi. apply bigsum_ext. intros j Hj. destruct (last_value (st_fx d) i j) as [x|] eqn:El; [unfold y; rewrite (Hz _ _ _ El), (B1 _ _ _ El); ring|]. now rewrite B2. }
  assert (EZ : sum_over es (fun e => sum_over (e_dofs e) (fun a => sum_over (e_dofs e) (fun b => z (dnode a) (ddof a) * e_k e (dloc a) (dloc b) * z (dnode b) (ddof b)))) =
    sum_over es (fun e => denergy e y) + 2 * sum_over es (fun e => sum_over (e_dofs e) (fun a => sum_over (e_dofs e) (fun b => y (dnode a) (ddof a) * e_k e (dloc a) (dloc b) * uval u (dnode b) (ddof b))))
    + sum_over es (fun e => sum_over (e_dofs e) (fun a => sum_over (e_dofs e) (fun b => uval u (dnode a) (ddof a) * e_k e (dloc a) (dloc b) * uval u (dnode b) (ddof b))))).
  { rewrite <- sum_over_scal, <- !sum_over_plus. apply sum_ext. intros e He. destruct (SE e He) as [_ SY].
    assert (SW : sum_over (e_dofs e) (fun a => sum_over (e_dofs e) (fun b => y (dnode a) (ddof a) * e_k e (dloc a) (dloc b) * uval u (dnode b) (ddof b))) = sum_over (e_dofs e) (fun a => sum_over (e_dofs e) (fun b => uval u (dnode a) (ddof a) * e_k e (dloc a) (dloc b) * y (dnode b) (ddof b)))).
    { rewrite sum_over_swap. apply sum_ext. intros b Hb. apply sum_ext. intros a Ha. rewrite (SY a b Ha Hb). ring. }
    match goal with |- _ = _ + 2 * ?s + _ => replace (2 * s) with (s + s) by ring; rewrite SW at 2 end.
    unfold denergy. rewrite <- !sum_over_plus. apply sum_ext. intros a _. rewrite <- !sum_over_plus. apply sum_ext. intros b _. unfold y. ring. }
  assert (LZ : sum_over (st_loads d) (fun w => snd w * z (fst (fst w)) (snd (fst w))) = sum_over (st_loads d) (fun w => snd w * y (fst (fst w)) (snd (fst w))) + sum_over (st_loads d) (fun w => snd w * uval u (fst (fst w)) (snd (fst w)))).
  { rewrite <- sum_over_plus. apply sum_ext. intros w _. unfold y. ring. }
  assert (NN : 0 <= sum_over es (fun e => denergy e y)) by (apply sum_over_nonneg; intros e He; exact (proj1 (SE e He))).
  unfold st_potential. rewrite EZ, LZ, W. lra.
Qed.
