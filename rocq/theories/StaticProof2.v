(** The temperature between two walls; scaled data. *)
From Coq Require Import List Arith Lia Bool Reals Lra.
From Verif Require Import Res SumR DenseModel DenseR DenseSpec ShapeModel QuadModel QuadSpec ElemModel ElemSpec SparseModel SparseSpec AssemblyModel AssemblySpec KrylovSpec PatchSpec StableSpec TopSpec StaticModel StaticSpec.
From Verif Require Import AssemblyProof AssemblyProof2 AssemblyProof3 PatchMain StableMain TopProof4 StaticProof.
Import ListNotations.
Local Open Scope R_scope.

Lemma static_all solve d dim : spd_solver solve -> static_ok d dim ->
  (exists es, Forall2 (made_by (st_f d)) (st_pieces d) es) /\
  exists u, st_run solve d = Ok u /\ sshape d u /\
    forall es, Forall2 (made_by (st_f d)) (st_pieces d) es -> balanced d es u /\ forall u', sshape d u' -> balanced d es u' -> forall i j, uval u' i j = uval u i j.
Proof.
  intros HS HD. destruct (static_run solve d dim HS HD) as (es & u & HF & E & SH & BA & UN). split; [now exists es|]. exists u. split; [exact E|]. split; [exact SH|].
  intros es' HF'. assert (Q : forall w i j, internal_force es' w i j = internal_force es w i j) by (intros; now apply (made_force _ _ _ _ _ _ _ HF' HF)).
  split.
  - destruct BA as [B1 B2]. split; auto. intros i j Hi Hj Hv. rewrite Q. auto.
  - intros u' SH' [B1 B2]. apply UN; auto. split; auto. intros i j Hi Hj Hv. rewrite <- Q. auto.
Qed.
Lemma map_table N (g : nat -> R) i j : uval (map (fun k => [g k]) (seq 0 N)) i j = if (i <? N)%nat && (j =? 0)%nat then g i else 0.
Proof.
  unfold uval. destruct (Nat.ltb_spec i N) as [H|H].
  - rewrite (nth_indep _ [] [g 0%nat]) by (rewrite map_length, seq_length; lia). rewrite (map_nth (fun k => [g k])), seq_nth by auto. destruct j as [|[|j]]; reflexivity.
  - rewrite (nth_overflow (map _ _)) by (rewrite map_length, seq_length; lia). destruct j; reflexivity.
Qed.
Lemma in_map_table N (g : nat -> R) i j : in_table (map (fun k => [g k]) (seq 0 N)) i j <-> (i < N)%nat /\ (j < 1)%nat.
Proof.
  unfold in_table. destruct (Nat.ltb_spec i N) as [H|H].
  - rewrite (nth_indep _ [] [g 0%nat]) by (rewrite map_length, seq_length; lia). rewrite (map_nth (fun k => [g k])). cbn [length]. lia.
  - rewrite nth_overflow by (rewrite map_length, seq_length; lia). cbn [length]. lia.
Qed.
Lemma profile solve xs els left right hot cold alpha t x0 x1 : let d := st_heat xs els left right hot alpha t in
  spd_solver solve -> static_ok d 2 -> x0 <> x1 ->
  (forall i j v, In (i, j, v) left -> nth 0 (nth i xs []) 0 = x0) -> (forall i j v, In (i, j, v) right -> nth 0 (nth i xs []) 0 = x1 /\ v = cold) ->
  (forall i, (i < length xs)%nat -> last_value (st_fx d) i 0 = None -> enclosed xs els i) ->
  exists u, st_run solve d = Ok u /\ sshape d u /\ forall i, (i < length xs)%nat -> uval u i 0 = hot + (cold - hot) * ((nth 0 (nth i xs []) 0 - x0) / (x1 - x0)).
Proof.
  intros d HS HD HX HLft HRgt HEn. destruct (static_all solve d 2 HS HD) as ((es & HF) & u & E & SH & UN). exists u. split; [exact E|]. split; [exact SH|].
  destruct (UN es HF) as [_ UQ]. set (g := fun i => hot + (cold - hot) * ((nth 0 (nth i xs []) 0 - x0) / (x1 - x0))).
  set (v := map (fun k => [g k]) (seq 0 (length xs))).
  assert (V : forall i, (i < length xs)%nat -> uval v i 0 = g i).
  { intros i Hi. unfold v. rewrite map_table. apply Nat.ltb_lt in Hi. rewrite Hi. reflexivity. }
  intros i Hi. change (uval u i 0 = g i). rewrite <- (UQ v), V; auto.
  - intros k c. unfold v. rewrite in_map_table. reflexivity.
  - split.
    + intros k c w Hw. pose proof (last_value_in (st_fx d) k c) as L. rewrite Hw in L. destruct (sk_fixed d 2 HD k c w L) as [Hk Hc]. cbn [st_x st_m d st_heat] in Hk, Hc. assert (c = 0%nat) as -> by lia.
      rewrite V by auto. unfold st_fx in L. cbn [st_fixed d st_heat concat] in L. rewrite app_nil_r in L. apply in_app_iff in L. destruct L as [L|L].
      * unfold st_assign in L. apply in_map_iff in L. destruct L as ([[k' c'] w'] & Q & L). cbn [fst] in Q. injection Q as -> -> <-. unfold g. rewrite (HLft _ _ _ L). field. lra.
      * destruct (HRgt _ _ _ L) as [Q ->]. unfold g. rewrite Q. field. lra.
    + intros k c Hk Hc Hn. cbn [st_x st_m d st_heat] in Hk, Hc. assert (c = 0%nat) as -> by lia. cbn [st_loads d st_heat]. unfold nodal_load. rewrite sum_over_nil.
      apply (heat_force xs alpha t (st_pieces d) es v (fun _ => hot - (cold - hot) * x0 / (x1 - x0)) (fun l _ => match l with O => (cold - hot) / (x1 - x0) | _ => 0 end)); auto.
      * intros p Hp. split; [|apply (sk_piece d 2 HD p Hp)]. unfold st_pieces in Hp. apply in_map_iff in Hp. destruct Hp as (el & <- & _). apply C105_rules_pf. cbn. tauto.
      * intros p Hp n c Hn' Hc'. assert (c = 0%nat) as -> by lia. unfold st_pieces in Hp. apply in_map_iff in Hp. destruct Hp as (el & <- & Hel). cbn [p_nodes] in Hn'. cbn [nth].
        rewrite V by (exact (sk_nodes d 2 HD el n Hel Hn')). unfold g. field. lra.
      * unfold st_pieces. rewrite map_map. cbn [p_nodes]. rewrite map_id. now apply HEn.
Qed.

(** ** Scaled data *)
Lemma last_value_scaled c fx i j : last_value (map (fun w : nat * nat * R => (fst w, c * snd w)) fx) i j = option_map (Rmult c) (last_value fx i j).
Proof.
  unfold last_value. induction fx as [|[[i' j'] v] fx IH]; [reflexivity|]. cbn [map fst snd]. rewrite !last_write_cons, IH. destruct (last_write fx i j); [reflexivity|]. cbn [option_map].
  destruct ((i' =? i)%nat && (j' =? j)%nat); reflexivity.
Qed.
Lemma fx_scaled c d : st_fx (st_scaled c d) = map (fun w : nat * nat * R => (fst w, c * snd w)) (st_fx d).
Proof. unfold st_fx, st_scaled. cbn [st_fixed]. now rewrite concat_map. Qed.
Lemma load_scaled c f i j : nodal_load (map (fun w : nat * nat * R => (fst w, c * snd w)) f) i j = c * nodal_load f i j.
Proof.
  unfold nodal_load. rewrite <- sum_over_scal. unfold sum_over. rewrite map_map. f_equal. apply map_ext. intros w. cbn [fst snd]. destruct ((fst (fst w) =? i)%nat && (snd (fst w) =? j)%nat); cbn [ind]; ring.
Qed.
Lemma uval_scaled c u i j : uval (map (map (Rmult c)) u) i j = c * uval u i j.
Proof.
  unfold uval. change (@nil R) with (map (Rmult c) []) at 1. rewrite map_nth. replace 0 with (c * 0) at 1 by ring. now rewrite map_nth.
Qed.
Lemma force_scaled c es u i j : internal_force es (map (map (Rmult c)) u) i j = c * internal_force es u i j.
Proof.
  unfold internal_force. rewrite <- sum_over_scal. apply sum_ext. intros e _. rewrite <- sum_over_scal. apply sum_ext. intros a _. destruct (at_dof i j a); cbn [ind]; [|ring].
  rewrite <- sum_over_scal. apply sum_ext. intros b _. unfold duval. rewrite uval_scaled. ring.
Qed.
Lemma scaled_ok c d dim : static_ok d dim -> static_ok (st_scaled c d) dim.
Proof.
  intros [HR HP HN HX HL HH]. constructor; auto.
  - intros i j v. rewrite fx_scaled. intros H. apply in_map_iff in H. destruct H as ([[i' j'] v'] & Q & H). cbn [fst snd] in Q. injection Q as -> -> _. exact (HX _ _ _ H).
  - intros i j v. cbn [st_loads st_scaled]. intros H. apply in_map_iff in H. destruct H as ([[i' j'] v'] & Q & H). cbn [fst snd] in Q. injection Q as -> -> _. exact (HL _ _ _ H).
  - intros i Hi. pose proof (HH i Hi) as Hh. cbn [st_x st_m st_elements st_scaled]. clear - Hh. induction Hh as [k Hb|el ks k Hel HSu Hks _ IH Hin]; [|now apply (held_elem _ _ _ _ el ks k)].
    apply held_base. intros e He. rewrite fx_scaled, last_value_scaled. specialize (Hb e He). destruct (last_value (st_fx d) k e); [discriminate|congruence].
Qed.
Lemma scale solve d dim c : spd_solver solve -> static_ok d dim ->
  exists u u', st_run solve d = Ok u /\ st_run solve (st_scaled c d) = Ok u' /\ forall i j, uval u' i j = c * uval u i j.
Proof.
  intros HS HD. destruct (static_all solve d dim HS HD) as ((es & HF) & u & E & SH & UN). destruct (static_all solve (st_scaled c d) dim HS (scaled_ok c d dim HD)) as (_ & u' & E' & SH' & UN').
  exists u, u'. split; [exact E|]. split; [exact E'|]. intros i j. destruct (UN es HF) as [[B1 B2] _]. destruct (UN' es HF) as [_ UQ].
  rewrite <- (UQ (map (map (Rmult c)) u)); [apply uval_scaled| |split].
  - intros k e. cbn [st_scaled st_x st_m]. rewrite <- (SH k e). unfold in_table. change (@nil R) with (map (Rmult c) []) at 1. rewrite map_nth, map_length. tauto.
  - intros k e v. rewrite fx_scaled, last_value_scaled, uval_scaled. destruct (last_value (st_fx d) k e) as [w|] eqn:Ew; cbn [option_map]; [|discriminate]. intros Q. injection Q as <-. f_equal. auto.
  - intros k e Hk He. rewrite fx_scaled, last_value_scaled. intros Q. destruct (last_value (st_fx d) k e) as [w|] eqn:Ew; [discriminate Q|]. rewrite force_scaled. cbn [st_loads st_scaled]. rewrite load_scaled. f_equal. auto.
Qed.
