(** Rounds of subdivision and smoothing that keep a triangulation. *)
From Coq Require Import List Arith ZArith Lia Bool Reals Lra Psatz.
From Verif Require Import Res DenseModel DenseR LUModel DelaunayModel DelaunaySpec DelaunaySpec2 DelaunaySpec3 DelaunayProof DelaunayProof2 DelaunayProof6 DelaunayProof7 DelaunayProof11 DelaunayMain DelaunayMain2.
Import ListNotations.
Local Open Scope R_scope.

Lemma kept_trans ns es r ns1 es1 r1 ns2 es2 : kept ns es r ns1 es1 -> kept ns1 es1 r1 ns2 es2 -> kept ns es (r + r1) ns2 es2.
Proof.
  intros [A1 A2 A3 A4 A5 A6 A7 A8] [B1 B2 B3 B4 B5 B6 B7 B8]. constructor; auto; try lia; try lra.
  intros i Hi. destruct (A7 i Hi) as [P Q]. destruct (B7 i ltac:(lia)) as [P' Q']. split; [congruence|]. intros O. rewrite Q' by congruence. auto.
Qed.
Lemma half_mid u v w p q : half_plane u v w p -> half_plane u v w q -> half_plane u v w (midpoint p q).
Proof. unfold half_plane, midpoint. cbn [fst snd]. lra. Qed.
Lemma onb_true ns i : onb ns i = true -> (i < length ns)%nat.
Proof. unfold onb. intros H. destruct (Nat.lt_ge_cases i (length ns)); auto. rewrite nth_overflow in H by assumption. discriminate. Qed.
Lemma mesh_smooth ns es ns2 : mesh_ok ns es -> topo_ok ns2 es -> (forall e, In e es -> 0 < area2 ns2 e) -> mesh_ok ns2 es.
Proof. intros [A1 A2 A3 A4 A5] [B1 B2 B3 B4] H. constructor; auto. Qed.
Lemma one_round ns es : mesh_ok ns es -> es <> [] -> border_ok ns es -> cover_ok ns es ->
  exists N d ns1 es1 ns2, (forall fuel, (N <= fuel)%nat -> refine fuel (mkMesh ns es) = Ok (d, mkMesh ns1 es1) /\ laplacesmoothing fuel (mkMesh ns1 es1) = Ok (mkMesh ns2 es1)) /\
    (forall f i, In f es -> (i < 3)%nat -> side_len ns f i <= d) /\ (exists f i, In f es /\ (i < 3)%nat /\ side_len ns f i = d) /\
    ((forall e, In e es1 -> 0 < area2 ns2 e) -> kept ns es 1 ns2 es1).
Proof.
  intros OK Ne B C. destruct (C100_refine_pf ns es OK Ne) as (d & k & j & e & N & ns1 & es1 & Hk & Hj & Hd & Hm & HR & OK1 & T1 & L1 & L2 & X1 & X2 & O2 & B1 & C1 & _ & _).
  specialize (B1 B). specialize (C1 C).
  destruct (C101_smoothing_pf ns1 es1 (mesh_topo _ _ OK1) B1 C1) as (ns2 & HS & M1 & M2 & M3 & M4 & M5 & M6 & M7 & _).
  exists (Nat.max N (length es1)), d, ns1, es1, ns2. split; [|split; [|split]].
  - intros fuel Hf. split; [apply HR; lia|apply HS; lia].
  - exact Hm.
  - exists e, j. splits; auto. eapply nth_error_In; eauto.
  - intros P. constructor; auto.
    + eapply mesh_smooth; eauto.
    + lra.
    + lia.
    + rewrite L1. destruct (at3 (enb e) j); lia.
    + intros i Hi. destruct (X1 i Hi) as [X O]. split; [rewrite M6; exact O|]. intros On. rewrite M7 by congruence. exact X.
    + intros u v w H i Hi. refine (C101_half_plane_pf ns1 es1 u v w ns2 (length es1) (mesh_topo _ _ OK1) B1 C1 (le_n _) (HS _ (le_n _)) _ i _); [|lia].
      intros q Hq. destruct (Nat.eq_dec q (length ns)) as [->|].
      * rewrite X2. apply half_mid; apply H; apply (side_ids ns es e j OK (nth_error_In _ _ Hk)).
      * destruct (X1 q ltac:(lia)) as [-> _]. apply H. lia.
Qed.
Lemma fine_kept maxside : forall rounds ns es, mesh_ok ns es -> es <> [] -> border_ok ns es -> cover_ok ns es -> ccw_rounds rounds (mkMesh ns es) maxside ->
  exists N, (forall fuel, (N <= fuel)%nat -> makefinemesh rounds fuel (mkMesh ns es) maxside = Fail OutOfFuel) \/
    exists r ns0 es0 d ns1 es1 ns', (r < rounds)%nat /\ kept ns es r ns0 es0 /\
      (forall f i, In f es0 -> (i < 3)%nat -> side_len ns0 f i <= maxside) /\ kept ns es (r + 1) ns' es1 /\
      (forall fuel, (N <= fuel)%nat -> refine fuel (mkMesh ns0 es0) = Ok (d, mkMesh ns1 es1) /\ laplacesmoothing fuel (mkMesh ns1 es1) = Ok (mkMesh ns' es1)) /\
      forall fuel, (N <= fuel)%nat -> makefinemesh rounds fuel (mkMesh ns es) maxside = Ok (mkMesh ns' es1).
Proof.
  induction rounds as [|rounds IH]; intros ns es OK Ne B C W.
  { exists 0%nat. left. reflexivity. }
  destruct (one_round ns es OK Ne B C) as (N & d & ns1 & es1 & ns2 & HR & Hm & _ & HK).
  cbn [ccw_rounds] in W. destruct (W d _ _ N HR) as [W1 W2]. specialize (HK W1).
  destruct (Rltb maxside d) eqn:Lt.
  - assert (W' := W2 (proj1 (Rltb_t _ _) Lt)). assert (K := HK). destruct K as [K1 K2 K3 K4 K5 K6 K7 K8].
    assert (Ne1 : es1 <> []). { intros ->. destruct es; [congruence|]. cbn in K6. lia. }
    destruct (IH ns2 es1 K1 Ne1 K2 K3 W') as (N' & [F|(r & ns0 & es0 & d0 & ns3 & es3 & ns' & Hr & Q1 & Q2 & Q3 & Q4 & Q5)]); exists (Nat.max N N').
    + left. intros fuel Hf. cbn [makefinemesh]. destruct (HR fuel ltac:(lia)) as [E1 E2]. rewrite E1. cbn [bind]. rewrite E2. cbn [bind]. rewrite Lt. apply F. lia.
    + right. exists (S r), ns0, es0, d0, ns3, es3, ns'. splits; auto; try lia.
      * exact (kept_trans _ _ 1 _ _ r _ _ HK Q1).
      * exact (kept_trans _ _ 1 _ _ (r + 1) _ _ HK Q3).
      * intros fuel Hf. apply Q4. lia.
      * intros fuel Hf. cbn [makefinemesh]. destruct (HR fuel ltac:(lia)) as [E1 E2]. rewrite E1. cbn [bind]. rewrite E2. cbn [bind]. rewrite Lt. apply Q5. lia.
  - exists N. right. exists 0%nat, ns, es, d, ns1, es1, ns2. apply Rltb_f in Lt as Le. splits; auto; try lia.
    + constructor; auto; lia.
    + intros f i Hf Hi. specialize (Hm f i Hf Hi). lra.
    + intros fuel Hf. cbn [makefinemesh]. destruct (HR fuel ltac:(lia)) as [E1 E2]. rewrite E1. cbn [bind]. rewrite E2. cbn [bind]. rewrite Lt. reflexivity.
Qed.
Lemma fine_nonpos maxside : maxside <= 0 -> forall rounds ns es, mesh_ok ns es -> es <> [] -> border_ok ns es -> cover_ok ns es -> ccw_rounds rounds (mkMesh ns es) maxside ->
  exists N, forall fuel, (N <= fuel)%nat -> makefinemesh rounds fuel (mkMesh ns es) maxside = Fail OutOfFuel.
Proof.
  intros Hm rounds ns es OK Ne B C W. destruct (fine_kept maxside rounds ns es OK Ne B C W) as (N & [F|(r & ns0 & es0 & d & ns1 & es1 & ns' & Hr & Q1 & Q2 & _)]); [exists N; auto|].
  exfalso. assert (Q := kp_elems _ _ _ _ _ Q1). destruct es0 as [|f es0]. { destruct es; [congruence|]. cbn in Q. lia. }
  assert (P := len_pos ns0 (f :: es0) f 0 (kp_ok _ _ _ _ _ Q1) (or_introl eq_refl) ltac:(lia)). specialize (Q2 f 0%nat (or_introl eq_refl) ltac:(lia)).
  lra.
Qed.
