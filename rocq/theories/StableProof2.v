(** Nodal values without energy: all equal, or a rigid motion. *)
From Coq Require Import List Arith Lia Bool Reals Lra.
From Verif Require Import Res SumR DenseModel DenseSpec ShapeModel QuadModel QuadSpec ElemModel ElemSpec AssemblyModel AssemblySpec PatchSpec StableSpec.
From Verif Require Import DenseProof ElemProof ElemProof2 ElemProof3 ElemMain StableProof.
Import ListNotations.
Local Open Scope R_scope.

Ltac open_grad H := unfold field_gradient, tangent, dshp, sf_3Triangle, dN_3Triangle, sf_4Square, dN_4Square, sf_4Tetrahedron, dN_4Tetrahedron in H; cbn [sf_d sf_n sf_dN bigsum nth] in H.

Lemma still_scalar s q x y H d : stable_pair s q -> sf_d s = d -> gradients s q x 1 y H ->
  (forall g, (g < q_n q)%nat -> still d 1 (H (pt q g))) -> forall i j, (i < sf_n s)%nat -> (j < sf_n s)%nat -> y i 0%nat = y j 0%nat.
Proof.
  intros HP Hd HG HS. destruct HP as [[-> Hn]|[[-> Hn]|[-> Hn]]]; cbn in Hd; subst d.
  - pose proof (HG 0%nat Hn 0%nat 0%nat ltac:(cbn; lia) ltac:(lia)) as G0. pose proof (HG 0%nat Hn 1%nat 0%nat ltac:(cbn; lia) ltac:(lia)) as G1.
    open_grad G0. open_grad G1. specialize (HS 0%nat Hn). cbn [still] in HS. rewrite (HS 0%nat), (HS 1%nat) in G0, G1 by lia.
    intros i j Hi Hj. cbn in Hi, Hj. destruct i as [|[|[|i]]]; try lia; destruct j as [|[|[|j]]]; try lia; lra.
  - destruct Hn as (g1 & g2 & g3 & L1 & L2 & L3 & HD).
    assert (E : forall g, (g < q_n q)%nat ->
      (- y 0%nat 0%nat + y 1%nat 0%nat + y 2%nat 0%nat - y 3%nat 0%nat) + 0 * pt q g 0%nat + (y 0%nat 0%nat - y 1%nat 0%nat + y 2%nat 0%nat - y 3%nat 0%nat) * pt q g 1%nat = 0 /\
      (- y 0%nat 0%nat - y 1%nat 0%nat + y 2%nat 0%nat + y 3%nat 0%nat) + (y 0%nat 0%nat - y 1%nat 0%nat + y 2%nat 0%nat - y 3%nat 0%nat) * pt q g 0%nat + 0 * pt q g 1%nat = 0).
    { intros g Hg. pose proof (HG g Hg 0%nat 0%nat ltac:(cbn; lia) ltac:(lia)) as G0. pose proof (HG g Hg 1%nat 0%nat ltac:(cbn; lia) ltac:(lia)) as G1.
      open_grad G0. open_grad G1. specialize (HS g Hg). cbn [still] in HS. rewrite (HS 0%nat), (HS 1%nat) in G0, G1 by lia. split; lra. }
    destruct (lin_zero _ _ _ _ _ _ _ _ _ HD (proj1 (E g1 L1)) (proj1 (E g2 L2)) (proj1 (E g3 L3))) as (Z1 & _ & Z3).
    destruct (lin_zero _ _ _ _ _ _ _ _ _ HD (proj2 (E g1 L1)) (proj2 (E g2 L2)) (proj2 (E g3 L3))) as (Z4 & _ & _).
    intros i j Hi Hj. cbn in Hi, Hj. destruct i as [|[|[|[|i]]]]; try lia; destruct j as [|[|[|[|j]]]]; try lia; lra.
  - pose proof (HG 0%nat Hn 0%nat 0%nat ltac:(cbn; lia) ltac:(lia)) as G0. pose proof (HG 0%nat Hn 1%nat 0%nat ltac:(cbn; lia) ltac:(lia)) as G1. pose proof (HG 0%nat Hn 2%nat 0%nat ltac:(cbn; lia) ltac:(lia)) as G2.
    open_grad G0. open_grad G1. open_grad G2. specialize (HS 0%nat Hn). cbn [still] in HS. rewrite (HS 0%nat), (HS 1%nat), (HS 2%nat) in G0, G1, G2 by lia.
    intros i j Hi Hj. cbn in Hi, Hj. destruct i as [|[|[|[|i]]]]; try lia; destruct j as [|[|[|[|j]]]]; try lia; lra.
Qed.

Definition skewed (d : nat) (H : nat -> nat -> R) (l c : nat) : R := if ((l <? d) && (c <? d))%nat then H l c else 0.
Lemma skewed_skew d H : (forall i j, (i < d)%nat -> (j < d)%nat -> H i j + H j i = 0) -> forall l c, skewed d H l c = - skewed d H c l.
Proof.
  intros HS l c. unfold skewed. rewrite (andb_comm (c <? d)%nat). destruct (Nat.ltb_spec l d), (Nat.ltb_spec c d); cbn [andb]; try lra.
  specialize (HS l c ltac:(lia) ltac:(lia)). lra.
Qed.
Lemma still_vector s q x y H d : stable_pair s q -> sf_d s = d -> gradients s q x d y H ->
  (forall g, (g < q_n q)%nat -> jac s x (pt q g) <> 0) ->
  (forall g, (g < q_n q)%nat -> still d d (H (pt q g))) -> rigid_motion d (sf_n s) x y.
Proof.
  intros HP Hd HG HJ HS. destruct HP as [[-> Hn]|[[-> Hn]|[-> Hn]]]; cbn in Hd; subst d.
  - destruct (HS 0%nat Hn) as [_ HS0]. set (G := H (pt q 0)) in *.
    exists (fun c => y 2%nat c - (x 2%nat 0%nat * G 0%nat c + x 2%nat 1%nat * G 1%nat c)), (skewed 2 G). split; [now apply skewed_skew|].
    intros i c Hi Hc. cbn in Hi. cbn [bigsum]. unfold skewed. destruct (Nat.ltb_spec c 2); [|lia]. cbn [Nat.ltb Nat.leb andb].
    pose proof (HG 0%nat Hn 0%nat c ltac:(cbn; lia) Hc) as G0. pose proof (HG 0%nat Hn 1%nat c ltac:(cbn; lia) Hc) as G1.
    open_grad G0. open_grad G1. fold G in G0, G1. destruct i as [|[|[|i]]]; try lia; lra.
  - destruct Hn as (g1 & g2 & g3 & L1 & L2 & L3 & HD).
    set (a1 := fun z : nat -> R => - z 0%nat + z 1%nat + z 2%nat - z 3%nat). set (a2 := fun z : nat -> R => - z 0%nat - z 1%nat + z 2%nat + z 3%nat).
    set (a3 := fun z : nat -> R => z 0%nat - z 1%nat + z 2%nat - z 3%nat). set (X c i := x i c). set (U c i := y i c).
    (* the determinant of two fields is linear in the parent coordinates *)
    set (c0 := fun u v => a1 u * a2 v - a2 u * a1 v). set (c1 := fun u v => a1 u * a3 v - a3 u * a1 v). set (c2 := fun u v => a3 u * a2 v - a2 u * a3 v).
    set (det := fun u v g => c0 u v + c1 u v * pt q g 0%nat + c2 u v * pt q g 1%nat).
    assert (EJ : forall g, 16 * jac sf_4Square x (pt q g) = det (X 0%nat) (X 1%nat) g).
    { intros g. unfold jac, detd, det2, tangent, dshp, sf_4Square, dN_4Square, det, c0, c1, c2, a1, a2, a3, X. cbn [sf_d sf_n sf_dN bigsum nth]. field. }
    assert (EQ : forall g, (g < q_n q)%nat -> det (U 0%nat) (X 1%nat) g = 0 /\ det (U 1%nat) (X 0%nat) g = 0 /\ det (U 0%nat) (X 0%nat) g - det (U 1%nat) (X 1%nat) g = 0).
    { intros g Hg. destruct (HS g Hg) as [_ HSg]. set (G := H (pt q g)) in *.
      pose proof (HSg 0%nat 0%nat ltac:(lia) ltac:(lia)) as S00. pose proof (HSg 1%nat 1%nat ltac:(lia) ltac:(lia)) as S11. pose proof (HSg 0%nat 1%nat ltac:(lia) ltac:(lia)) as S01.
      assert (G00 : G 0%nat 0%nat = 0) by lra. assert (G11 : G 1%nat 1%nat = 0) by lra. assert (G10 : G 1%nat 0%nat = - G 0%nat 1%nat) by lra. clear S00 S11 S01.
      set (w := G 0%nat 1%nat) in *. set (xi := pt q g 0%nat) in *. set (et := pt q g 1%nat) in *.
      set (p := fun z => a1 z + a3 z * et). set (r := fun z => a2 z + a3 z * xi).
      assert (P0 : p (U 0%nat) = - w * p (X 1%nat) /\ r (U 0%nat) = - w * r (X 1%nat) /\ p (U 1%nat) = w * p (X 0%nat) /\ r (U 1%nat) = w * r (X 0%nat)).
      { pose proof (HG g Hg 0%nat 0%nat ltac:(cbn; lia) ltac:(lia)) as A. pose proof (HG g Hg 1%nat 0%nat ltac:(cbn; lia) ltac:(lia)) as B.
        pose proof (HG g Hg 0%nat 1%nat ltac:(cbn; lia) ltac:(lia)) as C. pose proof (HG g Hg 1%nat 1%nat ltac:(cbn; lia) ltac:(lia)) as D.
        open_grad A. open_grad B. open_grad C. open_grad D. fold G xi et in A, B, C, D. rewrite G00, G10 in A, B. rewrite G11 in C, D. fold w in C, D.
        unfold p, r, a1, a2, a3, X, U. splits; lra. }
      destruct P0 as (P0 & R0 & P1 & R1).
      assert (ED : forall u v, det u v g = p u * r v - r u * p v) by (intros u v; unfold det, c0, c1, c2, p, r; fold xi et; ring).
      rewrite !ED, P0, R0, P1, R1. splits; ring. }
    assert (LZ : forall k0 k1 k2, (forall g, (g < q_n q)%nat -> k0 + k1 * pt q g 0%nat + k2 * pt q g 1%nat = 0) -> k0 = 0 /\ k1 = 0 /\ k2 = 0).
    { intros k0 k1 k2 Hk. exact (lin_zero _ _ _ _ _ _ _ _ _ HD (Hk g1 L1) (Hk g2 L2) (Hk g3 L3)). }
    destruct (LZ _ _ _ (fun g Hg => proj1 (EQ g Hg))) as (A0 & A1 & A2). destruct (LZ _ _ _ (fun g Hg => proj1 (proj2 (EQ g Hg)))) as (B0 & B1 & B2).
    destruct (LZ (c0 (U 0%nat) (X 0%nat) - c0 (U 1%nat) (X 1%nat)) (c1 (U 0%nat) (X 0%nat) - c1 (U 1%nat) (X 1%nat)) (c2 (U 0%nat) (X 0%nat) - c2 (U 1%nat) (X 1%nat))) as (D0 & D1 & D2).
    { intros g Hg. destruct (EQ g Hg) as (_ & _ & E). rewrite <- E. unfold det. ring. }
    assert (NZ : ~ (c0 (X 0%nat) (X 1%nat) = 0 /\ c1 (X 0%nat) (X 1%nat) = 0 /\ c2 (X 0%nat) (X 1%nat) = 0)).
    { intros (Z0 & Z1 & Z2). apply (HJ g1 L1). specialize (EJ g1). unfold det in EJ. rewrite Z0, Z1, Z2 in EJ. lra. }
    assert (NX : forall c, (c < 2)%nat -> a1 (X c) <> 0 \/ a2 (X c) <> 0 \/ a3 (X c) <> 0).
    { intros c Hc. destruct (Req_dec (a1 (X c)) 0) as [Z1|]; [|now left]. destruct (Req_dec (a2 (X c)) 0) as [Z2|]; [|now right; left]. destruct (Req_dec (a3 (X c)) 0) as [Z3|]; [|now right; right].
      exfalso. apply NZ. unfold c0, c1, c2. destruct c as [|[|c]]; [| |lia]; rewrite Z1, Z2, Z3; splits; ring. }
    destruct (parallel _ _ _ _ _ _ A0 A1 A2 (NX 1%nat ltac:(lia))) as (la & L1' & L2' & L3').
    destruct (parallel _ _ _ _ _ _ B0 B1 B2 (NX 0%nat ltac:(lia))) as (mu & M1 & M2 & M3).
    assert (EM : mu = - la).
    { destruct (Req_dec (la + mu) 0); [lra|]. exfalso. apply NZ. unfold c0, c1, c2 in *. rewrite L1', L2', L3', M1, M2, M3 in *.
      splits; apply (Rmult_eq_reg_l (la + mu)); auto; lra. }
    subst mu. unfold a1, a2, a3, X, U in L1', L2', L3', M1, M2, M3.
    exists (fun c => match c with O => y 0%nat 0%nat - la * x 0%nat 1%nat | _ => y 0%nat 1%nat + la * x 0%nat 0%nat end),
      (fun l c => match l, c with 1%nat, O => la | O, 1%nat => - la | _, _ => 0 end). split.
    { intros [|[|l]] [|[|c]]; lra. }
    intros i c Hi Hc. cbn in Hi. cbn [bigsum]. destruct c as [|[|c]]; [| |lia]; destruct i as [|[|[|[|i]]]]; try lia; lra.
  - destruct (HS 0%nat Hn) as [_ HS0]. set (G := H (pt q 0)) in *.
    exists (fun c => y 3%nat c - (x 3%nat 0%nat * G 0%nat c + x 3%nat 1%nat * G 1%nat c + x 3%nat 2%nat * G 2%nat c)), (skewed 3 G). split; [now apply skewed_skew|].
    intros i c Hi Hc. cbn in Hi. cbn [bigsum]. unfold skewed. destruct (Nat.ltb_spec c 3); [|lia]. cbn [Nat.ltb Nat.leb andb].
    pose proof (HG 0%nat Hn 0%nat c ltac:(cbn; lia) Hc) as G0. pose proof (HG 0%nat Hn 1%nat c ltac:(cbn; lia) Hc) as G1. pose proof (HG 0%nat Hn 2%nat c ltac:(cbn; lia) Hc) as G2.
    open_grad G0. open_grad G1. open_grad G2. fold G in G0, G1, G2. destruct i as [|[|[|[|i]]]]; try lia; lra.
Qed.

(** ** Held rigid motions *)
Lemma rigid_held2 n x y i1 i2 : rigid_motion 2 n x y -> (i1 < n)%nat -> (i2 < n)%nat -> (exists c, (c < 2)%nat /\ x i1 c <> x i2 c) ->
  (forall c, (c < 2)%nat -> y i1 c = 0) -> (forall c, (c < 2)%nat -> y i2 c = 0) -> forall i c, (i < n)%nat -> (c < 2)%nat -> y i c = 0.
Proof.
  intros (a & W & HW & E) H1 H2 (c0 & Hc0 & Hx) Y1 Y2.
  assert (W00 : W 0%nat 0%nat = 0) by (specialize (HW 0%nat 0%nat); lra). assert (W11 : W 1%nat 1%nat = 0) by (specialize (HW 1%nat 1%nat); lra).
  pose proof (HW 0%nat 1%nat) as W01. set (w := W 1%nat 0%nat) in *.
  assert (B : forall i c, (i < n)%nat -> (c < 2)%nat -> y i c = a c + match c with O => x i 1%nat * w | _ => - (x i 0%nat * w) end).
  { intros i c Hi Hc. rewrite E by auto. cbn [bigsum]. destruct c as [|[|c]]; [| |lia]; rewrite ?W00, ?W11, ?W01; fold w; ring. }
  pose proof (Y1 0%nat ltac:(lia)) as A1. pose proof (Y1 1%nat ltac:(lia)) as A2. pose proof (Y2 0%nat ltac:(lia)) as A3. pose proof (Y2 1%nat ltac:(lia)) as A4.
  rewrite B in A1, A2, A3, A4 by lia.
  assert (Z : w = 0).
  { destruct c0 as [|[|c0]]; [| |lia].
    - assert (P : (x i1 0%nat - x i2 0%nat) * w = 0) by lra. apply Rmult_integral in P. destruct P; [lra|auto].
    - assert (P : (x i1 1%nat - x i2 1%nat) * w = 0) by lra. apply Rmult_integral in P. destruct P; [lra|auto]. }
  rewrite Z in *. intros i c Hi Hc. rewrite B by auto. destruct c as [|[|c]]; [| |lia]; lra.
Qed.
Lemma cross_held u0 u1 u2 v0 v1 v2 o0 o1 o2 :
  o0 * u1 - o1 * u0 = 0 -> o0 * u2 - o2 * u0 = 0 -> o1 * u2 - o2 * u1 = 0 ->
  o0 * v1 - o1 * v0 = 0 -> o0 * v2 - o2 * v0 = 0 -> o1 * v2 - o2 * v1 = 0 ->
  u0 * v1 - u1 * v0 <> 0 \/ u0 * v2 - u2 * v0 <> 0 \/ u1 * v2 - u2 * v1 <> 0 -> o0 = 0 /\ o1 = 0 /\ o2 = 0.
Proof.
  intros A B C D E F ND.
  assert (T : forall D, D <> 0 -> D * o0 = 0 -> D * o1 = 0 -> D * o2 = 0 -> o0 = 0 /\ o1 = 0 /\ o2 = 0).
  { intros X HX P0 P1 P2. apply Rmult_integral in P0, P1, P2. splits; tauto. }
  destruct ND as [ND|[ND|ND]]; apply (T _ ND).
  - replace ((u0 * v1 - u1 * v0) * o0) with (u0 * (o0 * v1 - o1 * v0) - v0 * (o0 * u1 - o1 * u0)) by ring. rewrite A, D. ring.
  - replace ((u0 * v1 - u1 * v0) * o1) with (u1 * (o0 * v1 - o1 * v0) - v1 * (o0 * u1 - o1 * u0)) by ring. rewrite A, D. ring.
  - replace ((u0 * v1 - u1 * v0) * o2) with (u2 * (o0 * v1 - o1 * v0) - v1 * (o0 * u2 - o2 * u0) + v0 * (o1 * u2 - o2 * u1)) by ring. rewrite B, C, D. ring.
  - replace ((u0 * v2 - u2 * v0) * o0) with (u0 * (o0 * v2 - o2 * v0) - v0 * (o0 * u2 - o2 * u0)) by ring. rewrite B, E. ring.
  - replace ((u0 * v2 - u2 * v0) * o1) with (u1 * (o0 * v2 - o2 * v0) - v2 * (o0 * u1 - o1 * u0) - v0 * (o1 * u2 - o2 * u1)) by ring. rewrite A, C, E. ring.
  - replace ((u0 * v2 - u2 * v0) * o2) with (u2 * (o0 * v2 - o2 * v0) - v2 * (o0 * u2 - o2 * u0)) by ring. rewrite B, E. ring.
  - replace ((u1 * v2 - u2 * v1) * o0) with (u0 * (o1 * v2 - o2 * v1) + v2 * (o0 * u1 - o1 * u0) - v1 * (o0 * u2 - o2 * u0)) by ring. rewrite A, B, F. ring.
  - replace ((u1 * v2 - u2 * v1) * o1) with (u1 * (o1 * v2 - o2 * v1) - v1 * (o1 * u2 - o2 * u1)) by ring. rewrite C, F. ring.
  - replace ((u1 * v2 - u2 * v1) * o2) with (u2 * (o1 * v2 - o2 * v1) - v2 * (o1 * u2 - o2 * u1)) by ring. rewrite C, F. ring.
Qed.
Lemma rigid_held3 n x y i1 i2 i3 : rigid_motion 3 n x y -> (i1 < n)%nat -> (i2 < n)%nat -> (i3 < n)%nat ->
  (exists c c', (c < 3)%nat /\ (c' < 3)%nat /\ (x i2 c - x i1 c) * (x i3 c' - x i1 c') - (x i2 c' - x i1 c') * (x i3 c - x i1 c) <> 0) ->
  (forall c, (c < 3)%nat -> y i1 c = 0) -> (forall c, (c < 3)%nat -> y i2 c = 0) -> (forall c, (c < 3)%nat -> y i3 c = 0) -> forall i c, (i < n)%nat -> (c < 3)%nat -> y i c = 0.
Proof.
  intros (a & W & HW & E) H1 H2 H3 (c0 & c1 & Hc0 & Hc1 & Hx) Y1 Y2 Y3.
  assert (W00 : W 0%nat 0%nat = 0) by (specialize (HW 0%nat 0%nat); lra). assert (W11 : W 1%nat 1%nat = 0) by (specialize (HW 1%nat 1%nat); lra). assert (W22 : W 2%nat 2%nat = 0) by (specialize (HW 2%nat 2%nat); lra).
  pose proof (HW 0%nat 1%nat) as W01. pose proof (HW 0%nat 2%nat) as W02. pose proof (HW 1%nat 2%nat) as W12.
  set (p := W 1%nat 0%nat) in *. set (q := W 2%nat 0%nat) in *. set (r := W 2%nat 1%nat) in *.
  assert (B : forall i c, (i < n)%nat -> (c < 3)%nat -> y i c = a c + match c with O => x i 1%nat * p + x i 2%nat * q | 1%nat => - (x i 0%nat * p) + x i 2%nat * r | _ => - (x i 0%nat * q) - x i 1%nat * r end).
  { intros i c Hi Hc. rewrite E by auto. cbn [bigsum]. destruct c as [|[|[|c]]]; [| | |lia]; rewrite ?W00, ?W11, ?W22, ?W01, ?W02, ?W12; fold p q r; ring. }
  set (u0 := x i2 0%nat - x i1 0%nat) in *. set (u1 := x i2 1%nat - x i1 1%nat) in *. set (u2 := x i2 2%nat - x i1 2%nat) in *.
  set (v0 := x i3 0%nat - x i1 0%nat) in *. set (v1 := x i3 1%nat - x i1 1%nat) in *. set (v2 := x i3 2%nat - x i1 2%nat) in *.
  assert (EU : u1 * p + u2 * q = 0 /\ - (u0 * p) + u2 * r = 0 /\ - (u0 * q) - u1 * r = 0).
  { pose proof (Y1 0%nat ltac:(lia)) as A1. pose proof (Y1 1%nat ltac:(lia)) as A2. pose proof (Y1 2%nat ltac:(lia)) as A3.
    pose proof (Y2 0%nat ltac:(lia)) as A4. pose proof (Y2 1%nat ltac:(lia)) as A5. pose proof (Y2 2%nat ltac:(lia)) as A6.
    rewrite B in A1, A2, A3, A4, A5, A6 by lia. unfold u0, u1, u2. splits; lra. }
  assert (EV : v1 * p + v2 * q = 0 /\ - (v0 * p) + v2 * r = 0 /\ - (v0 * q) - v1 * r = 0).
  { pose proof (Y1 0%nat ltac:(lia)) as A1. pose proof (Y1 1%nat ltac:(lia)) as A2. pose proof (Y1 2%nat ltac:(lia)) as A3.
    pose proof (Y3 0%nat ltac:(lia)) as A4. pose proof (Y3 1%nat ltac:(lia)) as A5. pose proof (Y3 2%nat ltac:(lia)) as A6.
    rewrite B in A1, A2, A3, A4, A5, A6 by lia. unfold v0, v1, v2. splits; lra. }
  destruct EU as (U1 & U2 & U3). destruct EV as (V1 & V2 & V3).
  assert (ND : u0 * v1 - u1 * v0 <> 0 \/ u0 * v2 - u2 * v0 <> 0 \/ u1 * v2 - u2 * v1 <> 0).
  { destruct c0 as [|[|[|c0]]]; try lia; destruct c1 as [|[|[|c1]]]; try lia; fold u0 u1 u2 v0 v1 v2 in Hx; try (exfalso; apply Hx; ring).
    - now left. - now right; left. - left. intros Z. apply Hx. lra. - now right; right. - right; left. intros Z. apply Hx. lra. - right; right. intros Z. apply Hx. lra. }
  assert (Z : p = 0 /\ q = 0 /\ r = 0).
  { destruct (cross_held u0 u1 u2 v0 v1 v2 r (- q) p) as (Z1 & Z2 & Z3); auto; lra. }
  destruct Z as (Zp & Zq & Zr). intros i c Hi Hc. rewrite B by auto. pose proof (Y1 c Hc) as A. rewrite B in A by auto. destruct c as [|[|[|c]]]; [| | |lia]; rewrite Zp, Zq, Zr in *; lra.
Qed.
