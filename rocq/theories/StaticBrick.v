(** Bricks with the rule of eight points have no mechanisms. *)
From Coq Require Import List Arith Lia Bool Reals Lra.
From Verif Require Import Res SumR DenseModel DenseSpec ShapeModel QuadModel QuadSpec ElemModel ElemSpec AssemblyModel AssemblySpec PatchSpec StableSpec StaticModel StaticSpec.
Import ListNotations.
Local Open Scope R_scope.

Definition sq := 1 / sqrt 3.
Lemma sq_pos : 0 < sq.
Proof. unfold sq. apply Rdiv_lt_0_compat; [lra|]. apply sqrt_lt_R0. lra. Qed.
Definition xi (i l : nat) : R := nth l (nth i pts_8Cubic []) 0.
Lemma gauss_xi g k : (g < 8)%nat -> (k < 3)%nat -> pt Gauss8Cubic g k = xi g k * sq.
Proof.
  intros Hg Hk. unfold pt, xi, sq, Gauss8Cubic, pts_8Cubic. cbn [q_points]. do 8 (destruct g as [|g]; [do 3 (destruct k as [|k]; [cbn [nth]; unfold Rdiv; ring|]); lia|]). lia.
Qed.
Lemma tri p0 p1 p2 p3 p12 p13 p23 p : (forall g, (g < 8)%nat -> let x := pt Gauss8Cubic g 0%nat in let y := pt Gauss8Cubic g 1%nat in let z := pt Gauss8Cubic g 2%nat in
    p0 + p1 * x + p2 * y + p3 * z + p12 * (x * y) + p13 * (x * z) + p23 * (y * z) + p * (x * (y * z)) = 0) ->
  p0 = 0 /\ p1 = 0 /\ p2 = 0 /\ p3 = 0 /\ p12 = 0 /\ p13 = 0 /\ p23 = 0 /\ p = 0.
Proof.
  intros H. pose proof sq_pos as S.
  assert (H' : forall g, (g < 8)%nat -> p0 + p1 * sq * xi g 0 + p2 * sq * xi g 1 + p3 * sq * xi g 2 + p12 * sq * sq * (xi g 0 * xi g 1) + p13 * sq * sq * (xi g 0 * xi g 2) + p23 * sq * sq * (xi g 1 * xi g 2) + p * sq * sq * sq * (xi g 0 * (xi g 1 * xi g 2)) = 0).
  { intros g Hg. specialize (H g Hg). cbv zeta in H. rewrite !gauss_xi in H by (auto; lia). rewrite <- H. ring. }
  pose proof (H' 0%nat ltac:(lia)) as A0. pose proof (H' 1%nat ltac:(lia)) as A1. pose proof (H' 2%nat ltac:(lia)) as A2. pose proof (H' 3%nat ltac:(lia)) as A3.
  pose proof (H' 4%nat ltac:(lia)) as A4. pose proof (H' 5%nat ltac:(lia)) as A5. pose proof (H' 6%nat ltac:(lia)) as A6. pose proof (H' 7%nat ltac:(lia)) as A7. clear H H'.
  unfold xi, pts_8Cubic in *. cbn [nth] in *.
  set (q1 := p1 * sq) in *. set (q2 := p2 * sq) in *. set (q3 := p3 * sq) in *. set (q12 := p12 * sq * sq) in *. set (q13 := p13 * sq * sq) in *. set (q23 := p23 * sq * sq) in *. set (q := p * sq * sq * sq) in *.
  assert (E0 : p0 = 0) by lra. assert (E1 : q1 = 0) by lra. assert (E2 : q2 = 0) by lra. assert (E3 : q3 = 0) by lra. assert (E4 : q12 = 0) by lra. assert (E5 : q13 = 0) by lra. assert (E6 : q23 = 0) by lra. assert (E7 : q = 0) by lra.
  clear A0 A1 A2 A3 A4 A5 A6 A7. unfold q1, q2, q3, q12, q13, q23, q in *.
  assert (Z : forall a, a * sq = 0 -> a = 0) by (intros a Ha; apply Rmult_integral in Ha; destruct Ha; lra).
  splits; auto.
Qed.

(** the modes of nodal values *)
Definition md (w : nat -> R) (z : nat -> R) : R := bigsum 8 (fun i => w i * z i).
Definition m1 z := md (fun i => xi i 0) z.
Definition m2 z := md (fun i => xi i 1) z.
Definition m3 z := md (fun i => xi i 2) z.
Definition m12 z := md (fun i => xi i 0 * xi i 1) z.
Definition m13 z := md (fun i => xi i 0 * xi i 2) z.
Definition m23 z := md (fun i => xi i 1 * xi i 2) z.
Definition m123 z := md (fun i => xi i 0 * xi i 1 * xi i 2) z.
Definition dk (k : nat) (z : nat -> R) (r : nat -> R) : R := bigsum 8 (fun i => dshp sf_8Cubic r k i * z i).
Ltac open_modes := unfold dk, m1, m2, m3, m12, m13, m23, m123, md, xi, pts_8Cubic, dshp, sf_8Cubic, dN_8Cubic; cbn [sf_dN bigsum nth].
Lemma dk0 z r : 8 * dk 0 z r = m1 z + m12 z * r 1%nat + m13 z * r 2%nat + m123 z * (r 1%nat * r 2%nat).
Proof. open_modes. field. Qed.
Lemma dk1 z r : 8 * dk 1 z r = m2 z + m12 z * r 0%nat + m23 z * r 2%nat + m123 z * (r 0%nat * r 2%nat).
Proof. open_modes. field. Qed.
Lemma dk2 z r : 8 * dk 2 z r = m3 z + m13 z * r 0%nat + m23 z * r 1%nat + m123 z * (r 0%nat * r 1%nat).
Proof. open_modes. field. Qed.
Lemma expand z i : (i < 8)%nat -> 8 * z i = md (fun _ => 1) z + m1 z * xi i 0 + m2 z * xi i 1 + m3 z * xi i 2 + m12 z * (xi i 0 * xi i 1) + m13 z * (xi i 0 * xi i 2) + m23 z * (xi i 1 * xi i 2) + m123 z * (xi i 0 * xi i 1 * xi i 2).
Proof. intros Hi. open_modes. do 8 (destruct i as [|i]; [cbn [nth]; ring|]). lia. Qed.

(** three components without strain in the parent coordinates *)
Lemma parent_rigid (V : nat -> nat -> R) : (forall g k k', (g < 8)%nat -> (k < 3)%nat -> (k' < 3)%nat -> dk k (V k') (pt Gauss8Cubic g) + dk k' (V k) (pt Gauss8Cubic g) = 0) ->
  exists v p q r, forall i, (i < 8)%nat -> V 0%nat i = v 0%nat + (xi i 1 * p + xi i 2 * q) /\ V 1%nat i = v 1%nat + (- xi i 0 * p + xi i 2 * r) /\ V 2%nat i = v 2%nat + (- xi i 0 * q - xi i 1 * r).
Proof.
  intros H.
  destruct (tri (m1 (V 0%nat)) 0 (m12 (V 0%nat)) (m13 (V 0%nat)) 0 0 (m123 (V 0%nat)) 0) as (A1 & _ & A2 & A3 & _ & _ & A4 & _).
  { intros g Hg. cbv zeta. pose proof (H g 0%nat 0%nat Hg ltac:(lia) ltac:(lia)) as E. pose proof (dk0 (V 0%nat) (pt Gauss8Cubic g)). lra. }
  destruct (tri (m2 (V 1%nat)) (m12 (V 1%nat)) 0 (m23 (V 1%nat)) 0 (m123 (V 1%nat)) 0 0) as (B1 & B2 & _ & B3 & _ & B4 & _).
  { intros g Hg. cbv zeta. pose proof (H g 1%nat 1%nat Hg ltac:(lia) ltac:(lia)) as E. pose proof (dk1 (V 1%nat) (pt Gauss8Cubic g)). lra. }
  destruct (tri (m3 (V 2%nat)) (m13 (V 2%nat)) (m23 (V 2%nat)) 0 (m123 (V 2%nat)) 0 0 0) as (C1 & C2 & C3 & _ & C4 & _).
  { intros g Hg. cbv zeta. pose proof (H g 2%nat 2%nat Hg ltac:(lia) ltac:(lia)) as E. pose proof (dk2 (V 2%nat) (pt Gauss8Cubic g)). lra. }
  destruct (tri (m1 (V 1%nat) + m2 (V 0%nat)) (m12 (V 0%nat)) (m12 (V 1%nat)) (m13 (V 1%nat) + m23 (V 0%nat)) 0 (m123 (V 0%nat)) (m123 (V 1%nat)) 0) as (D1 & _ & _ & D2 & _).
  { intros g Hg. cbv zeta. pose proof (H g 0%nat 1%nat Hg ltac:(lia) ltac:(lia)) as E. pose proof (dk0 (V 1%nat) (pt Gauss8Cubic g)). pose proof (dk1 (V 0%nat) (pt Gauss8Cubic g)). lra. }
  destruct (tri (m1 (V 2%nat) + m3 (V 0%nat)) (m13 (V 0%nat)) (m12 (V 2%nat) + m23 (V 0%nat)) (m13 (V 2%nat)) (m123 (V 0%nat)) 0 (m123 (V 2%nat)) 0) as (F1 & _ & F2 & _).
  { intros g Hg. cbv zeta. pose proof (H g 0%nat 2%nat Hg ltac:(lia) ltac:(lia)) as E. pose proof (dk0 (V 2%nat) (pt Gauss8Cubic g)). pose proof (dk2 (V 0%nat) (pt Gauss8Cubic g)). lra. }
  destruct (tri (m2 (V 2%nat) + m3 (V 1%nat)) (m12 (V 2%nat) + m13 (V 1%nat)) (m23 (V 1%nat)) (m23 (V 2%nat)) (m123 (V 1%nat)) (m123 (V 2%nat)) 0 0) as (G1 & G2 & _).
  { intros g Hg. cbv zeta. pose proof (H g 1%nat 2%nat Hg ltac:(lia) ltac:(lia)) as E. pose proof (dk1 (V 2%nat) (pt Gauss8Cubic g)). pose proof (dk2 (V 1%nat) (pt Gauss8Cubic g)). lra. }
  exists (fun k => md (fun _ => 1) (V k) / 8), (m2 (V 0%nat) / 8), (m3 (V 0%nat) / 8), (m3 (V 1%nat) / 8). intros i Hi.
  pose proof (expand (V 0%nat) i Hi) as X0. pose proof (expand (V 1%nat) i Hi) as X1. pose proof (expand (V 2%nat) i Hi) as X2.
  assert (Z1 : m23 (V 0%nat) = 0) by lra. assert (Z2 : m13 (V 1%nat) = 0) by lra. assert (Z3 : m12 (V 2%nat) = 0) by lra.
  assert (Y1 : m1 (V 1%nat) = - m2 (V 0%nat)) by lra. assert (Y2 : m1 (V 2%nat) = - m3 (V 0%nat)) by lra. assert (Y3 : m2 (V 2%nat) = - m3 (V 1%nat)) by lra.
  rewrite A1, A2, A3, A4, Z1 in X0. rewrite B1, B2, B3, B4, Z2, Y1 in X1. rewrite C1, C2, C3, C4, Z3, Y2, Y3 in X2.
  splits; lra.
Qed.
Lemma parent_constant (z : nat -> R) : (forall g k, (g < 8)%nat -> (k < 3)%nat -> dk k z (pt Gauss8Cubic g) = 0) -> forall i j, (i < 8)%nat -> (j < 8)%nat -> z i = z j.
Proof.
  intros H.
  destruct (tri (m1 z) 0 (m12 z) (m13 z) 0 0 (m123 z) 0) as (A1 & _ & A2 & A3 & _ & _ & A4 & _).
  { intros g Hg. cbv zeta. pose proof (H g 0%nat Hg ltac:(lia)). pose proof (dk0 z (pt Gauss8Cubic g)). lra. }
  destruct (tri (m2 z) (m12 z) 0 (m23 z) 0 (m123 z) 0 0) as (B1 & _ & _ & B3 & _).
  { intros g Hg. cbv zeta. pose proof (H g 1%nat Hg ltac:(lia)). pose proof (dk1 z (pt Gauss8Cubic g)). lra. }
  destruct (tri (m3 z) (m13 z) (m23 z) 0 (m123 z) 0 0 0) as (C1 & _).
  { intros g Hg. cbv zeta. pose proof (H g 2%nat Hg ltac:(lia)). pose proof (dk2 z (pt Gauss8Cubic g)). lra. }
  assert (Q : forall i, (i < 8)%nat -> 8 * z i = md (fun _ => 1) z) by (intros i Hi; rewrite expand, A1, A2, A3, A4, B1, B3, C1 by auto; ring).
  intros i j Hi Hj. pose proof (Q i Hi). pose proof (Q j Hj). lra.
Qed.

(** ** The map to the element *)
Section Brick.
Variables (xs : list (list R)) (el : list nat) (o : nat -> R) (e : nat -> nat -> R).
Hypothesis HB : brick xs el o e.
Hypothesis HD : 0 < det3 e.
Let X := nodal el xs.
Lemma brick_tangent r k l : (k < 3)%nat -> (l < 3)%nat -> tangent sf_8Cubic X r k l = e k l.
Proof.
  intros Hk Hl. destruct HB as (_ & _ & E). unfold tangent. cbn [sf_n sf_8Cubic].
  rewrite (bigsum_ext 8 _ (fun i => dshp sf_8Cubic r k i * (o l + bigsum 3 (fun l' => nth l' (nth i pts_8Cubic []) 0 * e l' l)))) by (intros i Hi; unfold X; rewrite E by auto; reflexivity).
  unfold pts_8Cubic, dshp, sf_8Cubic, dN_8Cubic. do 3 (destruct k as [|k]; [cbn [sf_dN bigsum nth]; field|]). lia.
Qed.
Lemma brick_jac r : jac sf_8Cubic X r = det3 e.
Proof. unfold jac. cbn [sf_d sf_8Cubic detd]. unfold det3. rewrite !brick_tangent by lia. reflexivity. Qed.
Definition inv3 (c k : nat) : R :=
  (match c, k with
   | 0%nat, 0%nat => e 1%nat 1%nat * e 2%nat 2%nat - e 1%nat 2%nat * e 2%nat 1%nat
   | 0%nat, 1%nat => e 0%nat 2%nat * e 2%nat 1%nat - e 0%nat 1%nat * e 2%nat 2%nat
   | 0%nat, 2%nat => e 0%nat 1%nat * e 1%nat 2%nat - e 0%nat 2%nat * e 1%nat 1%nat
   | 1%nat, 0%nat => e 1%nat 2%nat * e 2%nat 0%nat - e 1%nat 0%nat * e 2%nat 2%nat
   | 1%nat, 1%nat => e 0%nat 0%nat * e 2%nat 2%nat - e 0%nat 2%nat * e 2%nat 0%nat
   | 1%nat, 2%nat => e 0%nat 2%nat * e 1%nat 0%nat - e 0%nat 0%nat * e 1%nat 2%nat
   | 2%nat, 0%nat => e 1%nat 0%nat * e 2%nat 1%nat - e 1%nat 1%nat * e 2%nat 0%nat
   | 2%nat, 1%nat => e 0%nat 1%nat * e 2%nat 0%nat - e 0%nat 0%nat * e 2%nat 1%nat
   | 2%nat, 2%nat => e 0%nat 0%nat * e 1%nat 1%nat - e 0%nat 1%nat * e 1%nat 0%nat
   | _, _ => 0 end) / det3 e.
Lemma inv_left c c' : (c < 3)%nat -> (c' < 3)%nat -> inv3 c 0 * e 0%nat c' + inv3 c 1 * e 1%nat c' + inv3 c 2 * e 2%nat c' = if (c =? c')%nat then 1 else 0.
Proof.
  intros Hc Hc'. assert (N : det3 e <> 0) by lra. unfold inv3. unfold det3 in *. do 3 (destruct c as [|c]; [do 3 (destruct c' as [|c']; [cbn [Nat.eqb]; field; exact N|]); lia|]). lia.
Qed.
Lemma inv_right k k' : (k < 3)%nat -> (k' < 3)%nat -> e k 0%nat * inv3 0 k' + e k 1%nat * inv3 1 k' + e k 2%nat * inv3 2 k' = if (k =? k')%nat then 1 else 0.
Proof.
  intros Hc Hc'. assert (N : det3 e <> 0) by lra. unfold inv3. unfold det3 in *. do 3 (destruct k as [|k]; [do 3 (destruct k' as [|k']; [cbn [Nat.eqb]; field; exact N|]); lia|]). lia.
Qed.
Lemma xi_back i l : (i < 8)%nat -> (l < 3)%nat -> xi i l = (X i 0%nat - o 0%nat) * inv3 0 l + (X i 1%nat - o 1%nat) * inv3 1 l + (X i 2%nat - o 2%nat) * inv3 2 l.
Proof.
  intros Hi Hl. destruct HB as (_ & _ & E). unfold X. rewrite !E by lia. cbn [bigsum]. fold (xi i 0) (xi i 1) (xi i 2).
  pose proof (inv_right 0 l ltac:(lia) Hl) as R0. pose proof (inv_right 1 l ltac:(lia) Hl) as R1. pose proof (inv_right 2 l ltac:(lia) Hl) as R2.
  transitivity (xi i 0 * (e 0%nat 0%nat * inv3 0 l + e 0%nat 1%nat * inv3 1 l + e 0%nat 2%nat * inv3 2 l) + xi i 1 * (e 1%nat 0%nat * inv3 0 l + e 1%nat 1%nat * inv3 1 l + e 1%nat 2%nat * inv3 2 l) + xi i 2 * (e 2%nat 0%nat * inv3 0 l + e 2%nat 1%nat * inv3 1 l + e 2%nat 2%nat * inv3 2 l)).
  - rewrite R0, R1, R2. destruct l as [|[|[|l]]]; [| | |lia]; cbn [Nat.eqb]; ring.
  - ring.
Qed.
Lemma brick_free m : (m = 1 \/ m = 3)%nat -> no_mechanism 3 m xs (mkPiece sf_8Cubic Gauss8Cubic el).
Proof.
  intros Hm y H HG HS. cbn [p_shape p_rule p_nodes] in *. fold X in HG |- *. change (q_n Gauss8Cubic) with 8%nat in HS.
  assert (HG' : forall g k c, (g < 8)%nat -> (k < 3)%nat -> (c < m)%nat -> e k 0%nat * H (pt Gauss8Cubic g) 0%nat c + e k 1%nat * H (pt Gauss8Cubic g) 1%nat c + e k 2%nat * H (pt Gauss8Cubic g) 2%nat c = dk k (fun i => y i c) (pt Gauss8Cubic g)).
  { intros g k c Hg Hk Hc. unfold dk. pose proof (HG g Hg k c Hk Hc) as Q. cbn [sf_n sf_d sf_8Cubic] in Q. fold sf_8Cubic in Q. rewrite <- Q.
    cbn [bigsum]. rewrite !brick_tangent by lia. ring. }
  destruct Hm as [->| ->].
  - apply (parent_constant (fun i => y i 0%nat)). intros g k Hg Hk. rewrite <- HG' by auto. specialize (HS g Hg). cbn [unstrained] in HS. rewrite !HS by lia. ring.
  - set (V := fun k i => e k 0%nat * y i 0%nat + e k 1%nat * y i 1%nat + e k 2%nat * y i 2%nat).
    destruct (parent_rigid V) as (v & p & q & r & HV).
    { intros g k k' Hg Hk Hk'. set (t := pt Gauss8Cubic g) in *.
      assert (L : forall k k', dk k (V k') t = e k' 0%nat * dk k (fun i => y i 0%nat) t + e k' 1%nat * dk k (fun i => y i 1%nat) t + e k' 2%nat * dk k (fun i => y i 2%nat) t) by (intros; unfold dk, V; cbn [bigsum]; ring).
      rewrite !L. unfold t. rewrite <- !HG' by (auto; lia). fold t. destruct (HS g Hg) as [_ S]. fold t in S.
      pose proof (S 0%nat 0%nat ltac:(lia) ltac:(lia)) as S00. pose proof (S 1%nat 1%nat ltac:(lia) ltac:(lia)) as S11. pose proof (S 2%nat 2%nat ltac:(lia) ltac:(lia)) as S22.
      pose proof (S 0%nat 1%nat ltac:(lia) ltac:(lia)) as S01. pose proof (S 0%nat 2%nat ltac:(lia) ltac:(lia)) as S02. pose proof (S 1%nat 2%nat ltac:(lia) ltac:(lia)) as S12.
      assert (E00 : H t 0%nat 0%nat = 0) by lra. assert (E11 : H t 1%nat 1%nat = 0) by lra. assert (E22 : H t 2%nat 2%nat = 0) by lra.
      assert (E10 : H t 1%nat 0%nat = - H t 0%nat 1%nat) by lra. assert (E20 : H t 2%nat 0%nat = - H t 0%nat 2%nat) by lra. assert (E21 : H t 2%nat 1%nat = - H t 1%nat 2%nat) by lra.
      rewrite E00, E11, E22, E10, E20, E21. ring. }
    set (Om := fun l k : nat => match l, k with 1%nat, 0%nat => p | 0%nat, 1%nat => - p | 2%nat, 0%nat => q | 0%nat, 2%nat => - q | 2%nat, 1%nat => r | 1%nat, 2%nat => - r | _, _ => 0 end).
    set (W := fun j c => bigsum 3 (fun l => bigsum 3 (fun k => inv3 j l * Om l k * inv3 c k))).
    exists (fun c => bigsum 3 (fun k => inv3 c k * v k) - bigsum 3 (fun j => o j * W j c)), W. split.
    { intros l c. unfold W, Om. cbn [bigsum]. ring. }
    intros i c Hi Hc. cbn [sf_n sf_8Cubic] in Hi.
    assert (EY : y i c = inv3 c 0 * V 0%nat i + inv3 c 1 * V 1%nat i + inv3 c 2 * V 2%nat i).
    { pose proof (inv_left c 0 Hc ltac:(lia)) as L0. pose proof (inv_left c 1 Hc ltac:(lia)) as L1. pose proof (inv_left c 2 Hc ltac:(lia)) as L2. unfold V.
      transitivity (y i 0%nat * (inv3 c 0 * e 0%nat 0%nat + inv3 c 1 * e 1%nat 0%nat + inv3 c 2 * e 2%nat 0%nat) + y i 1%nat * (inv3 c 0 * e 0%nat 1%nat + inv3 c 1 * e 1%nat 1%nat + inv3 c 2 * e 2%nat 1%nat) + y i 2%nat * (inv3 c 0 * e 0%nat 2%nat + inv3 c 1 * e 1%nat 2%nat + inv3 c 2 * e 2%nat 2%nat)).
      - rewrite L0, L1, L2. destruct c as [|[|[|c]]]; [| | |lia]; cbn [Nat.eqb]; ring.
      - ring. }
    destruct (HV i Hi) as (V0 & V1 & V2). rewrite EY, V0, V1, V2. rewrite !(xi_back i) by (auto; lia). unfold W, Om. cbn [bigsum]. ring.
Qed.
Lemma brick_sound m : (m = 1 \/ m = 3)%nat -> sound_piece 3 m xs (mkPiece sf_8Cubic Gauss8Cubic el).
Proof.
  intros Hm. destruct HB as (L & N & E).
  assert (RK : rule_ok 3 Gauss8Cubic).
  { unfold rule_ok, Gauss8Cubic. cbn [q_n q_points q_weights length]. splits; try lia. intros g Hg. do 8 (destruct g as [|g]; [cbn; lia|]). lia. }
  split; [|split; [|apply brick_free; exact Hm]]; cbn [p_shape p_rule p_nodes].
  - unfold element_ok. splits; auto; [cbn; tauto|]. intros g Hg. fold X. rewrite brick_jac. lra.
  - intros g Hg. fold X. rewrite brick_jac. split; [exact HD|]. cbn in Hg. unfold Gauss8Cubic. cbn [q_weights]. do 8 (destruct g as [|g]; [cbn; lra|]). lia.
Qed.
End Brick.
