(** The shells: the steps of the routines. *)
From Coq Require Import List Arith Lia Bool Reals Lra.
From Verif Require Import Res SumR DenseModel DenseR DenseSpec DenseProof DenseMain ShapeModel ShapeMain QuadModel QuadSpec ElemModel ElemSpec ElemProof ElemProof2 ElemProof3 ElemMain FlowModel BeamModel BeamSpec BeamProof.
Import ListNotations.
Local Open Scope R_scope.

Lemma points2 s : In s all_shapes -> sf_d s = 2%nat -> length (sf_points s) = sf_n s /\ (2 <= sf_n s)%nat.
Proof.
  shapes; intros Hd; cbn in Hd; try discriminate Hd; split; try reflexivity; cbn; lia.
Qed.

(** ** orthonormal frames *)
Lemma lagrange f g : dot3 (cross3 f g) (cross3 f g) = dot3 f f * dot3 g g - dot3 f g * dot3 f g.
Proof. unfold dot3. cbn [bigsum cross3]. ring. Qed.
Lemma cross_dot_r f g : dot3 (cross3 f g) g = 0.
Proof. unfold dot3. cbn [bigsum cross3]. ring. Qed.
Lemma cross_dot_l f g : dot3 f (cross3 f g) = 0.
Proof. unfold dot3. cbn [bigsum cross3]. ring. Qed.
Lemma dot3_comm f g : dot3 f g = dot3 g f.
Proof. unfold dot3. cbn [bigsum]. ring. Qed.
(** third vector of a frame: m unit, p = (l x m) normalised *)
Section Frame.
Variables (l m : nat -> R).
Hypothesis Hm : dot3 m m = 1.
Hypothesis Hn : nonzero3 (cross3 l m).
Let p := unit3 (cross3 l m).
Lemma frame_pp : dot3 p p = 1.
Proof. apply (unit3_dot (cross3 l m) m 0); auto. Qed.
Lemma frame_pm : dot3 p m = 0.
Proof. unfold p. rewrite (proj1 (unit3_dot (cross3 l m) m 0)), cross_dot_r. unfold Rdiv. ring. Qed.
Lemma frame_qq : dot3 (cross3 m p) (cross3 m p) = 1.
Proof. rewrite lagrange, Hm, frame_pp, (dot3_comm m p), frame_pm. ring. Qed.
Lemma frame_q c : unit3 (cross3 m p) c = cross3 m p c.
Proof. apply unit3_unit, frame_qq. Qed.
Lemma frame_nonzero : nonzero3 (cross3 m p).
Proof. apply dot3_nonzero. rewrite frame_qq. lra. Qed.
(** p x (m x p) = m *)
Lemma frame_m c : (c < 3)%nat -> cross3 p (cross3 m p) c = m c.
Proof.
  intros Hc. assert (E : cross3 p (cross3 m p) c = m c * dot3 p p - p c * dot3 p m).
  { unfold dot3. destruct c as [|[|[|c]]]; try lia; cbn [bigsum cross3]; ring. }
  rewrite E, frame_pp, frame_pm. ring.
Qed.
End Frame.

Lemma column_vec (m : mat R) d f j : is_mat m 3 d f -> (j < d)%nat -> exists b c, mblock R_ops m 0 j 3 1 = Ok b /\ vec_of_mat R_ops b = Ok c /\ is_vec c 3 (fun l => f l j).
Proof.
  intros H Hj. destruct (Rmblock _ _ _ _ 0 j 3 1 H) as (b & Eb & Hb); try lia. destruct (vec_of_mat_ok _ _ _ Hb) as (c & Ec & Hc).
  exists b, c. splits; auto. eapply is_vec_ext; [|exact Hc]. intros l Hl. cbv beta. cbn [Nat.add]. now rewrite Nat.add_0_r.
Qed.
Lemma row_vec (m : mat R) d f j : is_mat m d 3 f -> (j < d)%nat ->
  exists b t c, mblock R_ops m j 0 1 3 = Ok b /\ mtrans R_ops b = Ok t /\ vec_of_mat R_ops t = Ok c /\ is_vec c 3 (f j).
Proof.
  intros H Hj. destruct (Rmblock _ _ _ _ j 0 1 3 H) as (b & Eb & Hb); try lia. destruct (Rmtrans _ _ _ _ Hb) as (t & Et & Ht).
  destruct (vec_of_mat_ok _ _ _ Ht) as (c & Ec & Hc).
  exists b, t, c. splits; auto. eapply is_vec_ext; [|exact Hc]. intros l Hl. cbv beta. cbn [Nat.add]. now rewrite Nat.add_0_r.
Qed.

Section Shell.
Variables (s : shape) (q0 q1 : rule) (elem dou : list nat) (xs : list (list R)) (E v t : R).
Hypothesis Hok : shell_ok s q0 q1 elem xs t.
Let n := sf_n s.
Let x := nodal elem xs.
Let L := first_side elem xs.
Let V := shell_dirs s x.
Let f1 := shell_v1 s x L.
Let f2 := shell_v2 s x L.
Let f3 := shell_v3 s x.
Let w := fun _ : nat => t / 2.

Lemma v3_unit i : (i < n)%nat -> dot3 (f3 i) (f3 i) = 1.
Proof.
  destruct Hok as (Hs & Hd & Hn & Hx & Hq0 & Hq1 & Hnz & Hpt). intros Hi. destruct (Hnz i) as [H1 H2]; [lia|].
  apply (unit3_dot (surface_normal s x i) L 0); auto.
Qed.
Lemma l_nonzero i : (i < n)%nat -> nonzero3 (cross3 L (f3 i)).
Proof. destruct Hok as (Hs & Hd & Hn & Hx & Hq0 & Hq1 & Hnz & Hpt). intros Hi. apply (Hnz i). lia. Qed.

Lemma shell_frame_ok X l i : (i < n)%nat -> is_mat X n 3 x -> is_vec l 3 L ->
  exists u1 u2 u3, shell_frame s X l i = Ok (u1, u2, u3) /\ is_vec u1 3 (f1 i) /\ is_vec u2 3 (f2 i) /\ is_vec u3 3 (f3 i).
Proof.
  pose proof Hok as (Hs & Hd & Hn & Hx & Hq0 & Hq1 & Hnz & Hpt). intros Hi HX Hl. unfold shell_frame.
  destruct (points2 s Hs Hd) as [Lp _]. rewrite (rd_nth _ _ []) by lia. cbn [bind]. set (p := nth i (sf_points s) []).
  pose proof (sf_mat_ok s Hs p) as HdN. rewrite Hd in HdN. fold n in HdN.
  destruct (Rmmul _ _ _ _ _ _ _ HdN HX) as (T & ET & HT). rewrite ET. cbn [bind].
  destruct (Rmtrans _ _ _ _ HT) as (Tt & ETt & HTt). rewrite ETt. cbn [bind].
  destruct (column_vec _ _ _ 0 HTt) as (b0 & c0 & -> & Ec0 & Hc0); [lia|]. cbn [bind]. rewrite Ec0. cbn [bind].
  destruct (column_vec _ _ _ 1 HTt) as (b1 & c1 & -> & Ec1 & Hc1); [lia|]. cbn [bind]. rewrite Ec1. cbn [bind].
  destruct (vprod_ok _ _ _ _ Hc0 Hc1) as (w3 & E3 & H3). rewrite E3. cbn [bind].
  change (is_vec w3 3 (surface_normal s x i)) in H3.
  destruct (Hnz i) as [N3 N1]; [lia|]. destruct (vnormal_ok _ _ H3 N3) as (u3 & Eu3 & Hu3). rewrite Eu3. cbn [bind].
  destruct (vprod_ok _ _ _ _ Hl Hu3) as (w1 & E1 & H1). rewrite E1. cbn [bind].
  destruct (vnormal_ok _ _ H1 N1) as (u1 & Eu1 & Hu1). rewrite Eu1. cbn [bind].
  destruct (vprod_ok _ _ _ _ Hu3 Hu1) as (w2 & E2 & H2). rewrite E2. cbn [bind].
  pose proof (frame_nonzero L (f3 i) (v3_unit i Hi) (l_nonzero i Hi)) as N2.
  destruct (vnormal_ok _ _ H2 N2) as (u2 & Eu2 & Hu2). rewrite Eu2. cbn [bind].
  exists u1, u2, u3. splits; auto. eapply is_vec_ext; [|exact Hu2]. intros c Hc. apply (frame_q L (f3 i) (v3_unit i Hi) (l_nonzero i Hi)).
Qed.
Lemma shell_frames_ok X l : is_mat X n 3 x -> is_vec l 3 L ->
  exists v1 v2 v3, shell_frames s X l n = Ok (v1, v2, v3) /\ is_mat v1 n 3 f1 /\ is_mat v2 n 3 f2 /\ is_mat v3 n 3 f3.
Proof.
  intros HX Hl. unfold shell_frames.
  set (stp := fun (st : mat R * mat R * mat R) i => let '(v1, v2, v3) := st in
    f <- shell_frame s X l i ;; let '(v1i, v2i, v3i) := f in
    v3 <- add_row v3 v3i ;; v1 <- add_row v1 v1i ;; v2 <- add_row v2 v2i ;; Ok (v1, v2, v3)).
  assert (H : exists st, foldM stp (seq 0 n) (mnew R_ops 0 3, mnew R_ops 0 3, mnew R_ops 0 3) = Ok st /\
    (is_mat (fst (fst st)) n 3 f1 /\ is_mat (snd (fst st)) n 3 f2 /\ is_mat (snd st) n 3 f3)).
  2:{ destruct H as ([[v1 v2] v3] & EE & H). exists v1, v2, v3. auto. }
  apply (loop_inv stp (fun j st => is_mat (fst (fst st)) j 3 f1 /\ is_mat (snd (fst st)) j 3 f2 /\ is_mat (snd st) j 3 f3) n).
  - cbn [fst snd]. splits; (eapply is_mat_ext; [|apply Rmnew]); intros; lia.
  - intros i [[v1 v2] v3] Hi (H1 & H2 & H3). cbn [fst snd] in *. unfold stp.
    destruct (shell_frame_ok X l i Hi HX Hl) as (u1 & u2 & u3 & Ef & U1 & U2 & U3). rewrite Ef. cbn [bind].
    destruct (add_row_ok _ _ _ _ _ H3 U3) as (m3 & E3 & M3). rewrite E3. cbn [bind].
    destruct (add_row_ok _ _ _ _ _ H1 U1) as (m1 & E1 & M1). rewrite E1. cbn [bind].
    destruct (add_row_ok _ _ _ _ _ H2 U2) as (m2 & E2 & M2). rewrite E2. cbn [bind].
    eexists. split; [reflexivity|]. cbn [fst snd].
    splits; (eapply is_mat_ext; [|first [exact M1|exact M2|exact M3]]); intros k j Hk Hj; cbv beta;
      (destruct (Nat.ltb_spec k i); [reflexivity|replace k with i by lia; reflexivity]).
Qed.

Lemma shell_J_ok p xi X v3 : is_mat X n 3 x -> is_mat v3 n 3 f3 ->
  exists J, shell_J t X v3 (sf_mat s p) (sf_vec s p) (nth 0 xi 0) = Ok J /\
    is_mat J 3 3 (shell_T s t x (fun k => nth k p 0) (fun k => nth k xi 0)).
Proof.
  destruct Hok as (Hs & Hd & Hn & Hx & Hq0 & Hq1 & Hnz & Hpt). intros HX H3. unfold shell_J.
  destruct (Rmadd _ _ _ _ _ _ HX (Rmscal (1 / 2 * t * nth 0 xi 0) _ _ _ _ H3)) as (Y & EY & HY). rewrite EY. cbn [bind].
  pose proof (sf_mat_ok s Hs p) as HdN. rewrite Hd in HdN. fold n in HdN.
  destruct (Rmmul _ _ _ _ _ _ _ HdN HY) as (J0 & EJ0 & HJ0). rewrite EJ0. cbn [bind].
  destruct (Rvtrans _ _ _ (sf_vec_ok s Hs p)) as (Nt & Et & Ht). fold n in Ht. rewrite Et. cbn [bind].
  destruct (Rmmul _ _ _ _ _ _ _ (Rmscal (1 / 2 * t) _ _ _ _ Ht) H3) as (J1 & EJ1 & HJ1). rewrite EJ1. cbn [bind].
  destruct (Rmvstack _ _ _ _ _ _ _ HJ0 HJ1) as (J & EJ & HJ). exists J. split; auto.
  eapply is_mat_ext; [|exact HJ]. intros k l Hk Hl. cbv beta. unfold shell_T, layer_tangent. rewrite Hd. fold n.
  destruct k as [|[|[|k]]]; try lia; cbn [Nat.ltb Nat.leb Nat.sub]; apply bigsum_ext; intros i _; cbn [bigsum]; unfold shell_dirs, f3; field.
Qed.

Lemma shell_D0_ok : 1 - v * v <> 0 -> exists D Df, shell_D0 E v = Ok D /\ is_mat D 5 5 Df /\
  (forall y z : nat -> R, bigsum 5 (fun i => bigsum 5 (fun j => y i * Df i j * z j)) =
     E / (1 - v * v) * (y 0%nat * z 0%nat + y 1%nat * z 1%nat + v * (y 0%nat * z 1%nat + y 1%nat * z 0%nat))
     + lame_mu E v * (y 2%nat * z 2%nat) + 5 / 6 * lame_mu E v * (y 3%nat * z 3%nat + y 4%nat * z 4%nat)).
Proof.
  intros Hv. unfold shell_D0. rewrite Rdiv_res_ok by lra. cbn [bind]. rewrite Rdiv_res_ok by auto. cbn [bind].
  match goal with |- context [mkMat 5 5 ?l] => pose proof (is_mat_of_list 5 5 l eq_refl) as H end.
  eexists. eexists. splits; [reflexivity|apply (Rmscal (E / (1 - v * v))); exact H|].
  assert (1 + v <> 0) by (intros H0; apply Hv; replace (1 - v * v) with ((1 - v) * (1 + v)) by ring; rewrite H0; ring).
  intros y z. cbn [bigsum nth Nat.mul Nat.add]. unfold lame_mu. field. auto.
Qed.

(** tables *)
Definition colR (c : R) (z f : nat -> R) : list R :=
  [c * z 0%nat * f 0%nat; c * z 1%nat * f 1%nat; c * z 2%nat * f 2%nat;
   c * (z 1%nat * f 0%nat + z 0%nat * f 1%nat); c * (z 0%nat * f 2%nat + z 2%nat * f 0%nat); c * (z 2%nat * f 1%nat + z 1%nat * f 2%nat)].
Definition dofR (G : nat -> R) : list (list R) :=
  [[G 0%nat; 0; 0]; [0; G 1%nat; 0]; [0; 0; G 2%nat]; [G 1%nat; G 0%nat; 0]; [G 2%nat; 0; G 0%nat]; [0; G 2%nat; G 1%nat]].
Lemma shell_col_ok c dNz vm i r G f : is_mat dNz 3 n G -> is_mat vm n 3 f -> (i < n)%nat -> (r < 6)%nat ->
  shell_col c dNz vm i r = Ok (nth r (colR c (fun k => G k i) (f i)) 0).
Proof.
  intros HG Hf Hi Hr. unfold shell_col. entries.
  destruct r as [|[|[|[|[|[|r]]]]]]; try lia; reflexivity.
Qed.
Lemma shell_dof_ok dN i r c G : is_mat dN 3 n G -> (i < n)%nat -> (r < 6)%nat -> (c < 3)%nat ->
  shell_dof dN i r c = Ok (nth c (nth r (dofR (fun k => G k i)) []) 0).
Proof.
  intros HG Hi Hr Hc. unfold shell_dof. cbv zeta. apply (ent2_ok _ _ r c 6 3); auto; [|rows]. entries. reflexivity.
Qed.
Definition act (G Gz : nat -> nat -> R) (U : (nat -> nat -> R) -> nat -> nat -> R) (r : nat) (z : nat -> nat -> R) : R :=
  voigt3' (fun l c => bigsum n (fun i => G l i * z i c + t / 2 * Gz l i * U z i c)) r.

Lemma shell_B5_ok dN dNz v1 v2 G Gz g1 g2 : is_mat dN 3 n G -> is_mat dNz 3 n Gz -> is_mat v1 n 3 g1 -> is_mat v2 n 3 g2 ->
  exists B, shell_B5 n t dN dNz v1 v2 = Ok B /\
    has_action 5 n 6 B (act G Gz (fun z i c => z i 4%nat * g1 i c - z i 3%nat * g2 i c)).
Proof.
  intros HG Hz H1 H2. unfold shell_B5.
  destruct (tab_ok 5 n 6 (fun r j => let i := (j / 5)%nat in
    match (j mod 5)%nat with
    | 3%nat => shell_col (- (1 / 2) * t) dNz v2 i r
    | 4%nat => shell_col (1 / 2 * t) dNz v1 i r
    | c => shell_dof dN i r c
    end)
    (fun r i c => match c with 3%nat => nth r (colR (- (1 / 2) * t) (fun k => Gz k i) (g2 i)) 0
       | 4%nat => nth r (colR (1 / 2 * t) (fun k => Gz k i) (g1 i)) 0
       | c => nth c (nth r (dofR (fun k => G k i)) []) 0 end)) as (B & EB & HB); [lia| |].
  - intros r j Hr Hj Hm. cbv zeta. destruct (j mod 5)%nat as [|[|[|[|[|c]]]]] eqn:Ec; try lia;
      first [apply shell_col_ok; auto | apply shell_dof_ok; auto; lia].
  - exists B. split; [exact EB|]. eapply has_action_eq; [|exact HB]. intros r z Hr. cbv beta. unfold act.
    destruct r as [|[|[|[|[|[|r]]]]]]; try lia; cbn [voigt3' voigt3]; rewrite <- ?bigsum_plus; apply bigsum_ext; intros i Hi;
      cbn [bigsum nth colR dofR]; field.
Qed.
Lemma shell_B6_ok dN dNz v1 v2 G Gz g1 g2 : is_mat dN 3 n G -> is_mat dNz 3 n Gz -> is_mat v1 n 3 g1 -> is_mat v2 n 3 g2 ->
  exists B, shell_B6 n t dN dNz v1 v2 = Ok B /\
    has_action 6 n 6 B (act G Gz (fun z i c => dot3 (fun k => z i (3 + k)%nat) (g2 i) * g1 i c - dot3 (fun k => z i (3 + k)%nat) (g1 i) * g2 i c)).
Proof.
  intros HG Hz H1 H2. unfold shell_B6.
  destruct (tab_ok 6 n 6 (fun r j => let i := (j / 6)%nat in let c := (j mod 6)%nat in
    if (c <? 3)%nat then shell_dof dN i r c
    else shell_col (- (1 / 2) * t) dNz v2 i r *! mget v1 i (c - 3) +! shell_col (1 / 2 * t) dNz v1 i r *! mget v2 i (c - 3))
    (fun r i c => if (c <? 3)%nat then nth c (nth r (dofR (fun k => G k i)) []) 0
       else nth r (colR (- (1 / 2) * t) (fun k => Gz k i) (g2 i)) 0 * g1 i (c - 3)%nat
          + nth r (colR (1 / 2 * t) (fun k => Gz k i) (g1 i)) 0 * g2 i (c - 3)%nat)) as (B & EB & HB); [lia| |].
  - intros r j Hr Hj Hm. cbv zeta. destruct (Nat.ltb_spec (j mod 6)%nat 3).
    + apply shell_dof_ok; auto.
    + rewrite (shell_col_ok _ _ _ _ _ _ _ Hz H2 Hj Hr), (shell_col_ok _ _ _ _ _ _ _ Hz H1 Hj Hr). entries. reflexivity.
  - exists B. split; [exact EB|]. eapply has_action_eq; [|exact HB]. intros r z Hr. cbv beta. unfold act, dot3.
    destruct r as [|[|[|[|[|[|r]]]]]]; try lia; cbn [voigt3' voigt3]; rewrite <- ?bigsum_plus; apply bigsum_ext; intros i Hi;
      cbn [bigsum nth colR dofR Nat.ltb Nat.leb Nat.sub Nat.add]; field.
Qed.

Lemma shell_P_ok J T l : is_mat J 3 3 T -> is_vec l 3 L -> det3 T <> 0 -> nonzero3 (cross3 L (layer_normal T)) ->
  exists P, shell_P J l = Ok P /\
    is_mat P 5 6 (fun i j => nth j (nth i [nrow (layer_P0 L T); nrow (layer_P1 L T); srow (layer_P0 L T) (layer_P1 L T);
       srow (layer_P0 L T) (layer_normal T); srow (layer_P1 L T) (layer_normal T)] []) 0).
Proof.
  intros HJ Hl Hdet HN. unfold shell_P.
  destruct (row_vec _ _ _ 0 HJ) as (b0 & t0 & J0 & -> & Et0 & EJ0 & HJ0); [lia|]. cbn [bind]. rewrite Et0. cbn [bind]. rewrite EJ0. cbn [bind].
  destruct (row_vec _ _ _ 1 HJ) as (b1 & t1 & J1 & -> & Et1 & EJ1 & HJ1); [lia|]. cbn [bind]. rewrite Et1. cbn [bind]. rewrite EJ1. cbn [bind].
  destruct (vprod_ok _ _ _ _ HJ0 HJ1) as (w2 & E2 & H2). rewrite E2. cbn [bind].
  assert (N2 : nonzero3 (cross3 (T 0%nat) (T 1%nat))).
  { apply nonzero3_intro. intros H. apply Hdet. rewrite det3_cross'. apply bigsum_zero. intros c Hc. rewrite H by auto. ring. }
  destruct (vnormal_ok _ _ H2 N2) as (P2 & EP2 & HP2). rewrite EP2. cbn [bind].
  destruct (vprod_ok _ _ _ _ Hl HP2) as (w0 & E0 & H0). rewrite E0. cbn [bind].
  destruct (vnormal_ok _ _ H0 HN) as (P0 & EP0 & HP0). rewrite EP0. cbn [bind].
  destruct (vprod_ok _ _ _ _ HP2 HP0) as (w1 & E1 & H1). rewrite E1. cbn [bind].
  assert (U2 : dot3 (layer_normal T) (layer_normal T) = 1) by (apply (unit3_dot (cross3 (T 0%nat) (T 1%nat)) L 0); auto).
  destruct (vnormal_ok _ _ H1 (frame_nonzero L (layer_normal T) U2 HN)) as (P1 & EP1 & HP1'). rewrite EP1. cbn [bind].
  assert (HP1 : is_vec P1 3 (layer_P1 L T)).
  { eapply is_vec_ext; [|exact HP1']. intros c Hc. apply (frame_q L (layer_normal T) U2 HN). }
  fold (layer_normal T) in HP2. fold (layer_P0 L T) in HP0.
  apply Rmbuild. intros i j Hi Hj. apply (ent2_ok _ _ i j 5 6); auto; [|rows].
  rewrite (normal_row_ok P0 _ HP0), (normal_row_ok P1 _ HP1), (shear_row_ok P0 P1 _ _ HP0 HP1), (shear_row_ok P0 P2 _ _ HP0 HP2), (shear_row_ok P1 P2 _ _ HP1 HP2).
  reflexivity.
Qed.

(** the loop body with m components per node, which change the normals by U *)
Section Table.
Variables (m : nat) (tab : nat -> R -> mat R -> mat R -> mat R -> mat R -> res (mat R)) (U : (nat -> nat -> R) -> nat -> nat -> R).
Hypothesis Htab : forall dN dNz v1 v2 G Gz, is_mat dN 3 n G -> is_mat dNz 3 n Gz -> is_mat v1 n 3 f1 -> is_mat v2 n 3 f2 ->
  exists B, tab n t dN dNz v1 v2 = Ok B /\ has_action m n 6 B (act G Gz U).
Let UU (z : nat -> nat -> R) (j : nat) := U z.
Let T g h := shell_T s t x (pt q0 g) (pt q1 h).
Let H g h (z : nat -> nat -> R) := lay_H s 1 w x V (pt q0 g) (pt q1 h) z (UU z).

Lemma shell_point_ok X v1 v2 v3 D0 Df l g h : (g < q_n q0)%nat -> (h < q_n q1)%nat -> is_mat X n 3 x ->
  is_mat v1 n 3 f1 -> is_mat v2 n 3 f2 -> is_mat v3 n 3 f3 -> is_vec l 3 L -> is_mat D0 5 5 Df ->
  (forall y z : nat -> R, bigsum 5 (fun i => bigsum 5 (fun j => y i * Df i j * z j)) =
     E / (1 - v * v) * (y 0%nat * z 0%nat + y 1%nat * z 1%nat + v * (y 0%nat * z 1%nat + y 1%nat * z 0%nat))
     + lame_mu E v * (y 2%nat * z 2%nat) + 5 / 6 * lame_mu E v * (y 3%nat * z 3%nat + y 4%nat * z 4%nat)) ->
  exists K, shell_point tab s q0 q1 n t X v1 v2 v3 D0 l g h = Ok K /\
    has_form m n K (fun y z => wprod 2 (nth g (q_weights q0) []) * (wprod 1 (nth h (q_weights q1) []) *
       (det3 (T g h) * shell_W s x L E v t (pt q0 g) (pt q1 h) (strain (H g h y)) (strain (H g h z))))).
Proof.
  pose proof Hok as (Hs & Hd & Hn & Hx & Hq0 & Hq1 & Hnz & Hpt).
  intros Hg Hh HX H1 H2 H3 Hl HD HDf. destruct (Hpt g h Hg Hh) as [Hdet HN]. fold x L in Hdet, HN. fold (T g h) in Hdet, HN.
  unfold shell_point. rewrite (gpoint_ok 2 q0 g Hq0 Hg). cbn [bind].
  set (p := nth g (q_points q0) []) in *. rewrite (gpoint_ok 1 q1 h Hq1 Hh). cbn [bind]. set (iz := nth h (q_points q1) []) in *.
  assert (Liz : (1 <= length iz)%nat) by (destruct Hq1 as (_ & _ & HH); apply (HH h Hh)).
  set (r := pt q0 g) in *. set (xi := pt q1 h) in *.
  pose proof (is_vec_of_list iz) as HV. rewrite !(Rvget _ _ _ _ HV) by lia. cbn [bind].
  destruct (shell_J_ok p iz X v3 HX H3) as (J & EJ & HJ). rewrite EJ. cbn [bind].
  change (is_mat J 3 3 (T g h)) in HJ. rewrite (Rdet3 _ _ HJ). cbn [bind].
  destruct (Rminv 3 J (T g h) ltac:(lia) HJ Hdet) as (Ji & EJi & HJi). cbn [detd] in HJi. rewrite EJi. cbn [bind].
  destruct (Rmblock _ _ _ _ 0 0 3 2 HJi) as (c0 & Ec0 & Hc0); try lia. rewrite Ec0. cbn [bind].
  pose proof (sf_mat_ok s Hs p) as HdN. rewrite Hd in HdN. fold n in HdN. pose proof (sf_vec_ok s Hs p) as HNv. fold n in HNv.
  destruct (Rmmul _ _ _ _ _ _ _ Hc0 HdN) as (dN & EdN & HdN'). rewrite EdN. cbn [bind].
  assert (HG : is_mat dN 3 n (lay_dN s 1 w x V r xi)).
  { eapply is_mat_ext; [|exact HdN']. intros l' i Hl' Hi. cbv beta. unfold lay_dN. rewrite Hd. reflexivity. }
  destruct (Rdirector dN Ji (sf_vec s p) n _ _ _ (nth 0 iz 0) 2 HG HJi HNv) as (dNz & Ez & Hz); [lia|]. rewrite Ez. cbn [bind].
  assert (Hz' : is_mat dNz 3 n (lay_dNx s 1 w x V r xi 0)).
  { eapply is_mat_ext; [|exact Hz]. intros l' i Hl' Hi. unfold lay_dNx. rewrite Hd. reflexivity. }
  destruct (Htab dN dNz v1 v2 _ _ HG Hz' H1 H2) as (B & EB & HB). rewrite EB. cbn [bind].
  destruct (shell_P_ok J (T g h) l HJ Hl Hdet HN) as (P & EP & HP). rewrite EP. cbn [bind].
  destruct (hf_rotated m n 5 B P D0 _ _ _ HB HP HD) as (D & K & ED & EK & HK). rewrite ED. cbn [bind]. rewrite EK. cbn [bind].
  destruct (hf_weigh 2 2 m n q0 g _ _ (le_n _) Hq0 Hg (hf_scal _ _ _ _ (det3 (T g h)) HK)) as (K1 & EK1 & HK1). rewrite EK1. cbn [bind].
  destruct (hf_weigh 1 1 m n q1 h _ _ (le_n _) Hq1 Hh HK1) as (K2 & EK2 & HK2). exists K2. split; auto.
  eapply has_form_eq; [|exact HK2]. intros y z. cbv beta. unfold wgt.
  assert (EV : forall y p' q', along (strain (fun l c => bigsum n (fun i => lay_dN s 1 w x V r xi l i * y i c + t / 2 * lay_dNx s 1 w x V r xi 0 l i * U y i c))) p' q'
     = along (strain (H g h y)) p' q').
  { intros y' p' q'. apply along_ext, strain_ext3. intros l' c _ _. unfold H, lay_H. apply bigsum_ext; intros i _. cbn [bigsum]. unfold UU.
    change (w 0%nat) with (t / 2). fold r xi. ring. }
  set (Q := fun i (u : nat -> nat -> R) => bigsum 6 (fun a0 => nth a0 (nth i [nrow (layer_P0 L (T g h)); nrow (layer_P1 L (T g h)); srow (layer_P0 L (T g h)) (layer_P1 L (T g h));
       srow (layer_P0 L (T g h)) (layer_normal (T g h)); srow (layer_P1 L (T g h)) (layer_normal (T g h))] []) 0 * act (lay_dN s 1 w x V r xi) (lay_dNx s 1 w x V r xi 0) U a0 u)).
  change (bigsum 5 (fun i => bigsum 5 (fun j => Q i y * Df i j * Q j z)) * det3 (T g h) * wprod 2 (nth g (q_weights q0) []) * wprod 1 (nth h (q_weights q1) []) =
     wprod 2 (nth g (q_weights q0) []) * (wprod 1 (nth h (q_weights q1) []) * (det3 (T g h) * shell_W s x L E v t r xi (strain (H g h y)) (strain (H g h z))))).
  rewrite (HDf (fun i => Q i y) (fun i => Q i z)).
  assert (Q0 : forall u, Q 0%nat u = along (strain (H g h u)) (layer_P0 L (T g h)) (layer_P0 L (T g h))) by (intros u; rewrite <- EV; apply nrow_along).
  assert (Q1 : forall u, Q 1%nat u = along (strain (H g h u)) (layer_P1 L (T g h)) (layer_P1 L (T g h))) by (intros u; rewrite <- EV; apply nrow_along).
  assert (Q2 : forall u, Q 2%nat u = 2 * along (strain (H g h u)) (layer_P0 L (T g h)) (layer_P1 L (T g h))) by (intros u; rewrite <- EV; apply srow_along).
  assert (Q3 : forall u, Q 3%nat u = 2 * along (strain (H g h u)) (layer_P0 L (T g h)) (layer_normal (T g h))) by (intros u; rewrite <- EV; apply srow_along).
  assert (Q4 : forall u, Q 4%nat u = 2 * along (strain (H g h u)) (layer_P1 L (T g h)) (layer_normal (T g h))) by (intros u; rewrite <- EV; apply srow_along).
  rewrite !Q0, !Q1, !Q2, !Q3, !Q4. unfold shell_W, shell_energy. change (shell_T s t x r xi) with (T g h). ring.
Qed.

Lemma shell_call U' : length dou = m -> 1 - v * v <> 0 ->
  (forall z i c, (i < n)%nat -> (c < 3)%nat -> U z i c = U' z 0%nat i c) ->
  layer_stiffness_of m 1 s q0 q1 w V U' (shell_W s x L E v t) elem dou xs (shell_stiffness m tab s q0 q1 elem dou xs E v t).
Proof.
  intros Hdou Hv HU. pose proof Hok as (Hs & Hd & Hn & Hx & Hq0 & Hq1 & Hnz & Hpt).
  destruct (points2 s Hs Hd) as [_ Hn2].
  assert (Hx' : nodes_ok 3 elem xs) by (intros e He; destruct (Hx e He); split; lia).
  unfold shell_stiffness. rewrite (eqb2 dou m Hdou). cbn [assert_ bind].
  destruct (nte_of_ok m (length elem) dou) as (ne & Ene & Hne); [lia|]. rewrite Ene. cbn [bind].
  destruct (node_mat_ok 3 elem xs Hx') as (X & EX & HX). rewrite EX. cbn [bind].
  rewrite (rd_nth elem 1 O) by lia. cbn [bind]. rewrite (rd_nth elem 0 O) by lia. cbn [bind].
  destruct (Hx (nth 1 elem O)) as [A1 B1]; [apply nth_In; lia|]. destruct (Hx (nth 0 elem O)) as [A0 B0]; [apply nth_In; lia|].
  rewrite (rd_nth xs (nth 1 elem O) []) by auto. cbn [bind]. rewrite (rd_nth xs (nth 0 elem O) []) by auto. cbn [bind].
  pose proof (is_vec_of_list (nth (nth 1 elem O) xs [])) as V1. rewrite B1 in V1.
  pose proof (is_vec_of_list (nth (nth 0 elem O) xs [])) as V0. rewrite B0 in V0.
  destruct (Rvsub _ _ _ _ _ V1 V0) as (l & El & Hl). rewrite El. cbn [bind]. change (is_vec l 3 L) in Hl.
  rewrite Hn in HX, Hne |- *. fold n in HX, Hne |- *.
  destruct (shell_frames_ok X l HX Hl) as (v1 & v2 & v3 & Ef & H1 & H2 & H3). rewrite Ef. cbn [bind].
  destruct (shell_D0_ok Hv) as (D0 & Df & ED & HD & HDf). rewrite ED. cbn [bind].
  destruct (hf_gauss2 m n q0 q1 _ _ (fun g h Hg Hh => shell_point_ok X v1 v2 v3 D0 Df l g h Hg Hh HX H1 H2 H3 Hl HD HDf)) as (K & EK & k & Hk & Ek).
  rewrite EK. cbn [bind]. exists K, ne, k. rewrite Hn. fold n. splits; auto.
  intros y z Hy Hz Gy Gz. rewrite Ek. unfold quad. rewrite Hd.
  apply bigsum_ext; intros g Hg. rewrite <- bigsum_scal. apply bigsum_ext; intros h Hh.
  fold (pt q0 g) (pt q1 h). destruct (Hpt g h Hg Hh) as [Hdet HN]. fold x in Hdet. fold (T g h) in Hdet.
  assert (EU : forall u Hu, layer_gradients s q0 q1 1 w x V u (U' u) Hu ->
     forall p r, along (strain (H g h u)) p r = along (strain (Hu (pt q0 g) (pt q1 h))) p r).
  { intros u Hu Gu p r. apply along_ext, strain_ext3. intros l' c Hl' Hc.
    transitivity (lay_H s 1 w x V (pt q0 g) (pt q1 h) u (U' u) l' c); [|symmetry; apply lay_H_unique; [lia|exact Hdet|now apply Gu|exact Hl'|exact Hc]].
    unfold H, lay_H. apply bigsum_ext; intros i Hi. cbn [bigsum]. unfold UU. rewrite HU by auto. reflexivity. }
  unfold shell_W, shell_energy. rewrite !(EU y Hy Gy), !(EU z Hz Gz). reflexivity.
Qed.
End Table.

Lemma frame_rotation z i c : (i < n)%nat -> (c < 3)%nat ->
  dot3 (fun k => z i (3 + k)%nat) (f2 i) * f1 i c - dot3 (fun k => z i (3 + k)%nat) (f1 i) * f2 i c = rotated V z 0 i c.
Proof.
  intros Hi Hc. unfold rotated, V, shell_dirs.
  rewrite <- (cross3_ext (fun l => z i (3 + l)%nat) (fun l => z i (3 + l)%nat) (cross3 (f1 i) (f2 i)) (f3 i)); auto.
  - unfold dot3. destruct c as [|[|[|c]]]; try lia; cbn [bigsum cross3]; ring.
  - intros k Hk. apply (frame_m L (f3 i) (l_nonzero i Hi) k Hk).
Qed.
Lemma shell5_call : length dou = 5%nat -> 1 - v * v <> 0 ->
  layer_stiffness_of 5 1 s q0 q1 w V (tilted s x L) (shell_W s x L E v t) elem dou xs (ShellLinearIsotropicElastic s q0 q1 elem dou xs E v t).
Proof.
  intros Hdou Hv. apply (shell_call 5 shell_B5 (fun z i c => z i 4%nat * f1 i c - z i 3%nat * f2 i c)); auto.
  intros. now apply shell_B5_ok.
Qed.
Lemma shell6_call : length dou = 6%nat -> 1 - v * v <> 0 ->
  layer_stiffness_of 6 1 s q0 q1 w V (rotated V) (shell_W s x L E v t) elem dou xs (ShellLinearIsotropicElastic2 s q0 q1 elem dou xs E v t).
Proof.
  intros Hdou Hv. apply (shell_call 6 shell_B6 (fun z i c => dot3 (fun k => z i (3 + k)%nat) (f2 i) * f1 i c - dot3 (fun k => z i (3 + k)%nat) (f1 i) * f2 i c)); auto.
  - intros. now apply shell_B6_ok.
  - intros. now apply frame_rotation.
Qed.
End Shell.
