(** Properties C29-C32: shape functions: the proofs. *)
From Coq Require Import List Arith Lia Bool Reals Lra.
From Coquelicot Require Import Coquelicot.
From Verif Require Import Res SumR ShapeModel.
Import ListNotations.
Local Open Scope R_scope.
(** the point with coordinate k replaced by t *)
Definition move (r : nat -> R) (k : nat) (t : R) (j : nat) : R := if (j =? k)%nat then t else r j.
Definition coords (p : list R) (k : nat) : R := nth k p 0.

Ltac shapes := cbn [In all_shapes]; intros H; repeat (destruct H as [<-|H]; [|]); [..|destruct H].
Ltac unf := cbn [sf_d sf_n sf_points sf_N sf_dN sf_2Line sf_3Line sf_3Triangle sf_6Triangle sf_4Square sf_8Square sf_4Tetrahedron sf_8Cubic sf_20Cubic].
Ltac unfN := unfold N_2Line, N_3Line, N_3Triangle, N_6Triangle, N_4Square, N_8Square, N_4Tetrahedron, N_8Cubic, N_20Cubic.
Ltac unfdN := unfold dN_2Line, dN_3Line, dN_3Triangle, dN_6Triangle, dN_4Square, dN_8Square, dN_4Tetrahedron, dN_8Cubic, dN_20Cubic.
Ltac unfP := unfold pts_2Line, pts_3Line, pts_3Triangle, pts_6Triangle, pts_4Square, pts_8Square, pts_4Tetrahedron, pts_8Cubic, pts_20Cubic.
Ltac cases i := repeat (destruct i as [|i]; [|]).

(** all pairs i < n, k < d *)
Lemma forall_lt_S n (P : nat -> Prop) : P n -> (forall i, (i < n)%nat -> P i) -> forall i, (i < S n)%nat -> P i.
Proof. intros H1 H2 i Hi. destruct (Nat.eq_dec i n) as [->|]; auto. apply H2. lia. Qed.
Lemma forall_lt_0 (P : nat -> Prop) : forall i, (i < 0)%nat -> P i.
Proof. intros i Hi. lia. Qed.
Lemma forall_lt2 n m (P : nat -> nat -> Prop) :
  (forall i, (i < n)%nat -> forall j, (j < m)%nat -> P i j) -> forall i j, (i < n)%nat -> (j < m)%nat -> P i j.
Proof. auto. Qed.
Ltac each := repeat first [refine (forall_lt_0 _) | refine (forall_lt_S _ _ _ _)].

Lemma C29_partition_of_unity_pf : forall (s : shape) (r : nat -> R), In s all_shapes ->
  length (sf_N s r) = sf_n s /\ sumlist (sf_N s r) = 1 /\
  length (sf_dN s r) = sf_d s /\
  forall row, In row (sf_dN s r) -> length row = sf_n s /\ sumlist row = 0.
Proof.
  intros s r. shapes; unf; (split; [reflexivity|]; split; [unfN; cbv [sumlist fold_right]; field|]; split; [reflexivity|]);
  unfdN; cbn [In]; intros row Hr; repeat (destruct Hr as [<-|Hr]; [split; [reflexivity|cbv [sumlist fold_right]; field]|]); destruct Hr.
Qed.

Lemma C30_kronecker_pf : forall (s : shape), In s all_shapes -> s <> sf_20Cubic ->
  length (sf_points s) = sf_n s /\
  forall i j, (i < sf_n s)%nat -> (j < sf_n s)%nat ->
    nth i (sf_N s (coords (nth j (sf_points s) []))) 0 = if (i =? j)%nat then 1 else 0.
Proof.
  intros s. shapes; intros Hne; try (now contradiction Hne); unf; (split; [reflexivity|]);
  refine (forall_lt2 _ _ _ _);
  each; unfP; unfN; unfold coords; cbn [nth Nat.eqb]; field.
Qed.

Lemma C30_kronecker_20_pf : forall i j, (i < 20)%nat -> (j < 20)%nat ->
  nth i (sf_N sf_20Cubic (coords (nth (if (j <? 12)%nat then j else S j) (sf_points sf_20Cubic) []))) 0 =
  if (i =? j)%nat then 1 else 0.
Proof.
  assert (G : forall j, (j < 20)%nat ->
    sf_N sf_20Cubic (coords (nth (if (j <? 12)%nat then j else S j) (sf_points sf_20Cubic) [])) =
    map (fun i => if (i =? j)%nat then 1 else 0) (seq 0 20)).
  { unf. each; unfP; unfold coords; cbn [nth Nat.ltb Nat.leb seq map Nat.eqb]; unfN; cbn [nth];
    repeat (apply f_equal2; [lra|]); reflexivity. }
  intros i j Hi Hj. rewrite G by auto. remember (fun i => if (i =? j)%nat then 1 else 0) as f eqn:Ef.
  rewrite (nth_indep _ 0 (f 0%nat)) by now rewrite map_length, seq_length.
  rewrite map_nth, seq_nth by auto. now subst f.
Qed.

Lemma C30_kronecker_refuted_pf : exists s, In s all_shapes /\
  length (sf_points s) <> sf_n s /\
  exists i, (i < sf_n s)%nat /\ nth i (sf_N s (coords (nth i (sf_points s) []))) 0 <> 1.
Proof.
  exists sf_20Cubic. split; [cbn; tauto|]. split; [cbn; lia|]. exists 12%nat. split; [cbn; lia|].
  unf. unfP. unfN. unfold coords. cbn [nth].
  match goal with |- ?a <> 1 => replace a with 0 by field; lra end.
Qed.

Lemma C31_gradient_pf : forall (s : shape) (r : nat -> R) (k i : nat), In s all_shapes ->
  (k < sf_d s)%nat -> (i < sf_n s)%nat ->
  derivable_pt_lim (fun t => nth i (sf_N s (move r k t)) 0) (r k) (nth i (nth k (sf_dN s r) []) 0).
Proof.
  intros s r k i Hin Hk Hi. apply is_derive_Reals. revert k Hk i Hi. revert Hin.
  shapes; unf; each; unfN; unfdN; unfold move; cbn [nth Nat.eqb]; auto_derive; auto; field.
Qed.

Lemma C32_completeness_pf : forall (s : shape) (r : nat -> R) (a : R) (b : nat -> R), In s all_shapes ->
  let pts := fun i => if (sf_n s =? 20)%nat && (12 <=? i)%nat then S i else i in
  let u := fun i => a + bigsum (sf_d s) (fun k => b k * nth k (nth (pts i) (sf_points s) []) 0) in
  bigsum (sf_n s) (fun i => nth i (sf_N s r) 0 * u i) = a + bigsum (sf_d s) (fun k => b k * r k) /\
  forall k, (k < sf_d s)%nat ->
    bigsum (sf_n s) (fun i => nth i (nth k (sf_dN s r) []) 0 * u i) = b k.
Proof.
  intros s r a b. shapes; unf; cbv zeta; (split; [|each]);
  unfP; unfN; unfdN; cbn [bigsum nth Nat.eqb Nat.leb andb]; field.
Qed.

Lemma C32_quadratic_pf : forall (s : shape) (r : nat -> R) (c : nat -> nat -> R),
  In s [sf_3Line; sf_6Triangle; sf_8Square; sf_20Cubic] ->
  let pts := fun i => if (sf_n s =? 20)%nat && (12 <=? i)%nat then S i else i in
  let q := fun x : nat -> R => bigsum (sf_d s) (fun k => bigsum (sf_d s) (fun l => c k l * x k * x l)) in
  bigsum (sf_n s) (fun i => nth i (sf_N s r) 0 * q (coords (nth (pts i) (sf_points s) []))) = q r.
Proof.
  intros s r c. cbn [In]. intros H. repeat (destruct H as [<-|H]; [|]); [..|destruct H]; unf; cbv zeta;
  unfP; unfN; unfold coords; cbn [bigsum nth Nat.eqb Nat.leb andb]; field.
Qed.
