(** Finite sums over the reals: [bigsum n f] is [f 0 + ... + f (n-1)].
    This is the vocabulary in which specifications of numerical code are
    stated; it does not depend on any modelled function. *)
From Coq Require Import Reals List Arith Lia Lra Bool.
Import ListNotations.
Local Open Scope R_scope.

Fixpoint bigsum (n : nat) (f : nat -> R) : R :=
  match n with
  | O => 0
  | S m => bigsum m f + f m
  end.

Definition delta (i j : nat) : R := if Nat.eqb i j then 1 else 0.

Definition sumlist (l : list R) : R := fold_right Rplus 0 l.

Lemma bigsum_ext n f g :
  (forall i, (i < n)%nat -> f i = g i) -> bigsum n f = bigsum n g.
Proof.
  induction n as [|n IH]; intros H; simpl; auto.
  rewrite IH by (intros; apply H; lia). now rewrite H by lia.
Qed.

Lemma bigsum_0 n : bigsum n (fun _ => 0) = 0.
Proof. induction n; simpl; lra. Qed.

Lemma bigsum_zero n f : (forall i, (i < n)%nat -> f i = 0) -> bigsum n f = 0.
Proof. intros H; rewrite (bigsum_ext n f (fun _ => 0)) by auto. apply bigsum_0. Qed.

Lemma bigsum_plus n f g :
  bigsum n (fun i => f i + g i) = bigsum n f + bigsum n g.
Proof. induction n; simpl; lra. Qed.

Lemma bigsum_minus n f g :
  bigsum n (fun i => f i - g i) = bigsum n f - bigsum n g.
Proof. induction n; simpl; lra. Qed.

Lemma bigsum_opp n f : bigsum n (fun i => - f i) = - bigsum n f.
Proof. induction n; simpl; lra. Qed.

Lemma bigsum_scal n c f : bigsum n (fun i => c * f i) = c * bigsum n f.
Proof. induction n; simpl; lra. Qed.

Lemma bigsum_scal_r n c f : bigsum n (fun i => f i * c) = bigsum n f * c.
Proof. induction n; simpl; lra. Qed.

Lemma bigsum_const n c : bigsum n (fun _ => c) = INR n * c.
Proof. induction n; [simpl; lra|]. rewrite S_INR; simpl; lra. Qed.

Lemma bigsum_swap n m (f : nat -> nat -> R) :
  bigsum n (fun i => bigsum m (f i)) = bigsum m (fun j => bigsum n (fun i => f i j)).
Proof.
  induction n as [|n IH]; simpl.
  - now rewrite bigsum_0.
  - now rewrite IH, <- bigsum_plus.
Qed.

Lemma bigsum_single n k f :
  (k < n)%nat -> (forall i, (i < n)%nat -> i <> k -> f i = 0) -> bigsum n f = f k.
Proof.
  induction n as [|n IH]; intros Hk H; [lia|]; simpl.
  destruct (Nat.eq_dec k n) as [->|Hne].
  - rewrite bigsum_zero; [lra|]. intros; apply H; lia.
  - rewrite IH by (try lia; intros; apply H; lia). rewrite (H n) by lia. lra.
Qed.

Lemma delta_refl i : delta i i = 1.
Proof. unfold delta; now rewrite Nat.eqb_refl. Qed.
Lemma delta_ne i j : i <> j -> delta i j = 0.
Proof. unfold delta; intros H; now rewrite (proj2 (Nat.eqb_neq i j) H). Qed.
Lemma delta_sym i j : delta i j = delta j i.
Proof. unfold delta; now rewrite Nat.eqb_sym. Qed.

Lemma bigsum_delta n k f :
  (k < n)%nat -> bigsum n (fun i => delta i k * f i) = f k.
Proof.
  intros H. rewrite (bigsum_single n k) by
    (auto; intros i _ Hi; rewrite delta_ne by auto; lra).
  rewrite delta_refl; lra.
Qed.

Lemma bigsum_delta_r n k f :
  (k < n)%nat -> bigsum n (fun i => f i * delta i k) = f k.
Proof.
  intros H. rewrite <- (bigsum_delta n k f H). apply bigsum_ext; intros; ring.
Qed.

Lemma bigsum_split n m f :
  bigsum (n + m) f = bigsum n f + bigsum m (fun i => f (n + i)%nat).
Proof.
  induction m as [|m IH]; simpl.
  - rewrite Nat.add_0_r; lra.
  - rewrite Nat.add_succ_r; simpl. rewrite IH; lra.
Qed.

Lemma bigsum_S_l n f : bigsum (S n) f = f 0%nat + bigsum n (fun i => f (S i)).
Proof.
  change (S n) with (1 + n)%nat. rewrite bigsum_split; simpl. lra.
Qed.

Lemma bigsum_le n f g :
  (forall i, (i < n)%nat -> f i <= g i) -> bigsum n f <= bigsum n g.
Proof.
  induction n as [|n IH]; intros H; simpl; [lra|].
  specialize (IH (fun i Hi => H i (Nat.lt_lt_succ_r _ _ Hi))).
  specialize (H n (Nat.lt_succ_diag_r n)). lra.
Qed.

Lemma bigsum_nonneg n f : (forall i, (i < n)%nat -> 0 <= f i) -> 0 <= bigsum n f.
Proof. intros H; rewrite <- (bigsum_0 n); now apply bigsum_le. Qed.

Lemma bigsum_pos n f k :
  (forall i, (i < n)%nat -> 0 <= f i) -> (k < n)%nat -> 0 < f k -> 0 < bigsum n f.
Proof.
  induction n as [|n IH]; intros H Hk Hp; [lia|]; simpl.
  assert (H1 : 0 <= bigsum n f) by (apply bigsum_nonneg; intros; apply H; lia).
  assert (H2 : 0 <= f n) by (apply H; lia).
  destruct (Nat.eq_dec k n) as [->|Hne]; [lra|].
  assert (0 < bigsum n f) by (apply IH; auto; try lia; intros; apply H; lia). lra.
Qed.

Lemma bigsum_nonneg_eq0 n f :
  (forall i, (i < n)%nat -> 0 <= f i) -> bigsum n f = 0 ->
  forall i, (i < n)%nat -> f i = 0.
Proof.
  intros H H0 i Hi. destruct (Rle_lt_or_eq_dec 0 (f i) (H i Hi)) as [Hp|He]; [|auto].
  pose proof (bigsum_pos n f i H Hi Hp). lra.
Qed.

Lemma bigsum_abs n f : Rabs (bigsum n f) <= bigsum n (fun i => Rabs (f i)).
Proof.
  induction n as [|n IH]; simpl.
  - rewrite Rabs_R0; lra.
  - eapply Rle_trans; [apply Rabs_triang|]. lra.
Qed.

Lemma bigsum_mult n m f g :
  bigsum n f * bigsum m g = bigsum n (fun i => bigsum m (fun j => f i * g j)).
Proof.
  rewrite <- bigsum_scal_r. apply bigsum_ext; intros. now rewrite bigsum_scal.
Qed.

(** nested index: blocks of size [k] *)
Lemma bigsum_blocks n k f :
  bigsum (n * k) f = bigsum n (fun i => bigsum k (fun j => f (i * k + j)%nat)).
Proof.
  induction n as [|n IH]; simpl; auto.
  rewrite Nat.add_comm, bigsum_split, IH. reflexivity.
Qed.

(** * sums over lists *)
Lemma sumlist_app l1 l2 : sumlist (l1 ++ l2) = sumlist l1 + sumlist l2.
Proof. induction l1 as [|x l1 IH]; simpl; [lra|]. rewrite IH; lra. Qed.

Lemma sumlist_bigsum l : sumlist l = bigsum (length l) (fun i => nth i l 0).
Proof.
  induction l as [|x l IH]; simpl length; auto.
  rewrite bigsum_S_l; simpl. rewrite IH; reflexivity.
Qed.

Lemma sumlist_seq n f : sumlist (map f (seq 0 n)) = bigsum n f.
Proof.
  induction n as [|n IH]; auto.
  rewrite seq_S, map_app, sumlist_app, IH; simpl; lra.
Qed.

Lemma sumlist_map_plus {A} (f g : A -> R) l :
  sumlist (map (fun x => f x + g x) l) = sumlist (map f l) + sumlist (map g l).
Proof. induction l; simpl; lra. Qed.

Lemma sumlist_map_scal {A} c (f : A -> R) l :
  sumlist (map (fun x => c * f x) l) = c * sumlist (map f l).
Proof. induction l; simpl; lra. Qed.

Lemma sumlist_map_zero {A} (f : A -> R) l :
  (forall x, In x l -> f x = 0) -> sumlist (map f l) = 0.
Proof.
  induction l as [|x l IH]; simpl; intros H; auto.
  rewrite H by auto. rewrite IH by auto. lra.
Qed.

Lemma sumlist_map_ext {A} (f g : A -> R) l :
  (forall x, In x l -> f x = g x) -> sumlist (map f l) = sumlist (map g l).
Proof. intros H; f_equal; now apply map_ext_in. Qed.

Lemma sumlist_concat_map {A B} (f : B -> R) (g : A -> list B) l :
  sumlist (map f (flat_map g l)) = sumlist (map (fun x => sumlist (map f (g x))) l).
Proof.
  induction l as [|x l IH]; simpl; auto. now rewrite map_app, sumlist_app, IH.
Qed.

Lemma bigsum_sumlist_swap {A} n (f : nat -> A -> R) l :
  bigsum n (fun i => sumlist (map (f i) l)) = sumlist (map (fun x => bigsum n (fun i => f i x)) l).
Proof.
  induction l as [|x l IH]; simpl; [apply bigsum_0|].
  now rewrite bigsum_plus, IH.
Qed.

Lemma fold_left_Rplus {A} (f : A -> R) l a :
  fold_left (fun s x => s + f x) l a = a + sumlist (map f l).
Proof.
  revert a; induction l as [|x l IH]; intros a; simpl; [lra|]. rewrite IH; lra.
Qed.

From Coq Require Import Permutation.
Lemma sumlist_perm l1 l2 : Permutation l1 l2 -> sumlist l1 = sumlist l2.
Proof. induction 1; simpl; lra. Qed.

(** Cauchy-Schwarz *)
Lemma bigsum_sqr_nonneg n f : 0 <= bigsum n (fun i => f i * f i).
Proof. apply bigsum_nonneg; intros; nra. Qed.

Lemma bigsum_sqr_eq0 n f :
  bigsum n (fun i => f i * f i) = 0 -> forall i, (i < n)%nat -> f i = 0.
Proof.
  intros H i Hi.
  pose proof (bigsum_nonneg_eq0 n (fun i => f i * f i)) as G.
  specialize (G ltac:(intros; nra) H i Hi). simpl in G. nra.
Qed.
