(** Outcomes of the modelled C++ code.

    A modelled function returns [Ok v] when the C++ runs to completion with
    value [v], and [Fail f] otherwise.  Faults are kept apart from values so
    that no theorem holds because of an arbitrary default. *)
From Coq Require Import List Arith Lia Bool.
Import ListNotations.

Inductive fault : Set :=
| AssertFail    (* a failing [assert] aborts the program *)
| OutOfBounds   (* unchecked access outside a container: undefined behaviour *)
| DivByZero     (* the exact quotient does not exist (inf/NaN in the C++) *)
| Uninit        (* use of an indeterminate value: undefined behaviour *)
| OutOfFuel.    (* the model's loop bound was too small *)

Inductive res (A : Type) : Type :=
| Ok (a : A)
| Fail (f : fault).
Arguments Ok {A} a.
Arguments Fail {A} f.

Definition bind {A B} (x : res A) (k : A -> res B) : res B :=
  match x with Ok a => k a | Fail f => Fail f end.

Notation "x <- e ;; k" := (bind e (fun x => k))
  (at level 61, e at next level, right associativity).
Notation "' p <- e ;; k" := (bind e (fun p => k))
  (at level 61, p pattern, e at next level, right associativity).

Definition assert_ (b : bool) : res unit := if b then Ok tt else Fail AssertFail.

(** unchecked read [l[i]] of a container *)
Definition rd {A} (l : list A) (i : nat) : res A :=
  match nth_error l i with Some a => Ok a | None => Fail OutOfBounds end.

(** [l[i] = a] *)
Fixpoint upd {A} (l : list A) (i : nat) (a : A) : list A :=
  match l, i with
  | [], _ => []
  | _ :: t, 0 => a :: t
  | x :: t, S i' => x :: upd t i' a
  end.

Definition wr {A} (l : list A) (i : nat) (a : A) : res (list A) :=
  if i <? length l then Ok (upd l i a) else Fail OutOfBounds.

(** a loop [for(x : l) s = f s x] whose body can fault *)
Fixpoint foldM {S X} (f : S -> X -> res S) (l : list X) (s : S) : res S :=
  match l with
  | [] => Ok s
  | x :: t => s' <- f s x ;; foldM f t s'
  end.

Fixpoint mapM {A B} (f : A -> res B) (l : list A) : res (list B) :=
  match l with
  | [] => Ok []
  | x :: t => y <- f x ;; ys <- mapM f t ;; Ok (y :: ys)
  end.

Ltac splits := repeat match goal with |- _ /\ _ => split end.

(** * Basic lemmas *)
Lemma bind_Ok {A B} (x : res A) (k : A -> res B) b :
  bind x k = Ok b <-> exists a, x = Ok a /\ k a = Ok b.
Proof.
  destruct x as [a|f]; simpl; split.
  - intros H; exists a; auto.
  - intros [a' [H1 H2]]; congruence.
  - discriminate.
  - intros [a' [H1 _]]; discriminate.
Qed.

Lemma upd_length {A} (l : list A) i a : length (upd l i a) = length l.
Proof. revert i; induction l as [|x l IH]; intros [|i]; simpl; auto. Qed.

Lemma nth_error_upd_eq {A} (l : list A) i a :
  i < length l -> nth_error (upd l i a) i = Some a.
Proof.
  revert i; induction l as [|x l IH]; intros [|i]; simpl; intros H; try lia; auto.
  apply IH; lia.
Qed.

Lemma nth_error_upd_ne {A} (l : list A) i j a :
  i <> j -> nth_error (upd l i a) j = nth_error l j.
Proof.
  revert i j; induction l as [|x l IH]; intros [|i] [|j] H; simpl; auto; try congruence.
Qed.

Lemma nth_error_upd {A} (l : list A) i j a :
  nth_error (upd l i a) j =
  if (i =? j) && (i <? length l) then Some a else nth_error l j.
Proof.
  destruct (Nat.eqb_spec i j) as [->|Hne]; simpl.
  - destruct (Nat.ltb_spec j (length l)).
    + now apply nth_error_upd_eq.
    + rewrite (proj2 (nth_error_None _ _)) by (rewrite upd_length; lia).
      symmetry; apply nth_error_None; lia.
  - now apply nth_error_upd_ne.
Qed.

Lemma nth_upd {A} (l : list A) i j a d :
  nth j (upd l i a) d = if (i =? j) && (i <? length l) then a else nth j l d.
Proof.
  revert i j; induction l as [|x l IH]; intros [|i] [|j]; simpl; auto.
  - destruct (i =? j); reflexivity.
  - rewrite IH.
    replace (S i <? S (length l)) with (i <? length l); [reflexivity|].
    destruct (Nat.ltb_spec i (length l)), (Nat.ltb_spec (S i) (S (length l))); lia || reflexivity.
Qed.

Lemma upd_out {A} (l : list A) i a : length l <= i -> upd l i a = l.
Proof.
  revert i; induction l as [|x l IH]; intros [|i]; simpl; intros H; auto; try lia.
  rewrite IH by lia; reflexivity.
Qed.

Lemma rd_Ok {A} (l : list A) i a : rd l i = Ok a <-> nth_error l i = Some a.
Proof. unfold rd; destruct (nth_error l i); split; intros H; congruence. Qed.

Lemma rd_nth {A} (l : list A) i d : i < length l -> rd l i = Ok (nth i l d).
Proof. intros H; apply rd_Ok; now apply nth_error_nth'. Qed.

Lemma rd_lt {A} (l : list A) i : i < length l -> exists a, rd l i = Ok a.
Proof.
  intros H; destruct (nth_error l i) as [a|] eqn:E.
  - exists a; now apply rd_Ok.
  - apply nth_error_None in E; lia.
Qed.

Lemma rd_inv {A} (l : list A) i a : rd l i = Ok a -> i < length l.
Proof. rewrite rd_Ok; intros H; apply nth_error_Some; congruence. Qed.

Lemma wr_Ok {A} (l : list A) i a : i < length l -> wr l i a = Ok (upd l i a).
Proof. unfold wr; intros H; destruct (Nat.ltb_spec i (length l)); auto; lia. Qed.

Lemma wr_inv {A} (l : list A) i a l' :
  wr l i a = Ok l' -> i < length l /\ l' = upd l i a.
Proof.
  unfold wr; destruct (Nat.ltb_spec i (length l)); intros H'; inversion H'; auto.
Qed.

Lemma foldM_app {S X} (f : S -> X -> res S) l1 l2 s :
  foldM f (l1 ++ l2) s = (s' <- foldM f l1 s ;; foldM f l2 s').
Proof.
  revert s; induction l1 as [|x l1 IH]; intros s; simpl; auto.
  destruct (f s x); simpl; auto.
Qed.

Lemma foldM_ok {S X} (f : S -> X -> res S) (g : S -> X -> S) l s :
  (forall s x, f s x = Ok (g s x)) -> foldM f l s = Ok (fold_left g l s).
Proof.
  intros H; revert s; induction l as [|x l IH]; intros s; simpl; auto.
  rewrite H; simpl; apply IH.
Qed.

(** invariant rule for [foldM] *)
Lemma foldM_inv {S X} (f : S -> X -> res S) (I : list X -> S -> Prop) l s0 :
  I [] s0 ->
  (forall pre x s, (exists post, l = pre ++ x :: post) -> I pre s ->
     exists s', f s x = Ok s' /\ I (pre ++ [x]) s') ->
  exists s, foldM f l s0 = Ok s /\ I l s.
Proof.
  intros H0 Hs.
  assert (G : forall post pre s, l = pre ++ post -> I pre s ->
             exists s', foldM f post s = Ok s' /\ I l s').
  { induction post as [|x post IH]; intros pre s E HI; simpl.
    - rewrite app_nil_r in E; subst; eauto.
    - destruct (Hs pre x s) as [s1 [E1 HI1]]; [eauto|exact HI|].
      rewrite E1; simpl. apply (IH (pre ++ [x])); [|exact HI1].
      rewrite <- app_assoc; exact E. }
  apply (G l []); auto.
Qed.

Lemma foldM_inv_ok {S X} (f : S -> X -> res S) (I : list X -> S -> Prop) l s0 s1 :
  I [] s0 ->
  (forall pre x s s', (exists post, l = pre ++ x :: post) -> I pre s ->
     f s x = Ok s' -> I (pre ++ [x]) s') ->
  foldM f l s0 = Ok s1 -> I l s1.
Proof.
  intros H0 Hs.
  assert (G : forall post pre s, l = pre ++ post -> I pre s ->
             foldM f post s = Ok s1 -> I l s1).
  { induction post as [|x post IH]; intros pre s E HI E1; simpl in E1.
    - rewrite app_nil_r in E; subst. congruence.
    - apply bind_Ok in E1. destruct E1 as [s2 [E2 E3]].
      apply (IH (pre ++ [x]) s2); [rewrite <- app_assoc; exact E| |exact E3].
      apply (Hs pre x s s2); eauto. }
  apply (G l []); auto.
Qed.

Lemma mapM_Forall2 {A B} (f : A -> res B) l ys :
  mapM f l = Ok ys <-> Forall2 (fun x y => f x = Ok y) l ys.
Proof.
  revert ys; induction l as [|x l IH]; intros ys; simpl.
  - split; intros H; inversion H; auto.
  - split.
    + intros H. apply bind_Ok in H. destruct H as [y [H1 H]].
      apply bind_Ok in H. destruct H as [ys' [H2 H]]. inversion H; subst.
      constructor; auto. now apply IH.
    + intros H; inversion H; subst. rewrite H2; simpl.
      rewrite (proj2 (IH _) H4); reflexivity.
Qed.

Lemma mapM_length {A B} (f : A -> res B) l ys :
  mapM f l = Ok ys -> length ys = length l.
Proof. rewrite mapM_Forall2; induction 1; simpl; congruence. Qed.
