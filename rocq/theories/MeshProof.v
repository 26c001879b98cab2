(** Loops as lists of steps, and grids of cells as meshes. *)
From Coq Require Import List Arith ZArith Lia Bool Reals.
From Verif Require Import Res DenseR MeshModel MeshSpec.
Import ListNotations.
Local Open Scope nat_scope.

(** ** loops that perform a list of steps *)
Definition steps {S A} (step : S -> A -> res S) (body : S -> res S) (l : list A) : Prop := forall s, body s = foldM step l s.
Lemma steps_nil : forall S A (step : S -> A -> res S), steps step (fun s => Ok s) [].
Proof. intros S A step s. reflexivity. Qed.
Lemma steps_one : forall S A (step : S -> A -> res S) body a, (forall s, body s = step s a) -> steps step body [a].
Proof. intros S A step body a H s. cbn [foldM]. rewrite H. destruct (step s a); reflexivity. Qed.
Lemma foldM_app' : forall S A (step : S -> A -> res S) l1 l2 s, foldM step (l1 ++ l2) s = (s' <- foldM step l1 s ;; foldM step l2 s').
Proof. intros S A step l1. induction l1 as [|a l1 IH]; intros l2 s; cbn [foldM app bind]; [reflexivity|]. destruct (step s a); cbn [bind]; [apply IH|reflexivity]. Qed.
Lemma steps_bind : forall S A (step : S -> A -> res S) b1 b2 l1 l2, steps step b1 l1 -> steps step b2 l2 -> steps step (fun s => s' <- b1 s ;; b2 s') (l1 ++ l2).
Proof. intros S A step b1 b2 l1 l2 H1 H2 s. rewrite foldM_app', H1. destruct (foldM step l1 s); cbn [bind]; [apply H2|reflexivity]. Qed.
Lemma steps_for : forall S A (step : S -> A -> res S) n body (l : nat -> list A), (forall i, i < n -> steps step (body i) (l i)) ->
  steps step (for_ n body) (flat_map l (seq 0 n)).
Proof.
  intros S A step n body l H s. unfold for_. assert (G : forall i, In i (seq 0 n) -> steps step (body i) (l i)) by (intros i Hi; apply H; apply in_seq in Hi; lia).
  clear H. revert s G. induction (seq 0 n) as [|i t IH]; intros s G; cbn [foldM flat_map]; [reflexivity|]. rewrite foldM_app', (G i (or_introl eq_refl)).
  destruct (foldM step (l i) s); cbn [bind]; [apply IH; intros; apply G; right; assumption|reflexivity].
Qed.
Lemma steps_for1 : forall S A (step : S -> A -> res S) n body (a : nat -> A), (forall i, i < n -> forall s, body i s = step s (a i)) ->
  steps step (for_ n body) (map a (seq 0 n)).
Proof.
  intros S A step n body a H s. rewrite (steps_for _ _ step n body (fun i => [a i])); [|intros; apply steps_one; auto].
  reflexivity.
Qed.
Lemma steps_for2 : forall S A (step : S -> A -> res S) n m body (a : nat -> nat -> A), (forall i j, i < n -> j < m -> forall s, body i j s = step s (a i j)) ->
  steps step (for_ n (fun i => for_ m (body i))) (flat_map (fun i => map (a i) (seq 0 m)) (seq 0 n)).
Proof. intros. apply steps_for. intros i Hi. apply steps_for1. auto. Qed.
Lemma steps_forZ : forall S A (step : S -> A -> res S) n body (l : Z -> list A), (forall i, (0 <= i < n)%Z -> steps step (body i) (l i)) ->
  steps step (forZ n body) (flat_map (fun i => l (Z.of_nat i)) (seq 0 (Z.to_nat n))).
Proof. intros. apply (steps_for _ _ _ _ (fun i => body (Z.of_nat i))). intros. apply H. lia. Qed.
Lemma steps_forZ1 : forall S A (step : S -> A -> res S) n body (a : Z -> A), (forall i, (0 <= i < n)%Z -> forall s, body i s = step s (a i)) ->
  steps step (forZ n body) (map (fun i => a (Z.of_nat i)) (seq 0 (Z.to_nat n))).
Proof. intros. apply (steps_for1 _ _ _ _ (fun i => body (Z.of_nat i)) (fun i => a (Z.of_nat i))). intros. apply H. lia. Qed.

(** ** writing an array *)
Definition wstep {A} (s : list A) (kv : nat * A) : res (list A) := wr s (fst kv) (snd kv).
Lemma writes_spec : forall A (g : nat -> A) l s, (forall kv, In kv l -> fst kv < length s /\ snd kv = g (fst kv)) ->
  exists s', foldM wstep l s = Ok s' /\ length s' = length s /\
    forall k d, k < length s -> nth k s' d = if existsb (fun kv : nat * A => fst kv =? k) l then g k else nth k s d.
Proof.
  intros A g. induction l as [|[k v] l IH]; intros s H.
  - exists s. cbn. auto.
  - destruct (H (k, v) (or_introl eq_refl)) as (Hk & Hv). cbn [fst snd] in *. cbn [foldM]. replace (wstep s (k, v)) with (Ok (upd s k v)) by (symmetry; apply wr_Ok; exact Hk). cbn [bind].
    destruct (IH (upd s k v)) as (s' & E & L & V).
    { intros kv Hi. rewrite upd_length. apply H. right. exact Hi. }
    exists s'. rewrite upd_length in *. splits; auto. intros k' d Hk'. rewrite (V k' d Hk'). cbn [existsb fst]. rewrite nth_upd.
    destruct (existsb _ l); [rewrite orb_true_r; reflexivity|]. rewrite orb_false_r.
    destruct (Nat.eqb_spec k k') as [->|]; cbn [andb]; [rewrite (proj2 (Nat.ltb_lt _ _) Hk); exact Hv|reflexivity].
Qed.
Lemma writes_all : forall A (g : nat -> A) d l n, (forall k v, In (k, v) l -> k < n /\ v = g k) -> (forall k, k < n -> In (k, g k) l) ->
  foldM wstep l (repeat d n) = Ok (map g (seq 0 n)).
Proof.
  intros A g d l n H C. destruct (writes_spec A g l (repeat d n)) as (s' & E & L & V).
  { intros [k v] Hi. rewrite repeat_length. apply H. exact Hi. }
  rewrite E. f_equal. rewrite repeat_length in *. apply (nth_ext _ _ d (g 0)); rewrite ?map_length, ?seq_length; auto.
  intros k Hk. rewrite L in Hk. rewrite V by exact Hk. rewrite (proj2 (existsb_exists _ _)).
  - rewrite map_nth, seq_nth by exact Hk. reflexivity.
  - exists (k, g k). split; [apply C; exact Hk|]. cbn. apply Nat.eqb_refl.
Qed.
Lemma indexed : forall A (l : list (nat * A)) d a, map fst l = seq a (length l) -> l = map (fun k => (k, nth (k - a) (map snd l) d)) (seq a (length l)).
Proof.
  intros A l d. induction l as [|[k v] l IH]; intros a H; [reflexivity|]. cbn [map length seq fst snd] in *. injection H as -> H. f_equal.
  - rewrite Nat.sub_diag. reflexivity.
  - rewrite (IH (S a) H) at 1. apply map_ext_in. intros k Hk. apply in_seq in Hk. f_equal. replace (k - a) with (S (k - S a)) by lia. reflexivity.
Qed.
Lemma writes_seq : forall A (l : list (nat * A)) d n, map fst l = seq 0 n -> foldM wstep l (repeat d n) = Ok (map snd l).
Proof.
  intros A l d n H. assert (L : length l = n) by (rewrite <- (map_length fst), H, seq_length; reflexivity). subst n.
  rewrite (writes_all A (fun k => nth k (map snd l) d)).
  - f_equal. transitivity (map snd (map (fun k => (k, nth (k - 0) (map snd l) d)) (seq 0 (length l)))); [|rewrite <- (indexed A l d 0 H); reflexivity].
    rewrite map_map. cbn [snd]. apply map_ext. intro k. rewrite Nat.sub_0_r. reflexivity.
  - intros k v Hi. rewrite (indexed A l d 0 H) in Hi. apply in_map_iff in Hi. destruct Hi as (k' & E & Hk). inversion E; subst. apply in_seq in Hk. rewrite Nat.sub_0_r. split; [lia|reflexivity].
  - intros k Hk. assert (G : In (k, nth k (map snd l) d) (map (fun k => (k, nth (k - 0) (map snd l) d)) (seq 0 (length l)))); [|rewrite <- (indexed A l d 0 H) in G; exact G]. apply in_map_iff. exists k. rewrite Nat.sub_0_r. split; [reflexivity|apply in_seq; lia].
Qed.

(** put fills the array in order *)
Lemma puts_spec : forall A (es : list A) (l : list A) id, id + length es <= length l ->
  foldM (fun s e => put e s) es (l, id) = Ok (firstn id l ++ es ++ skipn (id + length es) l, id + length es).
Proof.
  intros A es. induction es as [|e es IH]; intros l id H; cbn [foldM length app] in *.
  - rewrite !Nat.add_0_r, firstn_skipn. reflexivity.
  - replace (put e (l, id)) with (Ok (upd l id e, S id)) by (unfold put; rewrite wr_Ok by lia; reflexivity). cbn [bind]. rewrite IH by (rewrite upd_length; lia). f_equal.
    assert (E : firstn (S id) (upd l id e) = firstn id l ++ [e]).
    { assert (F : forall (l : list A) id, id < length l -> firstn (S id) (upd l id e) = firstn id l ++ [e]).
      { intro l0. induction l0 as [|x l0 IH0]; intros [|i] Hi; cbn [length] in Hi; try lia; [reflexivity|]. cbn [upd firstn app]. f_equal. apply IH0. lia. }
      apply F. lia. }
    assert (G : skipn (S id + length es) (upd l id e) = skipn (id + S (length es)) l).
    { assert (F : forall (l : list A) id n, id < n -> skipn n (upd l id e) = skipn n l).
      { intro l0. induction l0 as [|x l0 IH0]; intros [|i] [|n] Hn; try lia; try reflexivity. cbn [upd skipn]. apply IH0. lia. }
      rewrite F by lia. f_equal. lia. }
    rewrite E, G, <- app_assoc. cbn [app]. f_equal. lia.
Qed.
Lemma puts_all : forall A (es : list A) (d : A) n, n = length es -> foldM (fun s e => put e s) es (repeat d n, 0) = Ok (es, n).
Proof. intros A es d n ->. rewrite puts_spec by (rewrite repeat_length; lia). cbn [firstn app Nat.add]. rewrite skipn_all2 by (rewrite repeat_length; lia). rewrite app_nil_r. reflexivity. Qed.

(** ** fixed lists *)
Definition fstep (pred : list R -> bool) (ulist : list Z) (out : fixed) (kp : nat * list R) : res fixed := Ok (push_fixed pred ulist (snd kp) (fst kp) out).
Lemma fixes : forall pred ulist l out, foldM (fstep pred ulist) l out =
  Ok (out ++ flat_map (fun kp : nat * list R => if pred (snd kp) then map (fun u => ((fst kp, u), 0%R)) ulist else []) l).
Proof.
  intros pred ulist l. induction l as [|[k p] l IH]; intro out; cbn [foldM flat_map]; [rewrite app_nil_r; reflexivity|].
  replace (fstep pred ulist out (k, p)) with (Ok (push_fixed pred ulist p k out)) by reflexivity. cbn [bind fst snd]. rewrite IH. unfold push_fixed. cbn [fst snd]. destruct (pred p); [rewrite <- app_assoc|]; reflexivity.
Qed.
Lemma fixes_nodes : forall pred ulist l n, map fst l = seq 0 n -> foldM (fstep pred ulist) l [] = Ok (fixed_nodes (map snd l) ulist pred).
Proof.
  intros pred ulist l n H. assert (L : length l = n) by (rewrite <- (map_length fst), H, seq_length; reflexivity). subst n.
  rewrite fixes. cbn [app]. unfold fixed_nodes. rewrite map_length. f_equal. rewrite (indexed _ l [] 0 H) at 1.
  assert (G : forall a b c, (forall k, In k a -> nth (k - 0) (map snd l) [] = b k) -> c = flat_map (fun k => if pred (b k) then map (fun u => ((k, u), 0%R)) ulist else []) a ->
    flat_map (fun kp : nat * list R => if pred (snd kp) then map (fun u => ((fst kp, u), 0%R)) ulist else []) (map (fun k => (k, nth (k - 0) (map snd l) [])) a) = c).
  { clear H. intro a. induction a as [|x a IH]; intros b c H1 ->; cbn [map flat_map fst snd]; [reflexivity|]. rewrite <- (H1 x (or_introl eq_refl)). f_equal.
    apply (IH b); [intros; apply H1; right; assumption|reflexivity]. }
  apply (G _ (fun k => nth k (map snd l) [])); [intros; rewrite Nat.sub_0_r; reflexivity|reflexivity].
Qed.

(** ** the order of grids *)
Lemma flat_seq : forall m n a, flat_map (fun i => seq (a + m * i) m) (seq 0 n) = seq a (m * n).
Proof.
  intros m n a. induction n as [|n IH]; [rewrite Nat.mul_0_r; reflexivity|]. rewrite seq_S, flat_map_app, IH. cbn [flat_map Nat.add]. rewrite app_nil_r.
  rewrite <- seq_app. f_equal. lia.
Qed.
Lemma map_flat_map : forall A B C (f : B -> C) (g : A -> list B) l, map f (flat_map g l) = flat_map (fun x => map f (g x)) l.
Proof. intros. induction l as [|x l IH]; cbn; [reflexivity|]. rewrite map_app, IH. reflexivity. Qed.
Lemma flat_map_ext' : forall A B (f g : A -> list B) l, (forall x, In x l -> f x = g x) -> flat_map f l = flat_map g l.
Proof. intros A B f g l H. induction l as [|x l IH]; cbn; [reflexivity|]. rewrite (H x (or_introl eq_refl)), IH; [reflexivity|]. intros; apply H; right; assumption. Qed.
Lemma map_seq_shift : forall n a, map (fun j => a + j) (seq 0 n) = seq a n.
Proof.
  intros n a. revert a. induction n as [|n IH]; intro a; [reflexivity|]. cbn [seq map]. f_equal; [lia|]. rewrite <- seq_shift, map_map. rewrite <- (IH (S a)). apply map_ext. intro. lia.
Qed.
Lemma map_seq_id : forall n a (f : nat -> nat), (forall j, j < n -> f j = a + j) -> map f (seq 0 n) = seq a n.
Proof. intros n a f H. rewrite <- (map_seq_shift n a). apply map_ext_in. intros j Hj. apply in_seq in Hj. apply H. lia. Qed.
Lemma grid_fst : forall A n m a (idx : nat -> nat -> nat) (v : nat -> nat -> A), (forall i j, i < n -> j < m -> idx i j = a + m * i + j) ->
  map fst (flat_map (fun i => map (fun j => (idx i j, v i j)) (seq 0 m)) (seq 0 n)) = seq a (m * n).
Proof.
  intros A n m a idx v H. rewrite map_flat_map, <- flat_seq. apply flat_map_ext'. intros i Hi. apply in_seq in Hi. rewrite map_map. cbn [fst].
  apply map_seq_id. intros. apply H; lia.
Qed.
Lemma grid_snd : forall A n m (idx : nat -> nat -> nat) (v : nat -> nat -> A),
  map snd (flat_map (fun i => map (fun j => (idx i j, v i j)) (seq 0 m)) (seq 0 n)) = map (fun c => v (fst c) (snd c)) (list_prod (seq 0 n) (seq 0 m)).
Proof.
  intros A n m idx v. rewrite map_flat_map. induction (seq 0 n) as [|i l IH]; [reflexivity|]. cbn [flat_map list_prod]. rewrite map_app, IH. f_equal. rewrite !map_map. reflexivity.
Qed.
Lemma nth_flat : forall A (f : nat -> list A) m n d i j, (forall i, i < n -> length (f i) = m) -> i < n -> j < m ->
  nth (m * i + j) (flat_map f (seq 0 n)) d = nth j (f i) d.
Proof.
  intros A f m n d i j. revert f i. induction n as [|n IH]; intros f i L Hi Hj; [lia|]. cbn [seq flat_map]. destruct i as [|i].
  - rewrite Nat.mul_0_r. cbn [Nat.add]. rewrite app_nth1 by (rewrite L; lia). reflexivity.
  - rewrite app_nth2 by (rewrite L; lia). rewrite L by lia. replace (m * S i + j - m) with (m * i + j) by lia. rewrite <- seq_shift.
    rewrite flat_map_concat_map, map_map, <- flat_map_concat_map. apply (IH (fun x => f (S x))); [intros; apply L; lia|lia|exact Hj].
Qed.
Lemma prod_flat : forall A B (l : list A) (l' : list B), list_prod l l' = flat_map (fun x => map (fun y => (x, y)) l') l.
Proof. intros. induction l; cbn; congruence. Qed.
Lemma nth_prod : forall n m d i j, i < n -> j < m -> nth (m * i + j) (list_prod (seq 0 n) (seq 0 m)) d = (i, j).
Proof.
  intros. rewrite prod_flat, (nth_flat _ _ m) by (auto; intros; rewrite map_length, seq_length; reflexivity).
  rewrite (nth_indep _ d (i, 0)) by (rewrite map_length, seq_length; assumption). rewrite (map_nth (fun y => (i, y))), seq_nth by assumption. reflexivity.
Qed.

(** ** lists without duplicates *)
Lemma NoDup_app' : forall A (l1 l2 : list A), NoDup l1 -> NoDup l2 -> (forall x, In x l1 -> In x l2 -> False) -> NoDup (l1 ++ l2).
Proof.
  intros A l1 l2 H1 H2 D. induction H1 as [|x l Hx H1 IH]; cbn; [exact H2|]. constructor.
  - rewrite in_app_iff. intros [H|H]; [exact (Hx H)|exact (D x (or_introl eq_refl) H)].
  - apply IH. intros y Hy. apply D. right. exact Hy.
Qed.
Lemma NoDup_map' : forall A B (f : A -> B) l, NoDup l -> (forall x y, In x l -> In y l -> f x = f y -> x = y) -> NoDup (map f l).
Proof.
  intros A B f l H. induction H as [|x l Hx H IH]; intro J; cbn; constructor.
  - intro C. apply in_map_iff in C. destruct C as (y & E & Hy). apply Hx. rewrite <- (J y x); [exact Hy|right; exact Hy|left; reflexivity|exact E].
  - apply IH. intros y z Hy Hz. apply J; right; assumption.
Qed.
Lemma NoDup_flat : forall A B (f : A -> list B) l, NoDup l -> (forall x, In x l -> NoDup (f x)) -> (forall x y b, In x l -> In y l -> In b (f x) -> In b (f y) -> x = y) -> NoDup (flat_map f l).
Proof.
  intros A B f l H. induction H as [|x l Hx H IH]; intros J K; cbn; [constructor|]. apply NoDup_app'.
  - apply J. left. reflexivity.
  - apply IH; [intros; apply J; right; assumption|]. intros y z b Hy Hz. apply K; right; assumption.
  - intros b Hb Hc. apply in_flat_map in Hc. destruct Hc as (y & Hy & Hc). apply Hx. rewrite (K x y b); auto; [left; reflexivity|right; exact Hy].
Qed.
Lemma NoDup_prod : forall A B (l : list A) (l' : list B), NoDup l -> NoDup l' -> NoDup (list_prod l l').
Proof.
  intros A B l l' H H'. rewrite prod_flat. apply NoDup_flat; [exact H| |].
  - intros x _. apply NoDup_map'; [exact H'|]. congruence.
  - intros x y b _ _ H1 H2. apply in_map_iff in H1, H2. destruct H1 as (? & E1 & _), H2 as (? & E2 & _). congruence.
Qed.

(** ** grids of cells: the cell (i,j) has the corners (i,j), (i+1,j), (i+1,j'), (i,j') where j' succeeds j *)
Section Grid.
Variables (sj : nat -> nat) (id : nat * nat -> nat) (P : nat * nat -> Prop) (cells : list (nat * nat)).
Definition corners (c : nat * nat) : list (nat * nat) := let (i, j) := c in [(i, j); (S i, j); (S i, sj j); (i, sj j)].
Definition csides (c : nat * nat) : list ((nat * nat) * (nat * nat)) :=
  let (i, j) := c in [((i, j), (S i, j)); ((S i, j), (S i, sj j)); ((S i, sj j), (i, sj j)); ((i, sj j), (i, j))].
Definition gsides := flat_map csides cells.
Definition gelements := map (fun c => map id (corners c)) cells.
Hypothesis ND : NoDup cells.
Hypothesis PC : forall c p, In c cells -> In p (corners c) -> P p.
Hypothesis idinj : forall p q, P p -> P q -> id p = id q -> p = q.
Hypothesis sj1 : forall i j, In (i, j) cells -> sj j <> j.
Hypothesis sj2 : forall i j i' j', In (i, j) cells -> In (i', j') cells -> sj j = sj j' -> j = j'.
Hypothesis sj3 : forall i j i' j', In (i, j) cells -> In (i', j') cells -> sj j = j' -> sj j' <> j.

Lemma gsides_nodup : NoDup gsides.
Proof.
  unfold gsides. apply NoDup_flat; [exact ND| |].
  - intros [i j] Hc. pose proof (sj1 i j Hc). unfold csides. repeat constructor; cbn; intro K; repeat (destruct K as [K|K]; [inversion K; lia|]); exact K.
  - intros [i j] [i' j'] b Hc Hc' H H'. unfold csides in *. cbn in H, H'.
    pose proof (sj1 _ _ Hc). pose proof (sj1 _ _ Hc'). pose proof (sj2 _ _ _ _ Hc Hc') as E. pose proof (sj3 _ _ _ _ Hc Hc') as F. pose proof (sj3 _ _ _ _ Hc' Hc) as F'.
    repeat (destruct H as [H|H]; [subst b; repeat (destruct H' as [H'|H']; [inversion H'; subst; try lia; try (rewrite E by congruence); try reflexivity;
      exfalso; try (apply F; congruence); try (apply F'; congruence); lia|]); destruct H'|]); destruct H.
Qed.
Lemma gsides_P : forall p q, In (p, q) gsides -> P p /\ P q.
Proof.
  intros p q H. unfold gsides in H. apply in_flat_map in H. destruct H as ([i j] & Hc & H). unfold csides in H. cbn in H.
  repeat (destruct H as [H|H]; [inversion H; subst; split; apply (PC (i, j)); cbn; auto|]); destruct H.
Qed.
Lemma all_sides_grid : all_sides gelements = map (fun s => (id (fst s), id (snd s))) gsides.
Proof. unfold all_sides, gelements, gsides. generalize cells as cs; intro cs; induction cs as [|[i j] l IH]; [reflexivity|]. cbn [map flat_map corners csides sides app]. rewrite IH. reflexivity. Qed.
Lemma in_all_sides : forall p q, P p -> P q -> (In (id p, id q) (all_sides gelements) <-> In (p, q) gsides).
Proof.
  intros p q Hp Hq. rewrite all_sides_grid. split; intro H.
  - apply in_map_iff in H. destruct H as ([p' q'] & E & H). cbn [fst snd] in E. destruct (gsides_P _ _ H). inversion E. rewrite (idinj p p'), (idinj q q'); auto.
  - apply in_map_iff. exists (p, q). auto.
Qed.
Lemma grid_conforming : forall N, (forall p, P p -> id p < N) -> conforming N gelements.
Proof.
  intros N HN. split.
  - intros e He. unfold gelements in He. apply in_map_iff in He. destruct He as ([i j] & <- & Hc). pose proof (sj1 _ _ Hc). split; [reflexivity|]. split.
    + apply NoDup_map'.
      * repeat constructor; cbn; intro K; repeat (destruct K as [K|K]; [inversion K; lia|]); exact K.
      * intros x y Hx Hy. apply idinj; eapply PC; eassumption.
    + intros k Hk. apply in_map_iff in Hk. destruct Hk as (p & <- & Hp). apply HN. eapply PC; eassumption.
  - rewrite all_sides_grid. apply NoDup_map'; [exact gsides_nodup|]. intros [p q] [p' q'] H H' E. cbn [fst snd] in E.
    destruct (gsides_P _ _ H), (gsides_P _ _ H'). inversion E. f_equal; apply idinj; auto.
Qed.
Lemma in_gsides : forall p q, In (p, q) gsides <-> exists i j, In (i, j) cells /\
  ((p = (i, j) /\ q = (S i, j)) \/ (p = (S i, j) /\ q = (S i, sj j)) \/ (p = (S i, sj j) /\ q = (i, sj j)) \/ (p = (i, sj j) /\ q = (i, j))).
Proof.
  intros p q. unfold gsides. rewrite in_flat_map. split.
  - intros ([i j] & Hc & H). exists i, j. split; [exact Hc|]. cbn in H. repeat (destruct H as [H|H]; [inversion H; subst; tauto|]). destruct H.
  - intros (i & j & Hc & H). exists (i, j). split; [exact Hc|]. cbn. destruct H as [(-> & ->)|[(-> & ->)|[(-> & ->)|(-> & ->)]]]; auto.
Qed.
Lemma grid_free : forall p q, (In (p, q) gsides /\ ~ In (q, p) gsides) <-> exists i j, In (i, j) cells /\
  ((p = (i, j) /\ q = (S i, j) /\ forall j', sj j' = j -> ~ In (i, j') cells) \/ (p = (S i, j) /\ q = (S i, sj j) /\ ~ In (S i, j) cells) \/
   (p = (S i, sj j) /\ q = (i, sj j) /\ ~ In (i, sj j) cells) \/ (p = (i, sj j) /\ q = (i, j) /\ forall i', S i' = i -> ~ In (i', j) cells)).
Proof.
  intros p q. split.
  - intros (H & N). apply in_gsides in H. destruct H as (i & j & Hc & H). exists i, j. split; [exact Hc|].
    destruct H as [(-> & ->)|[(-> & ->)|[(-> & ->)|(-> & ->)]]].
    + left. splits; auto. intros j' E H. apply N. apply in_gsides. exists i, j'. rewrite E. tauto.
    + right. left. splits; auto. intro H. apply N. apply in_gsides. exists (S i), j. tauto.
    + right. right. left. splits; auto. intro H. apply N. apply in_gsides. exists i, (sj j). tauto.
    + right. right. right. splits; auto. intros i' E H. apply N. apply in_gsides. exists i', j. rewrite E. tauto.
  - intros (i & j & Hc & H). pose proof (sj1 _ _ Hc) as S1. split; [apply in_gsides; exists i, j; tauto|]. intro C. apply in_gsides in C. destruct C as (k & l & Hk & C).
    pose proof (sj2 _ _ _ _ Hc Hk) as E. pose proof (sj3 _ _ _ _ Hc Hk) as F. pose proof (sj3 _ _ _ _ Hk Hc) as F'. pose proof (sj1 _ _ Hk) as S2.
    destruct H as [(-> & -> & H)|[(-> & -> & H)|[(-> & -> & H)|(-> & -> & H)]]]; destruct C as [(C1 & C2)|[(C1 & C2)|[(C1 & C2)|(C1 & C2)]]]; inversion C1; inversion C2; subst; try lia;
      try (apply H; assumption); try (eapply H; [reflexivity|assumption]); try (apply F; congruence); try (apply F'; congruence); try congruence;
      try (rewrite <- E in * by congruence; auto; fail); try (exfalso; apply H; rewrite (E eq_refl); assumption).
Qed.
Lemma grid_boundary : forall B, NoDup B -> (forall p q, In (p, q) B <-> In (p, q) gsides /\ ~ In (q, p) gsides) ->
  boundary gelements (map (fun s => [id (fst s); id (snd s)]) B).
Proof.
  intros B NB HB. split.
  - apply NoDup_map'; [exact NB|]. intros [p q] [p' q'] H H' E. cbn [fst snd] in E. apply HB in H, H'.
    destruct (gsides_P _ _ (proj1 H)), (gsides_P _ _ (proj1 H')). inversion E. f_equal; apply idinj; auto.
  - intro l. split.
    + intro H. apply in_map_iff in H. destruct H as ([p q] & <- & H). apply HB in H. destruct H as (H & N). destruct (gsides_P _ _ H). exists (id p), (id q). split; [reflexivity|].
      split; [apply in_all_sides; auto|]. intro C. apply in_all_sides in C; auto.
    + intros (a & b & -> & H & N). rewrite all_sides_grid in H. apply in_map_iff in H. destruct H as ([p q] & E & H). inversion E; subst. destruct (gsides_P _ _ H).
      apply in_map_iff. exists (p, q). split; [reflexivity|]. apply HB. split; [exact H|]. intro C. apply N. apply in_all_sides; auto.
Qed.

(** ** the same with a node on every side *)
Variables (mid : nat * nat -> nat * nat -> nat) (N0 : nat).
Definition gelements2 := map (fun c => map id (corners c) ++ map (fun s => mid (fst s) (snd s)) (csides c)) cells.
Hypothesis idN0 : forall p, P p -> id p < N0.
Hypothesis midN0 : forall p q, In (p, q) gsides -> N0 <= mid p q.
Hypothesis midsym : forall p q, In (p, q) gsides -> mid p q = mid q p.
Hypothesis midinj : forall p q p' q', In (p, q) gsides -> In (p', q') gsides -> mid p q = mid p' q' -> (p, q) = (p', q') \/ (p, q) = (q', p').
Definition lift2 (s : (nat * nat) * (nat * nat)) := (id (fst s), id (snd s), mid (fst s) (snd s)).
Lemma all_sides2_grid : all_sides2 gelements2 = map lift2 gsides.
Proof. unfold all_sides2, gelements2, gsides. generalize cells as cs. intro cs. induction cs as [|[i j] l IH]; [reflexivity|]. cbn [map flat_map corners csides sides2 app fst snd]. rewrite IH. reflexivity. Qed.
Lemma in_all_sides2 : forall p q m, P p -> P q -> (In (id p, id q, m) (all_sides2 gelements2) <-> In (p, q) gsides /\ m = mid p q).
Proof.
  intros p q m Hp Hq. rewrite all_sides2_grid. split; intro H.
  - apply in_map_iff in H. destruct H as ([p' q'] & E & H). unfold lift2 in E. cbn [fst snd] in E. destruct (gsides_P _ _ H). inversion E. rewrite (idinj p p'), (idinj q q'); auto.
  - apply in_map_iff. exists (p, q). unfold lift2. cbn [fst snd]. destruct H as (H & ->). auto.
Qed.
Lemma grid_conforming2 : forall N, N0 <= N -> (forall p q, In (p, q) gsides -> mid p q < N) -> conforming2 N gelements2.
Proof.
  intros N HN HM. destruct (grid_conforming N0 idN0) as (C1 & C2). split; [|split; [|split]].
  - intros e He. unfold gelements2 in He. apply in_map_iff in He. destruct He as ([i j] & <- & Hc).
    destruct (C1 (map id (corners (i, j)))) as (_ & D & F); [apply in_map_iff; exists (i, j); auto|].
    assert (G : forall s, In s (csides (i, j)) -> In s gsides) by (intros s Hs; apply in_flat_map; exists (i, j); auto).
    pose proof (sj1 _ _ Hc) as S1. split; [reflexivity|]. split.
    + apply NoDup_app'; [exact D| |].
      * apply NoDup_map'.
        { repeat constructor; cbn; intro K; repeat (destruct K as [K|K]; [inversion K; lia|]); exact K. }
        intros [p q] [p' q'] Hx Hy E. cbn [fst snd] in E. destruct (midinj p q p' q') as [Q|Q]; auto. exfalso. inversion Q; subst.
        cbn in Hx, Hy. repeat (destruct Hx as [Hx|Hx]; [inversion Hx; subst; repeat (destruct Hy as [Hy|Hy]; [inversion Hy; lia|]); destruct Hy|]); destruct Hx.
      * intros k Hk Hk'. apply F in Hk. apply in_map_iff in Hk'. destruct Hk' as ([p q] & <- & Hs). pose proof (midN0 p q (G _ Hs)). cbn [fst snd] in Hk. lia.
    + intros k Hk. apply in_app_iff in Hk. destruct Hk as [Hk|Hk]; [apply F in Hk; lia|]. apply in_map_iff in Hk. destruct Hk as ([p q] & <- & Hs). apply HM. apply G. exact Hs.
  - rewrite all_sides2_grid, map_map. cbn [lift2 fst]. rewrite all_sides_grid in C2. exact C2.
  - intros a b m m' H H'. rewrite all_sides2_grid in H. apply in_map_iff in H. destruct H as ([p q] & E & H). inversion E; subst. destruct (gsides_P _ _ H).
    cbn [fst snd] in *. apply in_all_sides2 in H'; auto. destruct H' as (_ & ->). apply midsym. exact H.
  - intros a b a' b' m H H'. rewrite all_sides2_grid in H, H'. apply in_map_iff in H, H'. destruct H as ([p q] & E & H), H' as ([p' q'] & E' & H').
    inversion E; inversion E'; subst. cbn [fst snd] in *. destruct (midinj p q p' q') as [Q|Q]; auto; inversion Q; auto.
Qed.
Lemma grid_boundary2 : forall B, NoDup B -> (forall p q, In (p, q) B <-> In (p, q) gsides /\ ~ In (q, p) gsides) ->
  boundary2 gelements2 (map (fun s => [id (fst s); id (snd s); mid (fst s) (snd s)]) B).
Proof.
  intros B NB HB. split.
  - apply NoDup_map'; [exact NB|]. intros [p q] [p' q'] H H' E. cbn [fst snd] in E. apply HB in H, H'.
    destruct (gsides_P _ _ (proj1 H)), (gsides_P _ _ (proj1 H')). inversion E. f_equal; apply idinj; auto.
  - intro l. split.
    + intro H. apply in_map_iff in H. destruct H as ([p q] & <- & H). apply HB in H. destruct H as (H & N). destruct (gsides_P _ _ H). exists (id p), (id q), (mid p q). split; [reflexivity|].
      split; [apply in_all_sides2; auto|]. intros m' C. apply in_all_sides2 in C; auto. destruct C; auto.
    + intros (a & b & m & -> & H & N). rewrite all_sides2_grid in H. apply in_map_iff in H. destruct H as ([p q] & E & H). inversion E; subst. destruct (gsides_P _ _ H).
      apply in_map_iff. exists (p, q). split; [reflexivity|]. apply HB. split; [exact H|]. intro C. apply (N (mid q p)). apply in_all_sides2; auto.
Qed.
End Grid.

(** ** cells between increasing coordinates *)
Local Open Scope R_scope.
Lemma increasing : forall (X : nat -> R) n, (forall i, (i < n)%nat -> X i < X (S i)) -> forall i j, (i < j)%nat -> (j <= n)%nat -> X i < X j.
Proof.
  intros X n H i j Hij. induction Hij as [|j Hij IH]; intro Hj; [apply H; lia|]. apply Rlt_trans with (X j); [apply IH; lia|apply H; lia].
Qed.
Lemma between : forall (X : nat -> R) n p, X 0%nat <= p < X n -> exists i, (i < n)%nat /\ X i <= p < X (S i).
Proof.
  intros X n p. induction n as [|n IH]; intros (H1 & H2); [exfalso; apply (Rlt_irrefl p); apply Rlt_le_trans with (X 0%nat); assumption|].
  destruct (Rlt_dec p (X n)) as [H|H]; [destruct IH as (i & Hi & Q); [split; assumption|]; exists i; split; [lia|exact Q]|].
  exists n. split; [lia|]. split; [apply Rnot_lt_le; exact H|exact H2].
Qed.
Lemma between_unique : forall (X : nat -> R) n p i j, (forall i, (i < n)%nat -> X i < X (S i)) -> (i < n)%nat -> (j < n)%nat ->
  X i <= p < X (S i) -> X j <= p < X (S j) -> i = j.
Proof.
  intros X n p i j H Hi Hj (A1 & A2) (B1 & B2). destruct (Nat.lt_trichotomy i j) as [C|[C|C]]; [|exact C|]; exfalso.
  - assert (X (S i) <= X j) by (destruct (Nat.eq_dec (S i) j) as [->|]; [apply Rle_refl|left; apply (increasing X n H); lia]). apply (Rlt_irrefl p).
    apply Rlt_le_trans with (X (S i)); [exact A2|]. apply Rle_trans with (X j); assumption.
  - assert (X (S j) <= X i) by (destruct (Nat.eq_dec (S j) i) as [->|]; [apply Rle_refl|left; apply (increasing X n H); lia]). apply (Rlt_irrefl p).
    apply Rlt_le_trans with (X (S j)); [exact B2|]. apply Rle_trans with (X i); assumption.
Qed.
Lemma tiles_iff : forall nodes els (P Q : R -> R -> Prop), (forall p q, P p q <-> Q p q) -> tiles nodes els P -> tiles nodes els Q.
Proof. intros nodes els P Q E (H1 & H2 & H3). split; [exact H1|]. split; intros; [apply H2, E; assumption|apply E; eapply H3; eassumption]. Qed.
Lemma rectangle_unique : forall nodes e x0 y0 x1 y1 x0' y0' x1' y1', rectangle nodes e x0 y0 x1 y1 -> rectangle nodes e x0' y0' x1' y1' -> x0 = x0' /\ y0 = y0' /\ x1 = x1' /\ y1 = y1'.
Proof. intros nodes e x0 y0 x1 y1 x0' y0' x1' y1' (H & _) (H' & _). rewrite H in H'. inversion H'. auto. Qed.
(** els: lists that begin with the four corners of the cells *)
Lemma grid_tiles : forall (X Y : nat -> R) nx ny nodes (id : nat * nat -> nat) cells els,
  (forall i, (i < nx)%nat -> X i < X (S i)) -> (forall j, (j < ny)%nat -> Y j < Y (S j)) ->
  NoDup cells -> (forall i j, In (i, j) cells -> (i < nx)%nat /\ (j < ny)%nat) ->
  (forall c p, In c cells -> In p (corners S c) -> nth (id p) nodes [] = [X (fst p); Y (snd p)]) ->
  map (firstn 4) els = gelements S id cells ->
  tiles nodes els (fun p q => exists i j, In (i, j) cells /\ X i <= p < X (S i) /\ Y j <= q < Y (S j)).
Proof.
  intros X Y nx ny nodes id cells els HX HY ND Hc Hn E.
  assert (Rk : forall k e, nth_error els k = Some e -> exists i j, nth_error cells k = Some (i, j) /\ rectangle nodes e (X i) (Y j) (X (S i)) (Y (S j))).
  { intros k e Hk. assert (K : nth_error (map (firstn 4) els) k = Some (firstn 4 e)) by (apply map_nth_error; exact Hk). rewrite E in K. unfold gelements in K.
    rewrite nth_error_map in K. destruct (nth_error cells k) as [[i j]|] eqn:Ec; [|discriminate K]. cbn [option_map] in K. assert (K2 : map id (corners S (i, j)) = firstn 4 e) by congruence.
    exists i, j. split; [reflexivity|]. apply nth_error_In in Ec. destruct (Hc i j Ec) as (Hi & Hj). unfold rectangle. rewrite <- K2, map_map. cbn [map corners].
    rewrite !(Hn (i, j)) by (cbn; auto). cbn [fst snd]. auto. }
  assert (Re : forall e, In e els -> exists i j, In (i, j) cells /\ rectangle nodes e (X i) (Y j) (X (S i)) (Y (S j))).
  { intros e He. apply In_nth_error in He. destruct He as (k & Hk). destruct (Rk k e Hk) as (i & j & Q & Q'). apply nth_error_In in Q. eauto. }
  split; [|split].
  - intros e He. destruct (Re e He) as (i & j & _ & Q). eauto.
  - intros p q (i & j & Hij & Hp & Hq). apply In_nth_error in Hij. destruct Hij as (k & Hk).
    assert (L : length els = length cells) by (rewrite <- (map_length (firstn 4) els), E; apply map_length).
    destruct (nth_error els k) as [e|] eqn:Ee; [|exfalso; apply nth_error_None in Ee; assert (nth_error cells k <> None) by congruence; apply nth_error_Some in H; lia].
    exists k, e. destruct (Rk k e Ee) as (i' & j' & Q & Q'). rewrite Hk in Q. injection Q as <- <-. split; [first [reflexivity|exact Ee]|]. split.
    + exists (X i), (Y j), (X (S i)), (Y (S j)). unfold inside. auto.
    + intros k' e' Hk' (x0 & y0 & x1 & y1 & Hr & (Hp' & Hq')). destruct (Rk k' e' Hk') as (i' & j' & U & U').
      destruct (rectangle_unique _ _ _ _ _ _ _ _ _ _ Hr U') as (-> & -> & -> & ->).
      pose proof (Hc _ _ (nth_error_In _ _ Hk)) as (B1 & B2). pose proof (Hc _ _ (nth_error_In _ _ U)) as (B3 & B4).
      assert (i' = i) by (apply (between_unique X nx p); auto). assert (j' = j) by (apply (between_unique Y ny q); auto). subst i' j'.
      apply (proj1 (NoDup_nth_error cells) ND); [apply nth_error_Some; congruence|congruence].
  - intros p q e He (x0 & y0 & x1 & y1 & Hr & (Hp' & Hq')). destruct (Re e He) as (i & j & U & U'). destruct (rectangle_unique _ _ _ _ _ _ _ _ _ _ Hr U') as (-> & -> & -> & ->). eauto.
Qed.
