(** Loops over arrays, Lagrange interpolation. *)
From Coq Require Import List Arith Lia Bool Reals Lra.
From Verif Require Import Res SumR DenseModel DenseR SturmMath GenModel.
Import ListNotations.
Local Open Scope R_scope.

Definition rprod (l : list R) : R := fold_right Rmult 1 l.

(** ** Loops *)
Lemma upd_nth_id {A} (l : list A) i d : upd l i (nth i l d) = l.
Proof. revert i. induction l as [|a l IH]; intros [|i]; cbn; auto. now rewrite IH. Qed.
Lemma upd_upd {A} (l : list A) i a b : upd (upd l i a) i b = upd l i b.
Proof. revert i. induction l as [|c l IH]; intros [|i]; cbn; auto. now rewrite IH. Qed.
Lemma nth_upd_same {A} (l : list A) i a d : (i < length l)%nat -> nth i (upd l i a) d = a.
Proof. intros H. rewrite nth_upd, Nat.eqb_refl. now apply Nat.ltb_lt in H as ->. Qed.

(** a loop whose body changes only entry i *)
Lemma cell_fold {V X} (d : V) (step : list V -> X -> res (list V)) (h : V -> X -> V) (i : nat) (l : list X) :
  (forall L x, In x l -> (i < length L)%nat -> step L x = Ok (upd L i (h (nth i L d) x))) ->
  forall L, (i < length L)%nat -> foldM step l L = Ok (upd L i (fold_left h l (nth i L d))).
Proof.
  induction l as [|x l IH]; intros H L HL; cbn [foldM fold_left]; [now rewrite upd_nth_id|].
  rewrite H; [|now left|auto]. cbn [bind]. rewrite IH.
  - now rewrite upd_upd, nth_upd_same.
  - intros; apply H; auto. now right.
  - now rewrite upd_length.
Qed.
(** a loop over all entries whose pass i changes only entry i *)
Lemma rows_fold' {V} (d : V) (n : nat) (step : list V -> nat -> res (list V)) (g : nat -> V -> V) L0 :
  (forall L i, length L = n -> (i < n)%nat -> nth i L d = nth i L0 d -> step L i = Ok (upd L i (g i (nth i L d)))) ->
  length L0 = n -> foldM step (seq 0 n) L0 = Ok (map (fun i => g i (nth i L0 d)) (seq 0 n)).
Proof.
  intros H H0.
  set (F := fun k i => if (i <? k)%nat then g i (nth i L0 d) else nth i L0 d).
  assert (NM : forall k j, (j < n)%nat -> nth j (map (F k) (seq 0 n)) d = F k j).
  { intros a j Hj. rewrite (nth_indep _ d (F a O)) by (rewrite map_length, seq_length; lia). now rewrite map_nth, seq_nth by lia. }
  assert (P : forall k, (k <= n)%nat -> foldM step (seq 0 k) L0 = Ok (map (F k) (seq 0 n))).
  { induction k as [|k IH]; intros Hk.
    - cbn [seq foldM]. f_equal. apply (nth_ext _ _ d d); [now rewrite map_length, seq_length|]. intros j Hj.
      rewrite NM by lia. reflexivity.
    - rewrite seq_S, foldM_app, IH by lia. cbn [bind foldM Nat.add].
      rewrite H; [|now rewrite map_length, seq_length|lia|rewrite NM by lia; unfold F; now rewrite Nat.ltb_irrefl]. cbn [bind]. f_equal.
      apply (nth_ext _ _ d d); [now rewrite upd_length, !map_length|]. rewrite upd_length, map_length, seq_length. intros j Hj.
      rewrite nth_upd, map_length, seq_length, !NM by lia. unfold F.
      destruct (Nat.eqb_spec k j) as [->|Hne].
      + rewrite (proj2 (Nat.ltb_lt j n)) by lia. cbn [andb]. rewrite Nat.ltb_irrefl, (proj2 (Nat.ltb_lt j (S j))) by lia. reflexivity.
      + cbn [andb]. destruct (Nat.ltb_spec j k), (Nat.ltb_spec j (S k)); auto; lia. }
  rewrite P by lia. f_equal. apply map_ext_in. intros i Hi. apply in_seq in Hi. unfold F. rewrite (proj2 (Nat.ltb_lt i n)) by lia. reflexivity.
Qed.
Lemma rows_fold {V} (d : V) (n : nat) (step : list V -> nat -> res (list V)) (g : nat -> V -> V) :
  (forall L i, length L = n -> (i < n)%nat -> step L i = Ok (upd L i (g i (nth i L d)))) ->
  forall L0, length L0 = n -> foldM step (seq 0 n) L0 = Ok (map (fun i => g i (nth i L0 d)) (seq 0 n)).
Proof. intros H L0 H0. apply rows_fold'; auto. Qed.
(** a loop with a pass that faults in every state *)
Lemma fold_fails {S X} (f : S -> X -> res S) (Inv : S -> Prop) e l x0 s :
  (forall s x, Inv s -> In x l -> (exists s', f s x = Ok s' /\ Inv s') \/ f s x = Fail e) ->
  In x0 l -> (forall s, Inv s -> f s x0 = Fail e) -> Inv s -> foldM f l s = Fail e.
Proof.
  revert s. induction l as [|x l IH]; intros s H Hin H0 HI; [destruct Hin|]. cbn [foldM].
  destruct Hin as [->|Hin]; [now rewrite H0|].
  destruct (H s x HI (or_introl eq_refl)) as [(s' & -> & HI')| -> ]; [|reflexivity]. cbn [bind]. apply IH; auto.
  intros s1 x1 H1 H2. apply H; auto. now right.
Qed.
Lemma fold_or {S X} (f : S -> X -> res S) (Inv : S -> Prop) e l s :
  (forall s x, Inv s -> In x l -> (exists s', f s x = Ok s' /\ Inv s') \/ f s x = Fail e) ->
  Inv s -> (exists s', foldM f l s = Ok s' /\ Inv s') \/ foldM f l s = Fail e.
Proof.
  revert s. induction l as [|x l IH]; intros s H HI; cbn [foldM]; [left; eauto|].
  destruct (H s x HI (or_introl eq_refl)) as [(s' & -> & HI')| -> ]; [|now right]. cbn [bind]. apply IH; auto.
  intros s1 x1 H1 H2. apply H; auto. now right.
Qed.

Lemma derivable_pt_lim_ext f g x l : (forall y, f y = g y) -> derivable_pt_lim f x l -> derivable_pt_lim g x l.
Proof. intros E H eps He. destruct (H eps He) as (d & Hd). exists d. intros h H0 H1. rewrite <- !E. auto. Qed.

(** ** LagrangeInterpolation *)
(** the factors of N_i, and of the term of dN_i with factor j differentiated *)
Definition lag_fac (xs : list R) (x : R) (i j : nat) : R := (x - nth j xs 0) / (nth i xs 0 - nth j xs 0).
Definition lag_value (xs : list R) (x : R) (i : nat) : R :=
  fold_left (fun a j => if (i =? j)%nat then a else a * lag_fac xs x i j) (seq 0 (length xs)) 1.
Lemma nodup_ne (xs : list R) i j : NoDup xs -> (i < length xs)%nat -> (j < length xs)%nat -> i <> j -> nth i xs 0 - nth j xs 0 <> 0.
Proof. intros H Hi Hj Hne E. apply Hne. apply (proj1 (NoDup_nth xs 0) H); auto. lra. Qed.
Lemma lagrange_ok xs x : NoDup xs -> LagrangeInterpolation xs x = Ok (map (lag_value xs x) (seq 0 (length xs))).
Proof.
  intros H. unfold LagrangeInterpolation. set (n := length xs).
  rewrite (rows_fold 0 n _ (fun i a => fold_left (fun a j => if (i =? j)%nat then a else a * lag_fac xs x i j) (seq 0 n) a)).
  - f_equal. apply map_ext_in. intros i Hi. apply in_seq in Hi. rewrite nth_repeat_lt || rewrite (nth_indep _ 0 1) by (rewrite repeat_length; lia).
    rewrite nth_repeat. reflexivity.
  - intros L i HL Hi. apply (cell_fold 0); [|lia]. intros L' j Hj HL'. apply in_seq in Hj. unfold n in Hi, Hj.
    destruct (Nat.eqb_spec i j) as [->|Hne]; [now rewrite upd_nth_id|].
    rewrite !(rd_nth xs _ 0) by lia. cbn [bind]. rewrite Rdiv_res_ok by (apply nodup_ne; auto; lia). cbn [bind].
    rewrite (rd_nth L' i 0) by lia. cbn [bind]. now rewrite wr_Ok by lia.
  - now rewrite repeat_length.
Qed.
Lemma lagrange_fails xs x : ~ NoDup xs -> LagrangeInterpolation xs x = Fail DivByZero.
Proof.
  intros H. unfold LagrangeInterpolation. set (n := length xs).
  assert (D : exists i j, (i < n)%nat /\ (j < n)%nat /\ i <> j /\ nth i xs 0 = nth j xs 0).
  { destruct (Classical_Prop.classic (exists i j, (i < n)%nat /\ (j < n)%nat /\ i <> j /\ nth i xs 0 = nth j xs 0)) as [C|C]; auto.
    exfalso. apply H. apply (proj2 (NoDup_nth xs 0)). intros i j Hi Hj E. destruct (Nat.eq_dec i j) as [e|e]; auto. exfalso. apply C. exists i, j. auto. }
  destruct D as (i & j & Hi & Hj & Hne & E).
  set (Inv := fun L : list R => length L = n).
  assert (ST : forall a L k, (a < n)%nat -> Inv L -> In k (seq 0 n) ->
     (exists s', (if (a =? k)%nat then Ok L else xj <- rd xs k ;; xi <- rd xs a ;; f <- Rdiv_res (x - xj) (xi - xj) ;; n <- rd L a ;; wr L a (n * f)) = Ok s' /\ Inv s') \/
     (if (a =? k)%nat then Ok L else xj <- rd xs k ;; xi <- rd xs a ;; f <- Rdiv_res (x - xj) (xi - xj) ;; n <- rd L a ;; wr L a (n * f)) = Fail DivByZero).
  { intros a L k Ha HL Hk. apply in_seq in Hk. unfold Inv, n in *. destruct (a =? k)%nat; [left; eauto|].
    rewrite !(rd_nth xs _ 0) by lia. cbn [bind]. unfold Rdiv_res. destruct (Req_EM_T _ 0); [now right|]. cbn [bind].
    rewrite (rd_nth L a 0) by lia. cbn [bind]. rewrite wr_Ok by lia. left. eexists. split; [reflexivity|]. now rewrite upd_length. }
  apply (fold_fails _ Inv DivByZero _ i).
  - intros L a HL Ha. apply in_seq in Ha. apply fold_or; [|exact HL]. intros L' k HL' Hk. apply ST; auto. lia.
  - apply in_seq; lia.
  - intros L HL. apply (fold_fails _ Inv DivByZero _ j); [| | |exact HL].
    + intros L' k HL' Hk. apply ST; auto.
    + apply in_seq; lia.
    + intros L' HL'. destruct (Nat.eqb_spec i j); [contradiction|]. unfold n in *. rewrite !(rd_nth xs _ 0) by lia. cbn [bind].
      unfold Rdiv_res. destruct (Req_EM_T _ 0) as [_|C]; [reflexivity|]. exfalso. apply C. rewrite E. ring.
  - unfold Inv. apply repeat_length.
Qed.

(** values *)
Lemma lag_fold_mult xs x i l a : fold_left (fun a j => if (i =? j)%nat then a else a * lag_fac xs x i j) l a
  = a * fold_left (fun a j => if (i =? j)%nat then a else a * lag_fac xs x i j) l 1.
Proof.
  revert a. induction l as [|j l IH]; intros a; cbn [fold_left]; [ring|]. destruct (i =? j)%nat; [apply IH|].
  rewrite (IH (a * _)), (IH (1 * _)). ring.
Qed.
Lemma lag_self xs i : NoDup xs -> (i < length xs)%nat -> lag_value xs (nth i xs 0) i = 1.
Proof.
  intros H Hi. unfold lag_value.
  assert (G : forall l, (forall j, In j l -> (j < length xs)%nat) -> fold_left (fun a j => if (i =? j)%nat then a else a * lag_fac xs (nth i xs 0) i j) l 1 = 1).
  { induction l as [|j l IH]; intros Hl; cbn [fold_left]; auto. destruct (Nat.eqb_spec i j) as [->|Hne]; [apply IH; intros; apply Hl; now right|].
    replace (1 * lag_fac xs (nth i xs 0) i j) with 1; [apply IH; intros; apply Hl; now right|].
    unfold lag_fac. field. apply nodup_ne; auto. apply Hl. now left. }
  apply G. intros j Hj. apply in_seq in Hj. lia.
Qed.
Lemma lag_other xs i j : (j < length xs)%nat -> i <> j -> lag_value xs (nth j xs 0) i = 0.
Proof.
  intros Hj Hne. unfold lag_value. assert (Hin : In j (seq 0 (length xs))) by (apply in_seq; lia).
  apply in_split in Hin as (l1 & l2 & ->). rewrite fold_left_app. cbn [fold_left].
  destruct (Nat.eqb_spec i j); [contradiction|]. rewrite lag_fold_mult.
  replace (lag_fac xs (nth j xs 0) i j) with 0; [ring|]. unfold lag_fac, Rdiv. ring.
Qed.
(** degree *)
Lemma lag_pdeg xs i : (i < length xs)%nat -> pdeg (length xs) (fun x => lag_value xs x i).
Proof.
  intros Hi. unfold lag_value.
  assert (G : forall l k, pdeg (S k + length (filter (fun j => negb (i =? j)%nat) l))
     (fun x => fold_left (fun a j => if (i =? j)%nat then a else a * lag_fac xs x i j) l 1)).
  { induction l as [|j l IH]; intros k; cbn [fold_left filter length].
    - rewrite Nat.add_0_r. apply pdeg_const.
    - destruct (i =? j)%nat; cbn [negb length]; [apply IH|].
      apply (pdeg_ext _ _ (fun x => x * (/ (nth i xs 0 - nth j xs 0) * fold_left (fun a j => if (i =? j)%nat then a else a * lag_fac xs x i j) l 1)
         + (- nth j xs 0 / (nth i xs 0 - nth j xs 0)) * fold_left (fun a j => if (i =? j)%nat then a else a * lag_fac xs x i j) l 1)).
      + intros x. rewrite lag_fold_mult. unfold lag_fac at 1. unfold Rdiv. ring.
      + replace (S k + S (length (filter (fun j => negb (i =? j)%nat) l)))%nat with (S (S k + length (filter (fun j => negb (i =? j)%nat) l))) by lia.
        apply pdeg_plus; [apply pdeg_x, pdeg_scal, IH|apply pdeg_up, pdeg_scal, IH]. }
  assert (FL : S (length (filter (fun j => negb (i =? j)%nat) (seq 0 (length xs)))) = length xs).
  { assert (K : forall n s, length (filter (fun j => negb (i =? j)%nat) (seq s n)) = (if (s <=? i)%nat && (i <? s + n)%nat then n - 1 else n)%nat).
    { induction n as [|n IH]; intros s; cbn [seq filter length].
      - now destruct (_ && _).
      - destruct (Nat.eqb_spec i s) as [->|Hne]; cbn [negb length]; rewrite IH.
        + rewrite (proj2 (Nat.leb_gt (S s) s)) by lia. cbn [andb]. rewrite (proj2 (Nat.leb_le s s)), (proj2 (Nat.ltb_lt s (s + S n))) by lia. cbn [andb]. lia.
        + destruct (Nat.leb_spec (S s) i), (Nat.leb_spec s i); cbn [andb]; try lia.
          destruct (Nat.ltb_spec i (S s + n)), (Nat.ltb_spec i (s + S n)); lia. }
    rewrite K. rewrite (proj2 (Nat.ltb_lt i (0 + length xs))) by lia. cbn [Nat.leb andb]. lia. }
  rewrite <- FL at 1. apply (G _ O).
Qed.
Lemma lag_poly xs p x : NoDup xs -> pdeg (length xs) p -> bigsum (length xs) (fun i => lag_value xs x i * p (nth i xs 0)) = p x.
Proof.
  intros H Hp. apply Rminus_diag_uniq.
  apply (pdeg_roots (length xs) (fun x => bigsum (length xs) (fun i => lag_value xs x i * p (nth i xs 0)) - p x) (fun i => nth i xs 0)).
  - apply (pdeg_ext _ _ (fun x => bigsum (length xs) (fun i => lag_value xs x i * p (nth i xs 0)) + (-1) * p x)); [intros; ring|].
    apply pdeg_plus; [|now apply pdeg_scal].
    assert (G : forall k, (k <= length xs)%nat -> pdeg (length xs) (fun x => bigsum k (fun i => lag_value xs x i * p (nth i xs 0)))).
    { induction k as [|k IH]; intros Hk; cbn [bigsum].
      - destruct (length xs); [exists (fun _ => 0); intros; reflexivity|apply pdeg_const].
      - apply pdeg_plus; [apply IH; lia|]. apply (pdeg_ext _ _ (fun x => p (nth k xs 0) * lag_value xs x k)); [intros; ring|].
        apply pdeg_scal, lag_pdeg. lia. }
    apply G. lia.
  - intros i j Hij Hj E. apply (nodup_ne xs i j H); try lia. rewrite E. ring.
  - intros j Hj. rewrite (bigsum_single _ j); auto.
    + rewrite lag_self by auto. ring.
    + intros i Hi Hne. rewrite lag_other by auto. ring.
Qed.

(** ** LagrangeInterpolationDerivative *)
Definition dlag_fac (xs : list R) (x : R) (i j k : nat) : R :=
  if (k =? i)%nat then 1 else if (k =? j)%nat then 1 / (nth i xs 0 - nth k xs 0) else lag_fac xs x i k.
Definition dlag_term (xs : list R) (x : R) (i j : nat) (l : list nat) : R := rprod (map (dlag_fac xs x i j) l).
Definition dlag_value (xs : list R) (x : R) (i : nat) : R :=
  fold_left (fun a j => if (j =? i)%nat then a else a + dlag_term xs x i j (seq 0 (length xs))) (seq 0 (length xs)) 0.
Lemma lagrange_term_ok xs x i j : NoDup xs -> (i < length xs)%nat ->
  lagrange_term xs x i j = Ok (dlag_term xs x i j (seq 0 (length xs))).
Proof.
  intros H Hi. unfold lagrange_term, dlag_term.
  match goal with |- foldM ?f _ _ = _ => set (stp := f) end.
  assert (ST : forall k a, (k < length xs)%nat -> stp a k = Ok (a * dlag_fac xs x i j k)).
  { intros k a Hk. unfold stp, dlag_fac. destruct (Nat.eqb_spec k i) as [->|Hki]; cbn [negb andb].
    - rewrite andb_false_r. f_equal. ring.
    - rewrite andb_true_r. assert (N : nth i xs 0 - nth k xs 0 <> 0) by (apply nodup_ne; auto).
      destruct (k =? j)%nat; cbn [negb]; rewrite !(rd_nth xs _ 0) by lia; cbn [bind]; rewrite Rdiv_res_ok by auto; reflexivity. }
  assert (G : forall l a, (forall k, In k l -> (k < length xs)%nat) -> foldM stp l a = Ok (a * rprod (map (dlag_fac xs x i j) l))).
  { induction l as [|k l IH]; intros a Hl; cbn [foldM map rprod fold_right]; [now rewrite Rmult_1_r|].
    rewrite ST by (apply Hl; now left). cbn [bind]. rewrite IH by (intros; apply Hl; now right). unfold rprod. f_equal. ring. }
  rewrite G; [f_equal; ring|]. intros k Hk. apply in_seq in Hk. lia.
Qed.
Lemma dlagrange_ok xs x : NoDup xs -> LagrangeInterpolationDerivative xs x = Ok (map (dlag_value xs x) (seq 0 (length xs))).
Proof.
  intros H. unfold LagrangeInterpolationDerivative. set (n := length xs).
  rewrite (rows_fold 0 n _ (fun i a => fold_left (fun a j => if (j =? i)%nat then a else a + dlag_term xs x i j (seq 0 (length xs))) (seq 0 n) a)).
  - f_equal. apply map_ext_in. intros i Hi. rewrite nth_repeat. reflexivity.
  - intros L i HL Hi. apply (cell_fold 0); [|lia]. intros L' j Hj HL'. apply in_seq in Hj. unfold n in Hi, Hj.
    destruct (Nat.eqb_spec j i) as [->|Hne]; [now rewrite upd_nth_id|].
    rewrite lagrange_term_ok by auto. cbn [bind].
    rewrite (rd_nth L' i 0) by lia. cbn [bind]. now rewrite wr_Ok by lia.
  - now rewrite repeat_length.
Qed.
Lemma dup_pair (xs : list R) : ~ NoDup xs -> exists i j, (i < length xs)%nat /\ (j < length xs)%nat /\ i <> j /\ nth i xs 0 = nth j xs 0.
Proof.
  intros H. destruct (Classical_Prop.classic (exists i j, (i < length xs)%nat /\ (j < length xs)%nat /\ i <> j /\ nth i xs 0 = nth j xs 0)) as [C|C]; auto.
  exfalso. apply H. apply (proj2 (NoDup_nth xs 0)). intros i j Hi Hj E. destruct (Nat.eq_dec i j) as [e|e]; auto. exfalso. apply C. exists i, j. auto.
Qed.
Lemma dlagrange_fails xs x : ~ NoDup xs -> LagrangeInterpolationDerivative xs x = Fail DivByZero.
Proof.
  intros H. unfold LagrangeInterpolationDerivative. destruct (dup_pair xs H) as (i & j & Hi & Hj & Hne & E). set (n := length xs) in *.
  assert (LT : forall a b, (a < n)%nat -> (exists p, lagrange_term xs x a b = Ok p) \/ lagrange_term xs x a b = Fail DivByZero).
  { intros a b Ha. unfold lagrange_term. fold n.
    match goal with |- context [foldM ?f ?l ?s] => assert (Q : (exists s', foldM f l s = Ok s' /\ True) \/ foldM f l s = Fail DivByZero) end.
    { apply (fold_or _ (fun _ => True)); auto. intros p k _ Hk. apply in_seq in Hk. unfold n in *.
      assert (K : forall u, (exists s', (f <- Rdiv_res u (nth a xs 0 - nth k xs 0) ;; Ok (p * f)) = Ok s' /\ True) \/ (f <- Rdiv_res u (nth a xs 0 - nth k xs 0) ;; Ok (p * f)) = Fail DivByZero).
      { intros u. unfold Rdiv_res. destruct (Req_EM_T _ 0); [now right|]. cbn [bind]. left; eauto. }
      destruct (negb (k =? b)%nat && negb (k =? a)%nat); [|destruct (negb (k =? a)%nat); [|left; eauto]];
        rewrite !(rd_nth xs _ 0) by lia; cbn [bind]; apply K. }
    destruct Q as [(s' & Q & _)|Q]; [left; eauto|now right]. }
  assert (LF : lagrange_term xs x i j = Fail DivByZero).
  { unfold lagrange_term. apply (fold_fails _ (fun _ => True) DivByZero _ j); auto.
    - intros p k _ Hk. apply in_seq in Hk. unfold n in *.
      assert (K : forall u, (exists s', (f <- Rdiv_res u (nth i xs 0 - nth k xs 0) ;; Ok (p * f)) = Ok s' /\ True) \/ (f <- Rdiv_res u (nth i xs 0 - nth k xs 0) ;; Ok (p * f)) = Fail DivByZero).
      { intros u. unfold Rdiv_res. destruct (Req_EM_T _ 0); [now right|]. cbn [bind]. left; eauto. }
      destruct (negb (k =? j)%nat && negb (k =? i)%nat); [|destruct (negb (k =? i)%nat); [|left; eauto]];
        rewrite !(rd_nth xs _ 0) by lia; cbn [bind]; apply K.
    - apply in_seq. unfold n in *. lia.
    - intros p _. rewrite Nat.eqb_refl. cbn [negb andb]. destruct (Nat.eqb_spec j i); [congruence|]. cbn [negb]. unfold n in *.
      rewrite !(rd_nth xs _ 0) by lia. cbn [bind]. unfold Rdiv_res. destruct (Req_EM_T _ 0) as [_|C]; [reflexivity|]. exfalso. apply C. rewrite E. ring. }
  set (Inv := fun L : list R => length L = n).
  assert (ST : forall a L k, (a < n)%nat -> Inv L -> 
     (exists s', (if (k =? a)%nat then Ok L else p <- lagrange_term xs x a k ;; d <- rd L a ;; wr L a (d + p)) = Ok s' /\ Inv s') \/
     (if (k =? a)%nat then Ok L else p <- lagrange_term xs x a k ;; d <- rd L a ;; wr L a (d + p)) = Fail DivByZero).
  { intros a L k Ha HL. destruct (k =? a)%nat; [left; eauto|]. destruct (LT a k Ha) as [(p & ->)| ->]; [|now right]. cbn [bind]. unfold Inv in *.
    rewrite (rd_nth L a 0) by lia. cbn [bind]. rewrite wr_Ok by lia. left. eexists. split; [reflexivity|]. now rewrite upd_length. }
  apply (fold_fails _ Inv DivByZero _ i).
  - intros L a HL Ha. apply in_seq in Ha. apply fold_or; [|exact HL]. intros L' k HL' Hk. apply ST; auto. lia.
  - apply in_seq; lia.
  - intros L HL. apply (fold_fails _ Inv DivByZero _ j); [| | |exact HL].
    + intros L' k HL' Hk. apply ST; auto.
    + apply in_seq; lia.
    + intros L' HL'. destruct (Nat.eqb_spec j i); [congruence|]. now rewrite LF.
  - unfold Inv. apply repeat_length.
Qed.
(** the derivative of the product *)
Lemma lag_value_prod xs x i l : fold_left (fun a j => if (i =? j)%nat then a else a * lag_fac xs x i j) l 1
  = rprod (map (fun j => if (i =? j)%nat then 1 else lag_fac xs x i j) l).
Proof.
  induction l as [|j l IH]; cbn [fold_left map rprod fold_right]; auto. destruct (i =? j)%nat; [rewrite IH; unfold rprod; ring|].
  rewrite lag_fold_mult, IH. unfold rprod. ring.
Qed.
Definition dsum (xs : list R) (x : R) (i : nat) (l : list nat) (js : list nat) : R :=
  fold_right (fun j a => (if (j =? i)%nat then 0 else dlag_term xs x i j l) + a) 0 js.
Lemma dsum_left xs x i l js a : fold_left (fun a j => if (j =? i)%nat then a else a + dlag_term xs x i j l) js a = a + dsum xs x i l js.
Proof.
  revert a. induction js as [|j js IH]; intros a; cbn [fold_left dsum fold_right]; [ring|]. rewrite IH. fold (dsum xs x i l js). destruct (j =? i)%nat; ring.
Qed.
Lemma lag_deriv_list xs i l : NoDup l -> forall x,
  derivable_pt_lim (fun x => rprod (map (fun j => if (i =? j)%nat then 1 else lag_fac xs x i j) l)) x (dsum xs x i l l).
Proof.
  induction l as [|a l IH]; intros H x.
  - cbn. apply derivable_pt_lim_const.
  - inversion H as [|? ? Ha Hl]; subst.
    assert (EX : forall j, In j l -> dlag_term xs x i j (a :: l) = (if (a =? i)%nat then 1 else lag_fac xs x i a) * dlag_term xs x i j l).
    { intros j Hj. unfold dlag_term. cbn [map rprod fold_right]. unfold dlag_fac at 1. destruct (a =? i)%nat; [reflexivity|].
      destruct (Nat.eqb_spec a j) as [->|]; [contradiction|reflexivity]. }
    assert (ED : forall js, (forall j, In j js -> In j l) -> dsum xs x i (a :: l) js = (if (a =? i)%nat then 1 else lag_fac xs x i a) * dsum xs x i l js).
    { induction js as [|j js IJ]; intros Hj; unfold dsum; cbn [fold_right]; [ring|]. fold (dsum xs x i (a :: l) js) (dsum xs x i l js).
      rewrite IJ by (intros; apply Hj; now right). rewrite EX by (apply Hj; now left). destruct (j =? i)%nat; ring. }
    assert (EA : dlag_term xs x i a l = rprod (map (fun j => if (i =? j)%nat then 1 else lag_fac xs x i j) l)).
    { unfold dlag_term. f_equal. apply map_ext_in. intros k Hk. unfold dlag_fac. rewrite (Nat.eqb_sym k i). destruct (i =? k)%nat; auto.
      destruct (Nat.eqb_spec k a) as [->|]; [contradiction|reflexivity]. }
    unfold dsum. cbn [fold_right]. fold (dsum xs x i (a :: l) l). rewrite (ED l) by auto.
    cbn [map rprod fold_right]. rewrite (Nat.eqb_sym i a). destruct (Nat.eqb_spec a i) as [->|Hai].
    + replace (0 + 1 * dsum xs x i l l) with (dsum xs x i l l) by ring.
      apply (derivable_pt_lim_ext (fun x => rprod (map (fun j => if (i =? j)%nat then 1 else lag_fac xs x i j) l))); [intros; unfold rprod; ring|].
      apply IH; auto.
    + unfold dlag_term. cbn [map rprod fold_right]. fold (rprod (map (dlag_fac xs x i a) l)). unfold dlag_fac at 1.
      destruct (Nat.eqb_spec a i); [contradiction|]. rewrite Nat.eqb_refl.
      change (rprod (map (dlag_fac xs x i a) l)) with (dlag_term xs x i a l). rewrite EA.
      apply (derivable_pt_lim_mult (fun x => lag_fac xs x i a) (fun x => rprod (map (fun j => if (i =? j)%nat then 1 else lag_fac xs x i j) l))); [|apply IH; auto].
      apply (derivable_pt_lim_ext (mult_real_fct (/ (nth i xs 0 - nth a xs 0)) (id - fct_cte (nth a xs 0))%F)).
      { intros y. unfold mult_real_fct, minus_fct, id, fct_cte, lag_fac, Rdiv. ring. }
      replace (1 / (nth i xs 0 - nth a xs 0)) with (/ (nth i xs 0 - nth a xs 0) * (1 - 0)) by (unfold Rdiv; ring).
      apply derivable_pt_lim_scal. apply derivable_pt_lim_minus; [apply derivable_pt_lim_id|apply derivable_pt_lim_const].
Qed.
Lemma lag_deriv xs x i : derivable_pt_lim (fun x => lag_value xs x i) x (dlag_value xs x i).
Proof.
  unfold dlag_value. rewrite dsum_left, Rplus_0_l.
  apply (derivable_pt_lim_ext (fun x => rprod (map (fun j => if (i =? j)%nat then 1 else lag_fac xs x i j) (seq 0 (length xs))))).
  - intros y. unfold lag_value. now rewrite lag_value_prod.
  - apply lag_deriv_list, seq_NoDup.
Qed.
Lemma dlag_poly xs p x : NoDup xs -> pdeg (length xs) p -> derivable_pt_lim p x (bigsum (length xs) (fun i => dlag_value xs x i * p (nth i xs 0))).
Proof.
  intros H Hp. apply (derivable_pt_lim_ext (fun x => bigsum (length xs) (fun i => lag_value xs x i * p (nth i xs 0)))).
  - intros y. now apply lag_poly.
  - assert (G : forall k, derivable_pt_lim (fun x => bigsum k (fun i => lag_value xs x i * p (nth i xs 0))) x (bigsum k (fun i => dlag_value xs x i * p (nth i xs 0)))).
    { induction k as [|k IH]; cbn [bigsum]; [apply derivable_pt_lim_const|].
      apply (derivable_pt_lim_plus (fun x => bigsum k (fun i => lag_value xs x i * p (nth i xs 0))) (fun x => lag_value xs x k * p (nth k xs 0))); auto.
      apply (derivable_pt_lim_ext (mult_real_fct (p (nth k xs 0)) (fun x => lag_value xs x k))); [intros y; unfold mult_real_fct; ring|].
      rewrite (Rmult_comm (dlag_value _ _ _)). apply derivable_pt_lim_scal, lag_deriv. }
    apply G.
Qed.
