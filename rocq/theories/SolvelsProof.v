(** [solvels]: Gaussian elimination with partial pivoting decides singularity
    and solves every nonsingular system. *)
From Coq Require Import List Arith Lia Bool Reals Lra.
From Verif Require Import Res SumR DenseModel DenseR LUModel LUProof SolvelsModel.
Import ListNotations.
Local Open Scope R_scope.
Local Notation "x <? y" := (Nat.ltb x y). Local Notation "x =? y" := (Nat.eqb x y). Local Notation "x <=? y" := (Nat.leb x y).

(** a vector, resp. a vector of rows, holding the values of a function *)
Definition vecf (l : list R) (n : nat) (g : nat -> R) : Prop :=
  length l = n /\ forall i, (i < n)%nat -> nth i l 0 = g i.
Definition matf (A : list (list R)) (r c : nat) (f : nat -> nat -> R) : Prop :=
  length A = r /\ forall i, (i < r)%nat -> vecf (nth i A []) c (f i).

Lemma vecf_ext l n g h : (forall i, (i < n)%nat -> g i = h i) -> vecf l n g -> vecf l n h.
Proof. intros E (L & H). split; auto. intros i Hi. now rewrite H, E. Qed.
Lemma matf_ext A r c f g : (forall i j, (i < r)%nat -> (j < c)%nat -> f i j = g i j) -> matf A r c f -> matf A r c g.
Proof. intros E (L & H). split; auto. intros i Hi. eapply vecf_ext; [|now apply H]. intros; now apply E. Qed.

Lemma rdv l n g i : vecf l n g -> (i < n)%nat -> rd l i = Ok (g i).
Proof. intros (L & H) Hi. rewrite (rd_nth l i 0) by lia. now rewrite H. Qed.
Lemma rdm A r c f i j : matf A r c f -> (i < r)%nat -> (j < c)%nat -> rd2 A i j = Ok (f i j).
Proof.
  intros (L & H) Hi Hj. unfold rd2. rewrite (rd_nth A i []) by lia. cbn [bind]. eapply rdv; [now apply H|auto].
Qed.
Lemma wrv l n g i v : vecf l n g -> (i < n)%nat -> exists l', wr l i v = Ok l' /\ vecf l' n (fun k => if k =? i then v else g k).
Proof.
  intros (L & H) Hi. rewrite wr_Ok by lia. eexists; split; [reflexivity|]. split; [now rewrite upd_length|].
  intros k Hk. rewrite nth_upd, L. specialize (H k Hk). nb.
Qed.
Lemma wrm A r c f i j v : matf A r c f -> (i < r)%nat -> (j < c)%nat ->
  exists A', wr2 A i j v = Ok A' /\ matf A' r c (fun i' j' => if (i' =? i) && (j' =? j) then v else f i' j').
Proof.
  intros (L & H) Hi Hj. unfold wr2. rewrite (rd_nth A i []) by lia. cbn [bind].
  destruct (wrv _ c (f i) j v (H i Hi) Hj) as (row & E & Hrow). rewrite E. cbn [bind]. rewrite wr_Ok by lia.
  eexists; split; [reflexivity|]. split; [now rewrite upd_length|]. intros k Hk. rewrite nth_upd, L.
  destruct (Nat.eqb_spec i k) as [<-|Hne]; cbn [andb].
  - destruct (Nat.ltb_spec i r); [|lia]. rewrite Nat.eqb_refl. cbn [andb]. exact Hrow.
  - destruct (Nat.eqb_spec k i); [lia|]. cbn [andb]. apply H; auto.
Qed.
Ltac rm H := rewrite (rdm _ _ _ _ _ _ H) by lia; cbn [bind].
Ltac rv H := rewrite (rdv _ _ _ _ H) by lia; cbn [bind].

Lemma loop_either {S} (f : S -> nat -> res S) (I : nat -> S -> Prop) (e : fault) (P : Prop) s len s0 :
  I s s0 ->
  (forall i st, (s <= i < s + len)%nat -> I i st -> (exists st', f st i = Ok st' /\ I (Datatypes.S i) st') \/ (f st i = Fail e /\ P)) ->
  (exists st, foldM f (seq s len) s0 = Ok st /\ I (s + len)%nat st) \/ (foldM f (seq s len) s0 = Fail e /\ P).
Proof.
  revert s s0. induction len as [|len IH]; intros s s0 H0 Hs; cbn [seq foldM].
  - left. exists s0. rewrite Nat.add_0_r. auto.
  - destruct (Hs s s0) as [(s1 & E1 & H1)|(E1 & H1)]; [lia|auto| |]; rewrite E1; cbn [bind]; [|right; auto].
    replace (s + Datatypes.S len)%nat with (Datatypes.S s + len)%nat by lia. apply IH; auto. intros i st Hi. apply Hs. lia.
Qed.
Lemma foldM_rev_seq' {S} (f : S -> nat -> res S) (I : nat -> S -> Prop) s len s0 :
  I (s + len)%nat s0 -> (forall i st, (s <= i < s + len)%nat -> I (Datatypes.S i) st -> exists st', f st i = Ok st' /\ I i st') ->
  exists st, foldM f (rev (seq s len)) s0 = Ok st /\ I s st.
Proof.
  revert s0. induction len as [|n IH]; intros s0 H0 Hs.
  - exists s0; split; auto. now rewrite Nat.add_0_r in H0.
  - rewrite seq_S, rev_app_distr. cbn [rev app foldM].
    destruct (Hs (s + n)%nat s0) as (s1 & E1 & H1); [lia|now replace (Datatypes.S (s + n)) with (s + Datatypes.S n)%nat by lia|]. rewrite E1. cbn [bind]. apply IH; auto.
    intros i st Hi. apply Hs. lia.
Qed.

(** ** the steps *)
Lemma ls_pivot_ok A n f i : matf A n n f -> (i < n)%nat ->
  exists q, ls_pivot A n i = Ok q /\ (i <= q < n)%nat /\ forall k, (i <= k < n)%nat -> Rabs (f k i) <= Rabs (f q i).
Proof.
  intros H Hi. unfold ls_pivot. rm H.
  destruct (loop_from (fun '(p, q) j => v <- rd2 A j i ;; if Rltb p (Rabs v) then Ok (Rabs v, j) else Ok (p, q))
    (fun m st => (i <= snd st < n)%nat /\ fst st = Rabs (f (snd st) i) /\ forall k, (i <= k < m)%nat -> Rabs (f k i) <= Rabs (f (snd st) i))
    (S i) (n - S i) (Rabs (f i i), i)) as ((p & q) & E & H1 & H2 & H3).
  - cbn. splits; auto; try lia. intros k Hk. replace k with i by lia. lra.
  - intros j (p & q) Hj (Hq & Hp & Hm). cbn [fst snd] in *. rm H. unfold Rltb.
    destruct (Rlt_dec p (Rabs (f j i))) as [L|L]; (eexists; split; [reflexivity|]); cbn [fst snd]; splits; auto; try lia;
      intros k Hk; (destruct (Nat.eq_dec k j) as [->|]; [lra|]); assert (Rabs (f k i) <= Rabs (f q i)) by (apply Hm; lia); lra.
  - rewrite E. cbn [bind fst snd] in *. exists q. splits; auto; try lia. intros k Hk. apply H3. lia.
Qed.

Lemma ls_swap_ok A b n f g i q : matf A n n f -> vecf b n g -> (i < n)%nat -> (i <= q < n)%nat ->
  exists A' b', ls_swap A b n i q = Ok (A', b') /\ matf A' n n (fun r c => if c <? i then f r c else f (sw i q r) c) /\
    vecf b' n (fun r => g (sw i q r)).
Proof.
  intros H Hb Hi Hq. unfold ls_swap. destruct (Nat.eqb_spec q i) as [->|Hne].
  - exists A, b. splits; auto.
    + revert H; apply matf_ext. intros; unfold sw; nb.
    + revert Hb; apply vecf_ext. intros; unfold sw; nb.
  - rv Hb. rv Hb. destruct (wrv b n g i (g q) Hb Hi) as (b1 & E1 & Hb1). rewrite E1. cbn [bind].
    destruct (wrv b1 n _ q (g i) Hb1) as (b2 & E2 & Hb2); [lia|]. rewrite E2. cbn [bind].
    destruct (loop_from (fun A j => t <- rd2 A i j ;; u <- rd2 A q j ;; A <- wr2 A i j u ;; wr2 A q j t)
      (fun c A => matf A n n (fun r j => if (i <=? j) && (j <? c) then f (sw i q r) j else f r j)) i (n - i) A) as (A2 & EA & HA).
    + revert H; apply matf_ext. intros; nb.
    + intros j A1 Hj HA1. rm HA1. rm HA1. replace ((i <=? j) && (j <? j)) with false by nb.
      destruct (wrm A1 n n _ i j (f q j) HA1) as (A2 & EA2 & HA2); try lia. rewrite EA2. cbn [bind].
      destruct (wrm A2 n n _ q j (f i j) HA2) as (A3 & EA3 & HA3); try lia. exists A3. split; auto.
      revert HA3; apply matf_ext. intros r c Hr Hc. unfold sw. nb.
    + rewrite EA. cbn [bind]. exists A2, b2. splits; auto.
      * revert HA; apply matf_ext. intros r c Hr Hc. nb.
      * revert Hb2; apply vecf_ext. intros r Hr. unfold sw. nb.
Qed.

Lemma ls_elim_ok A b n f g i : matf A n n f -> vecf b n g -> (i < n)%nat -> f i i <> 0 ->
  exists A' b', ls_elim A b n i = Ok (A', b') /\
    matf A' n n (fun r c => if (i <? r) && (i <? c) then f r c - f i c * f r i / f i i else f r c) /\
    vecf b' n (fun r => if i <? r then g r - g i * f r i / f i i else g r).
Proof.
  intros H Hb Hi Hd. unfold ls_elim.
  match goal with |- context [foldM ?F _ _] => destruct (loop_from F
    (fun m st => matf (fst st) n n (fun r c => if ((i <? r) && (r <? m)) && (i <? c) then f r c - f i c * f r i / f i i else f r c) /\
       vecf (snd st) n (fun r => if (i <? r) && (r <? m) then g r - g i * f r i / f i i else g r)) (S i) (n - S i) (A, b))
    as ((A' & b') & E & HA & HB) end.
  - cbn [fst snd]. split; [revert H; apply matf_ext|revert Hb; apply vecf_ext]; intros; nb.
  - intros j (A1 & b1) Hj (HA1 & Hb1). cbn [fst snd] in *.
    match goal with |- context [foldM ?F _ A1] => destruct (loop_from F
      (fun m A => matf A n n (fun r c => if (((i <? r) && (r <? j)) && (i <? c)) || ((r =? j) && ((i <? c) && (c <? m))) then f r c - f i c * f r i / f i i else f r c))
      (S i) (n - S i) A1) as (A2 & E2 & HA2) end.
    + revert HA1; apply matf_ext. intros; nb.
    + intros k A2 Hk HA2. repeat rm HA2.
      repeat match goal with |- context [if ?c then _ else f ?r ?s] => replace c with false by nb end.
      rewrite Rdiv_res_ok by auto. cbn [bind].
      destruct (wrm A2 n n _ j k (f j k - f i k * f j i / f i i) HA2) as (A3 & E3 & HA3); try lia.
      exists A3. split; auto. revert HA3; apply matf_ext. intros r c Hr Hc. nb.
    + rewrite E2. cbn [bind]. rv Hb1. rv Hb1. rm HA2. rm HA2.
      repeat match goal with |- context [if ?c then _ else f ?r ?s] => replace c with false by nb end.
      repeat match goal with |- context [if ?c then _ else g ?r] => replace c with false by nb end.
      rewrite Rdiv_res_ok by auto. cbn [bind].
      destruct (wrv b1 n _ j (g j - g i * f j i / f i i) Hb1) as (b2 & E3 & Hb2); [lia|]. rewrite E3. cbn [bind].
      eexists; split; [reflexivity|]. cbn [fst snd]. split.
      * revert HA2; apply matf_ext. intros r c Hr Hc. nb.
      * revert Hb2; apply vecf_ext. intros r Hr. nb.
  - exists A', b'. cbn [fst snd] in *. splits; auto; [revert HA; apply matf_ext|revert HB; apply vecf_ext]; intros; nb.
Qed.

Lemma ls_elim_zero A b n f g i : matf A n n f -> vecf b n g -> (S i < n)%nat -> f i i = 0 -> ls_elim A b n i = Fail DivByZero.
Proof.
  intros H Hb Hi Hd. unfold ls_elim. replace (n - S i)%nat with (S (n - S (S i))) by lia. cbn [seq foldM].
  rm H. rm H. rm H. rm H. rewrite Hd, Rdiv_res_0. reflexivity.
Qed.

(** ** solution sets *)
Definition sol (n : nat) (f : nat -> nat -> R) (g x : nat -> R) : Prop :=
  forall r, (r < n)%nat -> bigsum n (fun c => f r c * x c) = g r.
Definition Ei (i : nat) (f : nat -> nat -> R) (r c : nat) : R := if (c <? r) && (c <? i) then 0 else f r c.
Definition same (n : nat) (f : nat -> nat -> R) (g : nat -> R) (f' : nat -> nat -> R) (g' : nat -> R) : Prop :=
  (forall x, sol n f g x <-> sol n f' g' x) /\ (forall x, sol n f (fun _ => 0) x <-> sol n f' (fun _ => 0) x).

Lemma sw_sw k q i : sw k q (sw k q i) = i.
Proof. unfold sw. destruct (Nat.eqb_spec i k); [destruct (Nat.eqb_spec q k); [congruence|now rewrite Nat.eqb_refl]|].
  destruct (Nat.eqb_spec i q); [now rewrite Nat.eqb_refl|]. nb. Qed.
Lemma sw_lt n k q i : (k < n)%nat -> (q < n)%nat -> (i < n)%nat -> (sw k q i < n)%nat.
Proof. unfold sw. nb. Qed.
Lemma sol_ext n f g f' g' x : (forall r c, (r < n)%nat -> (c < n)%nat -> f r c = f' r c) -> (forall r, (r < n)%nat -> g r = g' r) ->
  (sol n f g x <-> sol n f' g' x).
Proof.
  intros Ef Eg. unfold sol. split; intros H r Hr; specialize (H r Hr); [rewrite <- Eg by auto|rewrite Eg by auto]; rewrite <- H; apply bigsum_ext; intros c Hc; rewrite Ef; auto.
Qed.
Lemma sol_swap n f g k q x : (k < n)%nat -> (q < n)%nat -> (sol n (fun r => f (sw k q r)) (fun r => g (sw k q r)) x <-> sol n f g x).
Proof.
  intros Hk Hq. unfold sol. split; intros H r Hr; [|apply (H (sw k q r)), sw_lt; auto].
  specialize (H (sw k q r) (sw_lt _ _ _ _ Hk Hq Hr)). now rewrite sw_sw in H.
Qed.
Lemma sol_elim n f g i l x : (i < n)%nat ->
  (sol n (fun r c => if i <? r then f r c - l r * f i c else f r c) (fun r => if i <? r then g r - l r * g i else g r) x <-> sol n f g x).
Proof.
  intros Hi.
  assert (E : forall r, bigsum n (fun c => (f r c - l r * f i c) * x c) = bigsum n (fun c => f r c * x c) - l r * bigsum n (fun c => f i c * x c)).
  { intros r. rewrite <- bigsum_scal, <- bigsum_minus. apply bigsum_ext. intros; ring. }
  unfold sol. split; intros H r Hr.
  - pose proof (H i Hi) as H0. rewrite Nat.ltb_irrefl in H0. specialize (H r Hr). destruct (Nat.ltb_spec i r); auto. rewrite E in H. rewrite H0 in H. lra.
  - pose proof (H i Hi) as H0. specialize (H r Hr). destruct (Nat.ltb_spec i r); auto. now rewrite E, H, H0.
Qed.

Definition ls_inv n Af B i (s : list (list R) * list R) : Prop :=
  exists f g, matf (fst s) n n f /\ vecf (snd s) n g /\ same n Af B (Ei i f) g /\ forall j, (j < i)%nat -> f j j <> 0.

Lemma singular_at n Af B i f g : (i < n)%nat -> same n Af B (Ei i f) g -> (forall j, (j < i)%nat -> f j j <> 0) ->
  (forall k, (i <= k < n)%nat -> f k i = 0) -> ~ nonsingular n Af.
Proof.
  intros Hi (_ & S0) Hd Hz HN. destruct (upper_null n f i Hi Hd i (le_n i)) as (x & H1 & H2 & H3).
  assert (x i = 0); [|lra]. apply (HN x); auto. apply S0. intros r Hr. destruct (Nat.lt_ge_cases r i) as [L|L].
  - rewrite <- (H3 r) by lia. apply bigsum_ext. intros c Hc. unfold Ei, Up. nb.
  - apply bigsum_zero. intros c Hc. unfold Ei. destruct (Nat.lt_ge_cases c i) as [L'|L'].
    + replace ((c <? r) && (c <? i)) with true by nb. ring.
    + replace ((c <? r) && (c <? i)) with false by nb. destruct (Nat.eq_dec c i) as [->|]; [rewrite Hz by lia; ring|rewrite H2 by lia; ring].
Qed.

Lemma ls_forward_ok A b n Af B : (0 < n)%nat -> matf A n n Af -> vecf b n B ->
  (exists s, ls_forward A b n = Ok s /\ ls_inv n Af B (n - 1) s) \/ (ls_forward A b n = Fail DivByZero /\ ~ nonsingular n Af).
Proof.
  intros Hn HA Hb. unfold ls_forward.
  apply (loop_either _ (ls_inv n Af B) DivByZero (~ nonsingular n Af) 0 (n - 1) (A, b)).
  - exists Af, B. cbn [fst snd]. splits; auto; [|intros; lia]. split; intros x; apply sol_ext; auto; intros; unfold Ei; nb.
  - intros i (A1 & b1) Hi (f & g & HA1 & Hb1 & S1 & Hd). cbn [fst snd] in *.
    destruct (ls_pivot_ok A1 n f i HA1) as (q & Eq & Hq & Hmax); [lia|]. rewrite Eq. cbn [bind].
    destruct (ls_swap_ok A1 b1 n f g i q HA1 Hb1) as (A2 & b2 & E2 & HA2 & Hb2); try lia. rewrite E2. cbn [bind].
    set (f2 := fun r c => if c <? i then f r c else f (sw i q r) c) in *. set (g2 := fun r => g (sw i q r)) in *.
    assert (Hp : f2 i i = f q i) by (unfold f2, sw; nb).
    destruct (Req_dec (f q i) 0) as [Z|NZ].
    + right. split; [apply (ls_elim_zero A2 b2 n f2 g2 i HA2 Hb2); [lia|now rewrite Hp]|].
      apply (singular_at n Af B i f g); auto; [lia|]. intros k Hk. specialize (Hmax k Hk). rewrite Z, Rabs_R0 in Hmax.
      destruct (Req_dec (f k i) 0); auto. assert (0 < Rabs (f k i)) by now apply Rabs_pos_lt. lra.
    + left. destruct (ls_elim_ok A2 b2 n f2 g2 i HA2 Hb2) as (A3 & b3 & E3 & HA3 & Hb3); [lia|now rewrite Hp|].
      exists (A3, b3). split; auto. eexists; eexists; cbn [fst snd]. split; [exact HA3|]. split; [exact Hb3|].
      assert (ES : forall r c, (r < n)%nat -> (c < n)%nat -> Ei i f2 r c = Ei i f (sw i q r) c).
      { intros r c Hr Hc. unfold Ei, f2, sw. nb. }
      assert (EE : forall r c, (r < n)%nat -> (c < n)%nat ->
        Ei (S i) (fun r c => if (i <? r) && (i <? c) then f2 r c - f2 i c * f2 r i / f2 i i else f2 r c) r c =
        (if i <? r then Ei i f2 r c - f2 r i / f2 i i * Ei i f2 i c else Ei i f2 r c)).
      { assert (NP : f2 i i <> 0) by now rewrite Hp.
        intros r c Hr Hc. unfold Ei. destruct (Nat.ltb_spec i r).
        - destruct (Nat.lt_trichotomy c i) as [L|[->|L]].
          + replace ((c <? r) && (c <? S i)) with true by nb. replace ((c <? r) && (c <? i)) with true by nb. replace ((c <? i) && (c <? i)) with true by nb. ring.
          + replace ((i <? r) && (i <? S i)) with true by nb. rewrite Nat.ltb_irrefl, andb_false_r. cbn [andb]. field. auto.
          + replace ((c <? r) && (c <? S i)) with false by nb. replace ((c <? r) && (c <? i)) with false by nb. replace ((c <? i) && (c <? i)) with false by nb.
            replace (i <? c) with true by nb. cbn [andb]. field. auto.
        - cbn [andb]. nb. }
      split.
      * split; intros x.
        -- rewrite (proj1 S1 x). rewrite <- (sol_swap n (Ei i f) g i q x) by lia.
           rewrite <- (sol_ext n (Ei i f2) g2 _ _ x ES) by auto.
           rewrite <- (sol_elim n (Ei i f2) g2 i (fun r => f2 r i / f2 i i) x) by lia. symmetry. apply sol_ext; auto. intros r Hr. destruct (i <? r); auto. unfold Rdiv; ring.
        -- rewrite (proj2 S1 x). rewrite <- (sol_swap n (Ei i f) (fun _ => 0) i q x) by lia.
           rewrite <- (sol_ext n (Ei i f2) (fun _ => 0) _ _ x ES) by auto.
           rewrite <- (sol_elim n (Ei i f2) (fun _ => 0) i (fun r => f2 r i / f2 i i) x) by lia. symmetry. apply sol_ext; auto. intros r Hr. destruct (i <? r); auto; ring.
      * intros j Hj. replace ((i <? j) && (i <? j)) with false by nb. destruct (Nat.eq_dec j i) as [->|]; [now rewrite Hp|].
        unfold f2, sw. nb.
Qed.

(** ** back substitution *)
Lemma ls_back_ok A b n f g : (0 < n)%nat -> matf A n n f -> vecf b n g -> (forall i, (i < n)%nat -> f i i <> 0) ->
  exists x X, ls_back A b n = Ok x /\ vecf x n X /\ sol n (Up f) g X.
Proof.
  intros Hn HA Hb Hd. unfold ls_back.
  match goal with |- context [foldM ?F _ _] => destruct (foldM_rev_seq F
    (fun i x => exists X, vecf x n X /\ forall r, (i <= r < n)%nat -> bigsum n (fun c => Up f r c * X c) = g r) n (repeat 0 n)) as (x & E & X & Hx & HX) end.
  - exists (fun _ => 0). split; [|intros; lia]. split; [apply repeat_length|]. intros i Hi. apply nth_repeat.
  - intros i x Hi (X & Hx & HX). rv Hb. destruct (wrv x n X i (g i) Hx Hi) as (x1 & E1 & Hx1). rewrite E1. cbn [bind].
    match goal with |- context [foldM ?F (rev (seq (S i) (n - S i))) x1] => destruct (foldM_rev_seq' F
      (fun j x => vecf x n (fun k => if k =? i then g i - bigsum (n - j) (fun c => f i (j + c)%nat * X (j + c)%nat) else X k)) (S i) (n - S i) x1) as (x2 & E2 & Hx2) end.
    + revert Hx1; apply vecf_ext. intros k Hk. replace (n - (S i + (n - S i)))%nat with 0%nat by lia. cbn [bigsum]. nb. ring.
    + intros j x2 Hj Hx2. rv Hx2. rv Hx2. rm HA. rewrite Nat.eqb_refl. destruct (Nat.eqb_spec j i); [lia|].
      destruct (wrv x2 n _ i (g i - bigsum (n - S j) (fun c => f i (S j + c)%nat * X (S j + c)%nat) - X j * f i j) Hx2) as (x3 & E3 & Hx3); [lia|].
      exists x3. split; auto. revert Hx3; apply vecf_ext. intros k Hk. destruct (Nat.eqb_spec k i); auto.
      replace (n - j)%nat with (S (n - S j)) by lia. rewrite bigsum_S_l, Nat.add_0_r.
      rewrite (bigsum_ext _ (fun c => f i (j + S c)%nat * X (j + S c)%nat) (fun c => f i (S j + c)%nat * X (S j + c)%nat)) by (intros c _; now replace (j + S c)%nat with (S j + c)%nat by lia). ring.
    + rewrite E2. cbn [bind]. rv Hx2. rm HA. rewrite Nat.eqb_refl, Rdiv_res_ok by auto. cbn [bind].
      destruct (wrv x2 n _ i ((g i - bigsum (n - S i) (fun c => f i (S i + c)%nat * X (S i + c)%nat)) / f i i) Hx2) as (x3 & E3 & Hx3); [lia|].
      exists x3. split; auto. eexists. split; [exact Hx3|]. intros r Hr. rewrite upper_row by lia. cbv beta.
      destruct (Nat.eqb_spec r i) as [->|Hne].
      * set (q := (g i - bigsum _ _) / f i i). rewrite (bigsum_ext (n - S i) _ (fun c => f i (S i + c)%nat * X (S i + c)%nat)).
        -- unfold q. field. auto.
        -- intros c Hc. destruct (Nat.eqb_spec (S i + c) i); [lia|reflexivity].
      * rewrite <- (HX r) by lia. rewrite upper_row by lia. f_equal. apply bigsum_ext. intros c Hc. destruct (Nat.eqb_spec (S r + c) i); [lia|reflexivity].
  - exists x, X. splits; auto. intros r Hr. apply HX. lia.
Qed.

Lemma ls_back_zero A b n f g : (0 < n)%nat -> matf A n n f -> vecf b n g -> f (n - 1)%nat (n - 1)%nat = 0 -> ls_back A b n = Fail DivByZero.
Proof.
  intros Hn HA Hb Hz. unfold ls_back. destruct n as [|n]; [lia|]. replace (S n - 1)%nat with n in Hz by lia.
  rewrite seq_S at 1. rewrite rev_app_distr. cbn [rev app foldM]. rewrite Nat.add_0_l. rv Hb.
  destruct (wrv (repeat 0 (S n)) (S n) (fun _ => 0) n (g n)) as (x1 & E1 & Hx1).
  - split; [apply repeat_length|]. intros; apply nth_repeat.
  - lia.
  - rewrite E1. cbn [bind]. replace (S n - S n)%nat with 0%nat by lia. cbn [seq rev foldM bind]. rv Hx1. rm HA. now rewrite Hz, Rdiv_res_0.
Qed.

Lemma upper_nonsing n f : (forall i, (i < n)%nat -> f i i <> 0) -> nonsingular n (Up f).
Proof.
  intros Hd x Hx.
  assert (H : forall m, (m <= n)%nat -> forall j, (n - m <= j < n)%nat -> x j = 0).
  { induction m as [|m IH]; intros Hm j Hj; [lia|]. destruct (Nat.eq_dec j (n - S m)) as [->|]; [|apply IH; lia].
    pose proof (Hx (n - S m)%nat ltac:(lia)) as E. rewrite upper_row in E by lia.
    rewrite (bigsum_zero (n - S (n - S m))) in E.
    - rewrite Rplus_0_r in E. apply Rmult_integral in E as [E|E]; auto. now apply Hd in E; [|lia].
    - intros c Hc. rewrite IH by lia. ring. }
  intros j Hj. apply (H n); lia.
Qed.

(** ** the whole routine *)
Lemma solvels_ok n A b Af B : (0 < n)%nat -> matf A n n Af -> vecf b n B ->
  (exists x X, solvels A b = Ok x /\ vecf x n X /\ sol n Af B X /\ nonsingular n Af) \/ (solvels A b = Fail DivByZero /\ ~ nonsingular n Af).
Proof.
  intros Hn HA Hb. unfold solvels. rewrite (proj1 Hb). destruct (Nat.eqb_spec n 0); [lia|].
  destruct (ls_forward_ok A b n Af B Hn HA Hb) as [((A1 & b1) & E & f & g & HA1 & Hb1 & S1 & Hd)|(E & HS)]; rewrite E; cbn [bind]; [|right; auto].
  cbn [fst snd] in *.
  assert (EU : forall r c, (r < n)%nat -> (c < n)%nat -> Ei (n - 1) f r c = Up f r c) by (intros; unfold Ei, Up; nb).
  destruct (Req_dec (f (n - 1)%nat (n - 1)%nat) 0) as [Z|NZ].
  - right. split; [eapply ls_back_zero; eauto|]. eapply (singular_at n Af B (n - 1)); eauto; [lia|]. intros k Hk. now replace k with (n - 1)%nat by lia.
  - assert (Hd' : forall i, (i < n)%nat -> f i i <> 0) by (intros i Hi; destruct (Nat.eq_dec i (n - 1)) as [->|]; auto; apply Hd; lia).
    destruct (ls_back_ok A1 b1 n f g Hn HA1 Hb1 Hd') as (x & X & Ex & Hx & HX). left. exists x, X. splits; auto.
    + apply S1. apply (sol_ext n _ g (Up f) g); auto.
    + intros y Hy. apply (upper_nonsing n f Hd'). apply (sol_ext n _ (fun _ => 0) (Up f) (fun _ => 0) y EU); auto. apply S1. exact Hy.
Qed.
