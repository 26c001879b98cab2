(** LU with partial pivoting solves every nonsingular system. *)
From Coq Require Import List Arith Lia Bool Reals Lra Permutation.
From Verif Require Import Res SumR DenseModel DenseSpec DenseProof DenseR DenseMain LUModel.
Import ListNotations.
Local Open Scope R_scope.
Local Notation "x <? y" := (Nat.ltb x y). Local Notation "x =? y" := (Nat.eqb x y). Local Notation "x <=? y" := (Nat.leb x y).

Lemma loop_from {S} (f : S -> nat -> res S) (I : nat -> S -> Prop) s len s0 :
  I s s0 ->
  (forall i st, (s <= i < s + len)%nat -> I i st -> exists st', f st i = Ok st' /\ I (Datatypes.S i) st') ->
  exists st, foldM f (seq s len) s0 = Ok st /\ I (s + len)%nat st.
Proof.
  revert s s0. induction len as [|len IH]; intros s s0 H0 Hs; cbn [seq foldM].
  - exists s0. rewrite Nat.add_0_r. auto.
  - destruct (Hs s s0) as (s1 & E1 & H1); [lia|auto|]. rewrite E1. cbn [bind].
    destruct (IH (Datatypes.S s) s1 H1) as (st & E & H).
    + intros i st Hi. apply Hs. lia.
    + exists st. split; auto. now replace (s + Datatypes.S len)%nat with (Datatypes.S s + len)%nat by lia.
Qed.

Lemma vset_ok {T} (v : list T) n f i x : is_vec v n f -> (i < n)%nat ->
  exists w, vset v i x = Ok w /\ is_vec w n (fun k => if k =? i then x else f k).
Proof.
  intros (L & Hg & Ho) Hi. unfold vset. rewrite L. destruct (Nat.ltb_spec i n); [|lia]. cbn [assert_ bind].
  rewrite wr_Ok by lia. eexists; split; [reflexivity|].
  unfold is_vec, vget in *. rewrite upd_length. splits; auto.
  - intros k Hk. specialize (Hg k Hk). rewrite L in *. destruct (Nat.ltb_spec k n); [|lia]. cbn [assert_ bind] in *.
    unfold rd in *. destruct (Nat.eqb_spec k i) as [->|Hne].
    + now rewrite nth_error_upd_eq by lia.
    + now rewrite nth_error_upd_ne by auto.
  - intros k Hk. rewrite L. destruct (Nat.ltb_spec k n); [lia|reflexivity].
Qed.

Lemma mset_ok {T} (a : mat T) r c f i j x : is_mat a r c f -> (i < r)%nat -> (j < c)%nat ->
  exists m, mset a i j x = Ok m /\ is_mat m r c (fun i' j' => if (i' =? i) && (j' =? j) then x else f i' j').
Proof. intros H. apply (proj1 (C19_write_pf T a r c f i j x H)). Qed.

Ltac mg H := match type of H with is_mat ?a _ _ _ => rewrite (proj1 (proj2 (proj2 (proj2 H)))) by lia end; cbn [bind].
Ltac nb := cbv beta; repeat match goal with
  | |- context [?a =? ?b] => destruct (Nat.eqb_spec a b)
  | |- context [?a <? ?b] => destruct (Nat.ltb_spec a b)
  | |- context [?a <=? ?b] => destruct (Nat.leb_spec a b) end; cbn [andb]; subst; try lia; auto.

(** ** Pivot search *)
Lemma lu_search_ok a n f k : is_mat a n n f -> (k < n)%nat ->
  exists pv q, lu_search a k n = Ok (pv, q) /\ (k <= q < n)%nat /\
    forall i, (k <= i < n)%nat -> Rabs (f i k) <= Rabs (f q k).
Proof.
  intros H Hk. unfold lu_search. mg H.
  destruct (loop_from (fun '(pv, pi) i => y <- mget a i k ;;
    if Rltb pv (Rabs y) then (z <- mget a i k ;; Ok (Rabs z, i)) else Ok (pv, pi))
    (fun m st => (k <= snd st < n)%nat /\ fst st = Rabs (f (snd st) k) /\
       forall i, (k <= i < m)%nat -> Rabs (f i k) <= Rabs (f (snd st) k)) (S k) (n - S k) (Rabs (f k k), k))
    as ((pv & q) & E & H1 & H2 & H3).
  - cbn. splits; auto; try lia. intros i Hi. replace i with k by lia. lra.
  - intros i (pv & q) Hi (Hq & Hp & Hm). cbn [fst snd] in *. mg H. unfold Rltb.
    destruct (Rlt_dec pv (Rabs (f i k))) as [L|L].
    + cbn [bind]. eexists; split; [reflexivity|]. cbn [fst snd]. splits; auto; try lia.
      intros i' Hi'. destruct (Nat.eq_dec i' i) as [->|]; [lra|].
      assert (Rabs (f i' k) <= Rabs (f q k)) by (apply Hm; lia). lra.
    + eexists; split; [reflexivity|]. cbn [fst snd]. splits; auto; try lia.
      intros i' Hi'. destruct (Nat.eq_dec i' i) as [->|]; [lra|]. apply Hm; lia.
  - exists pv, q. cbn [fst snd] in *. splits; auto; try lia. intros i Hi. apply H3. lia.
Qed.

Definition sw (k q i : nat) : nat := if i =? k then q else if i =? q then k else i.

Lemma lu_swap_rows_ok a n f k q : is_mat a n n f -> (k < n)%nat -> (q < n)%nat -> k <> q ->
  exists m, lu_swap_rows a k q n = Ok m /\ is_mat m n n (fun i j => f (sw k q i) j).
Proof.
  intros H Hk Hq Hkq. unfold lu_swap_rows.
  destruct (loop_from (fun a j => x <- mget a k j ;; y <- mget a q j ;; a <- mset a k j y ;; mset a q j x)
    (fun c m => is_mat m n n (fun i j => if j <? c then f (sw k q i) j else f i j)) 0 n a) as (m & E & Hm).
  - revert H; apply is_mat_ext. intros; nb.
  - intros j m Hj Hm. mg Hm. mg Hm.
    destruct (mset_ok m n n _ k j (if j <? j then f (sw k q q) j else f q j) Hm) as (m1 & E1 & H1); try lia.
    rewrite E1. cbn [bind].
    destruct (mset_ok m1 n n _ q j (if j <? j then f (sw k q k) j else f k j) H1) as (m2 & E2 & H2); try lia.
    exists m2. split; auto. revert H2; apply is_mat_ext. intros i' j' Hi' Hj'. unfold sw. nb.
  - exists m. split; auto. revert Hm; apply is_mat_ext. intros; nb.
Qed.

Lemma lu_swap_piv_ok p n k q : length p = n -> (k < n)%nat -> (q < n)%nat -> k <> q ->
  exists p', lu_swap_piv p k q = Ok p' /\ length p' = n /\ forall i, (i < n)%nat -> nth i p' 0%nat = nth (sw k q i) p 0%nat.
Proof.
  intros L Hk Hq Hkq. unfold lu_swap_piv. rewrite (rd_nth p k 0%nat), (rd_nth p q 0%nat) by lia. cbn [bind].
  rewrite wr_Ok by lia. cbn [bind]. rewrite wr_Ok by (rewrite upd_length; lia). eexists; split; [reflexivity|].
  split; [now rewrite !upd_length|]. intros i Hi. rewrite !nth_upd, ?upd_length. unfold sw. rewrite L. nb.
Qed.

Lemma lu_scale_ok a n f k : is_mat a n n f -> (k < n)%nat -> f k k <> 0 ->
  exists m, lu_scale a k n = Ok m /\
    is_mat m n n (fun i j => if (j =? k) && (k <? i) then f i k / f k k else f i j).
Proof.
  intros H Hk Hd. unfold lu_scale.
  destruct (loop_from (fun a i => x <- mget a i k ;; d <- mget a k k ;; q <- Rdiv_res x d ;; mset a i k q)
    (fun c m => is_mat m n n (fun i j => if (j =? k) && ((k <? i) && (i <? c)) then f i k / f k k else f i j))
    (S k) (n - S k) a) as (m & E & Hm).
  - revert H; apply is_mat_ext. intros; nb.
  - intros i m Hi Hm. mg Hm. mg Hm.
    replace ((k =? k) && ((k <? k) && (k <? i))) with false by nb.
    replace ((k =? k) && ((k <? i) && (i <? i))) with false by nb.
    rewrite Rdiv_res_ok by auto. cbn [bind].
    destruct (mset_ok m n n _ i k (f i k / f k k) Hm) as (m1 & E1 & H1); try lia.
    exists m1. split; auto. revert H1; apply is_mat_ext. intros i' j' Hi' Hj'. nb.
  - exists m. split; auto. revert Hm; apply is_mat_ext. intros; nb.
Qed.

Lemma lu_elim_ok a n f k : is_mat a n n f -> (k < n)%nat ->
  exists m, lu_elim a k n = Ok m /\
    is_mat m n n (fun i j => if (k <? i) && (k <? j) then f i j - f i k * f k j else f i j).
Proof.
  intros H Hk. unfold lu_elim.
  destruct (loop_from (fun a j =>
    foldM (fun a i => x <- mget a i j ;; l <- mget a i k ;; u <- mget a k j ;; mset a i j (x - l * u)%R)
      (seq (S k) (n - S k)) a)
    (fun c m => is_mat m n n (fun i j => if (k <? i) && ((k <? j) && (j <? c)) then f i j - f i k * f k j else f i j))
    (S k) (n - S k) a) as (m & E & Hm).
  - revert H; apply is_mat_ext. intros; nb.
  - intros j m Hj Hm.
    destruct (loop_from (fun a i => x <- mget a i j ;; l <- mget a i k ;; u <- mget a k j ;; mset a i j (x - l * u)%R)
      (fun c m => is_mat m n n (fun i' j' => if (k <? i') && (((k <? j') && (j' <? j)) || ((j' =? j) && (i' <? c)))
          then f i' j' - f i' k * f k j' else f i' j'))
      (S k) (n - S k) m) as (m1 & E1 & H1).
    + revert Hm; apply is_mat_ext. intros. nb.
    + intros i m' Hi Hm'. mg Hm'. mg Hm'. mg Hm'.
      destruct (mset_ok m' n n _ i j (f i j - f i k * f k j) Hm') as (m2 & E2 & H2); try lia.
      exists m2. split.
      * rewrite <- E2. f_equal. nb.
      * revert H2; apply is_mat_ext. intros i' j' Hi' Hj'. nb.
    + exists m1. split; auto. revert H1; apply is_mat_ext. intros. nb.
  - exists m. split; auto. revert Hm; apply is_mat_ext. intros; nb.
Qed.

(** ** Factorisation invariant *)
Definition Lp (f : nat -> nat -> R) (i t : nat) : R := if t <? i then f i t else if t =? i then 1 else 0.
Definition Up (f : nat -> nat -> R) (t j : nat) : R := if t <=? j then f t j else 0.

Definition lu_inv (n : nat) (A : nat -> nat -> R) (k : nat) (s : mat R * list nat) : Prop :=
  exists f, is_mat (fst s) n n f /\ Permutation (snd s) (seq 0 n) /\
   (forall i j, (i < n)%nat -> (j < n)%nat ->
      A (nth i (snd s) 0%nat) j =
      bigsum k (fun t => Lp f i t * Up f t j) + (if (k <=? i) && (k <=? j) then f i j else 0)) /\
   (forall i j, (j < i)%nat -> (j < k)%nat -> (i < n)%nat -> Rabs (f i j) <= 1) /\
   (forall j, (j < k)%nat -> f j j <> 0).

Definition nonsingular (n : nat) (A : nat -> nat -> R) : Prop :=
  forall x, (forall i, (i < n)%nat -> bigsum n (fun j => A i j * x j) = 0) -> forall j, (j < n)%nat -> x j = 0.

Lemma upper_null n f k : (k < n)%nat -> (forall j, (j < k)%nat -> f j j <> 0) ->
  forall m, (m <= k)%nat -> exists x : nat -> R, x k = 1 /\ (forall j, (k < j)%nat -> x j = 0) /\
    forall t, (k - m <= t < k)%nat -> bigsum n (fun j => Up f t j * x j) = 0.
Proof.
  intros Hk Hd. induction m as [|m IH]; intros Hm.
  - exists (fun j => if j =? k then 1 else 0). rewrite Nat.eqb_refl. splits; auto; [intros; nb|intros; lia].
  - destruct IH as (x & H1 & H2 & H3); [lia|]. remember (k - S m)%nat as r eqn:Er.
    set (x0 := fun j => if j =? r then 0 else x j).
    set (v := - bigsum n (fun j => Up f r j * x0 j) / f r r).
    assert (Hr : (r < k)%nat) by lia.
    exists (fun j => x0 j + v * delta j r). splits.
    + unfold x0. rewrite delta_ne by lia. nb. rewrite H1. lra.
    + intros j Hj. unfold x0. rewrite delta_ne by lia. nb. rewrite H2 by lia. lra.
    + intros t Ht.
      rewrite (bigsum_ext _ _ (fun j => Up f t j * x0 j + Up f t j * v * delta j r)) by (intros; ring).
      rewrite bigsum_plus, bigsum_delta_r by lia.
      destruct (Nat.eq_dec t r) as [->|Hne].
      * unfold Up at 2. rewrite Nat.leb_refl. unfold v. field. apply Hd; auto.
      * unfold Up at 2. destruct (Nat.leb_spec t r); [lia|].
        rewrite <- (H3 t) at 2 by lia. rewrite Rmult_0_l, Rplus_0_r.
        apply bigsum_ext. intros j Hj. unfold x0, Up. nb; ring.
Qed.

Lemma pivot_nonzero n A k s f : nonsingular n A -> (k < n)%nat ->
  is_mat (fst s) n n f -> Permutation (snd s) (seq 0 n) ->
  (forall i j, (i < n)%nat -> (j < n)%nat ->
      A (nth i (snd s) 0%nat) j =
      bigsum k (fun t => Lp f i t * Up f t j) + (if (k <=? i) && (k <=? j) then f i j else 0)) ->
  (forall j, (j < k)%nat -> f j j <> 0) ->
  ~ (forall i, (k <= i < n)%nat -> f i k = 0).
Proof.
  intros HN Hk Hm Hp HA Hd H0.
  destruct (upper_null n f k Hk Hd k) as (x & X1 & X2 & X3); auto.
  assert (x k = 0); [|lra]. apply HN; auto. intros r Hr.
  assert (Hin : In r (snd s)).
  { apply Permutation_in with (seq 0 n); [now symmetry|]. apply in_seq; lia. }
  apply (In_nth _ _ 0%nat) in Hin. destruct Hin as (i & Hi & <-).
  assert (HL : length (snd s) = n) by (rewrite (Permutation_length Hp); apply seq_length).
  rewrite HL in Hi.
  rewrite (bigsum_ext _ _ (fun j => bigsum k (fun t => Lp f i t * (Up f t j * x j)) +
     (if (k <=? i) && (k <=? j) then f i j else 0) * x j)).
  2:{ intros j Hj. rewrite HA by auto. rewrite Rmult_plus_distr_r, <- bigsum_scal_r. f_equal.
      apply bigsum_ext. intros; ring. }
  rewrite bigsum_plus, bigsum_swap.
  rewrite (bigsum_zero k).
  2:{ intros t Ht. rewrite bigsum_scal, X3 by lia. ring. }
  rewrite bigsum_zero; [lra|]. intros j Hj.
  destruct (Nat.leb_spec k i), (Nat.leb_spec k j); cbn [andb]; try ring.
  destruct (Nat.eq_dec j k) as [->|]; [rewrite H0 by lia; ring|rewrite X2 by lia; ring].
Qed.

Lemma sw_perm p p' n k q : length p = n -> length p' = n -> (k < n)%nat -> (q < n)%nat ->
  (forall i, (i < n)%nat -> nth i p' 0%nat = nth (sw k q i) p 0%nat) ->
  Permutation p (seq 0 n) -> Permutation p' (seq 0 n).
Proof.
  intros L L' Hk Hq H HP. symmetry. apply NoDup_Permutation_bis.
  - apply seq_NoDup.
  - rewrite seq_length. lia.
  - intros x Hx. apply (Permutation_in _ (Permutation_sym HP)) in Hx.
    apply (In_nth _ _ 0%nat) in Hx. destruct Hx as (i & Hi & <-). rewrite L in Hi.
    assert (Hs : (sw k q i < n)%nat) by (unfold sw; nb).
    replace (nth i p 0%nat) with (nth (sw k q i) p' 0%nat).
    + apply nth_In. lia.
    + rewrite H by auto. f_equal. unfold sw. destruct (Nat.eqb_spec i k); [nb|]. destruct (Nat.eqb_spec i q); nb.
Qed.

Lemma lu_step_ok n A k s : nonsingular n A -> (k < n)%nat -> lu_inv n A k s ->
  exists s', lu_step n s k = Ok s' /\ lu_inv n A (S k) s'.
Proof.
  intros HN Hk (f & Hm & Hp & HA & Hb & Hd). destruct s as (a & p). cbn [fst snd] in *.
  pose proof (pivot_nonzero n A k (a, p) f HN Hk Hm Hp HA Hd) as Hnz.
  unfold lu_step. destruct (lu_search_ok a n f k Hm Hk) as (pv & q & E & Hq & Hmax). rewrite E. cbn [bind].
  assert (Lp' : length p = n) by (rewrite (Permutation_length Hp); apply seq_length).
  (* after the exchange *)
  assert (HX : exists a1 p1 g, (if k =? q then Ok (a, p) else p <- lu_swap_piv p k q ;; a <- lu_swap_rows a k q n ;; Ok (a, p))
      = Ok (a1, p1) /\ is_mat a1 n n g /\ Permutation p1 (seq 0 n) /\
     (forall i j, (i < n)%nat -> (j < n)%nat ->
      A (nth i p1 0%nat) j =
      bigsum k (fun t => Lp g i t * Up g t j) + (if (k <=? i) && (k <=? j) then g i j else 0)) /\
     (forall i j, (j < i)%nat -> (j < k)%nat -> (i < n)%nat -> Rabs (g i j) <= 1) /\
     (forall j, (j < k)%nat -> g j j <> 0) /\
     (forall i, (k <= i < n)%nat -> Rabs (g i k) <= Rabs (g k k)) /\ g k k = f q k).
  { destruct (Nat.eqb_spec k q) as [<-|Hne].
    - exists a, p, f. splits; auto.
    - destruct (lu_swap_piv_ok p n k q) as (p1 & E1 & L1 & H1); auto; try lia. rewrite E1. cbn [bind].
      destruct (lu_swap_rows_ok a n f k q) as (a1 & E2 & H2); auto; try lia. rewrite E2. cbn [bind].
      exists a1, p1, (fun i j => f (sw k q i) j). splits; auto.
      + eapply sw_perm; [| |exact Hk| |exact H1|]; auto. lia.
      + intros i j Hi Hj. rewrite H1 by auto.
        assert (Hs : (sw k q i < n)%nat) by (unfold sw; nb). rewrite HA by auto. f_equal.
        * apply bigsum_ext. intros t Ht. f_equal; unfold Lp, Up, sw; nb.
        * unfold sw; nb.
      + intros i j Hji Hj Hi. apply Hb; auto; unfold sw; nb.
      + intros j Hj. replace (sw k q j) with j by (unfold sw; nb). auto.
      + intros i Hi. replace (sw k q k) with q by (unfold sw; nb). apply Hmax. unfold sw; nb.
      + unfold sw; nb. }
  destruct HX as (a1 & p1 & g & EX & G1 & G2 & G3 & G4 & G5 & G6 & G7). rewrite EX. cbn [bind].
  assert (Hgk : g k k <> 0).
  { intros H0. apply Hnz. intros i Hi. specialize (Hmax i Hi). rewrite <- G7, H0, Rabs_R0 in Hmax.
    destruct (Req_dec (f i k) 0) as [|Hn]; auto. apply Rabs_pos_lt in Hn. lra. }
  destruct (lu_scale_ok a1 n g k G1 Hk Hgk) as (a2 & E2 & H2). rewrite E2. cbn [bind].
  destruct (lu_elim_ok a2 n _ k H2 Hk) as (a3 & E3 & H3). rewrite E3. cbn [bind].
  set (h := fun i j : nat => if (k <? i) && (k <? j) then
     g i j - (if (k =? k) && (k <? i) then g i k / g k k else g i k) * g k j
     else if (j =? k) && (k <? i) then g i k / g k k else g i j).
  assert (Hh : is_mat a3 n n h).
  { revert H3; apply is_mat_ext. intros i j Hi Hj. unfold h. nb. }
  exists (a3, p1). split; auto. exists h. cbn [fst snd]. splits; auto.
  - intros i j Hi Hj. rewrite G3 by auto. cbn [bigsum]. rewrite Rplus_assoc. f_equal.
    + apply bigsum_ext. intros t Ht. f_equal; unfold Lp, Up, h; nb.
    + unfold Lp, Up, h. nb; field; auto.
  - intros i j Hji Hj Hi. unfold h. destruct (Nat.eq_dec j k) as [->|Hne].
    + nb. unfold Rdiv. rewrite Rabs_mult, Rabs_inv.
      assert (0 < Rabs (g k k)) by now apply Rabs_pos_lt.
      apply Rmult_le_reg_r with (Rabs (g k k)); auto. rewrite Rmult_assoc, Rinv_l by lra.
      rewrite Rmult_1_r, Rmult_1_l. apply G6. lia.
    + nb; apply G4; auto; lia.
  - intros j Hj. unfold h. destruct (Nat.eq_dec j k) as [->|Hne]; nb. all: try (apply G5; lia).
Qed.

Definition lu_fact (n : nat) (A f : nat -> nat -> R) (p : list nat) : Prop :=
  Permutation p (seq 0 n) /\
  (forall i j, (i < n)%nat -> (j < n)%nat -> A (nth i p 0%nat) j = bigsum n (fun t => Lp f i t * Up f t j)) /\
  (forall i j, (j < i < n)%nat -> Rabs (f i j) <= 1) /\
  (forall j, (j < n)%nat -> f j j <> 0).

Lemma lu_ok n A a p0 : is_mat a n n A -> length p0 = n -> nonsingular n A ->
  exists a' p f, lu a p0 = Ok (a', p) /\ is_mat a' n n f /\ lu_fact n A f p.
Proof.
  intros H L HN. unfold lu. destruct H as (W & HR & HC & HH). rewrite HR, HC, L, Nat.eqb_refl. cbn [assert_ bind].
  assert (H : is_mat a n n A) by (unfold is_mat; auto). clear HH.
  destruct (loop_from (lu_step n) (lu_inv n A) 0 (n - 1) (a, seq 0 n)) as ((a' & p) & E & f & F1 & F2 & F3 & F4 & F5).
  - exists A. cbn [fst snd bigsum]. splits; auto; try (intros; lia).
    intros i j Hi Hj. rewrite seq_nth by auto. cbn. ring.
  - intros k s Hk Hs. apply lu_step_ok; auto. lia.
  - cbn [fst snd] in *. exists a', p, f. splits; auto. unfold lu_fact.
    destruct n as [|n]; [splits; auto; intros; lia|].
    replace (0 + (S n - 1))%nat with n in * by lia. splits; auto.
    + intros i j Hi Hj. rewrite F3 by auto. cbn [bigsum]. f_equal. unfold Lp, Up. nb; ring.
    + intros i j Hij. apply F4; lia.
    + intros j Hj. destruct (Nat.eq_dec j n) as [->|]; [|apply F5; lia].
      intros H0. apply (pivot_nonzero (S n) A n (a', p) f HN); auto.
      intros i Hi. replace i with n by lia. auto.
Qed.

(** ** Substitution *)
Ltac vg H := rewrite (proj1 (proj2 H)) by lia; cbn [bind].

Lemma lu_sub_loop a n f i s len b h : is_mat a n n f -> is_vec b n h -> (i < n)%nat -> (s + len <= n)%nat ->
  (i < s \/ s + len <= i)%nat ->
  exists b', foldM (lu_sub a i) (seq s len) b = Ok b' /\
    is_vec b' n (fun k => if k =? i then h i - bigsum len (fun j => f i (s + j)%nat * h (s + j)%nat) else h k).
Proof.
  intros Hm Hv Hi Hs Hd.
  destruct (loop_from (lu_sub a i)
    (fun c b => is_vec b n (fun k => if k =? i then h i - bigsum (c - s) (fun j => f i (s + j)%nat * h (s + j)%nat) else h k))
    s len b) as (b' & E & Hb).
  - revert Hv; apply is_vec_ext. intros k Hk. rewrite Nat.sub_diag. cbn. nb. ring.
  - intros j b' Hj Hb. unfold lu_sub. vg Hb. mg Hm. vg Hb.
    destruct (vset_ok b' n _ i ((if i =? i then h i - bigsum (j - s) (fun j => f i (s + j)%nat * h (s + j)%nat) else h i)
        - f i j * (if j =? i then h i - bigsum (j - s) (fun j => f i (s + j)%nat * h (s + j)%nat) else h j)) Hb) as (w & E & Hw); auto.
    exists w. split; auto. revert Hw; apply is_vec_ext. intros k Hk.
    rewrite Nat.eqb_refl. nb. replace (S j - s)%nat with (S (j - s))%nat by lia. cbn [bigsum].
    replace (s + (j - s))%nat with j by lia. ring.
  - exists b'. split; auto. revert Hb; apply is_vec_ext. intros k Hk. now replace (s + len - s)%nat with len by lia.
Qed.

Lemma foldM_rev_seq {S} (f : S -> nat -> res S) (I : nat -> S -> Prop) n s0 :
  I n s0 -> (forall i st, (i < n)%nat -> I (Datatypes.S i) st -> exists st', f st i = Ok st' /\ I i st') ->
  exists st, foldM f (rev (seq 0 n)) s0 = Ok st /\ I 0%nat st.
Proof.
  revert s0. induction n as [|n IH]; intros s0 H0 Hs.
  - exists s0; split; auto.
  - rewrite seq_S, rev_app_distr. cbn [rev app foldM].
    destruct (Hs n s0) as (s1 & E1 & H1); auto. rewrite Nat.add_0_l, E1. cbn [bind]. apply IH; auto.
Qed.

(** unit lower triangular system *)
Lemma lower_row n f i (y : nat -> R) : (i < n)%nat ->
  bigsum n (fun t => Lp f i t * y t) = bigsum i (fun t => f i t * y t) + y i.
Proof.
  intros Hi. replace n with (i + (1 + (n - i - 1)))%nat at 1 by lia.
  rewrite bigsum_split, bigsum_split. cbn [bigsum].
  rewrite (bigsum_zero (n - i - 1)).
  - rewrite (bigsum_ext i (fun t => Lp f i t * y t) (fun t => f i t * y t)).
    + unfold Lp. rewrite Nat.add_0_r, Nat.ltb_irrefl, Nat.eqb_refl. ring.
    + intros t Ht. unfold Lp. nb.
  - intros t Ht. unfold Lp. nb. ring.
Qed.

Lemma upper_row n f i (x : nat -> R) : (i < n)%nat ->
  bigsum n (fun j => Up f i j * x j) = f i i * x i + bigsum (n - S i) (fun j => f i (S i + j)%nat * x (S i + j)%nat).
Proof.
  intros Hi. replace n with (i + (1 + (n - S i)))%nat at 1 by lia.
  rewrite bigsum_split, bigsum_split. cbn [bigsum].
  rewrite (bigsum_zero i).
  - rewrite (bigsum_ext (n - S i) _ (fun j => f i (S i + j)%nat * x (S i + j)%nat)).
    + unfold Up. rewrite Nat.add_0_r, Nat.leb_refl. ring.
    + intros t Ht. unfold Up. replace (i + (1 + t))%nat with (S i + t)%nat by lia. nb.
  - intros t Ht. unfold Up. nb. ring.
Qed.

Lemma solve_lu_ok n A f a p b B : is_mat a n n f -> lu_fact n A f p -> is_vec b n B ->
  exists x X, solve_lu a b p = Ok x /\ is_vec x n X /\
    forall i, (i < n)%nat -> bigsum n (fun j => A i j * X j) = B i.
Proof.
  intros Hm (Hp & HA & _ & Hd) Hb.
  assert (L : length p = n) by (rewrite (Permutation_length Hp); apply seq_length).
  assert (Hpn : forall i, (i < n)%nat -> (nth i p 0 < n)%nat).
  { intros i Hi. assert (In (nth i p 0%nat) (seq 0 n)) by (eapply Permutation_in; [exact Hp|apply nth_In; lia]).
    apply in_seq in H. lia. }
  unfold solve_lu. destruct Hm as (W & HR & HC & HH). rewrite HR, HC, L, (proj1 Hb), Nat.eqb_refl. cbn [assert_ bind].
  assert (Hm : is_mat a n n f) by (unfold is_mat; auto). clear HH.
  (* permuted right-hand side *)
  set (PB := fun i => B (nth i p 0%nat)).
  destruct (loop_from (fun b0 i => k <- rd p i ;; x <- vget b k ;; vset b0 i x)
    (fun c b => is_vec b n (fun k => if k <? c then PB k else B k)) 0 n b) as (b1 & E1 & H1).
  { revert Hb; apply is_vec_ext. intros; nb. }
  { intros i b' Hi Hb'. rewrite (rd_nth p i 0%nat) by lia. cbn [bind]. specialize (Hpn i). vg Hb.
    destruct (vset_ok b' n _ i (B (nth i p 0%nat)) Hb') as (w & E & Hw); [lia|]. exists w; split; auto.
    revert Hw; apply is_vec_ext. intros k Hk. unfold PB. nb. }
  rewrite E1. cbn [bind].
  assert (V1 : is_vec b1 n PB) by (revert H1; apply is_vec_ext; intros; nb). clear H1.
  (* forward *)
  destruct (loop_from (fun b i => foldM (lu_sub a i) (seq 0 i) b)
    (fun c b => exists y, is_vec b n y /\ (forall i, (c <= i < n)%nat -> y i = PB i) /\
       forall i, (i < c)%nat -> bigsum n (fun t => Lp f i t * y t) = PB i) 0 n b1) as (b2 & E2 & y & Y1 & _ & Y2).
  { exists PB. splits; auto. intros; lia. }
  { intros i b' Hi (y & Y1 & Y2 & Y3).
    destruct (lu_sub_loop a n f i 0 i b' y) as (b'' & E & Hb''); auto; try lia.
    exists b''. split; auto. eexists; splits; [exact Hb''| |].
    - intros k Hk. nb. apply Y2; lia.
    - intros k Hk. cbn [plus]. rewrite lower_row by lia. destruct (Nat.eq_dec k i) as [->|].
      + rewrite Nat.eqb_refl.
        rewrite (bigsum_ext i _ (fun t => f i t * y t)) by (intros; nb).
        rewrite (Y2 i) by lia. ring.
      + rewrite <- Y3, lower_row by lia. f_equal; [|nb]. apply bigsum_ext. intros; nb. }
  rewrite E2. cbn [bind]. rewrite Nat.add_0_l in Y2.
  (* backward *)
  destruct (foldM_rev_seq (fun b i =>
      b <- foldM (lu_sub a i) (seq (S i) (n - S i)) b ;;
      x <- vget b i ;; d <- mget a i i ;; q <- Rdiv_res x d ;; vset b i q)
    (fun c b => exists x, is_vec b n x /\ (forall i, (i < c)%nat -> x i = y i) /\
       forall i, (c <= i < n)%nat -> bigsum n (fun j => Up f i j * x j) = y i) n b2) as (b3 & E3 & X & X1 & _ & X2).
  { exists y. splits; auto. intros; lia. }
  { intros i b' Hi (x & X1 & X2 & X3).
    destruct (lu_sub_loop a n f i (S i) (n - S i) b' x) as (b'' & E & Hb''); auto; try lia.
    rewrite E. cbn [bind]. vg Hb''. mg Hm. rewrite Nat.eqb_refl. rewrite Rdiv_res_ok by auto. cbn [bind].
    remember (x i - bigsum (n - S i) (fun j => f i (S i + j)%nat * x (S i + j)%nat)) as r eqn:Er.
    destruct (vset_ok b'' n _ i (r / f i i) Hb'') as (w & E' & Hw); auto.
    exists w. split; auto. eexists; splits; [exact Hw| |].
    - intros k Hk. nb.
    - intros k Hk. rewrite upper_row by lia. destruct (Nat.eq_dec k i) as [->|].
      + rewrite Nat.eqb_refl.
        rewrite (bigsum_ext (n - S i) _ (fun j => f i (S i + j)%nat * x (S i + j)%nat)) by (intros; nb).
        rewrite Er, (X2 i) by lia. field. auto.
      + rewrite <- (X3 k), upper_row by lia. f_equal; [nb|]. apply bigsum_ext. intros; nb. }
  rewrite E3. exists b3, X. splits; auto.
  intros r Hr.
  assert (Hin : In r p).
  { apply Permutation_in with (seq 0 n); [now symmetry|]. apply in_seq; lia. }
  apply (In_nth _ _ 0%nat) in Hin. destruct Hin as (i & Hi & <-). rewrite L in Hi.
  rewrite (bigsum_ext _ _ (fun j => bigsum n (fun t => Lp f i t * (Up f t j * X j)))).
  2:{ intros j Hj. rewrite HA by auto. rewrite <- bigsum_scal_r. apply bigsum_ext. intros; ring. }
  rewrite bigsum_swap.
  rewrite (bigsum_ext _ _ (fun t => Lp f i t * y t)).
  - now apply Y2.
  - intros t Ht. rewrite bigsum_scal, X2 by lia. reflexivity.
Qed.

(** a completed run of LU and SolveLU means that the matrix was nonsingular *)
