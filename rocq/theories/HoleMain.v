(** Properties C51 and C52: a rectangle with a hole: the proofs. *)
From Coq Require Import List Arith ZArith Lia Bool Reals Lra.
From Verif Require Import Res SumR DenseR LUModel OCModel MeshModel MeshSpec OCMain.
Import ListNotations.
Local Open Scope R_scope.
From Verif Require AssemblyProof.
From Verif Require Import MeshProof MeshMain.
Local Open Scope nat_scope.

(** nx = 2 p + v and ny = 2 q + w *)
Section Hole.
Variables (p q v w : nat).
Hypotheses (hv : 1 <= v) (hw : 1 <= w).
Local Notation nx := (2 * p + v).
Local Notation ny := (2 * q + w).
Definition hset : hole := mkHole (Z.of_nat nx) (Z.of_nat ny) (Z.of_nat v) (Z.of_nat w) (Z.of_nat p) (Z.of_nat q).

(** grid points in the order of their numbers *)
Definition hpts1 := list_prod (seq 0 (p + 1)) (seq 0 (ny + 1)).
Definition hcol (i : nat) := map (fun j => (p + 1 + i, j)) (seq 0 (q + 1)) ++ map (fun j => (p + 1 + i, j + q + w)) (seq 0 (q + 1)).
Definition hpts2 := flat_map hcol (seq 0 (v - 1)).
Definition hpts3 := map (fun c : nat * nat => (p + v + fst c, snd c)) (list_prod (seq 0 (p + 1)) (seq 0 (ny + 1))).
Definition hpts := hpts1 ++ hpts2 ++ hpts3.
Definition hP (c : nat * nat) : Prop := fst c <= nx /\ snd c <= ny /\ (fst c <= p \/ p + v <= fst c \/ snd c <= q \/ q + w <= snd c).
Definition hid (c : nat * nat) : nat :=
  let (i, j) := c in
  if i <=? p then (ny + 1) * i + j
  else if i <? p + v then (ny + 1) * (p + 1) + 2 * (q + 1) * (i - (p + 1)) + (if j <=? q then j else q + 1 + (j - (q + w)))
  else (ny + 1) * (p + 1) + 2 * (q + 1) * (v - 1) + (ny + 1) * (i - (p + v)) + j.
Lemma hcol_length : forall i, length (hcol i) = 2 * (q + 1).
Proof. intros. unfold hcol. rewrite app_length, !map_length, !seq_length. lia. Qed.
Lemma hpts1_length : length hpts1 = (ny + 1) * (p + 1).
Proof. unfold hpts1. rewrite prod_length, !seq_length. lia. Qed.
Lemma flat_length : forall A (f : nat -> list A) m n, (forall i, length (f i) = m) -> length (flat_map f (seq 0 n)) = m * n.
Proof. intros A f m n H. induction n as [|n IH]; [cbn; lia|]. rewrite seq_S, flat_map_app, app_length, IH. cbn [flat_map]. rewrite app_nil_r, H. lia. Qed.
Lemma hpts2_length : length hpts2 = 2 * (q + 1) * (v - 1).
Proof. unfold hpts2. apply flat_length. apply hcol_length. Qed.
Lemma hpts3_length : length hpts3 = (ny + 1) * (p + 1).
Proof. unfold hpts3. rewrite map_length, prod_length, !seq_length. lia. Qed.
Lemma hpts_length : length hpts = (nx + 1) * (ny + 1) - (v - 1) * (w - 1).
Proof.
  unfold hpts. rewrite !app_length, hpts1_length, hpts2_length, hpts3_length. destruct v as [|v']; [lia|]. destruct w as [|w']; [lia|]. cbn [Nat.sub]. rewrite !Nat.sub_0_r. nia.
Qed.
Lemma sub_l1 : forall a b c, a + b + c - a = b + c. Proof. intros; lia. Qed.
Lemma sub_l2 : forall a b c d, a + b + c + d - a - b = c + d. Proof. intros; lia. Qed.
Lemma nth_hid : forall c, hP c -> nth (hid c) hpts (0, 0) = c.
Proof.
  intros [i j] (Hi & Hj & H). cbn [fst snd] in *. unfold hid, hpts.
  destruct (Nat.leb_spec i p).
  - rewrite app_nth1 by (rewrite hpts1_length, (Nat.mul_comm (ny + 1) (p + 1)); apply idx_lt; lia). unfold hpts1. apply nth_prod; lia.
  - destruct (Nat.ltb_spec i (p + v)).
    + rewrite app_nth2 by (rewrite hpts1_length; lia). rewrite hpts1_length.
      set (r := if j <=? q then j else q + 1 + (j - (q + w))). assert (Hr : r < 2 * (q + 1)) by (unfold r; destruct (Nat.leb_spec j q); lia).
      rewrite sub_l1.
      rewrite app_nth1 by (rewrite hpts2_length, (Nat.mul_comm (2 * (q + 1)) (v - 1)); apply idx_lt; lia).
      unfold hpts2. rewrite (nth_flat _ hcol (2 * (q + 1)) (v - 1) (0, 0) (i - (p + 1)) r (fun i _ => hcol_length i) ltac:(lia) Hr).
      unfold hcol, r. destruct (Nat.leb_spec j q).
      * rewrite app_nth1 by (rewrite map_length, seq_length; lia). rewrite nth_map_seq0 by lia. f_equal; lia.
      * rewrite app_nth2 by (rewrite map_length, seq_length; lia). rewrite map_length, seq_length. rewrite nth_map_seq0 by lia. f_equal; lia.
    + rewrite app_nth2 by (rewrite hpts1_length; nia). rewrite hpts1_length. rewrite app_nth2 by (rewrite hpts2_length; lia). rewrite hpts2_length.
      rewrite sub_l2. unfold hpts3. 
      rewrite nth_indep with (d' := (fun c : nat * nat => (p + v + fst c, snd c)) (0, 0)) by (rewrite map_length, prod_length, !seq_length; apply idx_lt; lia).
      etransitivity; [apply (map_nth (fun c : nat * nat => (p + v + fst c, snd c)) _ (0, 0))|]. rewrite nth_prod by lia. cbn [fst snd]. f_equal. lia.
Qed.
Lemma hid_inj : forall c c', hP c -> hP c' -> hid c = hid c' -> c = c'.
Proof. intros c c' H H' E. rewrite <- (nth_hid c H), <- (nth_hid c' H'), E. reflexivity. Qed.
Lemma hid_lt : forall c, hP c -> hid c < length hpts.
Proof.
  intros [i j] (Hi & Hj & H). cbn [fst snd] in *. unfold hid, hpts. rewrite !app_length, hpts1_length, hpts2_length, hpts3_length.
  destruct (Nat.leb_spec i p); [assert ((ny + 1) * i + j < (p + 1) * (ny + 1)) by (apply idx_lt; lia); lia|]. destruct (Nat.ltb_spec i (p + v)).
  - set (r := if j <=? q then j else q + 1 + (j - (q + w))). assert (Hr : r < 2 * (q + 1)) by (unfold r; destruct (Nat.leb_spec j q); lia).
    assert (2 * (q + 1) * (i - (p + 1)) + r < (v - 1) * (2 * (q + 1))) by (apply idx_lt; lia). lia.
  - assert ((ny + 1) * (i - (p + v)) + j < (p + 1) * (ny + 1)) by (apply idx_lt; lia). lia.
Qed.

(** numbers as the program computes them *)
Local Notation Zn := Z.of_nat.
Lemma hid_L : forall i j, i <= p -> Zn (hid (i, j)) = ((Zn ny + 1) * Zn i + Zn j)%Z.
Proof. intros i j H. unfold hid. destruct (Nat.leb_spec i p); [|lia]. nia. Qed.
Lemma hid_R : forall i j, Zn (hid (p + v + i, j)) = ((Zn ny + 1) * (Zn p + 1) + 2 * (Zn q + 1) * (Zn v - 1) + (Zn ny + 1) * Zn i + Zn j)%Z.
Proof. intros i j. unfold hid. destruct (Nat.leb_spec (p + v + i) p); [lia|]. destruct (Nat.ltb_spec (p + v + i) (p + v)); [lia|]. replace (p + v + i - (p + v)) with i by lia. destruct v as [|v']; [lia|]. cbn [Nat.sub]. rewrite Nat.sub_0_r. lia. Qed.
Lemma hid_B : forall i j, i < v -> j <= q -> Zn (hid (p + 1 + i, j)) = ((Zn ny + 1) * (Zn p + 1) + 2 * (Zn q + 1) * Zn i + Zn j)%Z.
Proof.
  intros i j Hi Hj. destruct (Nat.eq_dec (i + 1) v) as [E|E].
  - replace (p + 1 + i) with (p + v + 0) by lia. rewrite hid_R. replace (Zn v - 1)%Z with (Zn i) by lia. lia.
  - unfold hid. destruct (Nat.leb_spec (p + 1 + i) p); [lia|]. destruct (Nat.ltb_spec (p + 1 + i) (p + v)); [|lia]. destruct (Nat.leb_spec j q); [|lia]. replace (p + 1 + i - (p + 1)) with i by lia. lia.
Qed.
Lemma hid_T : forall i j, i < v -> j <= q -> Zn (hid (p + i, q + w + j)) = ((Zn ny + 1) * Zn p + Zn w - 1 + (Zn q + 1) * (2 * Zn i + 1) + Zn j)%Z.
Proof.
  intros i j Hi Hj. destruct i as [|i].
  - rewrite Nat.add_0_r, hid_L by lia. lia.
  - unfold hid. destruct (Nat.leb_spec (p + S i) p); [lia|]. destruct (Nat.ltb_spec (p + S i) (p + v)); [|lia]. destruct (Nat.leb_spec (q + w + j) q); [lia|].
    replace (p + S i - (p + 1)) with i by lia. replace (q + w + j - (q + w)) with j by lia. lia.
Qed.

(** cells in the order of the elements *)
Definition hcells : list (nat * nat) :=
  list_prod (seq 0 p) (seq 0 ny) ++ map (fun j => (p, j)) (seq 0 q) ++
  flat_map (fun i => map (fun j => (p + i, q + w + j)) (seq 0 q) ++ map (fun j => (p + 1 + i, j)) (seq 0 q)) (seq 0 (v - 1)) ++
  map (fun j => (p + v - 1, q + w + j)) (seq 0 q) ++ map (fun c : nat * nat => (p + v + fst c, snd c)) (list_prod (seq 0 p) (seq 0 ny)).
Lemma in_hcells : forall i j, In (i, j) hcells <-> i < nx /\ j < ny /\ ~ (p <= i < p + v /\ q <= j < q + w).
Proof.
  intros i j. unfold hcells. rewrite !in_app_iff, !in_map_iff, in_flat_map, in_prod_iff, !in_seq. split.
  - intros [H|[(k & E & H)|[(k & Hk & H)|[(k & E & H)|([k l] & E & H)]]]].
    + lia.
    + inversion E; subst. apply in_seq in H. lia.
    + apply in_seq in Hk. apply in_app_iff in H. destruct H as [H|H]; apply in_map_iff in H; destruct H as (l & E & H); inversion E; subst; apply in_seq in H; lia.
    + inversion E; subst. apply in_seq in H. lia.
    + apply in_prod_iff in H. rewrite !in_seq in H. inversion E; subst. cbn [fst snd] in *. lia.
  - intros (Hi & Hj & H). destruct (Nat.lt_ge_cases i p); [left; lia|right]. destruct (Nat.lt_ge_cases i (p + v)).
    + destruct (Nat.lt_ge_cases j q).
      * destruct (Nat.eq_dec i p) as [->|]; [left; exists j; split; [reflexivity|apply in_seq; lia]|]. right. left. exists (i - p - 1). split; [apply in_seq; lia|]. apply in_app_iff. right. apply in_map_iff. exists j. split; [f_equal; lia|apply in_seq; lia].
      * right. destruct (Nat.eq_dec (i + 1) (p + v)); [right; left; exists (j - q - w); split; [f_equal; lia|apply in_seq; lia]|]. left. exists (i - p). split; [apply in_seq; lia|]. apply in_app_iff. left. apply in_map_iff. exists (j - q - w). split; [f_equal; lia|apply in_seq; lia].
    + right. right. right. exists (i - p - v, j). cbn [fst snd]. split; [f_equal; lia|]. apply in_prod_iff. rewrite !in_seq. lia.
Qed.
Lemma hcells_nodup : NoDup hcells.
Proof.
  assert (M : forall (f : nat -> nat * nat) n, (forall x y, f x = f y -> x = y) -> NoDup (map f (seq 0 n))) by (intros f n H; apply NoDup_map'; [apply seq_NoDup|]; intros; apply H; assumption).
  unfold hcells. repeat apply NoDup_app'.
  - apply NoDup_prod; apply seq_NoDup.
  - apply M. intros x y E. inversion E. lia.
  - apply NoDup_flat; [apply seq_NoDup| |].
    + intros i _. apply NoDup_app'; [apply M; intros x y E; inversion E; lia..|]. intros [a b] H H'. apply in_map_iff in H, H'. destruct H as (? & E & H), H' as (? & E' & H'). inversion E; inversion E'; subst. lia.
    + intros i i' [a b] Hi Hi' H H'. apply in_app_iff in H, H'. rewrite !in_map_iff in H, H'.
      destruct H as [(j & E & H)|(j & E & H)], H' as [(j' & E' & H')|(j' & E' & H')]; apply in_seq in H, H'; inversion E; inversion E'; subst; lia.
  - apply M. intros x y E. inversion E. lia.
  - apply NoDup_map'; [apply NoDup_prod; apply seq_NoDup|]. intros [a b] [a' b'] _ _ E. cbn [fst snd] in E. inversion E. f_equal; lia.
  - intros [a b] H H'. apply in_map_iff in H, H'. destruct H as (? & E & H), H' as ([k l] & E' & H'). apply in_seq in H. inversion E; inversion E'; subst. lia.
  - intros [a b] H H'. apply in_flat_map in H. destruct H as (i & Hi & H). apply in_seq in Hi. apply in_app_iff in H, H'. rewrite !in_map_iff in H, H'.
    destruct H as [(j & E & H)|(j & E & H)], H' as [(j' & E' & H')|([k l] & E' & H')]; apply in_seq in H; inversion E; inversion E'; subst; cbn [fst snd] in *; lia.
  - intros [a b] H H'. apply in_map_iff in H. destruct H as (j & E & H). apply in_seq in H. inversion E; subst. rewrite !in_app_iff, in_flat_map, !in_map_iff in H'.
    destruct H' as [(k & Hk & H')|[(j' & E' & H')|([k l] & E' & H')]].
    + apply in_seq in Hk. apply in_app_iff in H'. destruct H' as [H'|H']; apply in_map_iff in H'; destruct H' as (l & E' & H'); apply in_seq in H'; inversion E'; lia.
    + apply in_seq in H'. inversion E'. lia.
    + inversion E'. lia.
  - intros [a b] H H'. apply in_prod_iff in H. rewrite !in_seq in H. rewrite !in_app_iff, in_flat_map, !in_map_iff in H'.
    destruct H' as [(j' & E' & H')|[(k & Hk & H')|[(j' & E' & H')|([k l] & E' & H')]]].
    + inversion E'. lia.
    + apply in_app_iff in H'. destruct H' as [H'|H']; apply in_map_iff in H'; destruct H' as (l & E' & H'); inversion E'; lia.
    + inversion E'. lia.
    + inversion E'. lia.
Qed.
Lemma hcells_length : Z.of_nat (length hcells) = (Zn nx * Zn ny - Zn v * Zn w)%Z.
Proof.
  unfold hcells. rewrite !app_length, !map_length, prod_length, !seq_length. rewrite (flat_length _ _ (2 * q)) by (intros; rewrite app_length, !map_length, !seq_length; lia).
  destruct v as [|v']; [lia|]. cbn [Nat.sub]. rewrite Nat.sub_0_r. lia.
Qed.
Definition hels := gelements S hid hcells.
Lemma alloc_ok : forall A (n : Z) (d : A) m, n = Z.of_nat m -> alloc n d = Ok (repeat d m).
Proof. intros A n d m ->. unfold alloc. destruct (Z.ltb_spec (Zn m) 0); [lia|]. rewrite Nat2Z.id. reflexivity. Qed.
Local Notation pstep := (fun s e => put e s).
Lemma pgrid : forall A n m (body : Z -> Z -> list A * nat -> res (list A * nat)) (e : nat * nat -> A), (forall i j, i < n -> j < m -> forall s, body (Zn i) (Zn j) s = put (e (i, j)) s) ->
  steps pstep (forZ (Zn n) (fun i => forZ (Zn m) (body i))) (map e (list_prod (seq 0 n) (seq 0 m))).
Proof.
  intros A n m body e H. unfold forZ. rewrite !Nat2Z.id. rewrite prod_flat, map_flat_map. rewrite (flat_map_ext' _ _ _ (fun i => map (fun j => e (i, j)) (seq 0 m))) by (intros; rewrite map_map; reflexivity).
  apply (steps_for2 _ _ pstep n m (fun i j => body (Zn i) (Zn j)) (fun i j => e (i, j))). exact H.
Qed.
Lemma pline : forall A n (body : Z -> list A * nat -> res (list A * nat)) (e : nat -> A), (forall i, i < n -> forall s, body (Zn i) s = put (e i) s) ->
  steps pstep (forZ (Zn n) body) (map e (seq 0 n)).
Proof. intros A n body e H. unfold forZ. rewrite !Nat2Z.id. apply (steps_for1 _ _ pstep n (fun i => body (Zn i)) e). exact H. Qed.
Lemma fin1 : forall T A B (step : T -> A -> res T) (f : T -> res B) body l s0, steps step body l -> (s <- body s0 ;; f s) = (s <- foldM step l s0 ;; f s).
Proof. intros T A B step f body l s0 H. rewrite H. reflexivity. Qed.
Lemma finS : forall T A B (step : T -> A -> res T) (f : T -> res B) body K l l' s0, steps step body l -> (forall s, K s = (s <- foldM step l' s ;; f s)) -> (s <- body s0 ;; K s) = (s <- foldM step (l ++ l') s0 ;; f s).
Proof. intros T A B step f body K l l' s0 H HK. rewrite H, foldM_app'. destruct (foldM step l s0); cbn [bind]; [apply HK|reflexivity]. Qed.
Ltac zeqs := rewrite ?Nat2Z.inj_sub by lia; eqs.
Lemma ho_elements_eq : ho_elements hset = Ok (map (map Zn) hels).
Proof.
  unfold ho_elements. cbn [hset ho_nx ho_ny ho_nv ho_nw ho_nxv ho_nyw].
  rewrite (alloc_ok _ _ [] (length hels)) by (unfold hels, gelements; rewrite map_length, hcells_length; reflexivity). cbn [bind].
  set (el := fun c => map Zn (map hid (corners S c))).
  replace (Zn v - 1)%Z with (Zn (v - 1)) by lia.
  transitivity (s <- foldM pstep (map el hcells) (repeat [] (length hels), 0) ;; Ok (fst s)).
  2: { replace (map el hcells) with (map (map Zn) hels) by (unfold hels, gelements; rewrite map_map; reflexivity). rewrite (puts_all _ _ []) by (rewrite map_length; reflexivity). reflexivity. }
  assert (C : forall i j, el (i, j) = [Zn (hid (i, j)); Zn (hid (S i, j)); Zn (hid (S i, S j)); Zn (hid (i, S j))]) by reflexivity.
  unfold hcells. rewrite !map_app, !map_map.
  apply finS; [|intro s1; apply finS; [|intro s2; apply finS; [|intro s3; apply finS; [|intro s4; apply fin1]]]].
  - apply pgrid. intros i j Hi Hj s. f_equal. rewrite C, !hid_L by lia. zeqs.
  - apply pline. intros j Hj s. f_equal. rewrite C, (hid_L p j), (hid_L p (S j)) by lia. replace (S p) with (p + 1 + 0) by lia. rewrite !hid_B by lia. zeqs.
  - rewrite map_flat_map. unfold forZ at 1. rewrite Nat2Z.id. apply (steps_for _ _ pstep). intros i Hi. rewrite map_app, !map_map.
    match goal with |- steps _ (fun s => bind (?B1 s) ?B2) _ => apply (steps_bind _ _ pstep B1 B2) end; apply pline; intros j Hj s; f_equal; rewrite C.
    + replace (S (p + i)) with (p + S i) by lia. replace (S (q + w + j)) with (q + w + S j) by lia. rewrite !hid_T by lia. zeqs.
    + replace (S (p + 1 + i)) with (p + 1 + S i) by lia. rewrite !hid_B by lia. zeqs.
  - apply pline. intros j Hj s. f_equal. rewrite C. replace (p + v - 1) with (p + (v - 1)) by lia. replace (S (q + w + j)) with (q + w + S j) by lia. rewrite !hid_T by lia. replace (S (p + (v - 1))) with (p + v + 0) by lia. rewrite !hid_R. zeqs.
  - apply pgrid. intros i j Hi Hj s. f_equal. cbn [fst snd]. rewrite C. replace (S (p + v + i)) with (p + v + S i) by lia. rewrite !hid_R. zeqs.
Qed.

(** ** the edges *)
Lemma ho_edges_eq : ho_edges hset = Ok (map (map Zn) (map (fun s => [hid (fst s); hid (snd s)]) (rect_B nx ny))).
Proof.
  unfold ho_edges. cbn [hset ho_nx ho_ny ho_nv ho_nw ho_nxv ho_nyw].
  set (ed := fun s : (nat * nat) * (nat * nat) => map Zn [hid (fst s); hid (snd s)]).
  assert (L : length (rect_B nx ny) = 2 * (nx + ny)) by (unfold rect_B; rewrite !app_length, !map_length, !seq_length; lia).
  rewrite (alloc_ok _ _ [] (length (rect_B nx ny))) by (rewrite L; lia). cbn [bind].
  replace (Zn v - 1)%Z with (Zn (v - 1)) by lia. replace (Zn p + 1)%Z with (Zn (p + 1)) by lia.
  transitivity (s <- foldM pstep (map ed (rect_B nx ny)) (repeat [] (length (rect_B nx ny)), 0) ;; Ok (fst s)).
  2: { rewrite (puts_all _ _ []) by (rewrite map_length; reflexivity). cbn [bind fst]. rewrite map_map. reflexivity. }
  assert (C : forall a b, ed (a, b) = [Zn (hid a); Zn (hid b)]) by reflexivity.
  unfold rect_B. replace (seq 0 nx) with (seq 0 ((p + 1) + ((v - 1) + p))) by (f_equal; lia).
  rewrite !(seq_app (p + 1)), !(seq_app (v - 1)), !map_app, !map_map, !Nat.add_0_l. rewrite <- !app_assoc.
  assert (Sh : forall A (f : nat -> A) a n, map f (seq a n) = map (fun k => f (a + k)) (seq 0 n)) by (intros; rewrite <- (map_seq_shift n a), map_map; reflexivity).
  rewrite !(Sh _ _ (p + 1)), !(Sh _ _ (p + 1 + (v - 1))).
  apply finS; [|intro s1; apply finS; [|intro s2; apply finS; [|intro s3; apply finS; [|intro s4; apply finS; [|intro s5; apply finS; [|intro s6; apply finS; [|intro s7; apply fin1]]]]]]];
    apply pline; intros i Hi s; f_equal; rewrite C.
  - rewrite hid_L by lia. destruct (Nat.eq_dec i p) as [->|]; [replace (S p) with (p + 1 + 0) by lia; rewrite hid_B by lia|rewrite hid_L by lia]; zeqs.
  - replace (S (p + 1 + i)) with (p + 1 + S i) by lia. rewrite !hid_B by lia. zeqs.
  - replace (p + 1 + (v - 1) + i) with (p + v + i) by lia. replace (S (p + v + i)) with (p + v + S i) by lia. rewrite !hid_R. zeqs.
  - replace (2 * p + v) with (p + v + p) by lia. rewrite !hid_R. zeqs.
  - replace (2 * p + v - i) with (p + v + (p - i)) by lia. rewrite hid_R. destruct (Nat.eq_dec i p) as [->|].
    + replace (2 * p + v - S p) with (p + (v - 1)) by lia. replace (2 * q + w) with (q + w + q) by lia. rewrite hid_T by lia. zeqs.
    + replace (2 * p + v - S i) with (p + v + (p - S i)) by lia. rewrite hid_R. zeqs.
  - replace (2 * p + v - (p + 1 + i)) with (p + (v - 1 - i)) by lia. replace (2 * p + v - S (p + 1 + i)) with (p + (v - 1 - S i)) by lia. replace (2 * q + w) with (q + w + q) by lia. rewrite !hid_T by lia. zeqs.
  - replace (2 * p + v - (p + 1 + (v - 1) + i)) with (p - i) by lia. replace (2 * p + v - S (p + 1 + (v - 1) + i)) with (p - S i) by lia. rewrite !hid_L by lia. zeqs.
  - rewrite !hid_L by lia. zeqs.
Qed.

(** ** coordinates *)
Variables (a b : R).
Definition hX (i : nat) : R := (a * INR i / INR nx)%R.
Definition hY (j : nat) : R := (b * INR j / INR ny)%R.
Definition hnode (c : nat * nat) : list R := [hX (fst c); hY (snd c)].
Definition hnodes := map hnode hpts.
Lemma at_X : forall z i, z = Zn i -> at_ a z (Zn nx) = Ok (hX i).
Proof. intros z i ->. unfold at_, hX. rewrite <- !INR_IZR_INZ. apply Rdiv_res_ok. apply not_0_INR. lia. Qed.
Lemma at_Y : forall z i, z = Zn i -> at_ b z (Zn ny) = Ok (hY i).
Proof. intros z i ->. unfold at_, hY. rewrite <- !INR_IZR_INZ. apply Rdiv_res_ok. apply not_0_INR. lia. Qed.
Lemma hsteps : forall T B (st : list R -> T -> res T) (f : T -> res B) s0,
  (s <- forZ (Zn p + 1) (fun i => forZ (Zn ny + 1) (fun j s => u <- at_ a i (Zn nx) ;; v <- at_ b j (Zn ny) ;; st [u; v] s)) s0 ;;
   s <- forZ (Zn v - 1) (fun i s =>
     s <- forZ (Zn q + 1) (fun j s => u <- at_ a (Zn p + 1 + i) (Zn nx) ;; v <- at_ b j (Zn ny) ;; st [u; v] s) s ;;
     forZ (Zn q + 1) (fun j s => u <- at_ a (Zn p + 1 + i) (Zn nx) ;; v <- at_ b (j + Zn q + Zn w) (Zn ny) ;; st [u; v] s) s) s ;;
   s <- forZ (Zn p + 1) (fun i => forZ (Zn ny + 1) (fun j s => u <- at_ a (Zn p + Zn v + i) (Zn nx) ;; v <- at_ b j (Zn ny) ;; st [u; v] s)) s ;;
   f s) = (s <- foldM (fun s e => st e s) hnodes s0 ;; f s).
Proof.
  intros T B st f s0. set (step := fun s e => st e s).
  assert (G : forall n m (body : Z -> Z -> T -> res T) (e : nat * nat -> list R), (forall i j, i < n -> j < m -> forall s, body (Zn i) (Zn j) s = st (e (i, j)) s) ->
    steps step (forZ (Zn n) (fun i => forZ (Zn m) (body i))) (map e (list_prod (seq 0 n) (seq 0 m)))).
  { intros n m body e H. unfold forZ. rewrite !Nat2Z.id. rewrite prod_flat, map_flat_map. rewrite (flat_map_ext' _ _ _ (fun i => map (fun j => e (i, j)) (seq 0 m))) by (intros; rewrite map_map; reflexivity).
    apply (steps_for2 _ _ step n m (fun i j => body (Zn i) (Zn j)) (fun i j => e (i, j))). exact H. }
  assert (Li : forall n (body : Z -> T -> res T) (e : nat -> list R), (forall i, i < n -> forall s, body (Zn i) s = st (e i) s) -> steps step (forZ (Zn n) body) (map e (seq 0 n))).
  { intros n body e H. unfold forZ. rewrite !Nat2Z.id. apply (steps_for1 _ _ step n (fun i => body (Zn i)) e). exact H. }
  replace (Zn p + 1)%Z with (Zn (p + 1)) by lia. replace (Zn ny + 1)%Z with (Zn (ny + 1)) by lia. replace (Zn q + 1)%Z with (Zn (q + 1)) by lia. replace (Zn v - 1)%Z with (Zn (v - 1)) by lia.
  unfold hnodes, hpts. rewrite !map_app.
  apply (finS _ _ _ step); [|intro s1; apply (finS _ _ _ step); [|intro s2; apply (fin1 _ _ _ step)]].
  - unfold hpts1. apply G. intros i j Hi Hj s. rewrite (at_X _ i), (at_Y _ j) by lia. reflexivity.
  - unfold hpts2. rewrite map_flat_map. unfold forZ at 1. rewrite Nat2Z.id. apply (steps_for _ _ step). intros i Hi. unfold hcol. rewrite map_app, !map_map.
    match goal with |- steps _ (fun s => bind (?B1 s) ?B2) _ => apply (steps_bind _ _ step B1 B2) end; apply Li; intros j Hj s.
    + rewrite (at_X _ (p + 1 + i)), (at_Y _ j) by lia. reflexivity.
    + rewrite (at_X _ (p + 1 + i)), (at_Y _ (j + q + w)) by lia. reflexivity.
  - unfold hpts3. rewrite map_map. apply G. intros i j Hi Hj s. rewrite (at_X _ (p + v + i)), (at_Y _ j) by lia. reflexivity.
Qed.
Lemma ho_nodes_eq : ho_nodes a b hset = Ok hnodes.
Proof.
  unfold ho_nodes. cbn [hset ho_nx ho_ny ho_nv ho_nw ho_nxv ho_nyw].
  rewrite (alloc_ok _ _ [] (length hnodes)). 2: { unfold hnodes. rewrite map_length, hpts_length. destruct v as [|v']; [lia|]. destruct w as [|w']; [lia|]. cbn [Nat.sub]. rewrite !Nat.sub_0_r. nia. }
  cbn [bind]. etransitivity; [apply (hsteps _ _ put (fun s => Ok (fst s)))|]. rewrite (puts_all _ _ []) by reflexivity. reflexivity.
Qed.
Definition vstep (pred : list R -> bool) (ulist : list Z) (s : fixed * nat) (e : list R) : res (fixed * nat) := Ok (let '(out, nodeid) := s in (push_fixed pred ulist e nodeid out, S nodeid)).
Lemma visits : forall pred ulist l out k, foldM (vstep pred ulist) l (out, k) = (o <- foldM (fstep pred ulist) (combine (seq k (length l)) l) out ;; Ok (o, k + length l)).
Proof.
  intros pred ulist l. induction l as [|e l IH]; intros out k; cbn [foldM length seq combine]; [rewrite Nat.add_0_r; reflexivity|].
  replace (vstep pred ulist (out, k) e) with (Ok (push_fixed pred ulist e k out, S k)) by reflexivity. replace (fstep pred ulist out (k, e)) with (Ok (push_fixed pred ulist e k out)) by reflexivity. cbn [bind].
  rewrite IH. replace (k + S (length l)) with (S k + length l) by lia. reflexivity.
Qed.
Lemma ho_fixed_eq : forall ulist pred, ulist <> [] -> (forall u, In u ulist -> (0 <= u)%Z) -> ho_fixed a b hset ulist pred = Ok (fixed_nodes hnodes ulist pred).
Proof.
  intros ulist pred H0 H1. unfold ho_fixed. rewrite check_ok by assumption. cbn [bind hset ho_nx ho_ny ho_nv ho_nw ho_nxv ho_nyw].
  etransitivity; [apply (hsteps _ _ (fun e s => vstep pred ulist s e) (fun s => Ok (fst s)))|].
  change (foldM (fun s e => vstep pred ulist s e) hnodes ([], 0)) with (foldM (vstep pred ulist) hnodes ([], 0)). rewrite visits.
  assert (F : forall (l : list (list R)) k, map fst (combine (seq k (length l)) l) = seq k (length l)) by (intro l; induction l as [|x l IH]; intro k; cbn [length seq combine map fst]; [reflexivity|rewrite IH; reflexivity]).
  assert (G : forall (l : list (list R)) k, map snd (combine (seq k (length l)) l) = l) by (intro l; induction l as [|x l IH]; intro k; cbn [length seq combine map snd]; [reflexivity|rewrite IH; reflexivity]).
  rewrite (fixes_nodes _ _ _ (length hnodes)) by apply F. rewrite G. reflexivity.
Qed.

(** ** the mesh *)
Lemma hPC : forall c d, In c hcells -> In d (corners S c) -> hP d.
Proof. intros [i j] d H Hd. apply in_hcells in H. unfold hP. cbn in Hd. repeat (destruct Hd as [<-|Hd]; [cbn [fst snd]; lia|]). destruct Hd. Qed.
Lemma hnodes_length : length hnodes = length hpts.
Proof. apply map_length. Qed.
Lemma hole_conforming : conforming (length hnodes) hels.
Proof.
  rewrite hnodes_length. apply (grid_conforming S hid hP); try (intros; lia).
  - apply hcells_nodup.
  - apply hPC.
  - apply hid_inj.
  - apply hid_lt.
Qed.
Lemma nth_hnodes : forall c, hP c -> nth (hid c) hnodes [] = hnode c.
Proof.
  intros c H. unfold hnodes. rewrite nth_indep with (d' := hnode (0, 0)) by (rewrite map_length; apply hid_lt; exact H). rewrite map_nth, nth_hid by exact H. reflexivity.
Qed.
Hypotheses (ha : (0 < a)%R) (hb : (0 < b)%R).
Lemma hX_S : forall i, (hX i < hX (S i))%R.
Proof. intros i. unfold hX. rewrite S_INR. assert (0 < INR nx)%R by (apply lt_0_INR; lia). unfold Rdiv. apply Rmult_lt_compat_r; [apply Rinv_0_lt_compat; assumption|nra]. Qed.
Lemma hY_S : forall i, (hY i < hY (S i))%R.
Proof. intros i. unfold hY. rewrite S_INR. assert (0 < INR ny)%R by (apply lt_0_INR; lia). unfold Rdiv. apply Rmult_lt_compat_r; [apply Rinv_0_lt_compat; assumption|nra]. Qed.
Lemma mono : forall X : nat -> R, (forall i, (X i < X (S i))%R) -> forall i j, i <= j -> (X i <= X j)%R.
Proof. intros X H i j L. induction L as [|j L IH]; [apply Rle_refl|]. specialize (H j). lra. Qed.
Lemma mono_inv : forall X : nat -> R, (forall i, (X i < X (S i))%R) -> forall i j, (X i < X j)%R -> i < j.
Proof. intros X H i j L. destruct (Nat.lt_ge_cases i j) as [|Q]; [assumption|]. apply (mono X H) in Q. lra. Qed.
Lemma hX_0 : hX 0 = 0%R. Proof. unfold hX, Rdiv. cbn [INR]. ring. Qed.
Lemma hY_0 : hY 0 = 0%R. Proof. unfold hY, Rdiv. cbn [INR]. ring. Qed.
Lemma hX_n : hX nx = a. Proof. unfold hX. field. apply not_0_INR. lia. Qed.
Lemma hY_n : hY ny = b. Proof. unfold hY. field. apply not_0_INR. lia. Qed.
Lemma hole_tiles : tiles hnodes hels (fun x y => 0 <= x < a /\ 0 <= y < b /\ ~ (hX p <= x < hX (p + v) /\ hY q <= y < hY (q + w)))%R.
Proof.
  apply (tiles_iff _ _ (fun x y => exists i j, In (i, j) hcells /\ hX i <= x < hX (S i) /\ hY j <= y < hY (S j))%R).
  - intros x y. split.
    + intros (i & j & Hc & Hx & Hy). apply in_hcells in Hc. rewrite <- hX_0, <- hX_n at 1. rewrite <- hY_0, <- hY_n at 1.
      pose proof (mono hX hX_S 0 i ltac:(lia)). pose proof (mono hY hY_S 0 j ltac:(lia)). pose proof (mono hX hX_S (S i) nx ltac:(lia)). pose proof (mono hY hY_S (S j) ny ltac:(lia)).
      split; [lra|]. split; [lra|]. intros (Ex & Ey).
      assert (p < S i) by (apply (mono_inv hX hX_S); lra). assert (i < p + v) by (apply (mono_inv hX hX_S); lra). assert (q < S j) by (apply (mono_inv hY hY_S); lra). assert (j < q + w) by (apply (mono_inv hY hY_S); lra). lia.
    + intros (Hx & Hy & N). rewrite <- hX_0, <- hX_n in Hx. rewrite <- hY_0, <- hY_n in Hy. destruct (between hX nx x Hx) as (i & Hi & Ei). destruct (between hY ny y Hy) as (j & Hj & Ej).
      exists i, j. split; [|auto]. apply in_hcells. split; [exact Hi|]. split; [exact Hj|]. intros ((A1 & A2) & (B1 & B2)). apply N.
      pose proof (mono hX hX_S p i A1). pose proof (mono hX hX_S (S i) (p + v) A2). pose proof (mono hY hY_S q j B1). pose proof (mono hY hY_S (S j) (q + w) B2). lra.
  - apply (grid_tiles hX hY nx ny hnodes hid hcells); try (intros; apply hX_S); try (intros; apply hY_S).
    + apply hcells_nodup.
    + intros i j H. apply in_hcells in H. lia.
    + intros c d Hc Hd. apply nth_hnodes. eapply hPC; eassumption.
    + unfold hels, gelements. rewrite map_map. apply map_ext. intros [i j]. reflexivity.
Qed.
Lemma hole_cells : forall e, In e hels -> exists i j, i < nx /\ j < ny /\ ~ (p <= i < p + v /\ q <= j < q + w) /\ rectangle hnodes e (hX i) (hY j) (hX (S i)) (hY (S j)).
Proof.
  intros e He. unfold hels, gelements in He. apply in_map_iff in He. destruct He as ([i j] & <- & Hc). exists i, j. pose proof Hc as Hc'. apply in_hcells in Hc'. split; [lia|]. split; [lia|]. split; [tauto|].
  split; [|split; [apply hX_S|apply hY_S]]. cbn [corners map firstn]. rewrite !nth_hnodes by (apply (hPC (i, j)); [exact Hc|cbn; auto]). reflexivity.
Qed.
Definition hedges := map (fun s => [hid (fst s); hid (snd s)]) (rect_B nx ny).
Definition outer (c : nat * nat) : Prop := fst c = 0 \/ fst c = nx \/ snd c = 0 \/ snd c = ny.
Lemma hole_B : 1 <= p -> 1 <= q -> forall s t, In (s, t) (rect_B nx ny) <-> (In (s, t) (gsides S hcells) /\ ~ In (t, s) (gsides S hcells)) /\ outer s.
Proof.
  intros Hp Hq s t. rewrite in_rect_B. rewrite grid_free by (intros; lia). unfold outer. split.
  - intros [(i & H & -> & ->)|[(i & H & -> & ->)|[(i & H & -> & ->)|(i & H & -> & ->)]]]; cbn [fst snd]; (split; [|lia]).
    + exists i, 0. rewrite in_hcells. split; [lia|]. left. splits; auto; lia.
    + exists (nx - 1), i. rewrite !in_hcells. split; [lia|]. right. left. replace (S (nx - 1)) with nx by lia. splits; auto; lia.
    + exists i, (ny - 1). rewrite !in_hcells. split; [lia|]. right. right. left. replace (S (ny - 1)) with ny by lia. splits; auto; lia.
    + exists 0, i. rewrite in_hcells. split; [lia|]. right. right. right. splits; auto; lia.
  - intros ((i & j & H & C) & O). rewrite in_hcells in H. destruct C as [(-> & -> & C)|[(-> & -> & C)|[(-> & -> & C)|(-> & -> & C)]]]; cbn [fst snd] in O; rewrite ?in_hcells in C.
    + destruct j as [|j]; [left; exists i; splits; auto; lia|]. exfalso. specialize (C j eq_refl). rewrite in_hcells in C. lia.
    + right. left. exists j. assert (S i = nx) by lia. splits; eqs.
    + right. right. left. exists i. assert (S j = ny) by lia. splits; eqs.
    + right. right. right. exists j. destruct i as [|i]; [splits; auto; lia|]. exfalso. specialize (C i eq_refl). rewrite in_hcells in C. lia.
Qed.
Lemma hX_inj : forall i j, hX i = hX j -> i = j.
Proof. intros i j E. destruct (Nat.lt_trichotomy i j) as [L|[L|L]]; [|exact L|]; apply (mono hX hX_S) in L; [pose proof (hX_S i)|pose proof (hX_S j)]; lra. Qed.
Lemma hY_inj : forall i j, hY i = hY j -> i = j.
Proof. intros i j E. destruct (Nat.lt_trichotomy i j) as [L|[L|L]]; [|exact L|]; apply (mono hY hY_S) in L; [pose proof (hY_S i)|pose proof (hY_S j)]; lra. Qed.
Lemma outer_iff : forall c, hP c -> (outer c <-> (px hnodes (hid c) = 0 \/ px hnodes (hid c) = a \/ py hnodes (hid c) = 0 \/ py hnodes (hid c) = b)%R).
Proof.
  intros c H. unfold px, py. rewrite nth_hnodes by exact H. unfold hnode, outer. cbn [nth]. split.
  - intros [-> | [-> | [-> | ->]]]; rewrite ?hX_0, ?hX_n, ?hY_0, ?hY_n; auto.
  - rewrite <- hX_0, <- hX_n at 1. rewrite <- hY_0, <- hY_n at 1. intros [E|[E|[E|E]]]; [apply hX_inj in E|apply hX_inj in E|apply hY_inj in E|apply hY_inj in E]; auto.
Qed.
Lemma hole_edges : 1 <= p -> 1 <= q -> NoDup hedges /\ forall l, In l hedges <-> exists s t, l = [s; t] /\ free_side hels s t /\ (px hnodes s = 0 \/ px hnodes s = a \/ py hnodes s = 0 \/ py hnodes s = b)%R.
Proof.
  intros Hp Hq. pose proof (hole_B Hp Hq) as HB. pose proof (gsides_P S hP hcells hPC) as GP. split.
  - unfold hedges. apply NoDup_map'; [apply rect_B_nodup; lia|]. intros [s t] [s' t'] H H' E. apply HB in H, H'. destruct (GP _ _ (proj1 (proj1 H))), (GP _ _ (proj1 (proj1 H'))). cbn [fst snd] in E. inversion E. f_equal; apply hid_inj; auto.
  - intro l. unfold hedges, free_side. split.
    + intro H. apply in_map_iff in H. destruct H as ([s t] & <- & H). apply HB in H. destruct H as ((H & N) & O). destruct (GP _ _ H). exists (hid s), (hid t). split; [reflexivity|]. split.
      * split; [apply (in_all_sides S hid hP hcells hPC hid_inj); auto|]. intro C. apply (in_all_sides S hid hP hcells hPC hid_inj) in C; auto.
      * apply outer_iff; assumption.
    + intros (s' & t' & -> & (H & N) & O). unfold hels in H. rewrite all_sides_grid in H. apply in_map_iff in H. destruct H as ([s t] & E & H). inversion E; subst. destruct (GP _ _ H).
      apply in_map_iff. exists (s, t). split; [reflexivity|]. apply HB. split; [|apply outer_iff; assumption]. split; [exact H|]. intro C. apply N. apply (in_all_sides S hid hP hcells hPC hid_inj); auto.
Qed.
End Hole.
Lemma hole_par : forall nx ny nv nw : Z, (1 <= nv <= nx -> 1 <= nw <= ny -> Z.Even (nx - nv) -> Z.Even (ny - nw) ->
  exists p q v w, 1 <= Z.of_nat v /\ 1 <= Z.of_nat w /\ nx = Z.of_nat (2 * p + v) /\ ny = Z.of_nat (2 * q + w) /\ nv = Z.of_nat v /\ nw = Z.of_nat w /\ hole_new nx ny nv nw = Ok (hset p q v w))%Z.
Proof.
  intros nx ny nv nw Hv Hw (e1 & E1) (e2 & E2). exists (Z.to_nat e1), (Z.to_nat e2), (Z.to_nat nv), (Z.to_nat nw).
  assert (Ex : nx = Z.of_nat (2 * Z.to_nat e1 + Z.to_nat nv)) by lia. assert (Ey : ny = Z.of_nat (2 * Z.to_nat e2 + Z.to_nat nw)) by lia.
  split; [lia|]. split; [lia|]. split; [exact Ex|]. split; [exact Ey|]. split; [lia|]. split; [lia|].
  unfold hole_new. rewrite E1, E2. rewrite !(Z.mul_comm 2), !Z.rem_mul, !Z.quot_mul by lia. cbn [Z.eqb andb assert_ bind]. unfold hset. rewrite <- Ex, <- Ey. rewrite !Z2Nat.id by lia. reflexivity.
Qed.
Lemma puts_over : forall A (es : list A) (l : list A) id, id <= length l -> length l < id + length es -> foldM (fun s e => put e s) es (l, id) = Fail OutOfBounds.
Proof.
  intros A es. induction es as [|e es IH]; intros l id H H'; cbn [length foldM] in *; [lia|]. destruct (Nat.eq_dec id (length l)) as [->|].
  - replace (put e (l, length l)) with (Fail OutOfBounds : res (list A * nat)); [reflexivity|]. unfold put. unfold wr; destruct (Nat.ltb_spec (length l) (length l)); [lia|]. reflexivity.
  - replace (put e (l, id)) with (Ok (upd l id e, S id)) by (unfold put; rewrite wr_Ok by lia; reflexivity). cbn [bind]. apply IH; rewrite upd_length; lia.
Qed.
Local Open Scope R_scope.

Lemma C51_hole_pf : forall a b (nx ny nv nw : Z), (1 <= nv <= nx)%Z -> (1 <= nw <= ny)%Z -> Z.Even (nx - nv) -> Z.Even (ny - nw) -> exists h nodes,
    hole_new nx ny nv nw = Ok h /\ ho_nodes a b h = Ok nodes /\
    forall ulist pred, ulist <> [] -> (forall u, In u ulist -> (0 <= u)%Z) -> ho_fixed a b h ulist pred = Ok (fixed_nodes nodes ulist pred).
Proof.
  intros a b nx ny nv nw Hv Hw Ex Ey. destruct (hole_par nx ny nv nw Hv Hw Ex Ey) as (p & q & v & w & Pv & Pw & -> & -> & -> & -> & E). exists (hset p q v w), (hnodes p q v w a b).
  split; [exact E|]. split; [apply ho_nodes_eq; lia|]. intros. apply ho_fixed_eq; auto; lia.
Qed.

Lemma C52_mesh_pf : forall a b (nx ny nv nw : Z), (1 <= nv <= nx)%Z -> (1 <= nw <= ny)%Z -> Z.Even (nx - nv) -> Z.Even (ny - nw) -> 0 < a -> 0 < b -> exists h nodes elements,
    hole_new nx ny nv nw = Ok h /\ ho_nodes a b h = Ok nodes /\ ho_elements h = Ok (map (map Z.of_nat) elements) /\
    Z.of_nat (length nodes) = ((nx + 1) * (ny + 1) - (nv - 1) * (nw - 1))%Z /\ Z.of_nat (length elements) = (nx * ny - nv * nw)%Z /\
    conforming (length nodes) elements /\
    tiles nodes elements (fun x y => 0 <= x < a /\ 0 <= y < b /\
      ~ (a * (IZR (nx - nv) / (2 * IZR nx)) <= x < a * (IZR (nx + nv) / (2 * IZR nx)) /\ b * (IZR (ny - nw) / (2 * IZR ny)) <= y < b * (IZR (ny + nw) / (2 * IZR ny)))).
Proof.
  intros a b nx ny nv nw Hv Hw Ex Ey Ha Hb. destruct (hole_par nx ny nv nw Hv Hw Ex Ey) as (p & q & v & w & Pv & Pw & -> & -> & -> & -> & E). exists (hset p q v w), (hnodes p q v w a b), (hels p q v w).
  split; [exact E|]. split; [apply ho_nodes_eq; lia|]. split; [apply ho_elements_eq; lia|]. split; [|split; [|split]].
  - rewrite hnodes_length, hpts_length by lia. destruct v as [|v']; [lia|]. destruct w as [|w']; [lia|]. cbn [Nat.sub]. rewrite !Nat.sub_0_r. nia.
  - unfold hels, gelements. rewrite map_length. apply hcells_length; lia.
  - apply hole_conforming; lia.
  - eapply tiles_iff; [|apply hole_tiles; auto; lia]. intros x y. cbv beta.
    assert (Nx : INR (2 * p + v) <> 0) by (apply not_0_INR; lia). assert (Ny : INR (2 * q + w) <> 0) by (apply not_0_INR; lia).
    assert (X0 : hX p v a p = a * (IZR (Z.of_nat (2 * p + v) - Z.of_nat v) / (2 * IZR (Z.of_nat (2 * p + v))))).
    { unfold hX. rewrite minus_IZR, <- !INR_IZR_INZ. rewrite plus_INR, mult_INR in *. cbn [INR] in *. field; repeat split; first [exact Nx|lra]. }
    assert (X1 : hX p v a (p + v) = a * (IZR (Z.of_nat (2 * p + v) + Z.of_nat v) / (2 * IZR (Z.of_nat (2 * p + v))))).
    { unfold hX. rewrite plus_IZR, <- !INR_IZR_INZ. rewrite !plus_INR, mult_INR in *. cbn [INR] in *. field; repeat split; first [exact Nx|lra]. }
    assert (Y0 : hY q w b q = b * (IZR (Z.of_nat (2 * q + w) - Z.of_nat w) / (2 * IZR (Z.of_nat (2 * q + w))))).
    { unfold hY. rewrite minus_IZR, <- !INR_IZR_INZ. rewrite plus_INR, mult_INR in *. cbn [INR] in *. field; repeat split; first [exact Ny|lra]. }
    assert (Y1 : hY q w b (q + w) = b * (IZR (Z.of_nat (2 * q + w) + Z.of_nat w) / (2 * IZR (Z.of_nat (2 * q + w))))).
    { unfold hY. rewrite plus_IZR, <- !INR_IZR_INZ. rewrite !plus_INR, mult_INR in *. cbn [INR] in *. field; repeat split; first [exact Ny|lra]. }
    rewrite X0, X1, Y0, Y1. reflexivity.
Qed.

Lemma C52_cells_pf : forall a b (nx ny nv nw : Z), (1 <= nv <= nx)%Z -> (1 <= nw <= ny)%Z -> Z.Even (nx - nv) -> Z.Even (ny - nw) -> 0 < a -> 0 < b -> exists h nodes elements,
    hole_new nx ny nv nw = Ok h /\ ho_nodes a b h = Ok nodes /\ ho_elements h = Ok (map (map Z.of_nat) elements) /\
    forall e, In e elements -> exists i j, (0 <= i < nx)%Z /\ (0 <= j < ny)%Z /\ ~ ((nx - nv <= 2 * i < nx + nv)%Z /\ (ny - nw <= 2 * j < ny + nw)%Z) /\
      rectangle nodes e (a * IZR i / IZR nx) (b * IZR j / IZR ny) (a * IZR (i + 1) / IZR nx) (b * IZR (j + 1) / IZR ny).
Proof.
  intros a b nx ny nv nw Hv Hw Ex Ey Ha Hb. destruct (hole_par nx ny nv nw Hv Hw Ex Ey) as (p & q & v & w & Pv & Pw & -> & -> & -> & -> & E). exists (hset p q v w), (hnodes p q v w a b), (hels p q v w).
  split; [exact E|]. split; [apply ho_nodes_eq; lia|]. split; [apply ho_elements_eq; lia|]. intros e He. apply (hole_cells p q v w ltac:(lia) ltac:(lia) a b Ha Hb) in He. destruct He as (i & j & Hi & Hj & N & Q).
  exists (Z.of_nat i), (Z.of_nat j). split; [lia|]. split; [lia|]. split; [lia|]. unfold hX, hY in Q. rewrite !plus_IZR, <- !INR_IZR_INZ. rewrite !S_INR in Q. exact Q.
Qed.

Lemma C52_edges_pf : forall a b (nx ny nv nw : Z), (1 <= nv < nx)%Z -> (1 <= nw < ny)%Z -> Z.Even (nx - nv) -> Z.Even (ny - nw) -> 0 < a -> 0 < b -> exists h nodes elements edges,
    hole_new nx ny nv nw = Ok h /\ ho_nodes a b h = Ok nodes /\ ho_elements h = Ok (map (map Z.of_nat) elements) /\ ho_edges h = Ok (map (map Z.of_nat) edges) /\
    NoDup edges /\ forall l, In l edges <-> exists s t, l = [s; t] /\ free_side elements s t /\ (px nodes s = 0 \/ px nodes s = a \/ py nodes s = 0 \/ py nodes s = b).
Proof.
  intros a b nx ny nv nw Hv Hw Ex Ey Ha Hb. destruct (hole_par nx ny nv nw ltac:(lia) ltac:(lia) Ex Ey) as (p & q & v & w & Pv & Pw & -> & -> & -> & -> & E). exists (hset p q v w), (hnodes p q v w a b), (hels p q v w), (hedges p q v w).
  split; [exact E|]. split; [apply ho_nodes_eq; lia|]. split; [apply ho_elements_eq; lia|]. split; [apply ho_edges_eq; lia|]. apply hole_edges; auto; lia.
Qed.

Lemma C52_parity_pf : forall nx ny nv nw, Z.Odd (nx - nv) \/ Z.Odd (ny - nw) -> hole_new nx ny nv nw = Fail AssertFail.
Proof.
  intros nx ny nv nw H. unfold hole_new. replace ((Z.rem (nx - nv) 2 =? 0) && (Z.rem (ny - nw) 2 =? 0))%Z with false; [reflexivity|]. symmetry. apply andb_false_iff.
  assert (K : forall z, Z.Odd z -> (Z.rem z 2 =? 0)%Z = false). { intros z (k & ->). apply Z.eqb_neq. intro C. apply Z.rem_divide in C; [|lia]. destruct C as (m & C). lia. }
  destruct H; [left|right]; apply K; assumption.
Qed.

Lemma C52_no_hole_pf : forall a b (nx ny nw : Z), (0 < nx)%Z -> (0 <= nw <= ny)%Z -> (0 < ny)%Z -> Z.Even nx -> Z.Even (ny - nw) -> exists h, hole_new nx ny 0 nw = Ok h /\ ho_nodes a b h = Fail OutOfBounds.
Proof.
  intros a b nx ny nw Hx Hw Hy (e1 & E1) (e2 & E2). exists (mkHole nx ny 0 nw e1 e2). split.
  - unfold hole_new. rewrite Z.sub_0_r, E2, E1. rewrite !(Z.mul_comm 2), !Z.rem_mul, !Z.quot_mul by lia. reflexivity.
  - unfold ho_nodes. cbn [ho_nx ho_ny ho_nv ho_nw ho_nxv ho_nyw]. unfold alloc. destruct (Z.ltb_spec ((nx + 1) * (ny + 1) - (0 - 1) * (nw - 1)) 0); [nia|]. cbn [bind].
    set (N := Z.to_nat ((nx + 1) * (ny + 1) - (0 - 1) * (nw - 1))). set (step := fun s (e : list R) => put e s).
    assert (G : forall (x0 : Z), steps step (forZ (e1 + 1) (fun i => forZ (ny + 1) (fun j s => u <- at_ a (x0 + i) nx ;; v <- at_ b j ny ;; put [u; v] s)))
      (map (fun c : nat * nat => [a * IZR (x0 + Z.of_nat (fst c)) / IZR nx; b * IZR (Z.of_nat (snd c)) / IZR ny]) (list_prod (seq 0 (Z.to_nat (e1 + 1))) (seq 0 (Z.to_nat (ny + 1)))))).
    { intros x0. unfold forZ. rewrite prod_flat, map_flat_map. rewrite (flat_map_ext' _ _ _ (fun i => map (fun j => [a * IZR (x0 + Z.of_nat i) / IZR nx; b * IZR (Z.of_nat j) / IZR ny]) (seq 0 (Z.to_nat (ny + 1))))) by (intros; rewrite map_map; reflexivity).
      apply (steps_for2 _ _ step). intros i j _ _ s. unfold at_. rewrite !Rdiv_res_ok by (apply not_0_IZR; lia). reflexivity. }
    assert (K : forall f, (s <- forZ (e1 + 1) (fun i => forZ (ny + 1) (fun j s => u <- at_ a i nx ;; v <- at_ b j ny ;; put [u; v] s)) (repeat [] N, 0%nat) ;;
      s <- forZ (0 - 1) f s ;;
      s <- forZ (e1 + 1) (fun i => forZ (ny + 1) (fun j s => u <- at_ a (e1 + 0 + i) nx ;; v <- at_ b j ny ;; put [u; v] s)) s ;; Ok (fst s)) =
      (s <- foldM step (map (fun c : nat * nat => [a * IZR (0 + Z.of_nat (fst c)) / IZR nx; b * IZR (Z.of_nat (snd c)) / IZR ny]) (list_prod (seq 0 (Z.to_nat (e1 + 1))) (seq 0 (Z.to_nat (ny + 1)))) ++
         map (fun c : nat * nat => [a * IZR (e1 + 0 + Z.of_nat (fst c)) / IZR nx; b * IZR (Z.of_nat (snd c)) / IZR ny]) (list_prod (seq 0 (Z.to_nat (e1 + 1))) (seq 0 (Z.to_nat (ny + 1))))) (repeat [] N, 0%nat) ;; Ok (fst s))).
    { intro f. apply (finS _ _ _ step); [exact (G 0%Z)|]. intro s. change (forZ (0 - 1) f s) with (Ok s). cbn [bind]. apply (fin1 _ _ _ step). apply G. }
    rewrite K, puts_over; [reflexivity|lia|]. rewrite repeat_length, app_length, !map_length, prod_length, !seq_length. unfold N. nia.
Qed.
