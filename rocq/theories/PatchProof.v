(** The patch test: sides and integrals of the gradients of the shape functions. *)
From Coq Require Import List Arith Lia Bool Reals Lra Permutation.
From Verif Require Import Res SumR DenseModel DenseSpec ShapeModel QuadModel QuadSpec ElemModel ElemSpec AssemblyModel AssemblySpec PatchSpec.
From Verif Require Import AssemblyProof AssemblyProof3 ElemProof3 ElemMain HomMain.
Import ListNotations.
Local Open Scope R_scope.

(** ** Sides *)
(** the integral along a side of the shape function of node [i] times the
    derivative of the coordinate [X] *)
Definition phi (X : nat -> R) (sd : list nat) (i : nat) : R :=
  match sd with
  | [a; b] => ind (a =? i)%nat (1 / 2 * (X b - X a)) + ind (b =? i)%nat (1 / 2 * (X b - X a))
  | [a; m; b] => ind (a =? i)%nat (- (1 / 2) * X a + 2 / 3 * X m - 1 / 6 * X b) + ind (m =? i)%nat (2 / 3 * X b - 2 / 3 * X a)
      + ind (b =? i)%nat (1 / 6 * X a - 2 / 3 * X m + 1 / 2 * X b)
  | _ => 0
  end.
Lemma phi_rev X sd i : phi X (rev sd) i = - phi X sd i.
Proof.
  destruct sd as [|a [|b [|c [|d sd]]]]; try (cbn; lra).
  - cbn. destruct (a =? i)%nat, (b =? i)%nat; cbn [ind]; lra.
  - cbn. destruct (a =? i)%nat, (b =? i)%nat, (c =? i)%nat; cbn [ind]; lra.
  - assert (L : length (rev (a :: b :: c :: d :: sd)) = length (a :: b :: c :: d :: sd)) by apply rev_length.
    destruct (rev (a :: b :: c :: d :: sd)) as [|a' [|b' [|c' [|d' sd']]]]; cbn [length] in L; try lia. cbn. lra.
Qed.
Lemma phi_out X sd i : ~ In i sd -> phi X sd i = 0.
Proof.
  intros H. destruct sd as [|a [|b [|c [|d sd]]]]; try reflexivity; cbn [In] in H; unfold phi.
  - destruct (Nat.eqb_spec a i); [tauto|]. destruct (Nat.eqb_spec b i); [tauto|]. cbn [ind]. lra.
  - destruct (Nat.eqb_spec a i); [tauto|]. destruct (Nat.eqb_spec b i); [tauto|]. destruct (Nat.eqb_spec c i); [tauto|]. cbn [ind]. lra.
Qed.
Notation dec := (list_eq_dec Nat.eq_dec).
Definition at_node (i : nat) (sd : list nat) : bool := if in_dec Nat.eq_dec i sd then true else false.
Lemma count_filter i L sd : count_occ dec (filter (at_node i) L) sd = if at_node i sd then count_occ dec L sd else O.
Proof.
  induction L as [|a L IH]; cbn [filter count_occ]; [now destruct (at_node i sd)|].
  destruct (at_node i a) eqn:Ea; cbn [count_occ]; rewrite IH; destruct (dec a sd) as [->|Hne]; rewrite ?Ea; auto; destruct (at_node i sd); auto.
Qed.
Lemma count_rev L sd : count_occ dec (map (@rev nat) L) sd = count_occ dec L (rev sd).
Proof.
  induction L as [|a L IH]; cbn [map count_occ]; auto. rewrite IH.
  destruct (dec (rev a) sd) as [H1|H1], (dec a (rev sd)) as [H2|H2]; auto; exfalso.
  - apply H2. rewrite <- H1. now rewrite rev_involutive.
  - apply H1. rewrite H2. now rewrite rev_involutive.
Qed.
Lemma at_node_rev i sd : at_node i (rev sd) = at_node i sd.
Proof. unfold at_node. destruct (in_dec Nat.eq_dec i (rev sd)) as [H|H], (in_dec Nat.eq_dec i sd) as [H'|H']; auto; exfalso; rewrite <- in_rev in H; tauto. Qed.
Lemma inner_zero X els i : inner els i -> sum_over (flat_map sides els) (fun sd => phi X sd i) = 0.
Proof.
  intros H. unfold inner in H. set (L := flat_map sides els) in *.
  assert (E : forall l, sum_over l (fun sd => phi X sd i) = sum_over (filter (at_node i) l) (fun sd => phi X sd i)).
  { induction l as [|a l IH]; [reflexivity|]. rewrite sum_over_cons, IH. cbn [filter]. destruct (at_node i a) eqn:Ea; [reflexivity|].
    rewrite phi_out; [lra|]. unfold at_node in Ea. destruct (in_dec Nat.eq_dec i a); [discriminate|auto]. }
  assert (P : Permutation (filter (at_node i) L) (map (@rev nat) (filter (at_node i) L))).
  { apply (Permutation_count_occ dec). intros sd. rewrite count_rev, !count_filter, at_node_rev.
    destruct (at_node i sd) eqn:Ea; auto. apply H. unfold at_node in Ea. destruct (in_dec Nat.eq_dec i sd); [auto|discriminate]. }
  rewrite E. pose proof (sum_over_perm _ _ (fun sd => phi X sd i) P) as Q.
  unfold sum_over at 2 in Q. rewrite map_map in Q. fold (sum_over (filter (at_node i) L) (fun sd => phi X (rev sd) i)) in Q.
  rewrite (sum_ext _ (fun sd => phi X (rev sd) i) (fun sd => -1 * phi X sd i)) in Q by (intros; rewrite phi_rev; lra).
  rewrite sum_over_scal in Q. lra.
Qed.
Lemma sum_over_flat {A B} (g : A -> list B) l f : sum_over (flat_map g l) f = sum_over l (fun a => sum_over (g a) f).
Proof. apply sumlist_concat_map. Qed.

(** ** Polynomials as lists of monomials *)
Definition mono := (R * nat * nat)%type.
Definition pe (l : list mono) (x y : R) : R := sum_over l (fun t => fst (fst t) * (x ^ snd (fst t) * y ^ snd t)).
Definition pint (mom : nat -> nat -> R) (l : list mono) : R := sum_over l (fun t => fst (fst t) * mom (snd (fst t)) (snd t)).
Definition pmul (a b : list mono) : list mono :=
  flat_map (fun t => map (fun w => (fst (fst t) * fst (fst w), (snd (fst t) + snd (fst w))%nat, (snd t + snd w)%nat)) b) a.
Lemma pe_mul a b x y : pe (pmul a b) x y = pe a x y * pe b x y.
Proof.
  unfold pe, pmul. rewrite sum_over_flat. rewrite Rmult_comm, <- sum_over_scal. apply sum_ext. intros [[c i] j] _. cbn [fst snd].
  unfold sum_over at 1. rewrite map_map. rewrite Rmult_comm. change (sumlist (map ?f b)) with (sum_over b f). rewrite <- sum_over_scal.
  apply sum_ext. intros [[d k] l] _. cbn [fst snd]. rewrite !pow_add. ring.
Qed.
Definition good (dom : nat -> nat -> bool) (l : list mono) : bool := forallb (fun t => dom (snd (fst t)) (snd t)) l.
Lemma quad_pe q mom dom l : (forall i j, dom i j = true -> quad 2 q (fun r => r 0%nat ^ i * r 1%nat ^ j) = mom i j) -> good dom l = true ->
  quad 2 q (fun r => pe l (r 0%nat) (r 1%nat)) = pint mom l.
Proof.
  intros H. induction l as [|t l IH]; intros G.
  - unfold pe, pint. rewrite sum_over_nil. rewrite (quad_ext _ _ _ (fun r => 0 * 0)) by (intros; rewrite sum_over_nil; lra). rewrite quad_scal. lra.
  - cbn [good forallb] in G. apply andb_true_iff in G. destruct G as [G1 G2]. unfold pint. rewrite sum_over_cons. fold (pint mom l). rewrite <- (IH G2), <- (H _ _ G1).
    rewrite (Rmult_comm (fst (fst t))), <- quad_scal, <- quad_plus. apply quad_ext. intros g _. unfold pe. rewrite sum_over_cons. ring.
Qed.
(** the integral of dN_i/dr dN_j/ds - dN_i/ds dN_j/dr *)
Definition cij (mom : nat -> nat -> R) (a b : list (list mono)) (i j : nat) : R :=
  pint mom (pmul (nth i a []) (nth j b [])) - pint mom (pmul (nth i b []) (nth j a [])).
Definition all_good (dom : nat -> nat -> bool) (a b : list (list mono)) : bool :=
  forallb (fun p => forallb (fun q => good dom (pmul p q)) b) a && forallb (fun p => forallb (fun q => good dom (pmul p q)) a) b.
Lemma good_nth dom a b i j : forallb (fun p => forallb (fun q => good dom (pmul p q)) b) a = true -> good dom (pmul (nth i a []) (nth j b [])) = true.
Proof.
  intros H. destruct (Nat.lt_ge_cases i (length a)) as [Hi|Hi]; [|rewrite (nth_overflow a) by auto; reflexivity].
  destruct (Nat.lt_ge_cases j (length b)) as [Hj|Hj].
  - rewrite forallb_forall in H. specialize (H _ (nth_In a [] Hi)). rewrite forallb_forall in H. exact (H _ (nth_In b [] Hj)).
  - rewrite (nth_overflow b) by auto. unfold pmul. induction (nth i a []) as [|t l IH]; [reflexivity|exact IH].
Qed.
Lemma quad_cij q mom dom a b s : (forall i j, dom i j = true -> quad 2 q (fun r => r 0%nat ^ i * r 1%nat ^ j) = mom i j) -> all_good dom a b = true ->
  (forall r i, (i < sf_n s)%nat -> dshp s r 0 i = pe (nth i a []) (r 0%nat) (r 1%nat) /\ dshp s r 1 i = pe (nth i b []) (r 0%nat) (r 1%nat)) ->
  forall i j, (i < sf_n s)%nat -> (j < sf_n s)%nat -> quad 2 q (fun r => dshp s r 0 i * dshp s r 1 j - dshp s r 1 i * dshp s r 0 j) = cij mom a b i j.
Proof.
  intros H G T i j Hi Hj. apply andb_true_iff in G. destruct G as [G1 G2]. unfold cij.
  rewrite <- (quad_pe q mom dom _ H (good_nth dom a b i j G1)), <- (quad_pe q mom dom _ H (good_nth dom b a i j G2)), <- quad_minus.
  apply quad_ext. intros g _. cbv beta. rewrite !pe_mul. destruct (T (pt q g) i Hi) as [-> ->]. destruct (T (pt q g) j Hj) as [-> ->]. reflexivity.
Qed.
Definition tab3T_0 : list (list mono) :=
  [[(1, 0%nat, 0%nat)];
   [];
   [((- 1), 0%nat, 0%nat)]].
Definition tab3T_1 : list (list mono) :=
  [[];
   [(1, 0%nat, 0%nat)];
   [((- 1), 0%nat, 0%nat)]].
Definition coe3T : list (list R) :=
  [[0; (1 / 2); (- (1 / 2))];
   [(- (1 / 2)); 0; (1 / 2)];
   [(1 / 2); (- (1 / 2)); 0]].
Definition tab6T_0 : list (list mono) :=
  [[((- 1), 0%nat, 0%nat); (4, 1%nat, 0%nat)];
   [];
   [((- 3), 0%nat, 0%nat); (4, 0%nat, 1%nat); (4, 1%nat, 0%nat)];
   [(4, 0%nat, 1%nat)];
   [((- 4), 0%nat, 1%nat)];
   [(4, 0%nat, 0%nat); ((- 4), 0%nat, 1%nat); ((- 8), 1%nat, 0%nat)]].
Definition tab6T_1 : list (list mono) :=
  [[];
   [((- 1), 0%nat, 0%nat); (4, 0%nat, 1%nat)];
   [((- 3), 0%nat, 0%nat); (4, 0%nat, 1%nat); (4, 1%nat, 0%nat)];
   [(4, 1%nat, 0%nat)];
   [(4, 0%nat, 0%nat); ((- 8), 0%nat, 1%nat); ((- 4), 1%nat, 0%nat)];
   [((- 4), 1%nat, 0%nat)]].
Definition coe6T : list (list R) :=
  [[0; (- (1 / 6)); (1 / 6); (2 / 3); 0; (- (2 / 3))];
   [(1 / 6); 0; (- (1 / 6)); (- (2 / 3)); (2 / 3); 0];
   [(- (1 / 6)); (1 / 6); 0; 0; (- (2 / 3)); (2 / 3)];
   [(- (2 / 3)); (2 / 3); 0; 0; 0; 0];
   [0; (- (2 / 3)); (2 / 3); 0; 0; 0];
   [(2 / 3); 0; (- (2 / 3)); 0; 0; 0]].
Definition tab4S_0 : list (list mono) :=
  [[((- (1 / 4)), 0%nat, 0%nat); ((1 / 4), 0%nat, 1%nat)];
   [((1 / 4), 0%nat, 0%nat); ((- (1 / 4)), 0%nat, 1%nat)];
   [((1 / 4), 0%nat, 0%nat); ((1 / 4), 0%nat, 1%nat)];
   [((- (1 / 4)), 0%nat, 0%nat); ((- (1 / 4)), 0%nat, 1%nat)]].
Definition tab4S_1 : list (list mono) :=
  [[((- (1 / 4)), 0%nat, 0%nat); ((1 / 4), 1%nat, 0%nat)];
   [((- (1 / 4)), 0%nat, 0%nat); ((- (1 / 4)), 1%nat, 0%nat)];
   [((1 / 4), 0%nat, 0%nat); ((1 / 4), 1%nat, 0%nat)];
   [((1 / 4), 0%nat, 0%nat); ((- (1 / 4)), 1%nat, 0%nat)]].
Definition coe4S : list (list R) :=
  [[0; (1 / 2); 0; (- (1 / 2))];
   [(- (1 / 2)); 0; (1 / 2); 0];
   [0; (- (1 / 2)); 0; (1 / 2)];
   [(1 / 2); 0; (- (1 / 2)); 0]].
Definition tab8S_0 : list (list mono) :=
  [[((1 / 4), 0%nat, 1%nat); ((- (1 / 4)), 0%nat, 2%nat); ((1 / 2), 1%nat, 0%nat); ((- (1 / 2)), 1%nat, 1%nat)];
   [((- (1 / 4)), 0%nat, 1%nat); ((1 / 4), 0%nat, 2%nat); ((1 / 2), 1%nat, 0%nat); ((- (1 / 2)), 1%nat, 1%nat)];
   [((1 / 4), 0%nat, 1%nat); ((1 / 4), 0%nat, 2%nat); ((1 / 2), 1%nat, 0%nat); ((1 / 2), 1%nat, 1%nat)];
   [((- (1 / 4)), 0%nat, 1%nat); ((- (1 / 4)), 0%nat, 2%nat); ((1 / 2), 1%nat, 0%nat); ((1 / 2), 1%nat, 1%nat)];
   [((- 1), 1%nat, 0%nat); (1, 1%nat, 1%nat)];
   [((1 / 2), 0%nat, 0%nat); ((- (1 / 2)), 0%nat, 2%nat)];
   [((- 1), 1%nat, 0%nat); ((- 1), 1%nat, 1%nat)];
   [((- (1 / 2)), 0%nat, 0%nat); ((1 / 2), 0%nat, 2%nat)]].
Definition tab8S_1 : list (list mono) :=
  [[((1 / 2), 0%nat, 1%nat); ((1 / 4), 1%nat, 0%nat); ((- (1 / 2)), 1%nat, 1%nat); ((- (1 / 4)), 2%nat, 0%nat)];
   [((1 / 2), 0%nat, 1%nat); ((- (1 / 4)), 1%nat, 0%nat); ((1 / 2), 1%nat, 1%nat); ((- (1 / 4)), 2%nat, 0%nat)];
   [((1 / 2), 0%nat, 1%nat); ((1 / 4), 1%nat, 0%nat); ((1 / 2), 1%nat, 1%nat); ((1 / 4), 2%nat, 0%nat)];
   [((1 / 2), 0%nat, 1%nat); ((- (1 / 4)), 1%nat, 0%nat); ((- (1 / 2)), 1%nat, 1%nat); ((1 / 4), 2%nat, 0%nat)];
   [((- (1 / 2)), 0%nat, 0%nat); ((1 / 2), 2%nat, 0%nat)];
   [((- 1), 0%nat, 1%nat); ((- 1), 1%nat, 1%nat)];
   [((1 / 2), 0%nat, 0%nat); ((- (1 / 2)), 2%nat, 0%nat)];
   [((- 1), 0%nat, 1%nat); (1, 1%nat, 1%nat)]].
Definition coe8S : list (list R) :=
  [[0; (- (1 / 6)); 0; (1 / 6); (2 / 3); 0; 0; (- (2 / 3))];
   [(1 / 6); 0; (- (1 / 6)); 0; (- (2 / 3)); (2 / 3); 0; 0];
   [0; (1 / 6); 0; (- (1 / 6)); 0; (- (2 / 3)); (2 / 3); 0];
   [(- (1 / 6)); 0; (1 / 6); 0; 0; 0; (- (2 / 3)); (2 / 3)];
   [(- (2 / 3)); (2 / 3); 0; 0; 0; 0; 0; 0];
   [0; (- (2 / 3)); (2 / 3); 0; 0; 0; 0; 0];
   [0; 0; (- (2 / 3)); (2 / 3); 0; 0; 0; 0];
   [(2 / 3); 0; 0; (- (2 / 3)); 0; 0; 0; 0]].
Definition momT (i j : nat) : R := match i, j with O, O => 1 / 2 | S O, O => 1 / 6 | O, S O => 1 / 6 | S (S O), O => 1 / 12 | S O, S O => 1 / 24 | O, S (S O) => 1 / 12 | _, _ => 0 end.
Definition mom1 (i : nat) : R := match i with O => 2 | S (S O) => 2 / 3 | _ => 0 end.
Definition momS (i j : nat) : R := mom1 i * mom1 j.
Lemma dom_T q n : (n <= 2)%nat -> (forall i j, (i + j <= n)%nat -> triangle_mono q i j) ->
  forall i j, (i + j <=? n)%nat = true -> quad 2 q (fun r => r 0%nat ^ i * r 1%nat ^ j) = momT i j.
Proof.
  intros Hn H i j D. apply Nat.leb_le in D. rewrite (H i j D).
  destruct i as [|[|[|i]]], j as [|[|[|j]]]; try lia; unfold momT; cbn [Nat.add fact Nat.mul INR]; field.
Qed.
Lemma dom_S q n : (n <= 3)%nat -> (forall i j, (i <= n)%nat -> (j <= n)%nat -> square_mono q i j) ->
  forall i j, ((i <=? n) && (j <=? n))%nat = true -> quad 2 q (fun r => r 0%nat ^ i * r 1%nat ^ j) = momS i j.
Proof.
  intros Hn H i j D. apply andb_true_iff in D. destruct D as [D1 D2]. apply Nat.leb_le in D1, D2. rewrite (H i j D1 D2).
  unfold momS, mom1. f_equal; [destruct i as [|[|[|[|i]]]]|destruct j as [|[|[|[|j]]]]]; try lia; cbn [Nat.add INR pow]; field.
Qed.
Lemma tab3T : forall r i, (i < 3)%nat -> dshp sf_3Triangle r 0 i = pe (nth i tab3T_0 []) (r 0%nat) (r 1%nat) /\ dshp sf_3Triangle r 1 i = pe (nth i tab3T_1 []) (r 0%nat) (r 1%nat).
Proof. intros r i Hi. do 3 (destruct i as [|i]; [split; unfold pe, sum_over, sumlist; cbn; lra|]). lia. Qed.
Lemma tab6T : forall r i, (i < 6)%nat -> dshp sf_6Triangle r 0 i = pe (nth i tab6T_0 []) (r 0%nat) (r 1%nat) /\ dshp sf_6Triangle r 1 i = pe (nth i tab6T_1 []) (r 0%nat) (r 1%nat).
Proof. intros r i Hi. do 6 (destruct i as [|i]; [split; unfold pe, sum_over, sumlist; cbn; field|]). lia. Qed.
Lemma tab4S : forall r i, (i < 4)%nat -> dshp sf_4Square r 0 i = pe (nth i tab4S_0 []) (r 0%nat) (r 1%nat) /\ dshp sf_4Square r 1 i = pe (nth i tab4S_1 []) (r 0%nat) (r 1%nat).
Proof. intros r i Hi. do 4 (destruct i as [|i]; [split; unfold pe, sum_over, sumlist; cbn; field|]). lia. Qed.
Lemma tab8S : forall r i, (i < 8)%nat -> dshp sf_8Square r 0 i = pe (nth i tab8S_0 []) (r 0%nat) (r 1%nat) /\ dshp sf_8Square r 1 i = pe (nth i tab8S_1 []) (r 0%nat) (r 1%nat).
Proof. intros r i Hi. do 8 (destruct i as [|i]; [split; unfold pe, sum_over, sumlist; cbn; field|]). lia. Qed.
Ltac ev := cbv [cij pint sum_over sumlist pmul flat_map map app fold_right nth fst snd Nat.add momT momS mom1
  tab3T_0 tab3T_1 tab6T_0 tab6T_1 tab4S_0 tab4S_1 tab8S_0 tab8S_1 coe3T coe6T coe4S coe8S].
Lemma coe3T_ok : forall i j, (i < 3)%nat -> (j < 3)%nat -> cij momT tab3T_0 tab3T_1 i j = nth j (nth i coe3T []) 0.
Proof. intros i j Hi Hj. do 3 (destruct i as [|i]; [do 3 (destruct j as [|j]; [ev; lra|]); lia|]). lia. Qed.
Lemma coe6T_ok : forall i j, (i < 6)%nat -> (j < 6)%nat -> cij momT tab6T_0 tab6T_1 i j = nth j (nth i coe6T []) 0.
Proof. intros i j Hi Hj. do 6 (destruct i as [|i]; [do 6 (destruct j as [|j]; [ev; lra|]); lia|]). lia. Qed.
Lemma coe4S_ok : forall i j, (i < 4)%nat -> (j < 4)%nat -> cij momS tab4S_0 tab4S_1 i j = nth j (nth i coe4S []) 0.
Proof. intros i j Hi Hj. do 4 (destruct i as [|i]; [do 4 (destruct j as [|j]; [ev; lra|]); lia|]). lia. Qed.
Lemma coe8S_ok : forall i j, (i < 8)%nat -> (j < 8)%nat -> cij momS tab8S_0 tab8S_1 i j = nth j (nth i coe8S []) 0.
Proof. intros i j Hi Hj. do 8 (destruct i as [|i]; [do 8 (destruct j as [|j]; [ev; lra|]); lia|]). lia. Qed.
