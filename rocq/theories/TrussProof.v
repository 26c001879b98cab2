(** The bars of a truss and the system they make. *)
From Coq Require Import List Arith Lia Bool Reals Lra.
From Verif Require Import Res SumR DenseModel DenseR DenseSpec ShapeModel QuadModel ElemModel ElemSpec SparseModel SparseSpec AssemblyModel AssemblySpec KrylovSpec OCModel TopModel TopSpec TrussModel TrussSpec.
From Verif Require Import DenseProof DenseMain SparseMain AssemblyProof AssemblyProof2 AssemblyProof3 AssemblyMain ElemProof ElemProof2 ElemMain ThetaProof3 StableProof3 StableProof4 ThetaProof ThetaProof4 ThetaProof5 TopProof TopProof2 TopProof3 TopProof4 TopProof5 CellProof CellProof3.
Import ListNotations.
Local Open Scope R_scope.

Definition nb (d : truss) : nat := length (tr_elements d).
Definition bnte : list (list (nat * nat)) := [[(0, 0); (1, 1)]; [(0, 2); (1, 3)]]%nat.
(** direction of a bar *)
Definition dirn (d : truss) (i j : nat) : R := span d i j / bar_length d i.
Definition bmat (d : truss) (i : nat) (k : R) : mat R :=
  let c := dirn d i 0 in let s := dirn d i 1 in
  mkMat 4 4 [  k * c * c;    k * c * s;  - k * c * c;  - k * c * s;
               k * c * s;    k * s * s;  - k * c * s;  - k * s * s;
             - k * c * c;  - k * c * s;    k * c * c;    k * c * s;
             - k * c * s;  - k * s * s;    k * c * s;    k * s * s].
Definition bel (d : truss) (i : nat) (a : R) : elem := mkElem [bar_a d i; bar_b d i] bnte (bmat d i (tr_E d * a / bar_length d i)) [0; 0; 0; 0].

Lemma two {A} (l : list A) a : length l = 2%nat -> l = [nth 0 l a; nth 1 l a].
Proof. destruct l as [|x [|y [|]]]; cbn; intros; try lia. reflexivity. Qed.
Lemma bar_nodes d i : truss_ok d -> (i < nb d)%nat -> nth i (tr_elements d) [] = [bar_a d i; bar_b d i] /\ (bar_a d i < length (tr_x d))%nat /\ (bar_b d i < length (tr_x d))%nat.
Proof.
  intros HT Hi. destruct (trk_bars d HT (nth i (tr_elements d) []) (nth_In _ _ Hi)) as [L N]. split; [now apply two|].
  unfold bar_a, bar_b. split; apply N, nth_In; lia.
Qed.
Lemma diff_ok (x : list (list R)) d i : truss_ok d -> (i < nb d)%nat -> length x = length (tr_x d) -> (forall k, (k < length x)%nat -> length (nth k x []) = 2%nat) ->
  tr_difference d x i = Ok [uval x (bar_b d i) 0 - uval x (bar_a d i) 0; uval x (bar_b d i) 1 - uval x (bar_a d i) 1].
Proof.
  intros HT Hi Lx Px. destruct (bar_nodes d i HT Hi) as (E & Ha & Hb). unfold tr_difference. rewrite (rd_nth _ i []) by auto. cbn [bind]. rewrite E.
  change (rd [bar_a d i; bar_b d i] 1) with (Ok (bar_b d i)). change (rd [bar_a d i; bar_b d i] 0) with (Ok (bar_a d i)). cbn [bind]. rewrite !(rd_nth x _ []) by lia. cbn [bind].
  unfold uval. rewrite (two (nth (bar_b d i) x []) 0) at 1 by (apply Px; lia). rewrite (two (nth (bar_a d i) x []) 0) at 1 by (apply Px; lia). reflexivity.
Qed.
Lemma norm_ok d i : vnorm [span d i 0; span d i 1] = Ok (bar_length d i).
Proof. rewrite (vnorm_ok _ 2 _ (is_vec_of_list [span d i 0; span d i 1])). cbn [bigsum nth]. unfold bar_length. do 2 f_equal. ring. Qed.
Lemma bar_diff d i : truss_ok d -> (i < nb d)%nat -> tr_difference d (tr_x d) i = Ok [span d i 0; span d i 1].
Proof. intros HT Hi. rewrite (diff_ok (tr_x d) d i HT Hi eq_refl (trk_plane d HT)). reflexivity. Qed.
Lemma length_pos d i : truss_ok d -> (i < nb d)%nat -> 0 < bar_length d i.
Proof. intros HT Hi. pose proof (trk_length d HT i Hi). pose proof (sqrt_pos (span d i 0 ^ 2 + span d i 1 ^ 2)). fold (bar_length d i) in *. lra. Qed.
Lemma bel_call d i a : truss_ok d -> (i < nb d)%nat -> tr_stiffness d a (nth i (tr_elements d) []) = Ok (e_K (bel d i a), bnte).
Proof.
  intros HT Hi. destruct (bar_nodes d i HT Hi) as (E & Ha & Hb). rewrite E. unfold tr_stiffness, Truss2D. cbn [length Nat.eqb andb assert_ bind].
  change (nte_of 2 2 [0%nat; 1%nat]) with (Ok bnte). cbn [bind]. change (rd [bar_a d i; bar_b d i] 1) with (Ok (bar_b d i)). change (rd [bar_a d i; bar_b d i] 0) with (Ok (bar_a d i)). cbn [bind].
  rewrite !(rd_nth (tr_x d) _ []) by lia. cbn [bind].
  rewrite (two (nth (bar_b d i) (tr_x d) []) 0) by (now apply (trk_plane d HT)). rewrite (two (nth (bar_a d i) (tr_x d) []) 0) by (now apply (trk_plane d HT)).
  match goal with |- context [vsub R_ops ?a ?b] => change (vsub R_ops a b) with (Ok [span d i 0; span d i 1]) end. cbn [bind]. rewrite norm_ok. cbn [bind].
  change (rd [span d i 0; span d i 1] 0) with (Ok (span d i 0)). change (rd [span d i 0; span d i 1] 1) with (Ok (span d i 1)).
  change (vget [span d i 0; span d i 1] 0) with (Ok (span d i 0)). change (vget [span d i 0; span d i 1] 1) with (Ok (span d i 1)).
  pose proof (length_pos d i HT Hi). cbn [bind]. rewrite !Rdiv_res_ok by lra. reflexivity.
Qed.
Lemma bel_mat d i a : is_mat (e_K (bel d i a)) 4 4 (fun p q => nth (p * 4 + q) (mval (e_K (bel d i a))) 0).
Proof. unfold bel, bmat. cbn [e_K mval]. apply is_mat_of_list. reflexivity. Qed.
Lemma bel_numbered : numbered 2 2 [0%nat; 1%nat] bnte.
Proof. split; [reflexivity|]. intros [|[|i]] Hi; try lia; (split; [reflexivity|]); intros [|[|j]] Hj; try lia; reflexivity. Qed.
Lemma bel_dofs d i a : e_dofs (bel d i a) = [mkDof (bar_a d i) 0 0; mkDof (bar_a d i) 1 1; mkDof (bar_b d i) 0 2; mkDof (bar_b d i) 1 3].
Proof. reflexivity. Qed.
Lemma bel_k d i a p q : (p < 4)%nat -> (q < 4)%nat -> e_k (bel d i a) p q = nth (p * 4 + q) (mval (e_K (bel d i a))) 0.
Proof. intros Hp Hq. apply (mat_entry _ _ _ _ _ _ (bel_mat d i a)); auto. Qed.
Lemma bel_bil d i a v w : bil (bel d i a) (e_dofs (bel d i a)) v w = tr_E d * a / bar_length d i * (elongation d i v * elongation d i w).
Proof.
  unfold bil. rewrite bel_dofs, !sum_over_cons, !sum_over_nil. cbn [dnode ddof dloc]. rewrite !bel_k by lia. unfold bel, bmat. cbn [e_K mval nth Nat.mul Nat.add]. unfold elongation, dirn, Rdiv. ring.
Qed.
Lemma bel_sym d i a p q : (p < 4)%nat -> (q < 4)%nat -> e_k (bel d i a) p q = e_k (bel d i a) q p.
Proof. intros Hp Hq. rewrite !bel_k by auto. do 4 (destruct p as [|p]; [do 4 (destruct q as [|q]; [reflexivity|]); lia|]). lia. Qed.
Lemma bel_fits d i a t : truss_ok d -> (i < nb d)%nat -> (forall i j, in_table t i j <-> (i < length (tr_x d))%nat /\ (j < 2)%nat) -> elem_fits t (bel d i a).
Proof.
  intros HT Hi Ht. destruct (bar_nodes d i HT Hi) as (_ & Ha & Hb). unfold elem_fits. split; [cbn; lia|]. split; [apply (bel_mat d i a)|].
  intros x Hx. rewrite bel_dofs in Hx. cbn [bel e_K bmat mrow mcol e_F length]. cbn in Hx. rewrite Ht. destruct Hx as [<-|[<-|[<-|[<-|[]]]]]; cbn [dnode ddof dloc]; splits; auto; lia.
Qed.
(** the force of a bar on its nodes *)
Lemma bel_force d i a u k j : (j < 2)%nat ->
  sum_over (e_dofs (bel d i a)) (fun x => ind (at_dof k j x) (sum_over (e_dofs (bel d i a)) (fun y => e_k (bel d i a) (dloc x) (dloc y) * duval u y))) =
  stress d i (uval u) * a * (span d i j / bar_length d i) * ((if (bar_b d i =? k)%nat then 1 else 0) - (if (bar_a d i =? k)%nat then 1 else 0)).
Proof.
  intros Hj. rewrite bel_dofs, !sum_over_cons, !sum_over_nil. cbn [dloc]. rewrite !bel_k by lia. unfold bel, bmat, duval, at_dof. cbn [e_K mval nth Nat.mul Nat.add dnode ddof].
  unfold stress, elongation, dirn, Rdiv. destruct (Nat.eqb_spec (bar_b d i) k), (Nat.eqb_spec (bar_a d i) k); destruct j as [|[|]]; try lia; cbn [Nat.eqb andb ind]; ring.
Qed.

Definition bels (d : truss) (A : list R) : list elem := map (fun i => bel d i (nth i A 0)) (seq 0 (nb d)).
Lemma bels_in d A e : In e (bels d A) -> exists i, (i < nb d)%nat /\ e = bel d i (nth i A 0).
Proof. unfold bels. intros H. apply in_map_iff in H. destruct H as (i & <- & Hi). apply in_seq in Hi. exists i. split; [lia|reflexivity]. Qed.
Lemma bels_force d A u k j : (j < 2)%nat -> internal_force (bels d A) u k j = bars_resist d (bar_force d A (uval u)) k j.
Proof. intros Hj. unfold internal_force, bels, bars_resist. rewrite sum_map, sum_seq. apply bigsum_ext. intros i Hi. rewrite bel_force by auto. reflexivity. Qed.
(** energy *)
Definition kbar (d : truss) (i : nat) (v w : field) : R := tr_E d / bar_length d i * (elongation d i v * elongation d i w).
Lemma bels_bil d A v w : sum_over (bels d A) (fun e => bil e (e_dofs e) v w) = aform field (nb d) (kbar d) (fun i => nth i A 0) v w.
Proof. unfold bels, aform. rewrite sum_map, sum_seq. apply bigsum_ext. intros i Hi. rewrite bel_bil. unfold kbar, Rdiv. ring. Qed.
Lemma elong_l d i p u q u' : elongation d i (comb p u q u') = p * elongation d i u + q * elongation d i u'.
Proof. unfold elongation, comb, Rdiv. ring. Qed.
Lemma kbar_l d i p u q u' v : kbar d i (comb p u q u') v = p * kbar d i u v + q * kbar d i u' v.
Proof. unfold kbar. rewrite elong_l. ring. Qed.
Lemma kbar_s d i u v : kbar d i u v = kbar d i v u.
Proof. unfold kbar. ring. Qed.
Lemma kbar_p d i u : truss_ok d -> (i < nb d)%nat -> 0 <= kbar d i u u.
Proof.
  intros HT Hi. unfold kbar. apply Rmult_le_pos; [|nra]. pose proof (length_pos d i HT Hi). pose proof (trk_modulus d HT). apply Rmult_le_pos; [lra|]. left. now apply Rinv_0_lt_compat.
Qed.
Lemma kbar_zero d i u : truss_ok d -> (i < nb d)%nat -> kbar d i u u = 0 -> elongation d i u = 0.
Proof.
  intros HT Hi H. unfold kbar in H. pose proof (length_pos d i HT Hi). pose proof (trk_modulus d HT). assert (0 < tr_E d / bar_length d i) by (apply Rmult_lt_0_compat; auto; now apply Rinv_0_lt_compat). destruct (Rmult_integral _ _ H) as [X|X]; [lra|]. destruct (Rmult_integral _ _ X); auto.
Qed.

(** ** The tables *)
Record ttables (d : truss) (u1 : list (list R)) (t : table) (n : nat) : Prop := mkTTables {
  tt_run : exists t1, set_dirichlet (repeat (vnew R_ops 2) (length (tr_x d)), repeat (repeat (Some 0%nat) 2) (length (tr_x d))) (tr_ufixed d) = Ok (u1, t1) /\ renumber t1 = (t, n);
  tt_num : numbering n t;
  tt_free : forall i j, num t i j <> None <-> free_dof d i j;
  tt_in : forall i j, in_table t i j <-> (i < length (tr_x d))%nat /\ (j < 2)%nat;
  tt_inu : forall i j, in_table u1 i j <-> (i < length (tr_x d))%nat /\ (j < 2)%nat;
  tt_len : length u1 = length (tr_x d);
  tt_zero : forall i j, uval u1 i j = 0 }.
Lemma ttables_exist d : truss_ok d -> exists u1 t n, ttables d u1 t n.
Proof.
  intros HT. set (N := length (tr_x d)).
  destruct (set_dirichlet_ok (tr_ufixed d) (repeat (vnew R_ops 2) N) (repeat (repeat (Some 0%nat) 2) N)) as (u1 & t1 & E1 & Su & St & Vu & Vt).
  { intros i j v Hin. destruct (trk_fixed d HT i j v Hin) as (A & B & _). split; apply in_table_repeat; auto. }
  destruct (renumber t1) as [t n] eqn:E2. destruct (renumber_ok _ _ _ E2) as ((L2 & L2' & P2) & _ & _ & NU & _).
  exists u1, t, n. split; fold N; auto.
  - eauto.
  - intros i j. rewrite <- P2, Vt. pose proof (last_value_in (tr_ufixed d) i j) as LV. unfold free_dof. fold N. destruct (last_value (tr_ufixed d) i j) as [v|].
    + split; [congruence|]. intros (_ & _ & H). exfalso. exact (H v LV).
    + rewrite num_repeat. destruct (Nat.ltb_spec i N), (Nat.ltb_spec j 2); cbn [andb]; split; intros X; try congruence; try lia; auto.
  - intros i j. rewrite <- (in_table_repeat (Some 0%nat) N i j). rewrite <- (same_shape_in t1 _ i j St). unfold in_table. rewrite (L2' i). tauto.
  - intros i j. rewrite <- (in_table_repeat 0 N i j). apply (same_shape_in u1 _ i j Su).
  - rewrite (proj1 Su). apply repeat_length.
  - intros i j. rewrite Vu. pose proof (last_value_in (tr_ufixed d) i j) as LV. destruct (last_value (tr_ufixed d) i j) as [v|]; [apply (trk_fixed d HT i j v LV)|]. apply uval_zero.
Qed.
Lemma num_dec (t : table) i j : num t i j = None \/ num t i j <> None.
Proof. destruct (num t i j); [right; discriminate|now left]. Qed.
Lemma vs_respects d u1 t n w : truss_ok d -> ttables d u1 t n -> (forall i j, ~ ((i < length (tr_x d))%nat /\ (j < 2)%nat) -> w i j = 0) -> vs t w <-> respects d w.
Proof.
  intros HT TB HO. split.
  - intros H i j v Hin. apply H. destruct (num_dec t i j) as [|N]; auto. apply (tt_free _ _ _ _ TB) in N. exfalso. exact (proj2 (proj2 N) v Hin).
  - intros H i j Hn. destruct (Nat.lt_ge_cases i (length (tr_x d))) as [Hi|Hi]; [|apply HO; lia]. destruct (Nat.lt_ge_cases j 2) as [Hj|Hj]; [|apply HO; lia].
    pose proof (last_value_in (tr_ufixed d) i j) as LV. destruct (last_value (tr_ufixed d) i j) as [v|]; [exact (H i j v LV)|].
    exfalso. apply (proj2 (tt_free _ _ _ _ TB i j)); auto. split; auto.
Qed.
