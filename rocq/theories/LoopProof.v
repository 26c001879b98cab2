(** Neighbours and weights of the density samples. *)
From Coq Require Import List Arith Lia Bool Reals Lra.
From Verif Require Import Res SumR DenseModel DenseR DenseSpec FilterModel FilterSpec OCModel TopModel TopSpec LoopModel LoopSpec.
From Verif Require Import DenseProof DenseMain FilterMain.
Import ListNotations.
Local Open Scope R_scope.

Lemma vsub_norm a b : length a = length b -> exists e, vsub R_ops a b = Ok e /\ vnorm e = Ok (dist a b).
Proof.
  intros L. pose proof (is_vec_self R_ops a) as VA. pose proof (is_vec_self R_ops b) as VB. rewrite <- L in VB.
  destruct (C19_vectors_pf R R_ops a _ _ VA) as (H & _). destruct (H b _ VB) as (_ & e & E & V). exists e. split; [exact E|].
  rewrite (vnorm_ok _ _ _ V). unfold dist. do 2 f_equal. apply bigsum_ext. intros i Hi. cbn [osub o0 R_ops]. ring.
Qed.
Lemma dist_sym a b : length a = length b -> dist a b = dist b a.
Proof. intros L. unfold dist. rewrite L. f_equal. apply bigsum_ext. intros. ring. Qed.
Lemma dist_self a : dist a a = 0.
Proof. unfold dist. rewrite bigsum_zero; [apply sqrt_0|]. intros. ring. Qed.
Lemma dist_nonneg a b : 0 <= dist a b.
Proof. apply sqrt_pos. Qed.

Lemma mapM_seq_ok {B} (f : nat -> res B) (g : nat -> B) m : (forall i, (i < m)%nat -> f i = Ok (g i)) -> mapM f (seq 0 m) = Ok (map g (seq 0 m)).
Proof.
  intros H. assert (G : forall l, (forall i, In i l -> f i = Ok (g i)) -> mapM f l = Ok (map g l)).
  { induction l as [|i l IH]; intros Hl; [reflexivity|]. cbn [mapM map]. rewrite Hl by (now left). cbn [bind]. rewrite IH by (intros; apply Hl; now right). reflexivity. }
  apply G. intros i Hi. apply in_seq in Hi. apply H. lia.
Qed.

Section Near.
Variables (cg : list (list R)) (rad : R) (dim : nat).
Hypothesis Hdim : forall c, In c cg -> length c = dim.
Hypothesis Hrad : 0 < rad.
Let n := length cg.
Definition pt_of (i : nat) : list R := nth i cg [].
Definition near (i j : nat) : bool := if Rle_dec (dist (pt_of i) (pt_of j)) rad then true else false.
Definition wt (i j : nat) : R := (rad - dist (pt_of i) (pt_of j)) / rad.
Definition row (i : nat) : list nat := filter (near i) (seq 0 n).

Lemma pt_len i : (i < n)%nat -> length (pt_of i) = dim.
Proof. intros H. apply Hdim. now apply nth_In. Qed.
Lemma near_step i j s : (i < n)%nat -> (j < n)%nat -> ds_near cg rad i s j = Ok (if near i j then (fst s ++ [j], snd s ++ [wt i j]) else s).
Proof.
  intros Hi Hj. unfold ds_near. rewrite (rd_nth cg i []), (rd_nth cg j []) by auto. cbn [bind]. fold (pt_of i) (pt_of j).
  destruct (vsub_norm (pt_of i) (pt_of j)) as (e & E1 & E2); [now rewrite !pt_len|]. rewrite E1. cbn [bind]. rewrite E2. cbn [bind]. unfold near.
  destruct (Rle_dec (dist (pt_of i) (pt_of j)) rad); [|reflexivity]. rewrite Rdiv_res_ok by lra. reflexivity.
Qed.
Lemma row_ok i : (i < n)%nat -> foldM (ds_near cg rad i) (seq 0 n) ([], []) = Ok (row i, map (wt i) (row i)).
Proof.
  intros Hi. assert (G : forall m, (m <= n)%nat -> foldM (ds_near cg rad i) (seq 0 m) ([], []) = Ok (filter (near i) (seq 0 m), map (wt i) (filter (near i) (seq 0 m)))).
  { induction m as [|m IH]; intros Hm; [reflexivity|]. rewrite seq_S, foldM_app, IH by lia. cbn [bind plus foldM]. rewrite near_step by lia. cbn [bind fst snd].
    rewrite filter_app, map_app. cbn [filter]. destruct (near i m); cbn [map]; [reflexivity|]. now rewrite !app_nil_r. }
  now apply G.
Qed.
Definition nb_lists : list (list nat) := map row (seq 0 n).
Definition wt_lists : list (list R) := map (fun i => map (wt i) (row i)) (seq 0 n).
Lemma neighbors_ok : ds_neighbors cg rad = Ok (nb_lists, wt_lists).
Proof.
  unfold ds_neighbors. rewrite (mapM_seq_ok _ (fun i => (row i, map (wt i) (row i)))) by (intros; now apply row_ok). cbn [bind]. now rewrite !map_map.
Qed.
Lemma nb_nth i : (i < n)%nat -> nth i nb_lists [] = row i.
Proof. intros H. unfold nb_lists. rewrite (nth_indep _ [] (row 0)) by (now rewrite map_length, seq_length). rewrite map_nth, seq_nth by auto. reflexivity. Qed.
Lemma wt_nth i : (i < n)%nat -> nth i wt_lists [] = map (wt i) (row i).
Proof. intros H. unfold wt_lists. rewrite (nth_indep _ [] ((fun i => map (wt i) (row i)) O)) by (now rewrite map_length, seq_length). rewrite (map_nth (fun i => map (wt i) (row i))), seq_nth by auto. reflexivity. Qed.
Lemma combine_map {A B} (f : A -> B) l : combine l (map f l) = map (fun a => (a, f a)) l.
Proof. induction l as [|a l IH]; cbn; [reflexivity|now rewrite IH]. Qed.
Lemma links_near i : (i < n)%nat -> links nb_lists wt_lists i = map (fun j => (j, wt i j)) (row i).
Proof. intros H. unfold links. rewrite nb_nth, wt_nth by auto. apply combine_map. Qed.
Lemma links_beyond i : (n <= i)%nat -> links nb_lists wt_lists i = [].
Proof. intros H. unfold links. rewrite nth_overflow; [reflexivity|]. unfold nb_lists. now rewrite map_length, seq_length. Qed.
Lemma row_in i j : In j (row i) <-> (j < n)%nat /\ dist (pt_of i) (pt_of j) <= rad.
Proof.
  unfold row. rewrite filter_In, in_seq. unfold near. destruct (Rle_dec (dist (pt_of i) (pt_of j)) rad); split; intros [A B]; split; auto; try lia; discriminate || contradiction.
Qed.
Lemma links_iff i j v : In (j, v) (links nb_lists wt_lists i) <-> (i < n)%nat /\ (j < n)%nat /\ dist (pt_of i) (pt_of j) <= rad /\ v = 1 - dist (pt_of i) (pt_of j) / rad.
Proof.
  destruct (Nat.lt_ge_cases i n) as [Hi|Hi].
  - rewrite links_near by auto. rewrite in_map_iff. split.
    + intros (k & E & Hk). injection E as -> <-. apply row_in in Hk. splits; try tauto. unfold wt. field. lra.
    + intros (_ & Hj & Hd & ->). exists j. split; [|now apply row_in]. f_equal. unfold wt. field. lra.
  - rewrite links_beyond by auto. cbn. split; [tauto|lia].
Qed.
Lemma links_nonneg : weights_nonneg nb_lists wt_lists.
Proof. intros i k v H. apply links_iff in H. destruct H as (_ & _ & H & ->). assert (dist (pt_of i) (pt_of k) / rad <= 1) by (apply Rmult_le_reg_r with rad; [auto|]; unfold Rdiv; rewrite Rmult_assoc, Rinv_l; lra). lra. Qed.
Lemma links_sym : symmetric_links nb_lists wt_lists.
Proof.
  intros i k v H. apply links_iff in H. destruct H as (Hi & Hk & H & ->). apply links_iff. rewrite (dist_sym (pt_of k) (pt_of i)) by (now rewrite !pt_len). auto.
Qed.
Lemma total_ge l k v : In (k, v) l -> (forall k v, In (k, v) l -> 0 <= v) -> v <= total l (fun _ => 1).
Proof.
  unfold total, sumlist. induction l as [|[a b] l IH]; intros H P; [contradiction|]. cbn in *. destruct H as [E|H].
  - injection E as -> ->. pose proof (total_shift l (fun a b H => P a b (or_intror H))) as Q. unfold total, sumlist in Q. lra.
  - pose proof (IH H (fun a b H => P a b (or_intror H))). pose proof (P a b (or_introl eq_refl)). lra.
Qed.
Lemma links_self i : (i < n)%nat -> In (i, 1) (links nb_lists wt_lists i).
Proof. intros H. apply links_iff. rewrite dist_self. splits; auto; [lra|field; lra]. Qed.
Lemma links_filter : filter_ok n nb_lists wt_lists.
Proof.
  split; [unfold nb_lists; now rewrite map_length, seq_length|]. split; [unfold wt_lists; now rewrite map_length, seq_length|]. intros i Hi. splits.
  - rewrite nb_nth, wt_nth by auto. now rewrite map_length.
  - intros k Hk. rewrite nb_nth in Hk by auto. now apply row_in in Hk.
  - pose proof (total_ge _ i 1 (links_self i Hi) (fun k v => links_nonneg i k v)). lra.
Qed.
Lemma row_nodup i : (i < n)%nat -> NoDup (map fst (links nb_lists wt_lists i)).
Proof. intros H. rewrite links_near by auto. rewrite map_map. cbn [fst]. rewrite map_id. apply NoDup_filter. apply seq_NoDup. Qed.
End Near.
