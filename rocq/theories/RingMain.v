(** Properties C51 and C77: meshes of annuli: the proofs. *)
From Coq Require Import List Arith ZArith Lia Bool Reals Lra.
From Verif Require Import Res SumR DenseR LUModel OCModel MeshModel MeshSpec OCMain.
Import ListNotations.
Local Open Scope R_scope.
From Verif Require AssemblyProof.
From Verif Require Import MeshProof OCMain MeshMain.
Local Open Scope nat_scope.

(** ** topology *)
Section Ring.
Variable (n : nat).
Hypothesis n3 : 3 <= n.
Definition sjn (n j : nat) := (j + 1) mod n.
Definition ring_id (n : nat) (p : nat * nat) := n * fst p + snd p.
Local Notation sj := (sjn n).
Lemma sj_cases : forall j, j < n -> (j + 1 < n /\ sj j = j + 1) \/ (j + 1 = n /\ sj j = 0).
Proof.
  intros j H. unfold sjn. destruct (Nat.eq_dec (j + 1) n) as [->|E]; [right; split; [reflexivity|apply Nat.mod_same; lia]|left; split; [lia|apply Nat.mod_small; lia]].
Qed.
Lemma sj_lt : forall j, j < n -> sj j < n.
Proof. intros j H. destruct (sj_cases j H) as [(? & ->)|(? & ->)]; lia. Qed.
Lemma sj_ne : forall j, j < n -> sj j <> j.
Proof. intros j H. destruct (sj_cases j H) as [(? & ->)|(? & ->)]; lia. Qed.
Lemma sj_inj : forall j j', j < n -> j' < n -> sj j = sj j' -> j = j'.
Proof. intros j j' H H' E. destruct (sj_cases j H) as [(? & E1)|(? & E1)], (sj_cases j' H') as [(? & E2)|(? & E2)]; lia. Qed.
Lemma sj_sj : forall j j', j < n -> j' < n -> sj j = j' -> sj j' <> j.
Proof. intros j j' H H' E. destruct (sj_cases j H) as [(? & E1)|(? & E1)], (sj_cases j' H') as [(? & E2)|(? & E2)]; lia. Qed.
Lemma sj_pred : forall j, j < n -> exists j', j' < n /\ sj j' = j.
Proof.
  intros j H. destruct j as [|j].
  - exists (n - 1). split; [lia|]. destruct (sj_cases (n - 1) ltac:(lia)) as [(? & ?)|(? & ->)]; lia.
  - exists j. split; [lia|]. destruct (sj_cases j ltac:(lia)) as [(? & ->)|(? & ?)]; lia.
Qed.
Variable (m : nat).
Hypothesis m1 : 1 <= m.
Local Notation cells := (rect_cells m n).
Definition ring_P (p : nat * nat) := fst p <= m /\ snd p < n.
Lemma ring_PC : forall c p, In c cells -> In p (corners sj c) -> ring_P p.
Proof. intros [i j] p H Hp. apply in_rect in H. pose proof (sj_lt j ltac:(lia)). unfold ring_P. cbn in Hp. repeat (destruct Hp as [<-|Hp]; [cbn; lia|]). destruct Hp. Qed.
Lemma ring_id_inj : forall p q, ring_P p -> ring_P q -> ring_id n p = ring_id n q -> p = q.
Proof. intros [i j] [i' j'] (_ & H) (_ & H') E. unfold ring_id in E. cbn [fst snd] in *. destruct (idx_unique n i j i' j' H H' E) as (-> & ->). reflexivity. Qed.
Definition ring_B : list ((nat * nat) * (nat * nat)) :=
  map (fun k => ((0, sj (n - 1 - k)), (0, n - 1 - k))) (seq 0 n) ++ map (fun i => ((m, i), (m, sj i))) (seq 0 n).
Lemma in_ring_B : forall p q, In (p, q) ring_B <-> (exists i, i < n /\ p = (0, sj i) /\ q = (0, i)) \/ (exists i, i < n /\ p = (m, i) /\ q = (m, sj i)).
Proof.
  intros p q. unfold ring_B. rewrite in_app_iff, !in_map_iff. split.
  - intros [(k & E & H)|(k & E & H)]; apply in_seq in H; inversion E; subst; [left; exists (n - 1 - k)|right; exists k]; splits; auto; lia.
  - intros [(i & H & -> & ->)|(i & H & -> & ->)]; [left; exists (n - 1 - i); replace (n - 1 - (n - 1 - i)) with i by lia|right; exists i]; (split; [reflexivity|apply in_seq; lia]).
Qed.
Lemma ring_B_nodup : NoDup ring_B.
Proof.
  unfold ring_B. apply NoDup_app'; try (apply NoDup_map'; [apply seq_NoDup|]; intros a b Ha Hb E; apply in_seq in Ha, Hb; inversion E; lia).
  intros [p q] H H'. apply in_map_iff in H, H'. destruct H as (k & E & H), H' as (k' & E' & H'). injection E as <- <-. injection E' as E1 E2 E3 E4. lia.
Qed.
Lemma ring_free : forall p q, In (p, q) ring_B <-> In (p, q) (gsides sj cells) /\ ~ In (q, p) (gsides sj cells).
Proof.
  intros p q. rewrite in_ring_B. rewrite grid_free.
  - split.
    + intros [(i & H & -> & ->)|(i & H & -> & ->)].
      * exists 0, i. rewrite in_rect. split; [lia|]. right. right. right. splits; auto. intros; lia.
      * exists (m - 1), i. rewrite !in_rect. split; [lia|]. right. left. replace (S (m - 1)) with m by lia. splits; auto. lia.
    + intros (i & j & H & C). rewrite in_rect in H. destruct C as [(-> & -> & C)|[(-> & -> & C)|[(-> & -> & C)|(-> & -> & C)]]].
      * exfalso. destruct (sj_pred j ltac:(lia)) as (j' & A & E). apply (C j' E). apply in_rect. lia.
      * right. exists j. rewrite in_rect in C. replace m with (S i) by lia. splits; auto; lia.
      * exfalso. apply C. apply in_rect. pose proof (sj_lt j ltac:(lia)). lia.
      * left. exists j. destruct i as [|i]; [splits; auto; lia|]. exfalso. apply (C i eq_refl). apply in_rect. lia.
  - intros i j H. apply in_rect in H. apply sj_ne. lia.
  - intros i j i' j' H H'. apply in_rect in H, H'. apply sj_inj; lia.
  - intros i j i' j' H H'. apply in_rect in H, H'. apply sj_sj; lia.
Qed.
Definition ring_els := gelements sj (ring_id n) cells.
Definition ring_edgelist := map (fun s => [ring_id n (fst s); ring_id n (snd s)]) ring_B.
Lemma ring_elements_eq : ring_elements n m = Ok ring_els.
Proof.
  unfold ring_elements.
  rewrite (steps_for2 _ _ wstep m n _ (fun i j => (n * i + j, [n * i + j mod n; n * (i + 1) + j mod n; n * (i + 1) + (j + 1) mod n; n * i + (j + 1) mod n]))) by reflexivity.
  rewrite writes_seq by (apply grid_fst; intros; lia). f_equal. rewrite grid_snd. unfold ring_els, gelements. apply map_ext_in. intros [i j] H. apply in_rect in H.
  cbn [map corners fst snd]. unfold ring_id, sjn. cbn [fst snd]. rewrite (Nat.mod_small j n) by lia. rewrite !Nat.add_1_r. reflexivity.
Qed.
Lemma ring_edges_eq : ring_edges n m = Ok ring_edgelist.
Proof.
  unfold ring_edges.
  assert (K : steps wstep (for_ n (fun i edges => edges <- wr edges (n - i - 1) [(i + 1) mod n; i] ;; wr edges (i + n) [n * m + i; n * m + (i + 1) mod n]))
    (flat_map (fun i => [(n - i - 1, [(i + 1) mod n; i])] ++ [(i + n, [n * m + i; n * m + (i + 1) mod n])]) (seq 0 n))).
  { apply steps_for. intros i _. apply (steps_bind _ _ wstep (fun s => wr s (n - i - 1) [(i + 1) mod n; i]) (fun s => wr s (i + n) [n * m + i; n * m + (i + 1) mod n])); apply steps_one; reflexivity. }
  rewrite K. clear K.
  rewrite (writes_all _ (fun k => if k <? n then [sj (n - 1 - k); n - 1 - k] else [n * m + (k - n); n * m + sj (k - n)])).
  - f_equal. unfold ring_edgelist, ring_B. rewrite map_app, !map_map. replace (2 * n) with (n + n) by lia. rewrite seq_app, map_app. f_equal.
    + apply map_ext_in. intros k H. apply in_seq in H. ltbs. unfold ring_id. cbn [fst snd]. eqs.
    + rewrite <- (map_seq_shift n (0 + n)), map_map. apply map_ext_in. intros k H. apply in_seq in H. ltbs. unfold ring_id. cbn [fst snd]. replace (0 + n + k - n) with k by lia. reflexivity.
  - intros k v H. apply in_flat_map in H. destruct H as (i & Hi & H). apply in_seq in Hi. cbn in H. destruct H as [H|[H|[]]]; inversion H; subst; clear H; (split; [lia|]); ltbs.
    + replace (n - 1 - (n - i - 1)) with i by lia. reflexivity.
    + replace (i + n - n) with i by lia. reflexivity.
  - intros k Hk. apply in_flat_map. destruct (Nat.ltb_spec k n).
    + exists (n - 1 - k). split; [apply in_seq; lia|]. left. replace (n - (n - 1 - k) - 1) with k by lia. reflexivity.
    + exists (k - n). split; [apply in_seq; lia|]. right. left. replace (k - n + n) with k by lia. reflexivity.
Qed.
Lemma ring_conforming : conforming (n * (m + 1)) ring_els /\ boundary ring_els ring_edgelist.
Proof.
  split.
  - apply (grid_conforming sj (ring_id n) ring_P).
    + apply rect_nodup.
    + apply ring_PC.
    + apply ring_id_inj.
    + intros i j H. apply in_rect in H. apply sj_ne. lia.
    + intros i j i' j' H H'. apply in_rect in H, H'. apply sj_inj; lia.
    + intros i j i' j' H H'. apply in_rect in H, H'. apply sj_sj; lia.
    + intros [i j] (H & H'). unfold ring_id. cbn [fst snd] in *. rewrite (Nat.mul_comm n (m + 1)). apply idx_lt; lia.
  - apply (grid_boundary sj (ring_id n) ring_P).
    + apply ring_PC.
    + apply ring_id_inj.
    + apply ring_B_nodup.
    + apply ring_free.
Qed.
End Ring.

(** ** nodes of a ring: layer i, position j *)
Definition ring_nodes (N : nat -> nat -> list R) (n m : nat) : list (list R) := map (fun k => N (k / n) (k mod n)) (seq 0 (n * (m + 1))).
Lemma ring_nodes_length : forall N n m, length (ring_nodes N n m) = n * (m + 1).
Proof. intros. unfold ring_nodes. rewrite map_length, seq_length. reflexivity. Qed.
Lemma ring_div : forall n i j, j < n -> (n * i + j) / n = i /\ (n * i + j) mod n = j.
Proof.
  intros n i j H. assert (E : (n * i + j) mod n = j) by (rewrite Nat.add_comm, Nat.mul_comm, Nat.mod_add by lia; apply Nat.mod_small; exact H). split; [|exact E].
  rewrite (Nat.mul_comm n i), Nat.div_add_l by lia. rewrite Nat.div_small by exact H. lia.
Qed.
Lemma nth_ring_nodes : forall N n m i j, i <= m -> j < n -> nth (n * i + j) (ring_nodes N n m) [] = N i j.
Proof.
  intros N n m i j Hi Hj. unfold ring_nodes. rewrite nth_map_seq0 by (rewrite (Nat.mul_comm n (m + 1)); apply idx_lt; lia). destruct (ring_div n i j Hj) as (-> & ->). reflexivity.
Qed.
Definition ring_L (N : nat -> nat -> list R) (n m : nat) : list (nat * list R) := flat_map (fun i => map (fun j => (n * i + j, N i j)) (seq 0 n)) (seq 0 (m + 1)).
Lemma ring_L_fst : forall N n m, map fst (ring_L N n m) = seq 0 (n * (m + 1)).
Proof. intros. unfold ring_L. apply grid_fst. intros. lia. Qed.
Lemma ring_L_snd : forall N n m, map snd (ring_L N n m) = ring_nodes N n m.
Proof.
  intros N n m. unfold ring_L, ring_nodes. rewrite map_flat_map. rewrite <- (flat_seq n (m + 1) 0), map_flat_map. apply flat_map_ext'. intros i Hi. rewrite map_map. cbn [snd Nat.add].
  rewrite <- (map_seq_shift n (n * i)), map_map. apply map_ext_in. intros j Hj. apply in_seq in Hj. destruct (ring_div n i j) as (-> & ->); [lia|reflexivity].
Qed.
Lemma ring_writes : forall N n m l, (forall k v, In (k, v) l <-> In (k, v) (ring_L N n m)) -> foldM wstep l (repeat [] (n * (m + 1))) = Ok (ring_nodes N n m).
Proof.
  intros N n m l H. unfold ring_nodes. apply writes_all.
  - intros k v K. apply H in K. unfold ring_L in K. apply in_flat_map in K. destruct K as (i & Hi & K). apply in_map_iff in K. destruct K as (j & E & Hj). apply in_seq in Hi, Hj. inversion E; subst.
    split; [rewrite (Nat.mul_comm n (m + 1)); apply idx_lt; lia|]. destruct (ring_div n i j) as (-> & ->); [lia|reflexivity].
  - intros k Hk. apply H. unfold ring_L. apply in_flat_map. destruct (Nat.eq_dec n 0) as [->|Hn]; [lia|]. pose proof (Nat.div_mod k n Hn) as E. pose proof (Nat.mod_upper_bound k n Hn).
    exists (k / n). split; [apply in_seq; split; [lia|]; cbn; apply Nat.div_lt_upper_bound; lia|]. apply in_map_iff. exists (k mod n). split; [rewrite <- E; reflexivity|apply in_seq; lia].
Qed.

(** ** areas *)
Local Open Scope R_scope.
Definition cross (p q : list R) : R := nth 0 p 0 * nth 1 q 0 - nth 0 q 0 * nth 1 p 0.
Lemma cross_eq : forall x y x' y', cross [x; y] [x'; y'] = x * y' - x' * y.
Proof. reflexivity. Qed.
Lemma ring_area : forall N n m i j, (i < m)%nat -> (j < n)%nat ->
  area2 (ring_nodes N n m) (map (ring_id n) (corners (sjn n) (i, j))) =
  cross (N i j) (N (S i) j) + cross (N (S i) j) (N (S i) (sjn n j)) + cross (N (S i) (sjn n j)) (N i (sjn n j)) + cross (N i (sjn n j)) (N i j).
Proof.
  intros N n m i j Hi Hj. assert (Hs : (sjn n j < n)%nat) by (unfold sjn; apply Nat.mod_upper_bound; lia).
  cbn [corners map]. unfold area2. cbn [sides map fold_right]. unfold ring_id, px, py. cbn [fst snd]. rewrite !nth_ring_nodes by lia. unfold cross. ring.
Qed.
Lemma sum_prod : forall (f : nat * nat -> R) n m, fold_right Rplus 0 (map f (list_prod (seq 0 n) (seq 0 m))) = bigsum n (fun i => bigsum m (fun j => f (i, j))).
Proof.
  intros f n m. rewrite <- sumlist_seq. induction (seq 0 n) as [|i l IH]; [reflexivity|]. cbn [list_prod]. rewrite map_app.
  assert (A : forall l1 l2, fold_right Rplus 0 (l1 ++ l2) = fold_right Rplus 0 l1 + fold_right Rplus 0 l2) by (intros l1 l2; induction l1 as [|x l1 IH1]; cbn; [lra|rewrite IH1; lra]).
  rewrite A, IH, map_map. cbn [map]. unfold sumlist. cbn [fold_right]. f_equal. rewrite <- (sumlist_seq m (fun j => f (i, j))). reflexivity.
Qed.
Lemma telescope : forall n (f : nat -> R), bigsum n (fun i => f (S i) - f i) = f n - f 0%nat.
Proof. intros n f. induction n as [|n IH]; cbn [bigsum]; [lra|]. rewrite IH. lra. Qed.
Lemma ring_total : forall N n m, total_area2 (ring_nodes N n m) (ring_els n m) =
  bigsum m (fun i => bigsum n (fun j => area2 (ring_nodes N n m) (map (ring_id n) (corners (sjn n) (i, j))))).
Proof. intros. unfold total_area2, ring_els, gelements. rewrite map_map. unfold rect_cells. rewrite sum_prod. reflexivity. Qed.

(** AnnulusMesh *)
Section Ann.
Variables (r0 r1 : R) (nr nt : nat).
Hypotheses (hr : (1 <= nr)%nat) (ht : (3 <= nt)%nat).
Definition an_r (i : nat) : R := (r1 - r0) * INR i / INR nr + r0.
Definition an_t (j : nat) : R := 2 * PI * INR j / INR nt.
Definition an_N (i j : nat) : list R := [an_r i * cos (an_t j); an_r i * sin (an_t j)].
Lemma an_L : forall S (step : S -> nat * list R -> res S) body, (forall i j s, (i <= nr)%nat -> (j < nt)%nat -> body i j s = step s ((nt * i + j)%nat, an_N i j)) ->
  steps step (for_ (nr + 1) (fun i s => for_ nt (body i) s)) (ring_L an_N nt nr).
Proof. intros S step body H. apply (steps_for2 S _ step (nr + 1) nt body (fun i j => ((nt * i + j)%nat, an_N i j))). intros. apply H; lia. Qed.
Lemma nr_ne : INR nr <> 0. Proof. apply not_0_INR. lia. Qed.
Lemma nt_ne : INR nt <> 0. Proof. apply not_0_INR. lia. Qed.
Lemma an_nodes_eq : an_nodes r0 r1 nr nt = Ok (ring_nodes an_N nt nr).
Proof.
  unfold an_nodes. idtac.
  transitivity (for_ (nr + 1) (fun i s => for_ nt (fun j nodes => wr nodes (nt * i + j) (an_N i j)) s) (repeat [] ((nr + 1) * nt))).
  - unfold for_. apply AssemblyProof.foldM_ext. intros s i _. rewrite Rdiv_res_ok by exact nr_ne. cbn [bind]. apply AssemblyProof.foldM_ext. intros s' j _. rewrite Rdiv_res_ok by exact nt_ne. reflexivity.
  - rewrite (an_L _ wstep (fun i j nodes => wr nodes (nt * i + j) (an_N i j))) by reflexivity. rewrite (Nat.mul_comm (nr + 1) nt). apply ring_writes. tauto.
Qed.
Lemma an_fixed_eq : forall ulist pred, ulist <> [] -> (forall u, In u ulist -> (0 <= u)%Z) -> an_fixed r0 r1 nr nt ulist pred = Ok (fixed_nodes (ring_nodes an_N nt nr) ulist pred).
Proof.
  intros ulist pred H0 H1. unfold an_fixed. rewrite check_ok by assumption. cbn [bind].
  transitivity (for_ (nr + 1) (fun i s => for_ nt (fun j out => Ok (push_fixed pred ulist (an_N i j) (nt * i + j) out)) s) []).
  - unfold for_. apply AssemblyProof.foldM_ext. intros s i _. rewrite Rdiv_res_ok by exact nr_ne. cbn [bind]. apply AssemblyProof.foldM_ext. intros s' j _. rewrite Rdiv_res_ok by exact nt_ne. reflexivity.
  - rewrite (an_L _ (fstep pred ulist) (fun i j out => Ok (push_fixed pred ulist (an_N i j) (nt * i + j) out))) by reflexivity. rewrite (fixes_nodes _ _ _ _ (ring_L_fst an_N nt nr)), ring_L_snd. reflexivity.
Qed.
Lemma an_t_next : forall j, (j < nt)%nat -> cos (an_t (sjn nt j)) = cos (an_t j + 2 * PI / INR nt) /\ sin (an_t (sjn nt j)) = sin (an_t j + 2 * PI / INR nt).
Proof.
  intros j H. destruct (sj_cases nt ht j H) as [(A & ->)|(A & ->)].
  - replace (an_t (j + 1)) with (an_t j + 2 * PI / INR nt); [auto|]. unfold an_t. rewrite plus_INR. cbn [INR]. field. exact nt_ne.
  - replace (an_t j + 2 * PI / INR nt) with (an_t 0 + 2 * PI); [split; [rewrite cos_plus, cos_2PI, sin_2PI|rewrite sin_plus, cos_2PI, sin_2PI]; lra|].
    unfold an_t. rewrite <- A, plus_INR. cbn [INR]. field. rewrite <- (INR_IZR_INZ 1) || idtac. pose proof nt_ne as Q. rewrite <- A, plus_INR in Q. exact Q.
Qed.
Lemma an_area : forall i j, (i < nr)%nat -> (j < nt)%nat -> area2 (ring_nodes an_N nt nr) (map (ring_id nt) (corners (sjn nt) (i, j))) = (an_r (S i) ^ 2 - an_r i ^ 2) * sin (2 * PI / INR nt).
Proof.
  intros i j Hi Hj. rewrite ring_area by assumption. unfold an_N. rewrite !cross_eq. destruct (an_t_next j Hj) as (-> & ->). rewrite cos_plus, sin_plus.
  set (c := cos (an_t j)). set (s := sin (an_t j)). set (c' := cos (2 * PI / INR nt)). set (s' := sin (2 * PI / INR nt)). 
  assert (E : s * s + c * c = 1) by apply sin2_cos2. 
  transitivity ((an_r (S i) ^ 2 - an_r i ^ 2) * s' * (s * s + c * c)); [ring|]. rewrite E. ring.
Qed.
Lemma an_r_S : forall i, an_r (S i) = an_r i + (r1 - r0) / INR nr.
Proof. intros i. unfold an_r. rewrite S_INR. field. exact nr_ne. Qed.
Lemma an_area_pos : 0 <= r0 -> r0 < r1 -> forall i, 0 < (an_r (S i) ^ 2 - an_r i ^ 2) * sin (2 * PI / INR nt).
Proof.
  intros H0 H1 i. assert (Nr : 0 < INR nr) by (apply lt_0_INR; lia). assert (D : 0 < (r1 - r0) / INR nr) by (apply Rdiv_lt_0_compat; lra).
  assert (B : 0 <= an_r i). { unfold an_r. assert (0 <= (r1 - r0) * INR i / INR nr); [|lra]. unfold Rdiv. apply Rmult_le_pos; [apply Rmult_le_pos; [lra|apply pos_INR]|left; apply Rinv_0_lt_compat; exact Nr]. }
  rewrite an_r_S. apply Rmult_lt_0_compat; [nra|]. assert (Nt : 3 <= INR nt) by (pose proof (le_INR _ _ ht) as Q; cbn [INR] in Q; lra). pose proof PI_RGT_0 as Hpi.
  apply sin_gt_0; [apply Rdiv_lt_0_compat; lra|]. apply Rmult_lt_reg_r with (INR nt); [lra|]. replace (2 * PI / INR nt * INR nt) with (2 * PI) by (field; lra). nra.
Qed.
Lemma an_total : total_area2 (ring_nodes an_N nt nr) (ring_els nt nr) = INR nt * sin (2 * PI / INR nt) * (r1 ^ 2 - r0 ^ 2).
Proof.
  rewrite ring_total. transitivity (bigsum nr (fun i => INR nt * sin (2 * PI / INR nt) * (an_r (S i) ^ 2 - an_r i ^ 2))).
  - apply bigsum_ext. intros i Hi. rewrite (bigsum_ext nt _ (fun _ => (an_r (S i) ^ 2 - an_r i ^ 2) * sin (2 * PI / INR nt))) by (intros j Hj; apply an_area; assumption). rewrite bigsum_const. ring.
  - rewrite bigsum_scal, (telescope nr (fun i => an_r i ^ 2)). f_equal. unfold an_r. cbn [INR]. replace ((r1 - r0) * INR nr / INR nr) with (r1 - r0) by (field; exact nr_ne). unfold Rdiv. ring.
Qed.
End Ann.

(** four sides of a rectangle *)
Section Sides4.
Variables (nx ny : nat).
Hypotheses (hx : (0 < nx)%nat) (hy : (0 < ny)%nat).
Local Notation nxy := (2 * (nx + ny))%nat.
(** position J on the boundary of the square of side one centred at the origin *)
Definition pu (J : nat) : R :=
  if (J <? ny)%nat then 5/10 else if (J <? ny + nx)%nat then 5/10 - INR (J - ny) / INR nx else if (J <? 2 * ny + nx)%nat then - (5/10) else INR (J - (2 * ny + nx)) / INR nx - 5/10.
Definition pv (J : nat) : R :=
  if (J <? ny)%nat then INR J / INR ny - 5/10 else if (J <? ny + nx)%nat then 5/10 else if (J <? 2 * ny + nx)%nat then 5/10 - INR (J - (ny + nx)) / INR ny else - (5/10).
Lemma seg_split : forall A (f : nat -> A), map f (seq 0 nxy) = map f (seq 0 ny) ++ map (fun j => f (j + ny)%nat) (seq 0 nx) ++ map (fun j => f (j + ny + nx)%nat) (seq 0 ny) ++ map (fun j => f (j + 2 * ny + nx)%nat) (seq 0 nx).
Proof.
  intros A f. replace nxy with (ny + (nx + (ny + nx)))%nat by lia. rewrite !seq_app, !map_app.
  assert (T : forall n a (h : nat -> A), (forall k, (k < n)%nat -> f (a + k)%nat = h k) -> map f (seq a n) = map h (seq 0 n)).
  { intros n a h T. rewrite <- (map_seq_shift n a), map_map. apply map_ext_in. intros k Hk. apply in_seq in Hk. apply T. lia. }
  f_equal. f_equal; [apply T; intros; f_equal; lia|]. f_equal; apply T; intros; f_equal; lia.
Qed.
(** steps for one layer, side after side *)
Lemma steps_sides : forall S (step : S -> nat * list R -> res S) (N : nat -> nat -> list R) i (b1 b2 b3 b4 : nat -> S -> res S),
  (forall j, (j < ny)%nat -> forall s, b1 j s = step s ((nxy * i + j)%nat, N i j)) ->
  (forall j, (j < nx)%nat -> forall s, b2 j s = step s ((nxy * i + j + ny)%nat, N i (j + ny)%nat)) ->
  (forall j, (j < ny)%nat -> forall s, b3 j s = step s ((nxy * i + j + ny + nx)%nat, N i (j + ny + nx)%nat)) ->
  (forall j, (j < nx)%nat -> forall s, b4 j s = step s ((nxy * i + j + 2 * ny + nx)%nat, N i (j + 2 * ny + nx)%nat)) ->
  steps step (fun s => s <- for_ ny b1 s ;; s <- for_ nx b2 s ;; s <- for_ ny b3 s ;; for_ nx b4 s) (map (fun J => ((nxy * i + J)%nat, N i J)) (seq 0 nxy)).
Proof.
  intros S step N i b1 b2 b3 b4 H1 H2 H3 H4. rewrite (seg_split _ (fun J => ((nxy * i + J)%nat, N i J))).
  apply (steps_bind S _ step (for_ ny b1) (fun s => s <- for_ nx b2 s ;; s <- for_ ny b3 s ;; for_ nx b4 s)); [apply steps_for1; intros; apply H1; assumption|].
  apply (steps_bind S _ step (for_ nx b2) (fun s => s <- for_ ny b3 s ;; for_ nx b4 s)); [apply steps_for1; intros; rewrite H2 by assumption; f_equal; f_equal; lia|].
  apply (steps_bind S _ step (for_ ny b3) (for_ nx b4)); apply steps_for1; intros; [rewrite H3 by assumption|rewrite H4 by assumption]; f_equal; f_equal; lia.
Qed.
Lemma ny_ne : INR ny <> 0. Proof. apply not_0_INR. lia. Qed.
Lemma nx_ne : INR nx <> 0. Proof. apply not_0_INR. lia. Qed.
Lemma p_side1 : forall j, (j < ny)%nat -> pu j = 5/10 /\ pv j = INR j / INR ny - 5/10.
Proof. intros. unfold pu, pv. ltbs. auto. Qed.
Lemma p_side2 : forall j, (j < nx)%nat -> pu (j + ny) = 5/10 - INR j / INR nx /\ pv (j + ny) = 5/10.
Proof. intros. unfold pu, pv. ltbs. replace (j + ny - ny)%nat with j by lia. auto. Qed.
Lemma p_side3 : forall j, (j < ny)%nat -> pu (j + ny + nx) = - (5/10) /\ pv (j + ny + nx) = 5/10 - INR j / INR ny.
Proof. intros. unfold pu, pv. ltbs. replace (j + ny + nx - (ny + nx))%nat with j by lia. auto. Qed.
Lemma p_side4 : forall j, (j < nx)%nat -> pu (j + 2 * ny + nx) = INR j / INR nx - 5/10 /\ pv (j + 2 * ny + nx) = - (5/10).
Proof. intros. unfold pu, pv. ltbs. replace (j + 2 * ny + nx - (2 * ny + nx))%nat with j by lia. auto. Qed.
Lemma p_cases : forall J, (J < nxy)%nat ->
  (exists j, (j < ny)%nat /\ J = j) \/ (exists j, (j < nx)%nat /\ J = (j + ny)%nat) \/ (exists j, (j < ny)%nat /\ J = (j + ny + nx)%nat) \/ (exists j, (j < nx)%nat /\ J = (j + 2 * ny + nx)%nat).
Proof.
  intros J H. destruct (Nat.lt_ge_cases J ny); [left; exists J; split; lia|]. destruct (Nat.lt_ge_cases J (ny + nx)); [right; left; exists (J - ny)%nat; split; lia|].
  destruct (Nat.lt_ge_cases J (2 * ny + nx)); [right; right; left; exists (J - ny - nx)%nat; split; lia|]. right; right; right. exists (J - 2 * ny - nx)%nat. split; lia.
Qed.
(** the step along the boundary *)
Lemma p_next : forall J, (J < nxy)%nat ->
  (exists e, 0 < e /\ INR ny * e = 1 /\ ((J < ny)%nat \/ (ny + nx <= J < 2 * ny + nx)%nat) /\
    ((pu J = 5/10 /\ pu (sjn nxy J) = 5/10 /\ pv (sjn nxy J) = pv J + e) \/ (pu J = - (5/10) /\ pu (sjn nxy J) = - (5/10) /\ pv (sjn nxy J) = pv J - e))) \/
  (exists e, 0 < e /\ INR nx * e = 1 /\ ((ny <= J < ny + nx)%nat \/ (2 * ny + nx <= J)%nat) /\
    ((pv J = 5/10 /\ pv (sjn nxy J) = 5/10 /\ pu (sjn nxy J) = pu J - e) \/ (pv J = - (5/10) /\ pv (sjn nxy J) = - (5/10) /\ pu (sjn nxy J) = pu J + e))).
Proof.
  intros J H. assert (Nx : 0 < INR nx) by (apply lt_0_INR; exact hx). assert (Ny : 0 < INR ny) by (apply lt_0_INR; exact hy).
  assert (E : sjn nxy J = if (J + 1 <? nxy)%nat then (J + 1)%nat else 0%nat).
  { destruct (sj_cases nxy ltac:(lia) J H) as [(A & ->)|(A & ->)]; ltbs; reflexivity. }
  destruct (p_cases J H) as [(j & Hj & ->)|[(j & Hj & ->)|[(j & Hj & ->)|(j & Hj & ->)]]]; rewrite E; clear E.
  - left. exists (/ INR ny). split; [apply Rinv_0_lt_compat; exact Ny|]. split; [field; lra|]. split; [lia|]. left. destruct (p_side1 j Hj) as (-> & ->). ltbs.
    destruct (Nat.eq_dec (j + 1) ny) as [Q|Q].
    + replace (j + 1)%nat with (0 + ny)%nat by lia. destruct (p_side2 0 hx) as (-> & ->). assert (Z : INR ny = INR j + 1) by (rewrite <- Q, plus_INR; cbn [INR]; lra). rewrite Z. rewrite Z in Ny. cbn [INR]. splits; try lra; field; lra.
    + destruct (p_side1 (j + 1) ltac:(lia)) as (-> & ->). rewrite plus_INR. cbn [INR]. splits; try lra; field; lra.
  - right. exists (/ INR nx). split; [apply Rinv_0_lt_compat; exact Nx|]. split; [field; lra|]. split; [lia|]. left. destruct (p_side2 j Hj) as (-> & ->). ltbs.
    destruct (Nat.eq_dec (j + 1) nx) as [Q|Q].
    + replace (j + ny + 1)%nat with (0 + ny + nx)%nat by lia. destruct (p_side3 0 hy) as (-> & ->). assert (Z : INR nx = INR j + 1) by (rewrite <- Q, plus_INR; cbn [INR]; lra). rewrite Z. rewrite Z in Nx. cbn [INR]. splits; try lra; field; lra.
    + replace (j + ny + 1)%nat with (j + 1 + ny)%nat by lia. destruct (p_side2 (j + 1) ltac:(lia)) as (-> & ->). rewrite plus_INR. cbn [INR]. splits; try lra; field; lra.
  - left. exists (/ INR ny). split; [apply Rinv_0_lt_compat; exact Ny|]. split; [field; lra|]. split; [lia|]. right. destruct (p_side3 j Hj) as (-> & ->). ltbs.
    destruct (Nat.eq_dec (j + 1) ny) as [Q|Q].
    + replace (j + ny + nx + 1)%nat with (0 + 2 * ny + nx)%nat by lia. destruct (p_side4 0 hx) as (-> & ->). assert (Z : INR ny = INR j + 1) by (rewrite <- Q, plus_INR; cbn [INR]; lra). rewrite Z. rewrite Z in Ny. cbn [INR]. splits; try lra; field; lra.
    + replace (j + ny + nx + 1)%nat with (j + 1 + ny + nx)%nat by lia. destruct (p_side3 (j + 1) ltac:(lia)) as (-> & ->). rewrite plus_INR. cbn [INR]. splits; try lra; field; lra.
  - right. exists (/ INR nx). split; [apply Rinv_0_lt_compat; exact Nx|]. split; [field; lra|]. split; [lia|]. right. destruct (p_side4 j Hj) as (-> & ->).
    destruct (Nat.eq_dec (j + 1) nx) as [Q|Q]; ltbs.
    + destruct (p_side1 0 hy) as (-> & ->). assert (Z : INR nx = INR j + 1) by (rewrite <- Q, plus_INR; cbn [INR]; lra). rewrite Z. rewrite Z in Nx. cbn [INR]. splits; try lra; field; lra.
    + replace (j + 2 * ny + nx + 1)%nat with (j + 1 + 2 * ny + nx)%nat by lia. destruct (p_side4 (j + 1) ltac:(lia)) as (-> & ->). rewrite plus_INR. cbn [INR]. splits; try lra; field; lra.
Qed.

Lemma p_bounds : forall J, (J < nxy)%nat -> ((pu J = 5/10 \/ pu J = - (5/10)) /\ - (5/10) <= pv J <= 5/10) \/ ((pv J = 5/10 \/ pv J = - (5/10)) /\ - (5/10) <= pu J <= 5/10).
Proof.
  intros J H. assert (K : forall j n, (j < n)%nat -> 0 <= INR j / INR n <= 1).
  { intros j n Hj. assert (N : 0 < INR n) by (apply lt_0_INR; lia). split; [unfold Rdiv; apply Rmult_le_pos; [apply pos_INR|left; apply Rinv_0_lt_compat; exact N]|].
    apply Rmult_le_reg_r with (INR n); [exact N|]. unfold Rdiv. rewrite Rmult_assoc, Rinv_l by lra. rewrite Rmult_1_l, Rmult_1_r. apply le_INR. lia. }
  destruct (p_cases J H) as [(j & Hj & ->)|[(j & Hj & ->)|[(j & Hj & ->)|(j & Hj & ->)]]]; specialize (K j _ Hj);
    [destruct (p_side1 j Hj) as (-> & ->); left|destruct (p_side2 j Hj) as (-> & ->); right|destruct (p_side3 j Hj) as (-> & ->); left|destruct (p_side4 j Hj) as (-> & ->); right]; (split; [lra|lra]).
Qed.

(** SquareAnnulusMesh *)
Variables (a b c d : R) (nt : nat).
Hypothesis ht : (0 < nt)%nat.
Definition sa_A (i : nat) : R := INR i / INR nt * a + (1 - INR i / INR nt) * c.
Definition sa_Bb (i : nat) : R := INR i / INR nt * b + (1 - INR i / INR nt) * d.
Definition sa_N (i J : nat) : list R := [sa_A i * pu J; sa_Bb i * pv J].
Definition sa_N' (i J : nat) : list R := sa_N (nt - i) J.
Lemma sa_nodes_eq : sa_nodes a b c d nx ny nt = Ok (ring_nodes sa_N nxy nt).
Proof.
  unfold sa_nodes, sa_nxy.
  transitivity (for_ (nt + 1) (fun i nodes =>
    nodes <- for_ ny (fun j nodes => nodes <- wr nodes (nxy * i + j) (sa_N i j) ;; wr nodes (nxy * i + j + ny + nx) (sa_N i (j + ny + nx))) nodes ;;
    for_ nx (fun j nodes => nodes <- wr nodes (nxy * i + j + ny) (sa_N i (j + ny)) ;; wr nodes (nxy * i + j + 2 * ny + nx) (sa_N i (j + 2 * ny + nx))) nodes) (repeat [] (nxy * (nt + 1)))).
  { unfold for_ at 1. unfold for_ at 3. apply AssemblyProof.foldM_ext. intros s i _. rewrite frac_ok by exact ht. cbn [bind].
    match goal with |- bind ?A1 _ = bind ?A2 _ => assert (E : A1 = A2) end.
    { unfold for_. apply AssemblyProof.foldM_ext. intros s' j Hj. apply in_seq in Hj. rewrite frac_ok by exact hy. cbn [bind].
      unfold sa_N. destruct (p_side1 j ltac:(lia)) as (-> & ->). destruct (p_side3 j ltac:(lia)) as (-> & ->). unfold sa_A, sa_Bb. f_equal; [f_equal; eqs; ring|].
      apply FunctionalExtensionality.functional_extensionality. intro s2. f_equal. eqs; ring. }
    rewrite E. f_equal. apply FunctionalExtensionality.functional_extensionality. intro s'. unfold for_. apply AssemblyProof.foldM_ext. intros s2 j Hj. apply in_seq in Hj. rewrite frac_ok by exact hx. cbn [bind].
    unfold sa_N. destruct (p_side2 j ltac:(lia)) as (-> & ->). destruct (p_side4 j ltac:(lia)) as (-> & ->). unfold sa_A, sa_Bb. f_equal; [f_equal; eqs; ring|].
    apply FunctionalExtensionality.functional_extensionality. intro s3. f_equal. eqs; ring. }
  set (Li := fun i => flat_map (fun j => [((nxy * i + j)%nat, sa_N i j)] ++ [((nxy * i + j + ny + nx)%nat, sa_N i (j + ny + nx)%nat)]) (seq 0 ny) ++
    flat_map (fun j => [((nxy * i + j + ny)%nat, sa_N i (j + ny)%nat)] ++ [((nxy * i + j + 2 * ny + nx)%nat, sa_N i (j + 2 * ny + nx)%nat)]) (seq 0 nx)).
  rewrite (steps_for _ _ wstep (nt + 1) _ Li).
  - apply ring_writes. intros k v. unfold ring_L. rewrite !in_flat_map. split.
    + intros (i & Hi & H). exists i. split; [exact Hi|]. apply in_map_iff. unfold Li in H. apply in_app_iff in H.
      destruct H as [H|H]; apply in_flat_map in H; destruct H as (j & Hj & H); apply in_seq in Hj; destruct H as [H|[H|[]]]; inversion H; subst;
        [exists j|exists (j + ny + nx)%nat|exists (j + ny)%nat|exists (j + 2 * ny + nx)%nat]; (split; [f_equal; lia|apply in_seq; lia]).
    + intros (i & Hi & H). exists i. split; [exact Hi|]. apply in_map_iff in H. destruct H as (J & E & HJ). apply in_seq in HJ. inversion E; subst; clear E. unfold Li. apply in_app_iff.
      destruct (p_cases J ltac:(lia)) as [(j & Hj & ->)|[(j & Hj & ->)|[(j & Hj & ->)|(j & Hj & ->)]]]; [left|right|left|right]; apply in_flat_map; exists j; (split; [apply in_seq; lia|]);
        [left; f_equal; lia|left; f_equal; lia|right; left; f_equal; lia|right; left; f_equal; lia].
  - intros i _. unfold Li. apply (steps_bind _ _ wstep (for_ ny (fun j nodes => nodes <- wr nodes (nxy * i + j) (sa_N i j) ;; wr nodes (nxy * i + j + ny + nx) (sa_N i (j + ny + nx))))
      (for_ nx (fun j nodes => nodes <- wr nodes (nxy * i + j + ny) (sa_N i (j + ny)) ;; wr nodes (nxy * i + j + 2 * ny + nx) (sa_N i (j + 2 * ny + nx))))); apply steps_for; intros j _.
    + apply (steps_bind _ _ wstep (fun s => wr s (nxy * i + j) (sa_N i j)) (fun s => wr s (nxy * i + j + ny + nx) (sa_N i (j + ny + nx)))); apply steps_one; reflexivity.
    + apply (steps_bind _ _ wstep (fun s => wr s (nxy * i + j + ny) (sa_N i (j + ny))) (fun s => wr s (nxy * i + j + 2 * ny + nx) (sa_N i (j + 2 * ny + nx)))); apply steps_one; reflexivity.
Qed.
Lemma sa_t : forall i, (i <= nt)%nat -> INR (nt - i) / INR nt = 1 - INR i / INR nt.
Proof. intros i H. rewrite minus_INR by exact H. field. apply not_0_INR. lia. Qed.
Lemma sa_fixed_eq : forall ulist pred, ulist <> [] -> (forall u, In u ulist -> (0 <= u)%Z) -> sa_fixed a b c d nx ny nt ulist pred = Ok (fixed_nodes (ring_nodes sa_N' nxy nt) ulist pred).
Proof.
  intros ulist pred H0 H1. unfold sa_fixed, sa_nxy. rewrite check_ok by assumption. cbn [bind].
  rewrite (steps_for _ _ (fstep pred ulist) (nt + 1) _ (fun i => map (fun J => ((nxy * i + J)%nat, sa_N' i J)) (seq 0 nxy))).
  - fold (ring_L sa_N' nxy nt). rewrite (fixes_nodes _ _ _ _ (ring_L_fst sa_N' nxy nt)), ring_L_snd. reflexivity.
  - intros i Hi s. rewrite frac_ok by exact ht. cbn [bind]. unfold sa_N', sa_N, sa_A, sa_Bb. rewrite sa_t by lia.
    apply (steps_sides _ (fstep pred ulist) (fun i J => [(((1 - INR i / INR nt) * a + (1 - (1 - INR i / INR nt)) * c) * pu J); (((1 - INR i / INR nt) * b + (1 - (1 - INR i / INR nt)) * d) * pv J)]));
      intros j Hj s'; rewrite frac_ok by assumption; cbn [bind]; unfold fstep; cbn [fst snd];
      [destruct (p_side1 j Hj) as (-> & ->)|destruct (p_side2 j Hj) as (-> & ->)|destruct (p_side3 j Hj) as (-> & ->)|destruct (p_side4 j Hj) as (-> & ->)]; do 2 f_equal; eqs; ring.
Qed.
Lemma sa_area : forall i J, (i < nt)%nat -> (J < nxy)%nat -> let A := sa_A i in let A' := sa_A (S i) in let B := sa_Bb i in let B' := sa_Bb (S i) in
  area2 (ring_nodes sa_N nxy nt) (map (ring_id nxy) (corners (sjn nxy) (i, J))) =
  if (J <? ny)%nat then (A' - A) * (B' + B) / (2 * INR ny) else if (J <? ny + nx)%nat then (A' + A) * (B' - B) / (2 * INR nx)
  else if (J <? 2 * ny + nx)%nat then (A' - A) * (B' + B) / (2 * INR ny) else (A' + A) * (B' - B) / (2 * INR nx).
Proof.
  intros i J Hi HJ A A' B B'. rewrite ring_area by assumption. unfold sa_N. rewrite !cross_eq. fold A A' B B'. pose proof nx_ne as Nx. pose proof ny_ne as Ny.
  assert (K : forall e n, n <> 0 -> n * e = 1 -> e = / n). { intros e n Hn E. apply Rmult_eq_reg_l with n; [|exact Hn]. rewrite E. field. exact Hn. }
  destruct (p_next J HJ) as [(e & _ & E & HJ' & [(U & U' & V)|(U & U' & V)])|(e & _ & E & HJ' & [(U & U' & V)|(U & U' & V)])]; rewrite U, U', V; apply K in E; auto; subst e; ltbs; field; assumption.
Qed.
Lemma sa_A_S : forall i, sa_A (S i) = sa_A i + (a - c) / INR nt.
Proof. intros. unfold sa_A. rewrite S_INR. field. apply not_0_INR. lia. Qed.
Lemma sa_B_S : forall i, sa_Bb (S i) = sa_Bb i + (b - d) / INR nt.
Proof. intros. unfold sa_Bb. rewrite S_INR. field. apply not_0_INR. lia. Qed.
Lemma sa_ge : forall u v i, (i <= nt)%nat -> 0 <= v -> v < u -> 0 <= INR i / INR nt * u + (1 - INR i / INR nt) * v.
Proof.
  intros u v i Hi Hv Hu. assert (Nt : 0 < INR nt) by (apply lt_0_INR; exact ht). assert (0 <= INR i / INR nt <= 1).
  { split; [unfold Rdiv; apply Rmult_le_pos; [apply pos_INR|left; apply Rinv_0_lt_compat; exact Nt]|]. apply Rmult_le_reg_r with (INR nt); [exact Nt|]. unfold Rdiv. rewrite Rmult_assoc, Rinv_l by lra. rewrite Rmult_1_l, Rmult_1_r. apply le_INR. exact Hi. }
  nra.
Qed.
Lemma sa_area_pos : 0 <= c -> c < a -> 0 <= d -> d < b -> forall i J, (i < nt)%nat -> (J < nxy)%nat -> 0 < area2 (ring_nodes sa_N nxy nt) (map (ring_id nxy) (corners (sjn nxy) (i, J))).
Proof.
  intros Hc Ha Hd Hb i J Hi HJ. rewrite sa_area by assumption. cbv zeta. assert (Nx : 0 < INR nx) by (apply lt_0_INR; exact hx). assert (Ny : 0 < INR ny) by (apply lt_0_INR; exact hy).
  assert (Nt : 0 < INR nt) by (apply lt_0_INR; exact ht). assert (PA : 0 <= sa_A i) by (apply sa_ge; auto; lia). assert (PB : 0 <= sa_Bb i) by (apply sa_ge; auto; lia).
  rewrite sa_A_S, sa_B_S. assert (DA : 0 < (a - c) / INR nt) by (apply Rdiv_lt_0_compat; lra). assert (DB : 0 < (b - d) / INR nt) by (apply Rdiv_lt_0_compat; lra).
  destruct (J <? ny)%nat, (J <? ny + nx)%nat, (J <? 2 * ny + nx)%nat; apply Rdiv_lt_0_compat; nra.
Qed.
Lemma sa_total : total_area2 (ring_nodes sa_N nxy nt) (ring_els nxy nt) = 2 * (a * b - c * d).
Proof.
  rewrite ring_total. transitivity (bigsum nt (fun i => 2 * (sa_A (S i) * sa_Bb (S i) - sa_A i * sa_Bb i))).
  - apply bigsum_ext. intros i Hi. pose proof nx_ne as Nx. pose proof ny_ne as Ny.
    rewrite (bigsum_ext nxy _ _ (fun J HJ => sa_area i J Hi HJ)). cbv zeta. set (A := sa_A i). set (A' := sa_A (S i)). set (B := sa_Bb i). set (B' := sa_Bb (S i)).
    replace nxy with (ny + (nx + (ny + nx)))%nat by lia. rewrite !bigsum_split.
    rewrite (bigsum_ext ny _ (fun _ => (A' - A) * (B' + B) / (2 * INR ny))) by (intros; ltbs; reflexivity).
    rewrite (bigsum_ext nx (fun i0 => if (ny + i0 <? ny)%nat then _ else _) (fun _ => (A' + A) * (B' - B) / (2 * INR nx))) by (intros; ltbs; reflexivity).
    rewrite (bigsum_ext ny (fun i0 => if (ny + (nx + i0) <? ny)%nat then _ else _) (fun _ => (A' - A) * (B' + B) / (2 * INR ny))) by (intros; ltbs; reflexivity).
    rewrite (bigsum_ext nx (fun i0 => if (ny + (nx + (ny + i0)) <? ny)%nat then _ else _) (fun _ => (A' + A) * (B' - B) / (2 * INR nx))) by (intros; ltbs; reflexivity).
    rewrite !bigsum_const. field. split; assumption.
  - rewrite bigsum_scal, (telescope nt (fun i => sa_A i * sa_Bb i)). unfold sa_A, sa_Bb. cbn [INR]. replace (INR nt / INR nt) with 1 by (field; apply not_0_INR; lia). unfold Rdiv. ring.
Qed.

(** SquareCircleAnnulusMesh; nt is its nr, and a, b the sides of the rectangle *)
Variables (r p : R).
Definition sc_t (i : nat) : R := if Nat.eq_dec i 0 then 0 else Rpower (INR i / INR nt) p.
Definition sc_th (J : nat) : R := 2 * PI * (INR J - 5/10 * INR ny) / INR nxy.
Definition sc_N (i J : nat) : list R := [(1 - sc_t i) * r * cos (sc_th J) + sc_t i * a * pu J; (1 - sc_t i) * r * sin (sc_th J) + sc_t i * b * pv J].
Hypothesis hp : 0 < p.
Lemma sc_pow : forall i, (i <= nt)%nat -> cpow (INR i / INR nt) p = Ok (sc_t i).
Proof.
  intros i Hi. assert (Nt : 0 < INR nt) by (apply lt_0_INR; exact ht). unfold cpow, sc_t. destruct (Nat.eq_dec i 0) as [->|Hn].
  - cbn [INR]. replace (0 / INR nt) with 0 by (unfold Rdiv; ring). destruct (Rlt_dec 0 0); [lra|]. destruct (Req_EM_T 0 0); [|lra]. destruct (Rlt_dec 0 p); [reflexivity|lra].
  - destruct (Rlt_dec 0 (INR i / INR nt)) as [|Q]; [reflexivity|]. exfalso. apply Q. apply Rdiv_lt_0_compat; [apply lt_0_INR; lia|exact Nt].
Qed.
Lemma nxy_ne : INR nxy <> 0.
Proof. apply not_0_INR. lia. Qed.
Lemma sc_steps : forall S (step : S -> nat * list R -> res S) i s, (i <= nt)%nat ->
  (q <- frac i nt ;; t <- cpow q p ;;
    nodes <- for_ ny (fun j nodes => f <- frac j ny ;;
      th <- Rdiv_res (2 * PI * (INR j - 5/10 * INR ny))%R (INR nxy) ;;
      step nodes ((nxy * i + j)%nat, [(1 - t) * r * cos th + t * (5/10) * a; (1 - t) * r * sin th + t * b * (f - 5/10)]%R)) s ;;
    nodes <- for_ nx (fun j nodes => f <- frac j nx ;;
      th <- Rdiv_res (2 * PI * (INR j + 5/10 * INR ny))%R (INR nxy) ;;
      step nodes ((nxy * i + j + ny)%nat, [(1 - t) * r * cos th + t * a * (5/10 - f); (1 - t) * r * sin th + t * (5/10) * b]%R)) nodes ;;
    nodes <- for_ ny (fun j nodes => f <- frac j ny ;;
      th <- Rdiv_res (2 * PI * (INR j + 5/10 * INR ny + INR nx))%R (INR nxy) ;;
      step nodes ((nxy * i + j + ny + nx)%nat, [(1 - t) * r * cos th - t * (5/10) * a; (1 - t) * r * sin th + t * b * (5/10 - f)]%R)) nodes ;;
    for_ nx (fun j nodes => f <- frac j nx ;;
      th <- Rdiv_res (2 * PI * (INR j + 15/10 * INR ny + INR nx))%R (INR nxy) ;;
      step nodes ((nxy * i + j + 2 * ny + nx)%nat, [(1 - t) * r * cos th + t * a * (f - 5/10); (1 - t) * r * sin th - t * (5/10) * b]%R)) nodes) =
  foldM step (map (fun J => ((nxy * i + J)%nat, sc_N i J)) (seq 0 nxy)) s.
Proof.
  intros S step i s Hi. rewrite frac_ok by exact ht. cbn [bind]. rewrite sc_pow by exact Hi. cbn [bind].
  apply (steps_sides S step sc_N); intros j Hj s'; rewrite frac_ok by assumption; cbn [bind]; rewrite Rdiv_res_ok by exact nxy_ne; cbn [bind]; f_equal; f_equal; unfold sc_N, sc_th; rewrite ?plus_INR, ?mult_INR.
  - destruct (p_side1 j Hj) as (-> & ->). eqs; ring.
  - destruct (p_side2 j Hj) as (-> & ->). replace (INR j + INR ny - 5 / 10 * INR ny) with (INR j + 5/10 * INR ny) by lra. eqs; ring.
  - destruct (p_side3 j Hj) as (-> & ->). replace (INR j + INR ny + INR nx - 5 / 10 * INR ny) with (INR j + 5/10 * INR ny + INR nx) by lra. eqs; ring.
  - destruct (p_side4 j Hj) as (-> & ->). cbn [INR]. replace (INR j + (1 + 1) * INR ny + INR nx - 5 / 10 * INR ny) with (INR j + 15/10 * INR ny + INR nx) by lra. eqs; ring.
Qed.
Lemma sc_nodes_eq : sc_nodes a b r p nx ny nt = Ok (ring_nodes sc_N nxy nt).
Proof.
  unfold sc_nodes, sc_nxy. rewrite (steps_for _ _ wstep (nt + 1) _ (fun i => map (fun J => ((nxy * i + J)%nat, sc_N i J)) (seq 0 nxy))).
  - fold (ring_L sc_N nxy nt). apply ring_writes. tauto.
  - intros i Hi s. apply (sc_steps _ wstep i s). lia.
Qed.
Lemma sc_fixed_eq : forall ulist pred, ulist <> [] -> (forall u, In u ulist -> (0 <= u)%Z) -> sc_fixed a b r p nx ny nt ulist pred = Ok (fixed_nodes (ring_nodes sc_N nxy nt) ulist pred).
Proof.
  intros ulist pred H0 H1. unfold sc_fixed, sc_nxy. rewrite check_ok by assumption. cbn [bind].
  rewrite (steps_for _ _ (fstep pred ulist) (nt + 1) _ (fun i => map (fun J => ((nxy * i + J)%nat, sc_N i J)) (seq 0 nxy))).
  - fold (ring_L sc_N nxy nt). rewrite (fixes_nodes _ _ _ _ (ring_L_fst sc_N nxy nt)), ring_L_snd. reflexivity.
  - intros i Hi s. apply (sc_steps _ (fstep pred ulist) i s). lia.
Qed.
End Sides4.
Lemma ring_els_in : forall n m e, In e (ring_els n m) -> exists i j, (i < m)%nat /\ (j < n)%nat /\ e = map (ring_id n) (corners (sjn n) (i, j)).
Proof. intros n m e H. unfold ring_els, gelements in H. apply in_map_iff in H. destruct H as ([i j] & <- & H). apply in_rect in H. exists i, j. splits; auto; lia. Qed.
Lemma in_fixed : forall nodes ulist pred k u, (k < length nodes)%nat -> In u ulist -> pred (nth k nodes []) = true -> In ((k, u), 0) (fixed_nodes nodes ulist pred).
Proof. intros nodes ulist pred k u Hk Hu Hp. unfold fixed_nodes. apply in_flat_map. exists k. split; [apply in_seq; lia|]. rewrite Hp. apply in_map_iff. exists u. auto. Qed.

Lemma C51_annulus_pf : forall r0 r1 nr nt, (1 <= nr)%nat -> (3 <= nt)%nat -> exists nodes, an_nodes r0 r1 nr nt = Ok nodes /\
    forall ulist pred, ulist <> [] -> (forall u, In u ulist -> (0 <= u)%Z) -> an_fixed r0 r1 nr nt ulist pred = Ok (fixed_nodes nodes ulist pred).
Proof. intros r0 r1 nr nt Hr Ht. eexists. split; [apply an_nodes_eq; assumption|]. intros. apply an_fixed_eq; assumption. Qed.

Lemma C51_square_circle_pf : forall a b r p nx ny nr, (0 < nx)%nat -> (0 < ny)%nat -> (0 < nr)%nat -> 0 < p -> exists nodes, sc_nodes a b r p nx ny nr = Ok nodes /\
    forall ulist pred, ulist <> [] -> (forall u, In u ulist -> (0 <= u)%Z) -> sc_fixed a b r p nx ny nr ulist pred = Ok (fixed_nodes nodes ulist pred).
Proof. intros a b r p nx ny nr Hx Hy Hr Hp. eexists. split; [apply sc_nodes_eq; assumption|]. intros. apply sc_fixed_eq; assumption. Qed.

Lemma C51_square_annulus_refuted_pf : exists a b c d nx ny nt ulist pred nodes l, sa_nodes a b c d nx ny nt = Ok nodes /\ sa_fixed a b c d nx ny nt ulist pred = Ok l /\
    In ((0%nat, 0%Z), 0) l /\ pred (nth 0 nodes []) = false /\ ~ In ((4%nat, 0%Z), 0) l /\ pred (nth 4 nodes []) = true.
Proof.
  exists 2, 2, 1, 1, 1%nat, 1%nat, 1%nat, [0%Z], (fun p => Rltb (3/4) (nth 0 p 0)). do 2 eexists. split; [apply sa_nodes_eq; lia|]. split; [apply sa_fixed_eq; [lia|lia|lia|discriminate|intros u [<-|[]]; lia]|].
  assert (E : forall i J, (i <= 1)%nat -> (J < 4)%nat -> nth (4 * i + J) (ring_nodes (sa_N 1 1 2 2 1 1 1) 4 1) [] = sa_N 1 1 2 2 1 1 1 i J) by (intros i J Hi HJ; apply (nth_ring_nodes _ 4 1 i J); assumption).
  assert (E' : forall i J, (i <= 1)%nat -> (J < 4)%nat -> nth (4 * i + J) (ring_nodes (sa_N' 1 1 2 2 1 1 1) 4 1) [] = sa_N' 1 1 2 2 1 1 1 i J) by (intros i J Hi HJ; apply (nth_ring_nodes _ 4 1 i J); assumption).
  pose proof (E 0%nat 0%nat ltac:(lia) ltac:(lia)) as E0. pose proof (E 1%nat 0%nat ltac:(lia) ltac:(lia)) as E1. pose proof (E' 0%nat 0%nat ltac:(lia) ltac:(lia)) as F0. pose proof (E' 1%nat 0%nat ltac:(lia) ltac:(lia)) as F1. cbn [Nat.mul Nat.add] in E0, E1, F0, F1.
  assert (V0 : nth 0 (sa_N 1 1 2 2 1 1 1 0 0) 0 = 1/2) by (unfold sa_N, sa_A, pu; cbn; field). assert (V1 : nth 0 (sa_N 1 1 2 2 1 1 1 1 0) 0 = 1) by (unfold sa_N, sa_A, pu; cbn; field).
  assert (T : forall x, 3/4 < x -> Rltb (3/4) x = true) by (intros; apply Rltb_true; assumption). assert (T' : forall x, x <= 3/4 -> Rltb (3/4) x = false) by (intros; apply Rltb_false; lra).
  change (2 * (1 + 1))%nat with 4%nat.
  split; [|split; [|split]].
  - apply in_fixed; [rewrite ring_nodes_length; cbn; lia|left; reflexivity|]. rewrite F0. apply T. change (sa_N' 1 1 2 2 1 1 1 0 0) with (sa_N 1 1 2 2 1 1 1 1 0). rewrite V1. lra.
  - rewrite E0. apply T'. rewrite V0. lra.
  - intros H. unfold fixed_nodes in H. apply in_flat_map in H. destruct H as (k & Hk & H). destruct (Rltb (3/4) (nth 0 (nth k (ring_nodes (sa_N' 1 1 2 2 1 1 1) 4 1) []) 0)) eqn:Q; [|destruct H].
    destruct H as [H|[]]. injection H as ->. rewrite F1 in Q. change (sa_N' 1 1 2 2 1 1 1 1 0) with (sa_N 1 1 2 2 1 1 1 0 0) in Q. rewrite V0, T' in Q by lra. discriminate.
  - rewrite E1. apply T. rewrite V1. lra.
Qed.

Lemma C51_square_annulus_partial_pf : forall a b c d nx ny nt, (0 < nx)%nat -> (0 < ny)%nat -> (0 < nt)%nat -> exists nodes, sa_nodes a b c d nx ny nt = Ok nodes /\
    forall ulist pred, ulist <> [] -> (forall u, In u ulist -> (0 <= u)%Z) ->
    let n := (2 * (nx + ny))%nat in
    sa_fixed a b c d nx ny nt ulist pred = Ok (fixed_nodes (map (fun k => nth (n * (nt - k / n) + k mod n) nodes []) (seq 0 (length nodes))) ulist pred).
Proof.
  intros a b c d nx ny nt Hx Hy Ht. eexists. split; [apply sa_nodes_eq; assumption|]. intros ulist pred H0 H1 n. rewrite sa_fixed_eq by assumption. do 2 f_equal.
  rewrite ring_nodes_length. unfold ring_nodes at 1. fold n. apply map_ext_in. intros k Hk. apply in_seq in Hk. assert (Hn : n <> 0%nat) by (unfold n; lia).
  rewrite nth_ring_nodes; [reflexivity|lia|]. apply Nat.mod_upper_bound. exact Hn.
Qed.

Lemma C77_annulus_pf : forall r0 r1 nr nt, (1 <= nr)%nat -> (3 <= nt)%nat -> 0 <= r0 -> r0 < r1 -> exists nodes elements edges,
    an_nodes r0 r1 nr nt = Ok nodes /\ an_elements nr nt = Ok elements /\ an_edges nr nt = Ok edges /\
    length nodes = (nt * (nr + 1))%nat /\
    (forall i j, (i <= nr)%nat -> (j < nt)%nat -> let rho := r0 + INR i / INR nr * (r1 - r0) in
       nth (nt * i + j) nodes [] = [rho * cos (2 * PI * INR j / INR nt); rho * sin (2 * PI * INR j / INR nt)]) /\
    length elements = (nr * nt)%nat /\ conforming (length nodes) elements /\ boundary elements edges /\
    (forall e, In e elements -> 0 < area2 nodes e) /\
    total_area2 nodes elements = INR nt * sin (2 * PI / INR nt) * (r1 ^ 2 - r0 ^ 2).
Proof.
  intros r0 r1 nr nt Hr Ht H0 H1. exists (ring_nodes (an_N r0 r1 nr nt) nt nr), (ring_els nt nr), (ring_edgelist nt nr).
  split; [apply an_nodes_eq; assumption|]. split; [apply ring_elements_eq; lia|]. split; [apply ring_edges_eq; assumption|]. split; [apply ring_nodes_length|].
  split; [|split; [|split; [|split; [|split]]]].
  - intros i j Hi Hj rho. rewrite nth_ring_nodes by assumption. unfold an_N, an_r, an_t. replace ((r1 - r0) * INR i / INR nr + r0) with rho; [reflexivity|]. unfold rho, Rdiv. ring.
  - unfold ring_els, gelements. rewrite map_length. apply rect_length.
  - rewrite ring_nodes_length. apply ring_conforming; assumption.
  - apply ring_conforming; assumption.
  - intros e He. apply ring_els_in in He. destruct He as (i & j & Hi & Hj & ->). rewrite an_area by assumption. apply an_area_pos; assumption.
  - apply an_total; assumption.
Qed.

Lemma C77_square_annulus_pf : forall a b c d nx ny nt, (0 < nx)%nat -> (0 < ny)%nat -> (0 < nt)%nat -> 0 <= c -> c < a -> 0 <= d -> d < b -> exists nodes elements edges,
    sa_nodes a b c d nx ny nt = Ok nodes /\ sa_elements nx ny nt = Ok elements /\ sa_edges nx ny nt = Ok edges /\
    length nodes = (2 * (nx + ny) * (nt + 1))%nat /\ length elements = (nt * (2 * (nx + ny)))%nat /\
    conforming (length nodes) elements /\ boundary elements edges /\
    (forall e, In e elements -> 0 < area2 nodes e) /\
    total_area2 nodes elements = 2 * (a * b - c * d) /\
    (forall i J, (i <= nt)%nat -> (J < 2 * (nx + ny))%nat -> let t := INR i / INR nt in
       let A := t * a + (1 - t) * c in let B := t * b + (1 - t) * d in let k := (2 * (nx + ny) * i + J)%nat in
       ((px nodes k = A / 2 \/ px nodes k = - (A / 2)) /\ - (B / 2) <= py nodes k <= B / 2) \/
       ((py nodes k = B / 2 \/ py nodes k = - (B / 2)) /\ - (A / 2) <= px nodes k <= A / 2)).
Proof.
  intros a b c d nx ny nt Hx Hy Ht Hc Ha Hd Hb. exists (ring_nodes (sa_N nx ny a b c d nt) (2 * (nx + ny)) nt), (ring_els (2 * (nx + ny)) nt), (ring_edgelist (2 * (nx + ny)) nt).
  split; [apply sa_nodes_eq; assumption|]. split; [apply ring_elements_eq; lia|]. split; [apply ring_edges_eq; lia|]. split; [apply ring_nodes_length|].
  split; [unfold ring_els, gelements; rewrite map_length; apply rect_length|]. split; [rewrite ring_nodes_length; apply ring_conforming; lia|]. split; [apply ring_conforming; lia|].
  split; [|split].
  - intros e He. apply ring_els_in in He. destruct He as (i & j & Hi & Hj & ->). apply sa_area_pos; assumption.
  - apply sa_total; assumption.
  - intros i J Hi HJ t A B k. unfold px, py, k. rewrite nth_ring_nodes by assumption. unfold sa_N. cbn [nth].
    assert (PA : 0 <= sa_A a c nt i) by (apply sa_ge; assumption). assert (PB : 0 <= sa_Bb b d nt i) by (apply sa_ge; assumption).
    change (sa_A a c nt i) with A in *. change (sa_Bb b d nt i) with B in *.
    destruct (p_bounds nx ny Hx Hy J HJ) as [([U|U] & V)|([U|U] & V)]; rewrite U; [left|left|right|right]; (split; [lra|nra]).
Qed.

Lemma C77_square_circle_pf : forall a b r p nx ny nr, (0 < nx)%nat -> (0 < ny)%nat -> (0 < nr)%nat -> 0 < p -> 0 <= a -> 0 <= b -> exists nodes elements edges,
    sc_nodes a b r p nx ny nr = Ok nodes /\ sc_elements nx ny nr = Ok elements /\ sc_edges nx ny nr = Ok edges /\
    length nodes = (2 * (nx + ny) * (nr + 1))%nat /\ length elements = (nr * (2 * (nx + ny)))%nat /\
    conforming (length nodes) elements /\ boundary elements edges /\
    (forall J, (J < 2 * (nx + ny))%nat -> px nodes J ^ 2 + py nodes J ^ 2 = r ^ 2) /\
    (forall J, (J < 2 * (nx + ny))%nat -> let k := (2 * (nx + ny) * nr + J)%nat in
       ((px nodes k = a / 2 \/ px nodes k = - (a / 2)) /\ - (b / 2) <= py nodes k <= b / 2) \/
       ((py nodes k = b / 2 \/ py nodes k = - (b / 2)) /\ - (a / 2) <= px nodes k <= a / 2)) /\
    (forall i J, (i <= nr)%nat -> (J < 2 * (nx + ny))%nat -> exists t, 0 <= t <= 1 /\
       px nodes (2 * (nx + ny) * i + J) = (1 - t) * px nodes J + t * px nodes (2 * (nx + ny) * nr + J) /\
       py nodes (2 * (nx + ny) * i + J) = (1 - t) * py nodes J + t * py nodes (2 * (nx + ny) * nr + J)).
Proof.
  intros a b r p nx ny nt Hx Hy Ht Hp Ha Hb. exists (ring_nodes (sc_N nx ny a b nt r p) (2 * (nx + ny)) nt), (ring_els (2 * (nx + ny)) nt), (ring_edgelist (2 * (nx + ny)) nt).
  split; [apply sc_nodes_eq; assumption|]. split; [apply ring_elements_eq; lia|]. split; [apply ring_edges_eq; lia|]. split; [apply ring_nodes_length|].
  split; [unfold ring_els, gelements; rewrite map_length; apply rect_length|]. split; [rewrite ring_nodes_length; apply ring_conforming; lia|]. split; [apply ring_conforming; lia|].
  assert (T0 : sc_t nt p 0 = 0) by reflexivity. assert (Nt : 0 < INR nt) by (apply lt_0_INR; exact Ht).
  assert (T1 : sc_t nt p nt = 1). { unfold sc_t. destruct (Nat.eq_dec nt 0); [lia|]. replace (INR nt / INR nt) with 1 by (field; lra). unfold Rpower. rewrite ln_1, Rmult_0_r. apply exp_0. }
  assert (E : forall i J, (i <= nt)%nat -> (J < 2 * (nx + ny))%nat -> nth (2 * (nx + ny) * i + J) (ring_nodes (sc_N nx ny a b nt r p) (2 * (nx + ny)) nt) [] = sc_N nx ny a b nt r p i J) by (intros; apply nth_ring_nodes; assumption).
  assert (E0 : forall J, (J < 2 * (nx + ny))%nat -> nth J (ring_nodes (sc_N nx ny a b nt r p) (2 * (nx + ny)) nt) [] = sc_N nx ny a b nt r p 0 J).
  { intros J HJ. rewrite <- (E 0%nat J ltac:(lia) HJ). f_equal. lia. }
  split; [|split].
  - intros J HJ. unfold px, py. rewrite E0 by exact HJ. unfold sc_N. cbn [nth]. rewrite T0. pose proof (sin2_cos2 (sc_th nx ny J)) as Q. unfold Rsqr in Q.
    transitivity (r ^ 2 * (sin (sc_th nx ny J) * sin (sc_th nx ny J) + cos (sc_th nx ny J) * cos (sc_th nx ny J))); [ring|]. rewrite Q. ring.
  - intros J HJ k. unfold px, py, k. rewrite E by (try exact HJ; lia). unfold sc_N. cbn [nth]. rewrite T1. replace (1 - 1) with 0 by lra. rewrite !Rmult_0_l, !Rplus_0_l, !Rmult_1_l.
    destruct (p_bounds nx ny Hx Hy J HJ) as [([U|U] & V)|([U|U] & V)]; rewrite U; [left|left|right|right]; (split; [lra|nra]).
  - intros i J Hi HJ. exists (sc_t nt p i). split; [|unfold px, py; rewrite !E by (try exact HJ; lia); rewrite E0 by exact HJ; unfold sc_N; cbn [nth]; rewrite T0, T1; split; ring].
    unfold sc_t. destruct (Nat.eq_dec i 0); [lra|]. assert (I0 : 0 < INR i / INR nt) by (apply Rdiv_lt_0_compat; [apply lt_0_INR; lia|exact Nt]).
    assert (I1 : INR i / INR nt <= 1). { apply Rmult_le_reg_r with (INR nt); [exact Nt|]. unfold Rdiv. rewrite Rmult_assoc, Rinv_l by lra. rewrite Rmult_1_l, Rmult_1_r. apply le_INR. exact Hi. }
    split; [left; apply exp_pos|]. unfold Rpower. rewrite <- exp_0. assert (L : ln (INR i / INR nt) <= 0). { rewrite <- ln_1. destruct (Rle_lt_or_eq_dec _ _ I1) as [Q|Q]; [left; apply ln_increasing; assumption|rewrite Q; lra]. }
    assert (H : p * ln (INR i / INR nt) <= 0) by nra. destruct (Rle_lt_or_eq_dec _ _ H) as [Q|Q]; [left; apply exp_increasing; exact Q|rewrite Q; lra].
Qed.
