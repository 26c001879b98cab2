(** Properties C50, C51 and C53: structured meshes of rectangles: the proofs. *)
From Coq Require Import List Arith ZArith Lia Bool Reals Lra.
From Verif Require Import Res DenseR LUModel OCModel MeshModel MeshSpec.
Import ListNotations.
Local Open Scope R_scope.
From Verif Require Import MeshProof OCMain.
Local Open Scope nat_scope.

Ltac eqs := repeat match goal with |- (_, _) = (_, _) => apply f_equal2 | |- _ :: _ = _ :: _ => apply f_equal2 | |- ?f (_, _) = ?f (_, _) => apply f_equal end; try reflexivity; try lia.
Lemma frac_ok : forall i n, 0 < n -> frac i n = Ok (INR i / INR n)%R.
Proof. intros i n H. unfold frac. apply Rdiv_res_ok. apply not_0_INR. lia. Qed.
Lemma frac_half_ok : forall i n, 0 < n -> frac_half i n = Ok ((INR i + 5/10) / INR n)%R.
Proof. intros i n H. unfold frac_half. apply Rdiv_res_ok. apply not_0_INR. lia. Qed.
Lemma check_ok : forall ulist, ulist <> [] -> (forall u, In u ulist -> (0 <= u)%Z) -> check_ulist ulist = Ok tt.
Proof.
  intros [|u l] H G; [congruence|]. unfold check_ulist. rewrite (proj2 (forallb_forall _ _)); [reflexivity|]. intros x Hx. apply Z.leb_le. apply G. exact Hx.
Qed.

(** ** rectangular grids of nodes *)
Definition rect_cells (nx ny : nat) := list_prod (seq 0 nx) (seq 0 ny).
Definition rect_id (ny : nat) (p : nat * nat) := (ny + 1) * fst p + snd p.
Lemma in_rect : forall nx ny i j, In (i, j) (rect_cells nx ny) <-> i < nx /\ j < ny.
Proof. intros. unfold rect_cells. rewrite in_prod_iff, !in_seq. lia. Qed.
Lemma rect_nodup : forall nx ny, NoDup (rect_cells nx ny).
Proof. intros. apply NoDup_prod; apply seq_NoDup. Qed.
Lemma rect_length : forall nx ny, length (rect_cells nx ny) = nx * ny.
Proof. intros. unfold rect_cells. rewrite prod_length, !seq_length. reflexivity. Qed.
Lemma idx_unique : forall m i j i' j', j < m -> j' < m -> m * i + j = m * i' + j' -> i = i' /\ j = j'.
Proof. intros m i j i' j' H H' E. apply (Nat.div_mod_unique m) in E; auto. Qed.
Lemma idx_lt : forall m n i j, i < n -> j < m -> m * i + j < n * m.
Proof. intros m n i j Hi Hj. assert (m * i + m <= m * n) by (replace (m * i + m) with (m * S i) by lia; apply Nat.mul_le_mono_l; lia). lia. Qed.
Lemma rect_id_inj : forall ny p q, snd p <= ny -> snd q <= ny -> rect_id ny p = rect_id ny q -> p = q.
Proof. intros ny [i j] [i' j'] H H' E. unfold rect_id in E. cbn [fst snd] in *. destruct (idx_unique (ny + 1) i j i' j'); [lia|lia|exact E|]. subst. reflexivity. Qed.
Definition rect_P (nx ny : nat) (p : nat * nat) := fst p <= nx /\ snd p <= ny.
Lemma rect_PC : forall nx ny c p, In c (rect_cells nx ny) -> In p (corners S c) -> rect_P nx ny p.
Proof. intros nx ny [i j] p H Hp. apply in_rect in H. unfold rect_P. cbn in Hp. repeat (destruct Hp as [<-|Hp]; [cbn; lia|]). destruct Hp. Qed.
Lemma rect_id_lt : forall nx ny p, rect_P nx ny p -> rect_id ny p < (nx + 1) * (ny + 1).
Proof. intros nx ny [i j] (H & H'). unfold rect_id. cbn [fst snd] in *. apply idx_lt; lia. Qed.

(** nodes with coordinates X i, Y j *)
Definition grid_nodes (X Y : nat -> R) (nx ny : nat) : list (list R) := map (fun c => [X (fst c); Y (snd c)]) (rect_cells (nx + 1) (ny + 1)).
Lemma grid_nodes_length : forall X Y nx ny, length (grid_nodes X Y nx ny) = (nx + 1) * (ny + 1).
Proof. intros. unfold grid_nodes. rewrite map_length. apply rect_length. Qed.
Lemma nth_grid_nodes : forall X Y nx ny i j, i <= nx -> j <= ny -> nth ((ny + 1) * i + j) (grid_nodes X Y nx ny) [] = [X i; Y j].
Proof.
  intros X Y nx ny i j Hi Hj. unfold grid_nodes. rewrite (nth_indep _ [] ((fun c => [X (fst c); Y (snd c)]) (0, 0))) by (rewrite map_length, rect_length; apply idx_lt; lia).
  rewrite (map_nth (fun c => [X (fst c); Y (snd c)])). unfold rect_cells. rewrite nth_prod by lia. reflexivity.
Qed.
Lemma grid_nodes_write : forall X Y nx ny body,
  (forall i j, i <= nx -> j <= ny -> forall s, body i j s = wr s ((ny + 1) * i + j) [X i; Y j]) ->
  for_ (nx + 1) (fun i => for_ (ny + 1) (body i)) (repeat [] ((nx + 1) * (ny + 1))) = Ok (grid_nodes X Y nx ny).
Proof.
  intros X Y nx ny body H. rewrite (steps_for2 _ _ wstep (nx + 1) (ny + 1) body (fun i j => ((ny + 1) * i + j, [X i; Y j]))) by (intros; apply H; lia).
  rewrite writes_seq; [|rewrite (Nat.mul_comm (nx + 1)); apply grid_fst; intros; lia]. f_equal. apply grid_snd.
Qed.
Lemma grid_nodes_fixed : forall X Y nx ny pred ulist body,
  (forall i j, i <= nx -> j <= ny -> forall out, body i j out = Ok (push_fixed pred ulist [X i; Y j] ((ny + 1) * i + j) out)) ->
  for_ (nx + 1) (fun i => for_ (ny + 1) (body i)) [] = Ok (fixed_nodes (grid_nodes X Y nx ny) ulist pred).
Proof.
  intros X Y nx ny pred ulist body H. rewrite (steps_for2 _ _ (fstep pred ulist) (nx + 1) (ny + 1) body (fun i j => ((ny + 1) * i + j, [X i; Y j]))) by (intros; apply H; lia).
  rewrite (fixes_nodes _ _ _ ((ny + 1) * (nx + 1))); [|apply grid_fst; intros; lia]. f_equal. f_equal. apply grid_snd.
Qed.

Definition even_X (x : R) (nx i : nat) : R := (x * (INR i / INR nx))%R.
Definition even_mid (x : R) (nx i : nat) : R := (x * ((INR i + 5/10) / INR nx))%R.
Lemma sq_nodes_eq : forall x y nx ny, 0 < nx -> 0 < ny -> sq_nodes x y nx ny = Ok (grid_nodes (even_X x nx) (even_X y ny) nx ny).
Proof. intros. unfold sq_nodes. apply grid_nodes_write. intros. rewrite !frac_ok by assumption. reflexivity. Qed.
Lemma even_incr : forall x n, (0 < x)%R -> forall i, i < n -> (even_X x n i < even_X x n (S i))%R.
Proof.
  intros x n Hx i Hi. unfold even_X. apply Rmult_lt_compat_l; [exact Hx|]. apply Rmult_lt_compat_r; [|apply lt_INR; lia]. apply Rinv_0_lt_compat. apply lt_0_INR. lia.
Qed.
Lemma even_0 : forall x n, even_X x n 0 = 0%R.
Proof. intros. unfold even_X, Rdiv. cbn [INR]. ring. Qed.
Lemma even_n : forall x n, 0 < n -> even_X x n n = x.
Proof. intros. unfold even_X. field. apply not_0_INR. lia. Qed.

Lemma sq_elements_eq : forall nx ny, sq_elements nx ny = Ok (gelements S (rect_id ny) (rect_cells nx ny)).
Proof.
  intros nx ny. unfold sq_elements.
  rewrite (steps_for2 _ _ wstep nx ny _ (fun i j => (ny * i + j, [(ny + 1) * i + j; (ny + 1) * (i + 1) + j; (ny + 1) * (i + 1) + (j + 1); (ny + 1) * i + (j + 1)]))) by reflexivity.
  rewrite writes_seq; [|rewrite (Nat.mul_comm nx); apply grid_fst; intros; lia]. f_equal. rewrite grid_snd. unfold gelements. apply map_ext. intros [i j].
  cbn [map corners fst snd]. unfold rect_id. cbn [fst snd]. rewrite !Nat.add_1_r. reflexivity.
Qed.

Definition rect_B (nx ny : nat) : list ((nat * nat) * (nat * nat)) :=
  map (fun i => ((i, 0), (S i, 0))) (seq 0 nx) ++ map (fun j => ((nx, j), (nx, S j))) (seq 0 ny) ++
  map (fun i => ((nx - i, ny), (nx - S i, ny))) (seq 0 nx) ++ map (fun j => ((0, ny - j), (0, ny - S j))) (seq 0 ny).
Lemma in_rect_B : forall nx ny p q, In (p, q) (rect_B nx ny) <->
  (exists i, i < nx /\ p = (i, 0) /\ q = (S i, 0)) \/ (exists j, j < ny /\ p = (nx, j) /\ q = (nx, S j)) \/
  (exists i, i < nx /\ p = (S i, ny) /\ q = (i, ny)) \/ (exists j, j < ny /\ p = (0, S j) /\ q = (0, j)).
Proof.
  intros nx ny p q. unfold rect_B. rewrite !in_app_iff, !in_map_iff. split.
  - intros [(i & E & H)|[(i & E & H)|[(i & E & H)|(i & E & H)]]]; inversion E; subst; apply in_seq in H; [left; exists i|right; left; exists i|right; right; left; exists (nx - S i)|right; right; right; exists (ny - S i)];
      splits; try lia; eqs.
  - intros [(i & H & -> & ->)|[(i & H & -> & ->)|[(i & H & -> & ->)|(i & H & -> & ->)]]]; [left; exists i|right; left; exists i|right; right; left; exists (nx - S i)|right; right; right; exists (ny - S i)];
      split; try (apply in_seq; lia); eqs.
Qed.
Lemma rect_B_nodup : forall nx ny, 0 < nx -> 0 < ny -> NoDup (rect_B nx ny).
Proof.
  intros nx ny Hx Hy. unfold rect_B. repeat apply NoDup_app'; try (apply NoDup_map'; [apply seq_NoDup|]; intros a b Ha Hb E; apply in_seq in Ha, Hb; inversion E; lia);
    intros [p q] H H'; apply in_map_iff in H; destruct H as (k & E & H); apply in_seq in H; inversion E; subst;
    repeat (apply in_app_or in H'; destruct H' as [H'|H']); apply in_map_iff in H'; destruct H' as (k' & E' & K'); apply in_seq in K'; inversion E'; subst; lia.
Qed.
Lemma rect_free : forall nx ny p q, 0 < nx -> 0 < ny ->
  (In (p, q) (rect_B nx ny) <-> In (p, q) (gsides S (rect_cells nx ny)) /\ ~ In (q, p) (gsides S (rect_cells nx ny))).
Proof.
  intros nx ny p q Hx Hy. rewrite in_rect_B. rewrite grid_free by (intros; lia). split.
  - intros [(i & H & -> & ->)|[(i & H & -> & ->)|[(i & H & -> & ->)|(i & H & -> & ->)]]].
    + exists i, 0. rewrite in_rect. split; [lia|]. left. splits; auto. intros; lia.
    + exists (nx - 1), i. rewrite !in_rect. split; [lia|]. right. left. replace (S (nx - 1)) with nx by lia. splits; auto. lia.
    + exists i, (ny - 1). rewrite !in_rect. split; [lia|]. right. right. left. replace (S (ny - 1)) with ny by lia. splits; auto. lia.
    + exists 0, i. rewrite !in_rect. split; [lia|]. right. right. right. splits; auto. intros; lia.
  - intros (i & j & H & C). rewrite in_rect in H. destruct C as [(-> & -> & C)|[(-> & -> & C)|[(-> & -> & C)|(-> & -> & C)]]].
    + left. exists i. destruct j as [|j]; [splits; auto; lia|]. exfalso. apply (C j eq_refl). apply in_rect. lia.
    + right. left. exists j. rewrite in_rect in C. replace nx with (S i) by lia. splits; auto; lia.
    + right. right. left. exists i. rewrite in_rect in C. replace ny with (S j) by lia. splits; auto; lia.
    + right. right. right. exists j. destruct i as [|i]; [splits; auto; lia|]. exfalso. apply (C i eq_refl). apply in_rect. lia.
Qed.

Ltac ltbs := repeat match goal with |- context [?a <? ?b] => destruct (Nat.ltb_spec a b); try lia end.
(** an array of edges written as in GenerateEdges, with entries f applied to the sides *)
Definition edges_L {A} (b1 b2 b3 b4 : nat -> A) (nx ny : nat) : list (nat * A) :=
  flat_map (fun i => [(i, b1 i)] ++ [(2 * nx + ny - i - 1, b2 i)]) (seq 0 nx) ++ flat_map (fun j => [(j + nx, b3 j)] ++ [(2 * (nx + ny) - j - 1, b4 j)]) (seq 0 ny).
Lemma edges_L_nodup : forall A (b1 b2 b3 b4 : nat -> A) nx ny, NoDup (map fst (edges_L b1 b2 b3 b4 nx ny)).
Proof.
  intros. unfold edges_L. rewrite map_app, !map_flat_map. cbn [map app fst]. apply NoDup_app'.
  - apply NoDup_flat; [apply seq_NoDup| |].
    + intros i Hi. apply in_seq in Hi. repeat constructor; cbn; lia.
    + intros i j k Hi Hj H H'. apply in_seq in Hi, Hj. cbn in H, H'. lia.
  - apply NoDup_flat; [apply seq_NoDup| |].
    + intros i Hi. apply in_seq in Hi. repeat constructor; cbn; lia.
    + intros i j k Hi Hj H H'. apply in_seq in Hi, Hj. cbn in H, H'. lia.
  - intros k H H'. apply in_flat_map in H, H'. destruct H as (i & Hi & H), H' as (j & Hj & H'). apply in_seq in Hi, Hj. cbn in H, H'. lia.
Qed.
Definition edges_g {A} (f : (nat * nat) * (nat * nat) -> A) (nx ny k : nat) : A :=
  if k <? nx then f ((k, 0), (S k, 0)) else if k <? nx + ny then f ((nx, k - nx), (nx, S (k - nx)))
    else if k <? 2 * nx + ny then f ((2 * nx + ny - k, ny), (2 * nx + ny - k - 1, ny)) else f ((0, 2 * (nx + ny) - k), (0, 2 * (nx + ny) - k - 1)).
Lemma edges_g_map : forall A (f : (nat * nat) * (nat * nat) -> A) nx ny, map (edges_g f nx ny) (seq 0 (2 * (nx + ny))) = map f (rect_B nx ny).
Proof.
  intros A f nx ny. unfold rect_B. rewrite !map_app, !map_map. replace (2 * (nx + ny)) with (nx + (ny + (nx + ny))) by lia. rewrite !seq_app, !map_app.
  assert (T : forall n a (h h' : nat -> A), (forall k, k < n -> h (a + k) = h' k) -> map h (seq a n) = map h' (seq 0 n)).
  { intros n a h h' T. rewrite <- map_seq_shift, map_map. apply map_ext_in. intros k Hk. apply in_seq in Hk. apply T. lia. }
  f_equal; [|f_equal; [|f_equal]]; apply T; intros k Hk; unfold edges_g; ltbs; try reflexivity; eqs.
Qed.
Section EdgesL.
Variables (A : Type) (f : (nat * nat) * (nat * nat) -> list A) (nx ny : nat) (b1 b2 b3 b4 : nat -> list A).
Hypotheses (H1 : forall i, i < nx -> b1 i = f ((i, 0), (S i, 0))) (H2 : forall i, i < nx -> b2 i = f ((S i, ny), (i, ny)))
  (H3 : forall j, j < ny -> b3 j = f ((nx, j), (nx, S j))) (H4 : forall j, j < ny -> b4 j = f ((0, S j), (0, j))).
Lemma edges_L_g : (forall k v, In (k, v) (edges_L b1 b2 b3 b4 nx ny) -> k < 2 * (nx + ny) /\ v = edges_g f nx ny k) /\
  (forall k, k < 2 * (nx + ny) -> In (k, edges_g f nx ny k) (edges_L b1 b2 b3 b4 nx ny)).
Proof.
  split.
  - intros k v H. unfold edges_L in H. rewrite in_app_iff, !in_flat_map in H. unfold edges_g. destruct H as [(i & Hi & H)|(i & Hi & H)]; apply in_seq in Hi; cbn in H; destruct H as [H|[H|[]]]; inversion H; subst; clear H; (split; [lia|]).
    + ltbs. apply H1. lia.
    + ltbs. rewrite H2 by lia. eqs.
    + ltbs. rewrite H3 by lia. eqs.
    + ltbs. rewrite H4 by lia. eqs.
  - intros k Hk. unfold edges_L. rewrite in_app_iff, !in_flat_map. unfold edges_g. destruct (Nat.ltb_spec k nx); [|destruct (Nat.ltb_spec k (nx + ny)); [|destruct (Nat.ltb_spec k (2 * nx + ny))]].
    + left. exists k. split; [apply in_seq; lia|]. left. rewrite H1 by lia. reflexivity.
    + right. exists (k - nx). split; [apply in_seq; lia|]. left. rewrite H3 by lia. f_equal. lia.
    + left. exists (2 * nx + ny - k - 1). split; [apply in_seq; lia|]. right. left. rewrite H2 by lia. f_equal; [lia|]. eqs.
    + right. exists (2 * (nx + ny) - k - 1). split; [apply in_seq; lia|]. right. left. rewrite H4 by lia. f_equal; [lia|]. eqs.
Qed.
Lemma nth_map_seq0 : forall B (g : nat -> B) n k d, k < n -> nth k (map g (seq 0 n)) d = g k.
Proof. intros B g n k d H. rewrite (nth_indep _ d (g 0)) by (rewrite map_length, seq_length; exact H). rewrite map_nth, seq_nth by exact H. reflexivity. Qed.
Lemma edges_L_spec : (forall k v, In (k, v) (edges_L b1 b2 b3 b4 nx ny) -> k < 2 * (nx + ny) /\ v = nth k (map f (rect_B nx ny)) []) /\
  (forall k, k < 2 * (nx + ny) -> In (k, nth k (map f (rect_B nx ny)) []) (edges_L b1 b2 b3 b4 nx ny)).
Proof.
  destruct edges_L_g as (G1 & G2). rewrite <- edges_g_map. split.
  - intros k v H. destruct (G1 k v H) as (A1 & ->). split; [exact A1|]. rewrite nth_map_seq0 by exact A1. reflexivity.
  - intros k Hk. rewrite nth_map_seq0 by exact Hk. apply G2. exact Hk.
Qed.
Lemma rect_edges_write :
  (edges <- for_ nx (fun i edges => edges <- wr edges i (b1 i) ;; wr edges (2 * nx + ny - i - 1) (b2 i)) (repeat [] (2 * (nx + ny))) ;;
   for_ ny (fun j edges => edges <- wr edges (j + nx) (b3 j) ;; wr edges (2 * (nx + ny) - j - 1) (b4 j)) edges) = Ok (map f (rect_B nx ny)).
Proof.
  assert (K1 : steps wstep (for_ nx (fun i edges => edges <- wr edges i (b1 i) ;; wr edges (2 * nx + ny - i - 1) (b2 i)))
    (flat_map (fun i => [(i, b1 i)] ++ [(2 * nx + ny - i - 1, b2 i)]) (seq 0 nx))).
  { apply steps_for. intros i _. apply (steps_bind _ _ wstep (fun s => wr s i (b1 i)) (fun s => wr s (2 * nx + ny - i - 1) (b2 i))); apply steps_one; reflexivity. }
  assert (K2 : steps wstep (for_ ny (fun j edges => edges <- wr edges (j + nx) (b3 j) ;; wr edges (2 * (nx + ny) - j - 1) (b4 j)))
    (flat_map (fun j => [(j + nx, b3 j)] ++ [(2 * (nx + ny) - j - 1, b4 j)]) (seq 0 ny))).
  { apply steps_for. intros j _. apply (steps_bind _ _ wstep (fun s => wr s (j + nx) (b3 j)) (fun s => wr s (2 * (nx + ny) - j - 1) (b4 j))); apply steps_one; reflexivity. }
  pose proof (steps_bind _ _ _ _ _ _ _ K1 K2 (repeat [] (2 * (nx + ny)))) as K. cbv beta in K. rewrite K. clear K K1 K2.
  rewrite (writes_all _ (edges_g f nx ny)); [rewrite edges_g_map; reflexivity|apply edges_L_g|apply edges_L_g].
Qed.
End EdgesL.
Lemma sq_edges_eq : forall nx ny, sq_edges nx ny = Ok (map (fun s => [rect_id ny (fst s); rect_id ny (snd s)]) (rect_B nx ny)).
Proof.
  intros nx ny. unfold sq_edges. apply (rect_edges_write nat (fun s => [rect_id ny (fst s); rect_id ny (snd s)]));
    intros; unfold rect_id; cbn [fst snd]; eqs.
Qed.
Lemma rect_region : forall X Y nx ny, (forall i, i < nx -> (X i < X (S i))%R) -> (forall j, j < ny -> (Y j < Y (S j))%R) ->
  forall p q, (exists i j, In (i, j) (rect_cells nx ny) /\ X i <= p < X (S i) /\ Y j <= q < Y (S j))%R <-> (X 0%nat <= p < X nx /\ Y 0%nat <= q < Y ny)%R.
Proof.
  intros X Y nx ny HX HY p q. split.
  - intros (i & j & Hc & Hp & Hq). apply in_rect in Hc. pose proof (increasing X nx HX) as MX. pose proof (increasing Y ny HY) as MY.
    assert (A1 : (X 0%nat <= X i)%R) by (destruct i; [lra|left; apply MX; lia]). assert (A2 : (Y 0%nat <= Y j)%R) by (destruct j; [lra|left; apply MY; lia]).
    assert (A3 : (X (S i) <= X nx)%R) by (destruct (Nat.eq_dec (S i) nx) as [->|]; [lra|left; apply MX; lia]).
    assert (A4 : (Y (S j) <= Y ny)%R) by (destruct (Nat.eq_dec (S j) ny) as [->|]; [lra|left; apply MY; lia]). lra.
  - intros (Hp & Hq). destruct (between X nx p Hp) as (i & Hi & Ei). destruct (between Y ny q Hq) as (j & Hj & Ej). exists i, j. rewrite in_rect. auto.
Qed.
Lemma rect_mesh : forall X Y nx ny, 0 < nx -> 0 < ny ->
  (forall i, i < nx -> (X i < X (S i))%R) -> (forall j, j < ny -> (Y j < Y (S j))%R) ->
  let els := gelements S (rect_id ny) (rect_cells nx ny) in let nodes := grid_nodes X Y nx ny in
  conforming (length nodes) els /\ boundary els (map (fun s => [rect_id ny (fst s); rect_id ny (snd s)]) (rect_B nx ny)) /\
  tiles nodes els (fun p q => X 0%nat <= p < X nx /\ Y 0%nat <= q < Y ny)%R.
Proof.
  intros X Y nx ny Hx Hy HX HY els nodes. splits.
  - unfold nodes. rewrite grid_nodes_length. apply (grid_conforming S (rect_id ny) (rect_P nx ny)); try (intros; lia).
    + apply rect_nodup.
    + apply rect_PC.
    + intros p q (_ & Hp) (_ & Hq). apply rect_id_inj; assumption.
    + apply rect_id_lt.
  - apply (grid_boundary S (rect_id ny) (rect_P nx ny)); try (intros; lia).
    + apply rect_PC.
    + intros p q (_ & Hp) (_ & Hq). apply rect_id_inj; assumption.
    + apply rect_B_nodup; assumption.
    + intros. apply rect_free; assumption.
  - eapply tiles_iff; [|apply (grid_tiles X Y nx ny nodes (rect_id ny) (rect_cells nx ny)); auto].
    + apply rect_region; assumption.
    + apply rect_nodup.
    + intros i j. apply in_rect.
    + intros c p Hc Hp. destruct (rect_PC nx ny c p Hc Hp). unfold nodes, rect_id. rewrite nth_grid_nodes by assumption. destruct p; reflexivity.
    + unfold els, gelements. rewrite map_map. apply map_ext. intros [i j]. reflexivity.
Qed.
(** ** second order: mid nodes *)
Definition mid_list (X Y : nat -> R) (nx ny : nat) : list (list R) := map (fun c => [X (fst c); Y (snd c)]) (rect_cells nx ny).
Definition grid_nodes2 (X Y XM YM : nat -> R) (nx ny : nat) := grid_nodes X Y nx ny ++ mid_list X YM (nx + 1) ny ++ mid_list XM Y nx (ny + 1).
Lemma mid_list_length : forall X Y nx ny, length (mid_list X Y nx ny) = nx * ny.
Proof. intros. unfold mid_list. rewrite map_length. apply rect_length. Qed.
Lemma nth_mid_list : forall X Y nx ny i j, i < nx -> j < ny -> nth (ny * i + j) (mid_list X Y nx ny) [] = [X i; Y j].
Proof.
  intros X Y nx ny i j Hi Hj. unfold mid_list. rewrite (nth_indep _ [] ((fun c => [X (fst c); Y (snd c)]) (0, 0))) by (rewrite map_length, rect_length; apply idx_lt; lia).
  rewrite (map_nth (fun c => [X (fst c); Y (snd c)])). unfold rect_cells. rewrite nth_prod by lia. reflexivity.
Qed.
Section Second.
Variables (X Y XM YM : nat -> R) (nx ny : nat).
Local Notation nodes2 := (grid_nodes2 X Y XM YM nx ny).
Lemma nodes2_length : length nodes2 = (2 * nx + 1) * (2 * ny + 1) - nx * ny.
Proof. unfold grid_nodes2. rewrite !app_length, grid_nodes_length, !mid_list_length. nia. Qed.
Lemma nodes2_corner : forall i j, i <= nx -> j <= ny -> nth ((ny + 1) * i + j) nodes2 [] = [X i; Y j].
Proof. intros i j Hi Hj. unfold grid_nodes2. rewrite app_nth1 by (rewrite grid_nodes_length; apply idx_lt; lia). apply nth_grid_nodes; assumption. Qed.
Lemma nodes2_vert : forall i j, i <= nx -> j < ny -> nth (ny * i + j + (nx + 1) * (ny + 1)) nodes2 [] = [X i; YM j].
Proof.
  intros i j Hi Hj. unfold grid_nodes2. rewrite app_nth2 by (rewrite grid_nodes_length; lia). rewrite grid_nodes_length.
  replace (ny * i + j + (nx + 1) * (ny + 1) - (nx + 1) * (ny + 1)) with (ny * i + j) by lia. rewrite app_nth1 by (rewrite mid_list_length; apply idx_lt; lia). apply nth_mid_list; lia.
Qed.
Lemma nodes2_hor : forall i j, i < nx -> j <= ny -> nth ((ny + 1) * i + j + (nx + 1) * (2 * ny + 1)) nodes2 [] = [XM i; Y j].
Proof.
  intros i j Hi Hj. unfold grid_nodes2. assert (E : (nx + 1) * (2 * ny + 1) = (nx + 1) * (ny + 1) + (nx + 1) * ny) by lia. rewrite E.
  rewrite app_nth2 by (rewrite grid_nodes_length; lia). rewrite grid_nodes_length. rewrite app_nth2 by (rewrite mid_list_length; lia). rewrite mid_list_length.
  match goal with |- nth ?k _ _ = _ => replace k with ((ny + 1) * i + j) by lia end. apply nth_mid_list; lia.
Qed.
Definition L2 : list (nat * list R) :=
  flat_map (fun i => map (fun j => ((ny + 1) * i + j, [X i; Y j])) (seq 0 (ny + 1))) (seq 0 (nx + 1)) ++
  flat_map (fun i => map (fun j => (ny * i + j + (nx + 1) * (ny + 1), [X i; YM j])) (seq 0 ny)) (seq 0 (nx + 1)) ++
  flat_map (fun i => map (fun j => ((ny + 1) * i + j + (nx + 1) * (2 * ny + 1), [XM i; Y j])) (seq 0 (ny + 1))) (seq 0 nx).
Lemma L2_fst : map fst L2 = seq 0 ((2 * nx + 1) * (2 * ny + 1) - nx * ny).
Proof.
  unfold L2. rewrite !map_app. rewrite (grid_fst _ _ _ 0) by (intros; lia). rewrite (grid_fst _ _ _ ((nx + 1) * (ny + 1))) by (intros; lia).
  rewrite (grid_fst _ _ _ ((nx + 1) * (2 * ny + 1))) by (intros; lia).
  replace ((2 * nx + 1) * (2 * ny + 1) - nx * ny) with ((ny + 1) * (nx + 1) + (ny * (nx + 1) + (ny + 1) * nx)) by nia. rewrite !seq_app. f_equal.
  f_equal; f_equal; lia.
Qed.
Lemma L2_snd : map snd L2 = nodes2.
Proof. unfold L2, grid_nodes2. rewrite !map_app, !grid_snd. reflexivity. Qed.
Lemma nodes2_write : forall b1 b2 b3,
  (forall i j, i <= nx -> j <= ny -> forall s, b1 i j s = wr s ((ny + 1) * i + j) [X i; Y j]) ->
  (forall i j, i <= nx -> j < ny -> forall s, b2 i j s = wr s (ny * i + j + (nx + 1) * (ny + 1)) [X i; YM j]) ->
  (forall i j, i < nx -> j <= ny -> forall s, b3 i j s = wr s ((ny + 1) * i + j + (nx + 1) * (2 * ny + 1)) [XM i; Y j]) ->
  (s <- for_ (nx + 1) (fun i => for_ (ny + 1) (b1 i)) (repeat [] ((2 * nx + 1) * (2 * ny + 1) - nx * ny)) ;;
   s <- for_ (nx + 1) (fun i => for_ ny (b2 i)) s ;; for_ nx (fun i => for_ (ny + 1) (b3 i)) s) = Ok nodes2.
Proof.
  intros b1 b2 b3 H1 H2 H3.
  assert (K1 := steps_for2 _ _ wstep (nx + 1) (ny + 1) b1 (fun i j => ((ny + 1) * i + j, [X i; Y j])) ltac:(intros; apply H1; lia)).
  assert (K2 := steps_for2 _ _ wstep (nx + 1) ny b2 (fun i j => (ny * i + j + (nx + 1) * (ny + 1), [X i; YM j])) ltac:(intros; apply H2; lia)).
  assert (K3 := steps_for2 _ _ wstep nx (ny + 1) b3 (fun i j => ((ny + 1) * i + j + (nx + 1) * (2 * ny + 1), [XM i; Y j])) ltac:(intros; apply H3; lia)).
  pose proof (steps_bind _ _ _ _ _ _ _ K1 (steps_bind _ _ _ _ _ _ _ K2 K3) (repeat [] ((2 * nx + 1) * (2 * ny + 1) - nx * ny))) as K. cbv beta in K. rewrite K.
  fold L2. rewrite writes_seq by apply L2_fst. rewrite L2_snd. reflexivity.
Qed.
Lemma nodes2_fixed : forall pred ulist b1 b2 b3,
  (forall i j, i <= nx -> j <= ny -> forall s, b1 i j s = Ok (push_fixed pred ulist [X i; Y j] ((ny + 1) * i + j) s)) ->
  (forall i j, i <= nx -> j < ny -> forall s, b2 i j s = Ok (push_fixed pred ulist [X i; YM j] (ny * i + j + (nx + 1) * (ny + 1)) s)) ->
  (forall i j, i < nx -> j <= ny -> forall s, b3 i j s = Ok (push_fixed pred ulist [XM i; Y j] ((ny + 1) * i + j + (nx + 1) * (2 * ny + 1)) s)) ->
  (s <- for_ (nx + 1) (fun i => for_ (ny + 1) (b1 i)) [] ;;
   s <- for_ (nx + 1) (fun i => for_ ny (b2 i)) s ;; for_ nx (fun i => for_ (ny + 1) (b3 i)) s) = Ok (fixed_nodes nodes2 ulist pred).
Proof.
  intros pred ulist b1 b2 b3 H1 H2 H3.
  assert (K1 := steps_for2 _ _ (fstep pred ulist) (nx + 1) (ny + 1) b1 (fun i j => ((ny + 1) * i + j, [X i; Y j])) ltac:(intros; apply H1; lia)).
  assert (K2 := steps_for2 _ _ (fstep pred ulist) (nx + 1) ny b2 (fun i j => (ny * i + j + (nx + 1) * (ny + 1), [X i; YM j])) ltac:(intros; apply H2; lia)).
  assert (K3 := steps_for2 _ _ (fstep pred ulist) nx (ny + 1) b3 (fun i j => ((ny + 1) * i + j + (nx + 1) * (2 * ny + 1), [XM i; Y j])) ltac:(intros; apply H3; lia)).
  pose proof (steps_bind _ _ _ _ _ _ _ K1 (steps_bind _ _ _ _ _ _ _ K2 K3) []) as K. cbv beta in K. rewrite K.
  fold L2. rewrite (fixes_nodes _ _ _ _ L2_fst), L2_snd. reflexivity.
Qed.
Definition rect_mid (p q : nat * nat) : nat :=
  if fst p =? fst q then ny * fst p + Nat.min (snd p) (snd q) + (nx + 1) * (ny + 1) else (ny + 1) * Nat.min (fst p) (fst q) + snd p + (nx + 1) * (2 * ny + 1).
Lemma rect_mid_v : forall i j, rect_mid (i, j) (i, S j) = ny * i + j + (nx + 1) * (ny + 1).
Proof. intros. unfold rect_mid. cbn [fst snd]. rewrite Nat.eqb_refl. rewrite Nat.min_l by lia. reflexivity. Qed.
Lemma rect_mid_v' : forall i j, rect_mid (i, S j) (i, j) = ny * i + j + (nx + 1) * (ny + 1).
Proof. intros. unfold rect_mid. cbn [fst snd]. rewrite Nat.eqb_refl. rewrite Nat.min_r by lia. reflexivity. Qed.
Lemma rect_mid_h : forall i j, rect_mid (i, j) (S i, j) = (ny + 1) * i + j + (nx + 1) * (2 * ny + 1).
Proof. intros. unfold rect_mid. cbn [fst snd]. rewrite (proj2 (Nat.eqb_neq i (S i))) by lia. rewrite Nat.min_l by lia. reflexivity. Qed.
Lemma rect_mid_h' : forall i j, rect_mid (S i, j) (i, j) = (ny + 1) * i + j + (nx + 1) * (2 * ny + 1).
Proof. intros. unfold rect_mid. cbn [fst snd]. rewrite (proj2 (Nat.eqb_neq (S i) i)) by lia. rewrite Nat.min_r by lia. reflexivity. Qed.
Local Notation gs := (gsides S (rect_cells nx ny)).
(** the sides are the horizontal and the vertical segments, in both directions *)
Lemma gs_cases : forall p q, In (p, q) gs -> exists i j,
  (i < nx /\ j <= ny /\ (p = (i, j) /\ q = (S i, j) \/ p = (S i, j) /\ q = (i, j)) /\ rect_mid p q = (ny + 1) * i + j + (nx + 1) * (2 * ny + 1)) \/
  (i <= nx /\ j < ny /\ (p = (i, j) /\ q = (i, S j) \/ p = (i, S j) /\ q = (i, j)) /\ rect_mid p q = ny * i + j + (nx + 1) * (ny + 1)).
Proof.
  intros p q H. apply in_gsides in H. destruct H as (i & j & Hc & H). apply in_rect in Hc. destruct H as [(-> & ->)|[(-> & ->)|[(-> & ->)|(-> & ->)]]].
  - exists i, j. left. rewrite rect_mid_h. splits; auto; lia.
  - exists (S i), j. right. rewrite rect_mid_v. splits; auto; lia.
  - exists i, (S j). left. rewrite rect_mid_h'. splits; auto; lia.
  - exists i, j. right. rewrite rect_mid_v'. splits; auto; lia.
Qed.
Lemma rect_midsym : forall p q, In (p, q) gs -> rect_mid p q = rect_mid q p.
Proof.
  intros p q H. destruct (gs_cases p q H) as (i & j & [(_ & _ & [(-> & ->)|(-> & ->)] & _)|(_ & _ & [(-> & ->)|(-> & ->)] & _)]);
    rewrite ?rect_mid_h, ?rect_mid_h', ?rect_mid_v, ?rect_mid_v'; reflexivity.
Qed.
Lemma rect_mid_vlt : forall i j, i <= nx -> j < ny -> ny * i + j + (nx + 1) * (ny + 1) < (nx + 1) * (2 * ny + 1).
Proof. intros i j Hi Hj. assert (ny * i + j < (nx + 1) * ny) by (apply idx_lt; lia). lia. Qed.
Lemma rect_midinj : forall p q p' q', In (p, q) gs -> In (p', q') gs -> rect_mid p q = rect_mid p' q' -> (p, q) = (p', q') \/ (p, q) = (q', p').
Proof.
  intros p q p' q' H H'. destruct (gs_cases p q H) as (i & j & [(Hi & Hj & E & ->)|(Hi & Hj & E & ->)]), (gs_cases p' q' H') as (i' & j' & [(Hi' & Hj' & E' & ->)|(Hi' & Hj' & E' & ->)]); intro Q.
  - destruct (idx_unique (ny + 1) i j i' j') as (-> & ->); try lia. destruct E as [(-> & ->)|(-> & ->)], E' as [(-> & ->)|(-> & ->)]; auto.
  - pose proof (rect_mid_vlt i' j' Hi' Hj'). lia.
  - pose proof (rect_mid_vlt i j Hi Hj). lia.
  - destruct (idx_unique ny i j i' j') as (-> & ->); try lia. destruct E as [(-> & ->)|(-> & ->)], E' as [(-> & ->)|(-> & ->)]; auto.
Qed.
Lemma rect_mid_ge : forall p q, In (p, q) gs -> (nx + 1) * (ny + 1) <= rect_mid p q.
Proof. intros p q H. destruct (gs_cases p q H) as (i & j & [(Hi & Hj & E & ->)|(Hi & Hj & E & ->)]); lia. Qed.
Lemma rect_mid_lt : forall p q, In (p, q) gs -> rect_mid p q < length nodes2.
Proof.
  intros p q H. rewrite nodes2_length. destruct (gs_cases p q H) as (i & j & [(Hi & Hj & E & ->)|(Hi & Hj & E & ->)]).
  - assert ((ny + 1) * i + j < nx * (ny + 1)) by (apply idx_lt; lia). nia.
  - assert (ny * i + j < (nx + 1) * ny) by (apply idx_lt; lia). nia.
Qed.
Definition rect_els2 := gelements2 S (rect_id ny) (rect_cells nx ny) rect_mid.
Definition rect_edges2 := map (fun s => [rect_id ny (fst s); rect_id ny (snd s); rect_mid (fst s) (snd s)]) (rect_B nx ny).
Lemma sq_elements2_eq : sq_elements2 nx ny = Ok rect_els2.
Proof.
  unfold sq_elements2.
  rewrite (steps_for2 _ _ wstep nx ny _ (fun i j => (ny * i + j, [(ny + 1) * i + j; (ny + 1) * (i + 1) + j; (ny + 1) * (i + 1) + (j + 1); (ny + 1) * i + (j + 1);
      (ny + 1) * i + j + (nx + 1) * (2 * ny + 1); ny * (i + 1) + j + (nx + 1) * (ny + 1);
      (ny + 1) * i + (j + 1) + (nx + 1) * (2 * ny + 1); ny * i + j + (nx + 1) * (ny + 1)]))) by reflexivity.
  rewrite writes_seq; [|rewrite (Nat.mul_comm nx); apply grid_fst; intros; lia]. f_equal. rewrite grid_snd. unfold rect_els2, gelements2. apply map_ext. intros [i j].
  cbn [map corners csides app fst snd]. rewrite rect_mid_h, rect_mid_h', rect_mid_v, rect_mid_v'. unfold rect_id. cbn [fst snd]. rewrite !Nat.add_1_r. reflexivity.
Qed.
Lemma sq_edges2_eq : sq_edges2 nx ny = Ok rect_edges2.
Proof.
  unfold sq_edges2. apply (rect_edges_write nat (fun s => [rect_id ny (fst s); rect_id ny (snd s); rect_mid (fst s) (snd s)]));
    intros; cbn [fst snd]; rewrite ?rect_mid_h, ?rect_mid_h', ?rect_mid_v, ?rect_mid_v'; unfold rect_id; cbn [fst snd]; eqs.
Qed.
Lemma rect_mesh2 : 0 < nx -> 0 < ny -> (forall i, i < nx -> (X i < X (S i))%R) -> (forall j, j < ny -> (Y j < Y (S j))%R) ->
  conforming2 (length nodes2) rect_els2 /\ boundary2 rect_els2 rect_edges2 /\ tiles nodes2 rect_els2 (fun p q => X 0%nat <= p < X nx /\ Y 0%nat <= q < Y ny)%R /\
  ((forall i, i < nx -> XM i = ((X i + X (S i)) / 2)%R) -> (forall j, j < ny -> YM j = ((Y j + Y (S j)) / 2)%R) ->
   forall a b m, In (a, b, m) (all_sides2 rect_els2) -> px nodes2 m = ((px nodes2 a + px nodes2 b) / 2)%R /\ py nodes2 m = ((py nodes2 a + py nodes2 b) / 2)%R).
Proof.
  intros Hx Hy HX HY. splits.
  - apply (grid_conforming2 S (rect_id ny) (rect_P nx ny)) with (N0 := (nx + 1) * (ny + 1)); try (intros; lia).
    + apply rect_nodup.
    + apply rect_PC.
    + intros p q (_ & Hp) (_ & Hq). apply rect_id_inj; assumption.
    + apply rect_id_lt.
    + apply rect_mid_ge.
    + apply rect_midsym.
    + apply rect_midinj.
    + rewrite nodes2_length. nia.
    + apply rect_mid_lt.
  - apply (grid_boundary2 S (rect_id ny) (rect_P nx ny)).
    + apply rect_PC.
    + intros p q (_ & Hp) (_ & Hq). apply rect_id_inj; assumption.
    + apply rect_B_nodup; assumption.
    + intros. apply rect_free; assumption.
  - destruct (rect_mesh X Y nx ny Hx Hy HX HY) as (_ & _ & _).
    eapply tiles_iff; [|apply (grid_tiles X Y nx ny nodes2 (rect_id ny) (rect_cells nx ny)); auto].
    + apply rect_region; assumption.
    + apply rect_nodup.
    + intros i j. apply in_rect.
    + intros c p Hc Hp. destruct (rect_PC nx ny c p Hc Hp). unfold rect_id. rewrite nodes2_corner by assumption. reflexivity.
    + unfold rect_els2, gelements, gelements2. rewrite map_map. apply map_ext. intros [i j]. reflexivity.
  - intros HXM HYM a b m H. unfold rect_els2 in H. rewrite all_sides2_grid in H. apply in_map_iff in H. destruct H as ([p q] & E & H). unfold lift2 in E. inversion E; subst; clear E. cbn [fst snd].
    unfold px, py. destruct (gs_cases p q H) as (i & j & [(Hi & Hj & E & ->)|(Hi & Hj & E & ->)]).
    + rewrite nodes2_hor by assumption. destruct E as [(-> & ->)|(-> & ->)]; unfold rect_id; cbn [fst snd]; rewrite !nodes2_corner by lia; cbn [nth]; rewrite HXM by assumption; lra.
    + rewrite nodes2_vert by assumption. destruct E as [(-> & ->)|(-> & ->)]; unfold rect_id; cbn [fst snd]; rewrite !nodes2_corner by lia; cbn [nth]; rewrite HYM by assumption; lra.
Qed.
End Second.

(** ** selecting elements and edges *)
Lemma select_seq : forall A (b : A -> bool) (l : list (nat * A)) d n, map fst l = seq 0 n ->
  flat_map (fun kv : nat * A => if b (snd kv) then [fst kv] else []) l = filter (fun k => b (nth k (map snd l) d)) (seq 0 n).
Proof.
  intros A b l d n H. assert (L : length l = n) by (rewrite <- (map_length fst), H, seq_length; reflexivity). subst n.
  transitivity (flat_map (fun kv : nat * A => if b (snd kv) then [fst kv] else []) (map (fun k => (k, nth (k - 0) (map snd l) d)) (seq 0 (length l)))).
  { rewrite <- (indexed A l d 0 H). reflexivity. }
  clear H. induction (seq 0 (length l)) as [|k t IH]; [reflexivity|]. cbn [map flat_map filter fst snd]. rewrite IH, Nat.sub_0_r. destruct (b (nth k (map snd l) d)); reflexivity.
Qed.
Definition sstep {A} (b : A -> bool) (ids : list nat) (kv : nat * A) : res (list nat) := Ok (if b (snd kv) then ids ++ [fst kv] else ids).
Lemma selects : forall A (b : A -> bool) l ids, foldM (sstep b) l ids = Ok (ids ++ flat_map (fun kv : nat * A => if b (snd kv) then [fst kv] else []) l).
Proof.
  intros A b l. induction l as [|[k v] l IH]; intro ids; cbn [foldM flat_map]; [rewrite app_nil_r; reflexivity|].
  replace (sstep b ids (k, v)) with (Ok (if b v then ids ++ [k] else ids)) by reflexivity. cbn [bind fst snd]. rewrite IH. destruct (b v); [rewrite <- app_assoc|]; reflexivity.
Qed.
Definition all_in (nodes : list (list R)) (pred : list R -> bool) (e : list nat) : bool := forallb (fun k => pred (nth k nodes [])) e.
Lemma sq_element_ids_eq : forall x y nx ny pred, 0 < nx -> 0 < ny ->
  sq_element_ids x y nx ny pred = Ok (filter (fun k => all_in (grid_nodes (even_X x nx) (even_X y ny) nx ny) pred (nth k (gelements S (rect_id ny) (rect_cells nx ny)) [])) (seq 0 (nx * ny))).
Proof.
  intros x y nx ny pred Hx Hy. unfold sq_element_ids. rewrite sq_nodes_eq by assumption. cbn [bind]. set (nodes := grid_nodes _ _ nx ny).
  rewrite (steps_for2 _ _ (sstep (all_in nodes pred)) nx ny _ (fun i j => (ny * i + j, [(ny + 1) * i + j; (ny + 1) * (i + 1) + j; (ny + 1) * (i + 1) + (j + 1); (ny + 1) * i + (j + 1)]))).
  - rewrite selects. cbn [app]. f_equal. rewrite (Nat.mul_comm nx). erewrite select_seq by (apply grid_fst; intros; lia). f_equal. apply FunctionalExtensionality.functional_extensionality. intro k. f_equal.
    instantiate (1 := []). f_equal. rewrite grid_snd. unfold gelements. apply map_ext. intros [i j]. cbn [map corners fst snd]. unfold rect_id. cbn [fst snd]. rewrite !Nat.add_1_r. reflexivity.
  - intros i j Hi Hj s. unfold sstep, all_in. cbn [fst snd forallb]. assert (LN : length nodes = (nx + 1) * (ny + 1)) by apply grid_nodes_length.
    rewrite !(rd_nth nodes _ []) by (rewrite LN; apply idx_lt; lia). cbn [bind].
    destruct (pred (nth ((ny + 1) * i + j) nodes [])); cbn [negb andb]; [|reflexivity].
    destruct (pred (nth ((ny + 1) * (i + 1) + j) nodes [])); cbn [negb andb]; [|reflexivity].
    destruct (pred (nth ((ny + 1) * (i + 1) + (j + 1)) nodes [])); cbn [negb andb]; [|reflexivity].
    destruct (pred (nth ((ny + 1) * i + (j + 1)) nodes [])); reflexivity.
Qed.
Lemma sq_edge_ids_eq : forall x y nx ny pred, 0 < nx -> 0 < ny -> exists ids, sq_edge_ids x y nx ny pred = Ok ids /\ NoDup ids /\
  forall k, In k ids <-> k < 2 * (nx + ny) /\ all_in (grid_nodes (even_X x nx) (even_X y ny) nx ny) pred (nth k (map (fun s => [rect_id ny (fst s); rect_id ny (snd s)]) (rect_B nx ny)) []) = true.
Proof.
  intros x y nx ny pred Hx Hy. unfold sq_edge_ids. rewrite sq_nodes_eq by assumption. cbn [bind]. set (nodes := grid_nodes _ _ nx ny).
  assert (LN : length nodes = (nx + 1) * (ny + 1)) by apply grid_nodes_length.
  set (f := fun s => [rect_id ny (fst s); rect_id ny (snd s)]).
  set (both := fun (k l id : nat) (ids : list nat) => a <- rd nodes k ;; if negb (pred a) then Ok ids else b <- rd nodes l ;; if negb (pred b) then Ok ids else Ok (ids ++ [id])).
  assert (BS : forall k l id s, k < length nodes -> l < length nodes -> both k l id s = sstep (all_in nodes pred) s (id, [k; l])).
  { intros k l id s Hk Hl. unfold both, sstep, all_in. cbn [fst snd forallb]. rewrite !(rd_nth nodes _ []) by assumption. cbn [bind].
    destruct (pred (nth k nodes [])); cbn [negb andb]; [|reflexivity]. destruct (pred (nth l nodes [])); reflexivity. }
  set (L := edges_L (fun i => [(ny + 1) * i; (ny + 1) * (i + 1)]) (fun i => [(ny + 1) * (i + 1) + ny; (ny + 1) * i + ny]) (fun j => [(ny + 1) * nx + j; (ny + 1) * nx + j + 1]) (fun j => [j + 1; j]) nx ny).
  assert (RL : forall i j, i <= nx -> j <= ny -> (ny + 1) * i + j < length nodes) by (intros; rewrite LN; apply idx_lt; lia).
  assert (K1 : steps (sstep (all_in nodes pred)) (for_ nx (fun i ids => ids <- both ((ny + 1) * i) ((ny + 1) * (i + 1)) i ids ;; both ((ny + 1) * (i + 1) + ny) ((ny + 1) * i + ny) (2 * nx + ny - i - 1) ids))
    (flat_map (fun i => [(i, [(ny + 1) * i; (ny + 1) * (i + 1)])] ++ [(2 * nx + ny - i - 1, [(ny + 1) * (i + 1) + ny; (ny + 1) * i + ny])]) (seq 0 nx))).
  { apply steps_for. intros i Hi. apply (steps_bind _ _ _ (both ((ny + 1) * i) ((ny + 1) * (i + 1)) i) (both ((ny + 1) * (i + 1) + ny) ((ny + 1) * i + ny) (2 * nx + ny - i - 1)));
      apply steps_one; intro s; apply BS; try (apply RL; lia); pose proof (RL i 0); pose proof (RL (i + 1) 0); lia. }
  assert (K2 : steps (sstep (all_in nodes pred)) (for_ ny (fun j ids => ids <- both ((ny + 1) * nx + j) ((ny + 1) * nx + j + 1) (j + nx) ids ;; both (j + 1) j (2 * (nx + ny) - j - 1) ids))
    (flat_map (fun j => [(j + nx, [(ny + 1) * nx + j; (ny + 1) * nx + j + 1])] ++ [(2 * (nx + ny) - j - 1, [j + 1; j])]) (seq 0 ny))).
  { apply steps_for. intros j Hj. apply (steps_bind _ _ _ (both ((ny + 1) * nx + j) ((ny + 1) * nx + j + 1) (j + nx)) (both (j + 1) j (2 * (nx + ny) - j - 1)));
      apply steps_one; intro s; apply BS; pose proof (RL nx j); pose proof (RL nx (j + 1)); pose proof (RL 0 j); pose proof (RL 0 (j + 1)); lia. }
  pose proof (steps_bind _ _ _ _ _ _ _ K1 K2 []) as K. cbv beta in K. rewrite selects in K. cbn [app] in K.
  destruct (edges_L_spec nat f nx ny (fun i => [(ny + 1) * i; (ny + 1) * (i + 1)]) (fun i => [(ny + 1) * (i + 1) + ny; (ny + 1) * i + ny]) (fun j => [(ny + 1) * nx + j; (ny + 1) * nx + j + 1]) (fun j => [j + 1; j])) as (S1 & S2);
    try (intros; unfold f, rect_id; cbn [fst snd]; eqs; fail). fold L in S1, S2.
  exists (flat_map (fun kv : nat * list nat => if all_in nodes pred (snd kv) then [fst kv] else []) L). split; [exact K|]. clear K K1 K2. split.
  - assert (NF : NoDup (map fst L)) by apply edges_L_nodup. clearbody L. clear S1 S2. revert NF. induction L as [|[k v] t IH]; cbn [flat_map map fst snd]; intro NF; [constructor|]. inversion NF; subst.
    destruct (all_in nodes pred v); cbn [app]; [|apply IH; assumption]. constructor; [|apply IH; assumption]. intro C. apply in_flat_map in C. destruct C as ([k' v'] & C1 & C2). cbn [fst snd] in C2.
    destruct (all_in nodes pred v'); cbn in C2; [|destruct C2]. destruct C2 as [->|[]]. apply H1. apply in_map_iff. exists (k, v'). auto.
  - intro k. rewrite in_flat_map. split.
    + intros ([k' v] & H & Hk). cbn [fst snd] in Hk. destruct (all_in nodes pred v) eqn:E; [|destruct Hk]. destruct Hk as [->|[]]. destruct (S1 k v H) as (A & ->). auto.
    + intros (A & E). exists (k, nth k (map f (rect_B nx ny)) []). split; [apply S2; exact A|]. cbn [fst snd]. rewrite E. left. reflexivity.
Qed.

(** ** graded coordinates *)
Local Open Scope R_scope.
Lemma ratio_pos : forall r a b c, 0 < r -> r <> 1 -> a < b -> 0 < c -> 0 < (Rpower r b - Rpower r a) / (Rpower r c - 1).
Proof.
  intros r a b c H0 H1 Hab Hc. assert (E : Rpower r c - 1 = Rpower r c - Rpower r 0) by (rewrite Rpower_O by assumption; reflexivity). rewrite E. clear E. unfold Rpower.
  destruct (Rlt_dec r 1) as [L|L].
  - assert (N : ln r < 0) by (rewrite <- ln_1; apply ln_increasing; lra).
    assert (A : exp (b * ln r) < exp (a * ln r)) by (apply exp_increasing; nra). assert (B : exp (c * ln r) < exp (0 * ln r)) by (apply exp_increasing; nra).
    replace ((exp (b * ln r) - exp (a * ln r)) / (exp (c * ln r) - exp (0 * ln r))) with ((exp (a * ln r) - exp (b * ln r)) / (exp (0 * ln r) - exp (c * ln r))) by (field; lra).
    apply Rdiv_lt_0_compat; lra.
  - assert (N : 0 < ln r) by (rewrite <- ln_1; apply ln_increasing; lra).
    assert (A : exp (a * ln r) < exp (b * ln r)) by (apply exp_increasing; nra). assert (B : exp (0 * ln r) < exp (c * ln r)) by (apply exp_increasing; nra).
    apply Rdiv_lt_0_compat; lra.
Qed.
Section Graded.
Variables (r len : R) (n : nat).
Hypotheses (r0 : 0 < r) (r1 : r <> 1) (n0 : (0 < n)%nat).
Definition gX (i : nat) : R := graded (5/10 * len / (Rpower r (INR n / 2) - 1)) r len n i.
Lemma n_half : 0 < INR n / 2.
Proof. assert (0 < INR n) by (apply lt_0_INR; exact n0). lra. Qed.
Lemma P_ne : Rpower r (INR n / 2) - 1 <> 0.
Proof.
  intro E. pose proof (ratio_pos r 0 1 (INR n / 2) r0 r1 ltac:(lra) n_half) as H. rewrite E in H. unfold Rdiv in H. rewrite Rinv_0 in H. lra.
Qed.
Lemma graded0_ok : graded0 r len n = Ok (5/10 * len / (Rpower r (INR n / 2) - 1)).
Proof. unfold graded0, cpow. destruct (Rlt_dec 0 r); [|contradiction]. cbn [bind]. apply Rdiv_res_ok. exact P_ne. Qed.
Definition w (i : nat) : R := (r ^ i - 1) / (Rpower r (INR n / 2) - 1).
Lemma w_mono : forall i j, (i < j)%nat -> w i < w j.
Proof.
  intros i j H. pose proof (ratio_pos r (INR i) (INR j) (INR n / 2) r0 r1 (lt_INR _ _ H) n_half) as Q. rewrite !Rpower_pow in Q by exact r0. unfold w. 
  replace ((r ^ j - r ^ i) / (Rpower r (INR n / 2) - 1)) with ((r ^ j - 1) / (Rpower r (INR n / 2) - 1) - (r ^ i - 1) / (Rpower r (INR n / 2) - 1)) in Q by (unfold Rdiv; ring). lra.
Qed.
Lemma w_half : forall i, (2 * i = n)%nat -> w i = 1.
Proof.
  intros i H. unfold w. rewrite <- Rpower_pow by exact r0. replace (INR i) with (INR n / 2); [unfold Rdiv at 1; apply Rinv_r; exact P_ne|]. rewrite <- H, mult_INR. cbn [INR]. lra.
Qed.
Lemma w_lt1 : forall i, (2 * i < n)%nat -> w i < 1.
Proof.
  intros i H. assert (L : INR i < INR n / 2). { apply lt_INR in H. rewrite mult_INR in H. cbn [INR] in H. lra. }
  pose proof (ratio_pos r (INR i) (INR n / 2) (INR n / 2) r0 r1 L n_half) as Q. rewrite Rpower_pow in Q by exact r0. unfold w.
  replace ((Rpower r (INR n / 2) - r ^ i) / (Rpower r (INR n / 2) - 1)) with (1 - (r ^ i - 1) / (Rpower r (INR n / 2) - 1)) in Q by (field; exact P_ne). lra.
Qed.
Lemma gX_low : forall i, (2 * i <= n)%nat -> gX i = len / 2 * w i.
Proof.
  intros i H. unfold gX, graded. destruct (Nat.ltb_spec (2 * i) n); [unfold w; field; exact P_ne|]. destruct (Nat.ltb_spec n (2 * i)); [lia|]. rewrite w_half by lia. lra.
Qed.
Lemma gX_high : forall i, (n <= 2 * i)%nat -> (i <= n)%nat -> gX i = len - len / 2 * w (n - i).
Proof.
  intros i H Hi. unfold gX, graded. destruct (Nat.ltb_spec (2 * i) n); [lia|]. destruct (Nat.ltb_spec n (2 * i)); [unfold w; field; exact P_ne|]. rewrite w_half by lia. lra.
Qed.
Lemma gX_0 : gX 0 = 0.
Proof. rewrite gX_low by lia. unfold w. cbn [pow]. unfold Rdiv. ring. Qed.
Lemma gX_sym : forall i, (i <= n)%nat -> gX (n - i) = len - gX i.
Proof.
  intros i H. destruct (le_lt_dec (2 * i) n) as [C|C].
  - rewrite (gX_high (n - i)), gX_low by lia. replace (n - (n - i))%nat with i by lia. reflexivity.
  - rewrite (gX_low (n - i)), gX_high by lia. lra.
Qed.
Lemma gX_n : gX n = len.
Proof. pose proof (gX_sym 0 ltac:(lia)) as H. rewrite Nat.sub_0_r, gX_0 in H. lra. Qed.
Lemma gX_incr : 0 < len -> forall i, (i < n)%nat -> gX i < gX (S i).
Proof.
  intros L i H. destruct (le_lt_dec (2 * S i) n) as [C|C]; [|destruct (le_lt_dec n (2 * i)) as [D|D]].
  - rewrite !gX_low by lia. apply Rmult_lt_compat_l; [lra|]. apply w_mono. lia.
  - rewrite !gX_high by lia. assert (w (n - S i) < w (n - i)) by (apply w_mono; lia). nra.
  - rewrite gX_low, gX_high by lia. assert (w i < 1) by (apply w_lt1; lia). assert (w (n - S i) < 1) by (apply w_lt1; lia). nra.
Qed.
Lemma gX_ratio : forall i, (2 * (i + 2) <= n)%nat -> gX (i + 2) - gX (i + 1) = r * (gX (i + 1) - gX i).
Proof.
  intros i H. rewrite !gX_low by lia. unfold w. rewrite !pow_add. cbn [pow]. field. exact P_ne.
Qed.
End Graded.
Lemma sq2_nodes_eq : forall x y nx ny rx ry, 0 < rx -> rx <> 1 -> 0 < ry -> ry <> 1 -> (0 < nx)%nat -> (0 < ny)%nat ->
  sq2_nodes x y nx ny rx ry = Ok (grid_nodes (gX rx x nx) (gX ry y ny) nx ny).
Proof. intros. unfold sq2_nodes. rewrite !graded0_ok by assumption. cbn [bind]. apply grid_nodes_write. intros. reflexivity. Qed.

(** ** GrandStructure *)
Local Open Scope nat_scope.
Lemma flat_prod : forall A B C (f : A -> B -> list C) l l', flat_map (fun a => flat_map (f a) l') l = flat_map (fun c => f (fst c) (snd c)) (list_prod l l').
Proof.
  intros A B C f l l'. induction l as [|a l IH]; [reflexivity|]. cbn [flat_map list_prod]. rewrite flat_map_app, IH. f_equal.
  rewrite flat_map_concat_map, flat_map_concat_map, map_map. reflexivity.
Qed.
Lemma pushes : forall A (l : list A) s, foldM (fun s e => Ok (s ++ [e])) l s = Ok (s ++ l).
Proof. intros A l. induction l as [|e l IH]; intro s; cbn [foldM bind]; [rewrite app_nil_r; reflexivity|]. rewrite IH, <- app_assoc. reflexivity. Qed.
Definition gs_cond (x y : R) (nx ny : nat) (lmax : R) (c d : nat * nat) : bool :=
  (rect_id ny d <? rect_id ny c) && Rltb ((x * (INR (fst c) - INR (fst d)) / INR nx) ^ 2 + (y * (INR (snd c) - INR (snd d)) / INR ny) ^ 2)%R (lmax ^ 2)%R.
Definition gs_list x y nx ny lmax : list (list nat) :=
  flat_map (fun c => flat_map (fun d => if gs_cond x y nx ny lmax c d then [[rect_id ny c; rect_id ny d]] else []) (rect_cells (nx + 1) (ny + 1))) (rect_cells (nx + 1) (ny + 1)).
Lemma gs_elements_eq : forall x y nx ny lmax, 0 < nx -> 0 < ny -> gs_elements x y nx ny lmax = Ok (gs_list x y nx ny lmax).
Proof.
  intros x y nx ny lmax Hx Hy. unfold gs_elements.
  assert (K : steps (fun s e => Ok (s ++ [e])) (for_ (nx + 1) (fun i => for_ (ny + 1) (fun j => for_ (nx + 1) (fun k => for_ (ny + 1) (fun l elements =>
    if (ny + 1) * k + l <? (ny + 1) * i + j then
      u <- Rdiv_res (x * (INR i - INR k))%R (INR nx) ;; v <- Rdiv_res (y * (INR j - INR l))%R (INR ny) ;;
      Ok (if Rltb (u ^ 2 + v ^ 2)%R (lmax ^ 2)%R then elements ++ [[(ny + 1) * i + j; (ny + 1) * k + l]] else elements)
    else Ok elements)))))
   (flat_map (fun i => flat_map (fun j => flat_map (fun k => flat_map (fun l => if gs_cond x y nx ny lmax (i, j) (k, l) then [[rect_id ny (i, j); rect_id ny (k, l)]] else []) (seq 0 (ny + 1))) (seq 0 (nx + 1))) (seq 0 (ny + 1))) (seq 0 (nx + 1)))).
  { apply steps_for; intros i _; apply steps_for; intros j _; apply steps_for; intros k _; apply steps_for; intros l _. intro s. unfold gs_cond, rect_id. cbn [fst snd].
    destruct ((ny + 1) * k + l <? (ny + 1) * i + j); cbn [andb]; [|reflexivity]. rewrite !Rdiv_res_ok by (apply not_0_INR; lia). cbn [bind].
    destruct (Rltb _ _); reflexivity. }
  rewrite K. rewrite pushes. cbn [app]. f_equal. unfold gs_list, rect_cells. rewrite <- (flat_prod _ _ _ (fun i j => flat_map (fun d => if gs_cond x y nx ny lmax (i, j) d then [[rect_id ny (i, j); rect_id ny d]] else []) (list_prod (seq 0 (nx + 1)) (seq 0 (ny + 1))))
    (seq 0 (nx + 1)) (seq 0 (ny + 1))) || idtac.
  transitivity (flat_map (fun c => flat_map (fun k => flat_map (fun l => if gs_cond x y nx ny lmax (fst c, snd c) (k, l) then [[rect_id ny (fst c, snd c); rect_id ny (k, l)]] else []) (seq 0 (ny + 1))) (seq 0 (nx + 1))) (list_prod (seq 0 (nx + 1)) (seq 0 (ny + 1)))).
  - apply (flat_prod _ _ _ (fun i j => flat_map (fun k => flat_map (fun l => if gs_cond x y nx ny lmax (i, j) (k, l) then [[rect_id ny (i, j); rect_id ny (k, l)]] else []) (seq 0 (ny + 1))) (seq 0 (nx + 1)))).
  - apply flat_map_ext'. intros [i j] _. cbn [fst snd]. rewrite (flat_prod _ _ _ (fun k l => if gs_cond x y nx ny lmax (i, j) (k, l) then [[rect_id ny (i, j); rect_id ny (k, l)]] else [])).
    apply flat_map_ext'. intros [k l] _. reflexivity.
Qed.
Lemma in_gs_list : forall x y nx ny lmax l, In l (gs_list x y nx ny lmax) <-> exists c d, rect_P nx ny c /\ rect_P nx ny d /\ gs_cond x y nx ny lmax c d = true /\ l = [rect_id ny c; rect_id ny d].
Proof.
  intros. unfold gs_list. rewrite in_flat_map. split.
  - intros ([i j] & Hc & H). apply in_flat_map in H. destruct H as ([k m] & Hd & H). apply in_rect in Hc, Hd. destruct (gs_cond x y nx ny lmax (i, j) (k, m)) eqn:E; [|destruct H]. destruct H as [<-|[]].
    exists (i, j), (k, m). unfold rect_P. cbn [fst snd]. splits; auto; lia.
  - intros ([i j] & [k m] & (H1 & H2) & (H3 & H4) & E & ->). cbn [fst snd] in *. exists (i, j). split; [apply in_rect; lia|]. apply in_flat_map. exists (k, m). split; [apply in_rect; lia|]. rewrite E. left. reflexivity.
Qed.
Lemma gs_list_nodup : forall x y nx ny lmax, NoDup (gs_list x y nx ny lmax).
Proof.
  intros. unfold gs_list. apply NoDup_flat; [apply rect_nodup| |].
  - intros c _. apply NoDup_flat; [apply rect_nodup| |].
    + intros d _. destruct (gs_cond x y nx ny lmax c d); repeat constructor; intros [].
    + intros [i j] [k m] b H H' B B'. apply in_rect in H, H'. destruct (gs_cond x y nx ny lmax c (i, j)); [|destruct B]. destruct (gs_cond x y nx ny lmax c (k, m)); [|destruct B'].
      destruct B as [<-|[]], B' as [B'|[]]. inversion B' as [Q]. symmetry. apply (rect_id_inj ny); cbn [snd]; lia.
  - intros [i j] [k m] b H H' B B'. apply in_rect in H, H'. apply in_flat_map in B, B'. destruct B as (d & _ & B), B' as (d' & _ & B').
    destruct (gs_cond x y nx ny lmax (i, j) d); [|destruct B]. destruct (gs_cond x y nx ny lmax (k, m) d'); [|destruct B'].
    destruct B as [<-|[]], B' as [B'|[]]. inversion B' as [Q]. symmetry. apply (rect_id_inj ny); cbn [snd]; lia.
Qed.
Lemma rect_id_surj : forall nx ny k, k < (nx + 1) * (ny + 1) -> exists c, rect_P nx ny c /\ rect_id ny c = k.
Proof.
  intros nx ny k H. exists (k / (ny + 1), k mod (ny + 1)). unfold rect_P, rect_id. cbn [fst snd]. pose proof (Nat.div_mod k (ny + 1) ltac:(lia)) as E.
  pose proof (Nat.mod_upper_bound k (ny + 1) ltac:(lia)). splits; try lia. assert (k / (ny + 1) < nx + 1) by (apply Nat.div_lt_upper_bound; lia). lia.
Qed.
Local Open Scope R_scope.

Lemma C50_nodes_pf : forall x y nx ny, (0 < nx)%nat -> (0 < ny)%nat -> exists nodes, sq_nodes x y nx ny = Ok nodes /\ length nodes = ((nx + 1) * (ny + 1))%nat /\
    forall i j, (i <= nx)%nat -> (j <= ny)%nat -> nth ((ny + 1) * i + j) nodes [] = [x * (INR i / INR nx); y * (INR j / INR ny)].
Proof.
  intros x y nx ny Hx Hy. exists (grid_nodes (even_X x nx) (even_X y ny) nx ny). splits; [apply sq_nodes_eq; assumption|apply grid_nodes_length|].
  intros i j Hi Hj. apply nth_grid_nodes; assumption.
Qed.

Lemma C50_mesh_pf : forall x y nx ny, (0 < nx)%nat -> (0 < ny)%nat -> 0 < x -> 0 < y -> exists nodes elements edges,
    sq_nodes x y nx ny = Ok nodes /\ sq_elements nx ny = Ok elements /\ sq_edges nx ny = Ok edges /\
    conforming (length nodes) elements /\ boundary elements edges /\ tiles nodes elements (fun p q => 0 <= p < x /\ 0 <= q < y).
Proof.
  intros x y nx ny Hx Hy Px Py. exists (grid_nodes (even_X x nx) (even_X y ny) nx ny), (gelements S (rect_id ny) (rect_cells nx ny)), (map (fun s => [rect_id ny (fst s); rect_id ny (snd s)]) (rect_B nx ny)).
  splits; [apply sq_nodes_eq; assumption|apply sq_elements_eq|apply sq_edges_eq| | |];
    destruct (rect_mesh (even_X x nx) (even_X y ny) nx ny Hx Hy (even_incr x nx Px) (even_incr y ny Py)) as (A & B & C); auto.
  rewrite !even_0, !even_n in C by assumption. exact C.
Qed.

Lemma C50_mesh2_pf : forall x y nx ny, (0 < nx)%nat -> (0 < ny)%nat -> 0 < x -> 0 < y -> exists nodes elements edges,
    sq_nodes2 x y nx ny = Ok nodes /\ sq_elements2 nx ny = Ok elements /\ sq_edges2 nx ny = Ok edges /\
    conforming2 (length nodes) elements /\ boundary2 elements edges /\ tiles nodes elements (fun p q => 0 <= p < x /\ 0 <= q < y) /\
    forall a b m, In (a, b, m) (all_sides2 elements) -> px nodes m = (px nodes a + px nodes b) / 2 /\ py nodes m = (py nodes a + py nodes b) / 2.
Proof.
  intros x y nx ny Hx Hy Px Py.
  assert (M : forall z n, (0 < n)%nat -> forall i, (i < n)%nat -> even_mid z n i = (even_X z n i + even_X z n (S i)) / 2).
  { intros z n Hn i _. unfold even_mid, even_X. rewrite S_INR. field. apply not_0_INR. lia. }
  destruct (rect_mesh2 (even_X x nx) (even_X y ny) (even_mid x nx) (even_mid y ny) nx ny Hx Hy (even_incr x nx Px) (even_incr y ny Py)) as (A & B & C & D).
  exists (grid_nodes2 (even_X x nx) (even_X y ny) (even_mid x nx) (even_mid y ny) nx ny), (rect_els2 nx ny), (rect_edges2 nx ny). splits; auto.
  - unfold sq_nodes2. apply nodes2_write; intros; rewrite ?frac_ok, ?frac_half_ok by assumption; reflexivity.
  - apply sq_elements2_eq.
  - apply sq_edges2_eq.
  - rewrite !even_0, !even_n in C by assumption. exact C.
Qed.

Lemma C50_selected_pf : forall x y nx ny pred, (0 < nx)%nat -> (0 < ny)%nat -> exists nodes elements edges edge_ids,
    sq_nodes x y nx ny = Ok nodes /\ sq_elements nx ny = Ok elements /\ sq_edges nx ny = Ok edges /\
    sq_element_ids x y nx ny pred = Ok (filter (fun k => forallb (fun v => pred (nth v nodes [])) (nth k elements [])) (seq 0 (length elements))) /\
    sq_edge_ids x y nx ny pred = Ok edge_ids /\ NoDup edge_ids /\
    forall k, In k edge_ids <-> (k < length edges)%nat /\ forallb (fun v => pred (nth v nodes [])) (nth k edges []) = true.
Proof.
  intros x y nx ny pred Hx Hy. destruct (sq_edge_ids_eq x y nx ny pred Hx Hy) as (ids & E & N & Q).
  exists (grid_nodes (even_X x nx) (even_X y ny) nx ny), (gelements S (rect_id ny) (rect_cells nx ny)), (map (fun s => [rect_id ny (fst s); rect_id ny (snd s)]) (rect_B nx ny)), ids.
  split; [apply sq_nodes_eq; assumption|]. split; [apply sq_elements_eq|]. split; [apply sq_edges_eq|]. split.
  - rewrite sq_element_ids_eq by assumption. replace (length (gelements S (rect_id ny) (rect_cells nx ny))) with (nx * ny)%nat by (unfold gelements; rewrite map_length, rect_length; reflexivity). reflexivity.
  - split; [exact E|]. split; [exact N|]. intro k. rewrite Q, <- edges_g_map, map_length, seq_length. reflexivity.
Qed.

Lemma C51_square_pf : forall x y nx ny, (0 < nx)%nat -> (0 < ny)%nat -> exists nodes, sq_nodes x y nx ny = Ok nodes /\
    forall ulist pred, ulist <> [] -> (forall u, In u ulist -> (0 <= u)%Z) -> sq_fixed x y nx ny ulist pred = Ok (fixed_nodes nodes ulist pred).
Proof.
  intros x y nx ny Hx Hy. eexists. split; [apply sq_nodes_eq; assumption|]. intros ulist pred H0 H1. unfold sq_fixed. rewrite check_ok by assumption. cbn [bind].
  apply grid_nodes_fixed. intros. rewrite !frac_ok by assumption. reflexivity.
Qed.

Lemma C51_square_second_pf : forall x y nx ny, (0 < nx)%nat -> (0 < ny)%nat -> exists nodes, sq_nodes2 x y nx ny = Ok nodes /\
    forall ulist pred, ulist <> [] -> (forall u, In u ulist -> (0 <= u)%Z) -> sq_fixed2 x y nx ny ulist pred = Ok (fixed_nodes nodes ulist pred).
Proof.
  intros x y nx ny Hx Hy. exists (grid_nodes2 (even_X x nx) (even_X y ny) (even_mid x nx) (even_mid y ny) nx ny). split.
  - unfold sq_nodes2. apply nodes2_write; intros; rewrite ?frac_ok, ?frac_half_ok by assumption; reflexivity.
  - intros ulist pred H0 H1. unfold sq_fixed2. rewrite check_ok by assumption. cbn [bind]. apply nodes2_fixed; intros; rewrite ?frac_ok, ?frac_half_ok by assumption; reflexivity.
Qed.

Lemma C51_graded_pf : forall x y nx ny rx ry, (0 < nx)%nat -> (0 < ny)%nat -> 0 < rx -> rx <> 1 -> 0 < ry -> ry <> 1 -> exists nodes, sq2_nodes x y nx ny rx ry = Ok nodes /\
    forall ulist pred, ulist <> [] -> (forall u, In u ulist -> (0 <= u)%Z) -> sq2_fixed x y nx ny rx ry ulist pred = Ok (fixed_nodes nodes ulist pred).
Proof.
  intros x y nx ny rx ry Hx Hy R0 R1 R2 R3. eexists. split; [apply sq2_nodes_eq; assumption|]. intros ulist pred H0 H1. unfold sq2_fixed. rewrite check_ok by assumption. cbn [bind].
  rewrite !graded0_ok by assumption. cbn [bind]. apply grid_nodes_fixed. intros. reflexivity.
Qed.

Lemma C51_grand_pf : forall x y nx ny, (0 < nx)%nat -> (0 < ny)%nat -> exists nodes, gs_nodes x y nx ny = Ok nodes /\
    forall ulist pred, ulist <> [] -> (forall u, In u ulist -> (0 <= u)%Z) -> gs_fixed x y nx ny ulist pred = Ok (fixed_nodes nodes ulist pred).
Proof.
  intros x y nx ny Hx Hy. exists (grid_nodes (even_X x nx) (even_X y ny) nx ny). split; [unfold gs_nodes; apply grid_nodes_write; intros; rewrite !frac_ok by assumption; reflexivity|].
  intros ulist pred H0 H1. unfold gs_fixed. rewrite check_ok by assumption. cbn [bind]. apply grid_nodes_fixed. intros. rewrite !frac_ok by assumption. reflexivity.
Qed.

Lemma C51_bad_dof_pf : forall x y nx ny ulist pred u, In u ulist -> (u < 0)%Z -> sq_fixed x y nx ny ulist pred = Fail AssertFail.
Proof.
  intros x y nx ny ulist pred u H Hu. unfold sq_fixed, check_ulist. destruct ulist as [|v l]; [destruct H|]. destruct (forallb (fun u => (0 <=? u)%Z) (v :: l)) eqn:E; [|reflexivity].
  rewrite forallb_forall in E. specialize (E u H). apply Z.leb_le in E. lia.
Qed.

Lemma C53_bars_pf : forall x y nx ny lmax, (0 < nx)%nat -> (0 < ny)%nat -> exists nodes elements, gs_nodes x y nx ny = Ok nodes /\ gs_elements x y nx ny lmax = Ok elements /\
    NoDup elements /\ (forall e, In e elements -> exists a b, e = [a; b]) /\
    forall a b, In [a; b] elements <-> (b < a < length nodes)%nat /\ (px nodes a - px nodes b) ^ 2 + (py nodes a - py nodes b) ^ 2 < lmax ^ 2.
Proof.
  intros x y nx ny lmax Hx Hy. exists (grid_nodes (even_X x nx) (even_X y ny) nx ny), (gs_list x y nx ny lmax).
  split; [unfold gs_nodes; apply grid_nodes_write; intros; rewrite !frac_ok by assumption; reflexivity|]. split; [apply gs_elements_eq; assumption|]. split; [apply gs_list_nodup|]. split.
  - intros e H. apply in_gs_list in H. destruct H as (c & d & _ & _ & _ & ->). eauto.
  - assert (D : forall c d, rect_P nx ny c -> rect_P nx ny d -> (gs_cond x y nx ny lmax c d = true <-> (rect_id ny d < rect_id ny c)%nat /\
      (px (grid_nodes (even_X x nx) (even_X y ny) nx ny) (rect_id ny c) - px (grid_nodes (even_X x nx) (even_X y ny) nx ny) (rect_id ny d)) ^ 2 +
      (py (grid_nodes (even_X x nx) (even_X y ny) nx ny) (rect_id ny c) - py (grid_nodes (even_X x nx) (even_X y ny) nx ny) (rect_id ny d)) ^ 2 < lmax ^ 2)).
    { intros [i j] [k l] (B1 & B2) (B3 & B4). cbn [fst snd] in *. unfold gs_cond, px, py. rewrite andb_true_iff, Nat.ltb_lt, Rltb_true. unfold rect_id. cbn [fst snd]. rewrite !nth_grid_nodes by assumption. cbn [nth]. unfold even_X.
      replace (x * (INR i - INR k) / INR nx) with (x * (INR i / INR nx) - x * (INR k / INR nx)) by (field; apply not_0_INR; lia).
      replace (y * (INR j - INR l) / INR ny) with (y * (INR j / INR ny) - y * (INR l / INR ny)) by (field; apply not_0_INR; lia). tauto. }
    intros a b. rewrite in_gs_list, grid_nodes_length. split.
    + intros (c & d & Pc & Pd & E & Q). inversion Q; subst. apply D in E; auto. destruct E as (E1 & E2). split; [split; [exact E1|apply rect_id_lt; exact Pc]|exact E2].
    + intros ((E1 & E2) & E3). destruct (rect_id_surj nx ny a E2) as (c & Pc & <-). destruct (rect_id_surj nx ny b) as (d & Pd & <-); [lia|]. exists c, d. splits; auto. apply D; auto.
Qed.

Lemma C76_graded_mesh_pf : forall x y nx ny rx ry, (0 < nx)%nat -> (0 < ny)%nat -> 0 < x -> 0 < y -> 0 < rx -> rx <> 1 -> 0 < ry -> ry <> 1 -> exists nodes elements edges,
    sq2_nodes x y nx ny rx ry = Ok nodes /\ sq2_elements nx ny = Ok elements /\ sq2_edges nx ny = Ok edges /\
    conforming (length nodes) elements /\ boundary elements edges /\ tiles nodes elements (fun p q => 0 <= p < x /\ 0 <= q < y).
Proof.
  intros x y nx ny rx ry Hx Hy Px Py R0 R1 R2 R3. exists (grid_nodes (gX rx x nx) (gX ry y ny) nx ny), (gelements S (rect_id ny) (rect_cells nx ny)), (map (fun s => [rect_id ny (fst s); rect_id ny (snd s)]) (rect_B nx ny)).
  splits; [apply sq2_nodes_eq; assumption|apply sq_elements_eq|apply sq_edges_eq| | |];
    destruct (rect_mesh (gX rx x nx) (gX ry y ny) nx ny Hx Hy (gX_incr rx x nx R0 R1 Hx Px) (gX_incr ry y ny R2 R3 Hy Py)) as (A & B & C); auto.
  rewrite !gX_0, !gX_n in C by assumption. exact C.
Qed.

Lemma C76_grading_pf : forall x y nx ny rx ry, (0 < nx)%nat -> (0 < ny)%nat -> 0 < rx -> rx <> 1 -> 0 < ry -> ry <> 1 -> exists X Y nodes,
    sq2_nodes x y nx ny rx ry = Ok nodes /\ (forall i j, (i <= nx)%nat -> (j <= ny)%nat -> nth ((ny + 1) * i + j) nodes [] = [X i; Y j]) /\
    X 0%nat = 0 /\ Y 0%nat = 0 /\ (forall i, (i <= nx)%nat -> X (nx - i)%nat = x - X i) /\ (forall j, (j <= ny)%nat -> Y (ny - j)%nat = y - Y j) /\
    (forall i, (2 * (i + 2) <= nx)%nat -> X (i + 2)%nat - X (i + 1)%nat = rx * (X (i + 1)%nat - X i)) /\
    (forall j, (2 * (j + 2) <= ny)%nat -> Y (j + 2)%nat - Y (j + 1)%nat = ry * (Y (j + 1)%nat - Y j)).
Proof.
  intros x y nx ny rx ry Hx Hy R0 R1 R2 R3. exists (gX rx x nx), (gX ry y ny), (grid_nodes (gX rx x nx) (gX ry y ny) nx ny).
  split; [apply sq2_nodes_eq; assumption|]. split; [intros; apply nth_grid_nodes; assumption|]. split; [apply gX_0; assumption|]. split; [apply gX_0; assumption|].
  split; [intros; apply gX_sym; assumption|]. split; [intros; apply gX_sym; assumption|]. split; intros; apply gX_ratio; assumption.
Qed.

Lemma C76_ratio_one_pf : forall x y nx ny ry, sq2_nodes x y nx ny 1 ry = Fail DivByZero.
Proof.
  intros. unfold sq2_nodes, graded0, cpow. destruct (Rlt_dec 0 1); [|lra]. cbn [bind]. unfold Rpower. rewrite ln_1, Rmult_0_r, exp_0.
  replace (1 - 1) with 0 by ring. rewrite Rdiv_res_0. reflexivity.
Qed.
