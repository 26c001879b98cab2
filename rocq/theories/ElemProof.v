(** Element routines: entry formulas for the shared steps. *)
From Coq Require Import List Arith Lia Bool Reals Lra.
From Verif Require Import Res SumR DenseModel DenseR DenseSpec DenseProof DenseMain ShapeModel ShapeMain QuadModel QuadSpec ElemModel ElemSpec.
Import ListNotations.
Local Open Scope R_scope.

Ltac nat_all := repeat match goal with
  | |- context [(?a <? ?b)%nat] => destruct (Nat.ltb_spec a b); try lia
  | |- context [(?a =? ?b)%nat] => destruct (Nat.eqb_spec a b); try lia
  end.

(** ** Dense operations over R *)
Lemma Rmmul a b r n c f g : is_mat a r n f -> is_mat b n c g ->
  exists m, mmul R_ops a b = Ok m /\ is_mat m r c (fun i j => bigsum n (fun k => f i k * g k j)).
Proof.
  intros Ha Hb. destruct (C19_product_pf R R_ops a b (repeat 0 n) r n c f g (fun i => nth i (repeat 0 n) 0)) as [(m & E & H) _]; auto.
  - apply (is_vec_intro R_ops); auto. apply repeat_length.
  - exists m. split; auto. eapply is_mat_ext; [|exact H]. intros. cbv beta. now rewrite gsum_bigsum.
Qed.
Lemma Rmmulv a x r n f h : is_mat a r n f -> is_vec x n h ->
  exists y, mmulv R_ops a x = Ok y /\ is_vec y r (fun i => bigsum n (fun k => f i k * h k)).
Proof.
  intros Ha Hx. destruct (C19_product_pf R R_ops a (mnew R_ops n 0) x r n 0 f (fun _ _ => 0) h) as [_ (m & E & H)]; auto.
  - apply (C19_constructors_pf R R_ops).
  - exists m. split; auto. eapply is_vec_ext; [|exact H]. intros. cbv beta. now rewrite gsum_bigsum.
Qed.
Lemma Rmtrans a r c f : is_mat a r c f -> exists m, mtrans R_ops a = Ok m /\ is_mat m c r (fun i j => f j i).
Proof. intros H. destruct (C19_reshape_pf R R_ops a r c f H) as [T _]. exact T. Qed.
Lemma Rmadd a b r c f g : is_mat a r c f -> is_mat b r c g ->
  exists m, madd R_ops a b = Ok m /\ is_mat m r c (fun i j => f i j + g i j).
Proof. intros Ha Hb. destruct (C19_add_sub_pf R R_ops a b r c f g Ha Hb) as [T _]. exact T. Qed.
Lemma Rmsub a b r c f g : is_mat a r c f -> is_mat b r c g ->
  exists m, msub R_ops a b = Ok m /\ is_mat m r c (fun i j => f i j - g i j).
Proof. intros Ha Hb. destruct (C19_add_sub_pf R R_ops a b r c f g Ha Hb) as [_ T]. exact T. Qed.
Lemma Rmscal s a r c f : is_mat a r c f -> is_mat (mscal R_ops s a) r c (fun i j => f i j * s).
Proof. intros H. destruct (C19_scalar_pf R R_ops a r c f s H) as (_ & T & _). exact T. Qed.
Lemma Rmneg a r c f : is_mat a r c f -> is_mat (mneg R_ops a) r c (fun i j => - f i j).
Proof.
  intros H. destruct (C19_scalar_pf R R_ops a r c f 0 H) as (T & _ & _).
  eapply is_mat_ext; [|exact T]. intros. cbn. ring.
Qed.
Lemma Rmnew r c : is_mat (mnew R_ops r c) r c (fun _ _ => 0).
Proof. apply (C19_constructors_pf R R_ops). Qed.
Lemma Rmid n : exists m, midentity R_ops n = Ok m /\ is_mat m n n (fun i j => if (i =? j)%nat then 1 else 0).
Proof. destruct (C19_constructors_pf R R_ops) as (_ & H & _). apply H. Qed.
Lemma Rmbuild r c f g : (forall i j, (i < r)%nat -> (j < c)%nat -> f i j = Ok (g i j)) ->
  exists m, mbuild R_ops r c f = Ok m /\ is_mat m r c g.
Proof. apply mbuild_ok. Qed.
Lemma Rvadd x y n f g : is_vec x n f -> is_vec y n g ->
  exists z, vadd R_ops x y = Ok z /\ is_vec z n (fun i => f i + g i).
Proof. intros Hx Hy. destruct (C19_vectors_pf R R_ops x n f Hx) as [H _]. apply (H y g Hy). Qed.
Lemma Rvsub x y n f g : is_vec x n f -> is_vec y n g ->
  exists z, vsub R_ops x y = Ok z /\ is_vec z n (fun i => f i - g i).
Proof. intros Hx Hy. destruct (C19_vectors_pf R R_ops x n f Hx) as [H _]. apply (H y g Hy). Qed.
Lemma Rvscal s x n f : is_vec x n f -> is_vec (vscal R_ops s x) n (fun i => f i * s).
Proof. intros Hx. destruct (C19_vectors_pf R R_ops x n f Hx) as (_ & H & _). apply H. Qed.
Lemma Rvnew n : is_vec (vnew R_ops n) n (fun _ => 0).
Proof.
  apply (is_vec_intro R_ops); [apply repeat_length|]. intros i Hi. unfold vnew.
  rewrite nth_repeat. reflexivity.
Qed.
Lemma Rget (a : mat R) r c f i j : is_mat a r c f -> (i < r)%nat -> (j < c)%nat -> mget a i j = Ok (f i j).
Proof. intros (_ & _ & _ & H & _). apply H. Qed.
Lemma Rvget (x : list R) n f i : is_vec x n f -> (i < n)%nat -> vget x i = Ok (f i).
Proof. intros (_ & H & _). apply H. Qed.
Lemma is_mat_of_list r c (l : list R) : length l = (r * c)%nat -> is_mat (mkMat r c l) r c (fun i j => nth (i * c + j) l 0).
Proof. intros H. apply (is_mat_intro R_ops); auto. Qed.
Lemma is_vec_of_list (l : list R) : is_vec l (length l) (fun i => nth i l 0).
Proof. now apply (is_vec_intro R_ops). Qed.

(** ** Determinant and inverse for the sizes in use *)
Section DetInv.
Variable (a : mat R) (f : nat -> nat -> R).
Lemma mval_nth r c k : is_mat a r c f -> (k < r * c)%nat -> rd (mval a) k = Ok (f (k / c) (k mod c))%nat.
Proof.
  intros H Hk. destruct (is_mat_ent R_ops a r c f H) as (W & E1 & E2 & E).
  assert (c <> 0)%nat by nia.
  rewrite rd_nth with (d := 0) by (rewrite W, E1, E2; lia).
  rewrite <- E. 2:{ apply Nat.div_lt_upper_bound; nia. } 2:{ apply Nat.mod_upper_bound. lia. }
  unfold ent. rewrite E2. do 2 f_equal. rewrite Nat.mul_comm. now rewrite <- Nat.div_mod.
Qed.
Lemma Rdet1 : is_mat a 1 1 f -> mdet R_ops a = Ok (f 0 0)%nat.
Proof.
  intros H. destruct (is_mat_ent R_ops a 1 1 f H) as (W & E1 & E2 & E). unfold mdet. rewrite E1. cbn [mdet_fuel]. rewrite E1, E2. cbn [Nat.eqb andb negb assert_ bind].
  rewrite !(mval_nth 1 1) by (auto; lia). cbn [bind]. reflexivity.
Qed.
Lemma Rdet2 : is_mat a 2 2 f -> mdet R_ops a = Ok (det2 f).
Proof.
  intros H. destruct (is_mat_ent R_ops a 2 2 f H) as (W & E1 & E2 & E). unfold mdet. rewrite E1. cbn [mdet_fuel]. rewrite E1, E2. cbn [Nat.eqb andb negb assert_ bind].
  rewrite !(mval_nth 2 2) by (auto; lia). reflexivity.
Qed.
Lemma Rdet3 : is_mat a 3 3 f -> mdet R_ops a = Ok (det3 f).
Proof.
  intros H. destruct (is_mat_ent R_ops a 3 3 f H) as (W & E1 & E2 & E). unfold mdet. rewrite E1. cbn [mdet_fuel]. rewrite E1, E2. cbn [Nat.eqb andb negb assert_ bind].
  rewrite !(mval_nth 3 3) by (auto; lia). unfold det3. cbn [bind oadd osub omul oopp R_ops].
  cbn [Nat.div Nat.modulo Nat.divmod fst snd Nat.sub]. f_equal. ring.
Qed.
End DetInv.

Lemma Rdetd d a f : (1 <= d <= 3)%nat -> is_mat a d d f -> mdet R_ops a = Ok (detd d f).
Proof.
  intros Hd H. destruct d as [|[|[|[|d]]]]; try lia; cbn [detd]; [apply (Rdet1 _ _ H)|apply (Rdet2 _ _ H)|apply (Rdet3 _ _ H)].
Qed.

Definition sgn (k : nat) : R := if Nat.even k then 1 else -1.
(** signed minor *)
Definition cof (d : nat) (f : nat -> nat -> R) (i j : nat) : R :=
  sgn (i + j) * detd (d - 1) (fun p q => f (skip j p) (skip i q)).

Lemma Rmdivs a r c f s : s <> 0 -> is_mat a r c f -> exists m, mdivs R_ops a s = Ok m /\ is_mat m r c (fun i j => f i j / s).
Proof.
  intros Hs H. destruct (C19_scalar_pf R R_ops a r c f s H) as (_ & _ & T).
  destruct T as (m & g & E & Hm & Hg).
  - intros x. exists (x / s). now apply Rdiv_res_ok.
  - exists m. split; auto. eapply is_mat_ext; [|exact Hm]. intros i j Hi Hj. cbv beta.
    specialize (Hg i j Hi Hj). cbn [odiv R_ops] in Hg. rewrite Rdiv_res_ok in Hg by auto. congruence.
Qed.

Lemma Rcof d a f : (2 <= d <= 4)%nat -> is_mat a d d f ->
  exists m, mbuild R_ops (mrow a) (mcol a) (fun i j =>
           c <- mminor R_ops a j i ;; x <- mdet R_ops c ;; Ok (omul R_ops (osign R_ops (i + j)) x)) = Ok m /\ is_mat m d d (cof d f).
Proof.
  intros Hd H. destruct (is_mat_ent R_ops a d d f H) as (W & E1 & E2 & E). rewrite E1, E2.
  apply Rmbuild. intros i j Hi Hj.
  destruct (mminor_ok R_ops a j i W) as (c & Ec & Hc); try lia. rewrite Ec. cbn [bind].
  rewrite E1, E2 in Hc. rewrite (Rdetd (d - 1) _ _ ltac:(lia) Hc). cbn [bind omul R_ops].
  f_equal. unfold cof. f_equal.
  assert (X : forall p q, (p < d - 1)%nat -> (q < d - 1)%nat -> ent R_ops a (skip j p) (skip i q) = f (skip j p) (skip i q)).
  { intros p q Hp Hq. apply E; unfold skip; nat_all. }
  destruct d as [|[|[|[|[|d]]]]]; try lia; cbn [Nat.sub detd]; unfold det2, det3; rewrite !X by lia; reflexivity.
Qed.

Lemma Rminv d a f : (2 <= d <= 3)%nat -> is_mat a d d f -> detd d f <> 0 ->
  exists m, minv R_ops a = Ok m /\ is_mat m d d (fun i j => cof d f i j / detd d f).
Proof.
  intros Hd H Hdet. destruct (is_mat_ent R_ops a d d f H) as (W & E1 & E2 & E).
  destruct (Rcof d a f ltac:(lia) H) as (m & Em & Hm).
  unfold minv. rewrite Em. rewrite E1, E2, Nat.eqb_refl. cbn [assert_ bind].
  nat_all. cbn [bind]. rewrite (Rdetd d a f ltac:(lia) H). cbn [bind]. now apply Rmdivs.
Qed.
Lemma Rminv_singular d a f : (2 <= d <= 3)%nat -> is_mat a d d f -> detd d f = 0 -> minv R_ops a = Fail DivByZero.
Proof.
  intros Hd H Hdet. destruct (is_mat_ent R_ops a d d f H) as (W & E1 & E2 & E).
  destruct (Rcof d a f ltac:(lia) H) as (m & Em & Hm).
  unfold minv. rewrite Em. rewrite E1, E2, Nat.eqb_refl. cbn [assert_ bind].
  nat_all. cbn [bind]. rewrite (Rdetd d a f ltac:(lia) H). cbn [bind]. rewrite Hdet.
  unfold mdivs. destruct (is_mat_ent R_ops m d d _ Hm) as (W' & E1' & E2' & _).
  unfold mat_wf in W'. rewrite E1', E2' in W'. destruct (mval m) as [|x l]; [cbn in W'; nia|].
  cbn [mapM odiv R_ops]. rewrite Rdiv_res_0. reflexivity.
Qed.

(** the adjugate over the determinant is a two-sided inverse *)
Lemma cof_right d f : (2 <= d <= 3)%nat -> detd d f <> 0 -> forall i j, (i < d)%nat -> (j < d)%nat ->
  bigsum d (fun k => f i k * (cof d f k j / detd d f)) = if (i =? j)%nat then 1 else 0.
Proof.
  intros Hd Hdet. destruct d as [|[|[|[|d]]]]; try lia; refine (forall_lt2 _ _ _ _); each;
  cbn [bigsum Nat.eqb]; unfold cof, sgn, skip in *; cbn -[Rdiv] in *; unfold det2, det3 in *; cbn [Nat.leb] in *; field; auto.
Qed.
Lemma cof_left d f : (2 <= d <= 3)%nat -> detd d f <> 0 -> forall i j, (i < d)%nat -> (j < d)%nat ->
  bigsum d (fun k => (cof d f i k / detd d f) * f k j) = if (i =? j)%nat then 1 else 0.
Proof.
  intros Hd Hdet. destruct d as [|[|[|[|d]]]]; try lia; refine (forall_lt2 _ _ _ _); each;
  cbn [bigsum Nat.eqb]; unfold cof, sgn, skip in *; cbn -[Rdiv] in *; unfold det2, det3 in *; cbn [Nat.leb] in *; field; auto.
Qed.

(** ** Shared steps *)
Lemma nodal_rd m elem xs i k : nodes_ok m elem xs -> (i < length elem)%nat -> (k < m)%nat ->
  (e <- rd elem i ;; v <- rd xs e ;; vget v k) = Ok (nodal elem xs i k).
Proof.
  intros H Hi Hk. rewrite rd_nth with (d := O) by lia. cbn [bind].
  destruct (H (nth i elem O)) as [H1 H2]; [now apply nth_In|].
  rewrite rd_nth with (d := []) by lia. cbn [bind]. unfold vget.
  destruct (Nat.ltb_spec k (length (nth (nth i elem O) xs []))); [|lia]. cbn [assert_ bind].
  rewrite rd_nth with (d := 0) by lia. reflexivity.
Qed.

Lemma node_mat_ok d elem xs : nodes_ok d elem xs ->
  exists X, node_mat d elem xs = Ok X /\ is_mat X (length elem) d (nodal elem xs).
Proof. intros H. apply Rmbuild. intros i k Hi Hk. now apply (nodal_rd d). Qed.

Lemma mapM_seq {A} (f : nat -> res A) (g : nat -> A) n :
  (forall i, (i < n)%nat -> f i = Ok (g i)) -> mapM f (seq 0 n) = Ok (map g (seq 0 n)).
Proof.
  intros H. assert (G : forall l, (forall i, In i l -> (i < n)%nat) -> mapM f l = Ok (map g l)).
  { induction l as [|i l IH]; intros Hl; auto. cbn [mapM map]. rewrite H by (apply Hl; now left). cbn [bind].
    rewrite IH by (intros; apply Hl; now right). reflexivity. }
  apply G. intros i Hi. apply in_seq in Hi. lia.
Qed.

Lemma nth_map_seq {A} (g : nat -> A) n i d : (i < n)%nat -> nth i (map g (seq 0 n)) d = g i.
Proof.
  intros H. rewrite nth_indep with (d' := g O) by (rewrite map_length, seq_length; lia).
  rewrite map_nth, seq_nth by lia. reflexivity.
Qed.

Lemma nte_of_ok m n dou : (m <= length dou)%nat -> exists ne, nte_of m n dou = Ok ne /\ numbered m n dou ne.
Proof.
  intros H. unfold nte_of.
  rewrite (mapM_seq _ (fun i => map (fun j => (nth j dou O, (m * i + j)%nat)) (seq 0 m))).
  - eexists. split; [reflexivity|]. split; [now rewrite map_length, seq_length|].
    intros i Hi. rewrite nth_map_seq by lia. split; [now rewrite map_length, seq_length|].
    intros j Hj. now rewrite nth_map_seq.
  - intros i Hi. rewrite (mapM_seq _ (fun j => (nth j dou O, (m * i + j)%nat))); auto.
    intros j Hj. now rewrite rd_nth with (d := O) by lia.
Qed.

Lemma nth_concat_rows {A} (l : list (list A)) c i j d : (forall x, In x l -> length x = c) -> (i < length l)%nat -> (j < c)%nat ->
  nth (i * c + j) (concat l) d = nth j (nth i l []) d.
Proof.
  revert i. induction l as [|x l IH]; intros i H Hi Hj; cbn [length] in Hi; [lia|].
  assert (Lx : length x = c) by (apply H; now left). cbn [concat]. destruct i as [|i].
  - rewrite app_nth1 by lia. reflexivity.
  - rewrite app_nth2 by (rewrite Lx; lia). rewrite Lx.
    replace (S i * c + j - c)%nat with (i * c + j)%nat by lia. apply IH; auto; [|lia]. intros; apply H; now right.
Qed.

Lemma length_concat_rows {A} (l : list (list A)) c : (forall x, In x l -> length x = c) -> length (concat l) = (length l * c)%nat.
Proof.
  induction l as [|x l IH]; intros H; auto. cbn [concat length]. rewrite app_length, IH by (intros; apply H; now right).
  rewrite (H x) by now left. lia.
Qed.

Section Shape.
Variables (s : shape).
Hypothesis Hs : In s all_shapes.

Lemma sf_mat_ok p : is_mat (sf_mat s p) (sf_d s) (sf_n s) (dshp s (fun k => nth k p 0)).
Proof.
  destruct (C29_partition_of_unity_pf s (fun k => nth k p 0) Hs) as (_ & _ & L & Rw).
  unfold sf_mat. apply (is_mat_ext _ _ _ (fun i j => nth (i * sf_n s + j) (concat (sf_dN s (fun k => nth k p 0))) 0)).
  - intros i j Hi Hj. unfold dshp. apply nth_concat_rows; [apply Rw|lia|auto].
  - apply is_mat_of_list. rewrite (length_concat_rows _ (sf_n s)) by apply Rw. now rewrite L.
Qed.

Lemma sf_vec_ok p : is_vec (sf_vec s p) (sf_n s) (shp s (fun k => nth k p 0)).
Proof.
  destruct (C29_partition_of_unity_pf s (fun k => nth k p 0) Hs) as (L & _). unfold sf_vec.
  rewrite <- L. apply is_vec_of_list.
Qed.

Lemma shp_sum r : bigsum (sf_n s) (shp s r) = 1.
Proof.
  destruct (C29_partition_of_unity_pf s r Hs) as (L & S1 & _). rewrite <- S1, sumlist_bigsum, L. reflexivity.
Qed.
Lemma dshp_sum r k : (k < sf_d s)%nat -> bigsum (sf_n s) (dshp s r k) = 0.
Proof.
  intros Hk. destruct (C29_partition_of_unity_pf s r Hs) as (_ & _ & L & Rw).
  destruct (Rw (nth k (sf_dN s r) [])) as [L' S0]; [apply nth_In; lia|].
  rewrite <- S0, sumlist_bigsum, L'. reflexivity.
Qed.
Lemma sf_d_range : (1 <= sf_d s <= 3)%nat.
Proof. revert Hs. shapes; cbn; lia. Qed.
Lemma sf_n_pos : (1 <= sf_n s)%nat.
Proof. revert Hs. shapes; cbn; lia. Qed.
End Shape.

Lemma gpoint_ok d q g : rule_ok d q -> (g < q_n q)%nat -> gpoint q g = Ok (nth g (q_points q) []).
Proof. intros (H1 & _) Hg. apply rd_nth. lia. Qed.
Lemma gweight_ok d q g k : rule_ok d q -> (g < q_n q)%nat -> (k < d)%nat -> gweight q g k = Ok (nth k (nth g (q_weights q) []) 0).
Proof.
  intros (_ & H1 & H2) Hg Hk. unfold gweight. rewrite rd_nth with (d := []) by lia. cbn [bind].
  apply rd_nth. destruct (H2 g Hg). lia.
Qed.

(** weight of point g *)
Definition wgt (d : nat) (q : rule) (g : nat) : R := wprod d (nth g (q_weights q) []).

Lemma weigh_ok m d q g k r c f : (m <= d)%nat -> rule_ok d q -> (g < q_n q)%nat -> is_mat k r c f ->
  exists k', weigh m q g k = Ok k' /\ is_mat k' r c (fun i j => f i j * wgt m q g).
Proof.
  intros Hm Hq Hg Hk. unfold weigh, wgt.
  destruct (loop_inv (fun k i => w <- gweight q g i ;; Ok (mscal R_ops w k))
    (fun i k => is_mat k r c (fun a b => f a b * wprod i (nth g (q_weights q) []))) m k) as (k' & E & H').
  - eapply is_mat_ext; [|exact Hk]. intros. cbn. ring.
  - intros i k1 Hi H1. rewrite (gweight_ok d) by (auto; lia). cbn [bind]. eexists. split; [reflexivity|].
    eapply is_mat_ext; [|apply (Rmscal _ _ _ _ _ H1)]. intros a b _ _. cbn [wprod]. cbv beta. ring.
  - eauto.
Qed.
Lemma weighv_ok m d q g k r f : (m <= d)%nat -> rule_ok d q -> (g < q_n q)%nat -> is_vec k r f ->
  exists k', weighv m q g k = Ok k' /\ is_vec k' r (fun i => f i * wgt m q g).
Proof.
  intros Hm Hq Hg Hk. unfold weighv, wgt.
  destruct (loop_inv (fun k i => w <- gweight q g i ;; Ok (vscal R_ops w k))
    (fun i k => is_vec k r (fun a => f a * wprod i (nth g (q_weights q) []))) m k) as (k' & E & H').
  - eapply is_vec_ext; [|exact Hk]. intros. cbn. ring.
  - intros i k1 Hi H1. rewrite (gweight_ok d) by (auto; lia). cbn [bind]. eexists. split; [reflexivity|].
    eapply is_vec_ext; [|apply (Rvscal _ _ _ _ H1)]. intros a _. cbn [wprod]. cbv beta. ring.
  - eauto.
Qed.
Lemma weighs_ok m d q g x : (m <= d)%nat -> rule_ok d q -> (g < q_n q)%nat -> weighs m q g x = Ok (x * wgt m q g).
Proof.
  intros Hm Hq Hg. unfold weighs, wgt.
  destruct (loop_inv (fun k i => w <- gweight q g i ;; Ok (k * w))
    (fun i k => k = x * wprod i (nth g (q_weights q) [])) m x) as (k' & E & H').
  - cbn. ring.
  - intros i k1 Hi H1. rewrite (gweight_ok d) by (auto; lia). cbn [bind]. eexists. split; [reflexivity|].
    cbn [wprod]. subst k1. ring.
  - rewrite E. now subst k'.
Qed.

Lemma gauss_ok q body K r c f k0 : is_mat K r c k0 ->
  (forall g, (g < q_n q)%nat -> exists k, body g = Ok k /\ is_mat k r c (f g)) ->
  exists K', gauss q body K = Ok K' /\ is_mat K' r c (fun i j => k0 i j + bigsum (q_n q) (fun g => f g i j)).
Proof.
  intros HK Hb. unfold gauss.
  apply (loop_inv (fun K g => k <- body g ;; madd R_ops K k)
    (fun n K => is_mat K r c (fun i j => k0 i j + bigsum n (fun g => f g i j))) (q_n q) K).
  - eapply is_mat_ext; [|exact HK]. intros. cbn. ring.
  - intros g K1 Hg H1. destruct (Hb g Hg) as (k & Ek & Hk). rewrite Ek. cbn [bind].
    destruct (Rmadd _ _ _ _ _ _ H1 Hk) as (m & Em & Hm). exists m. split; auto.
    eapply is_mat_ext; [|exact Hm]. intros. cbn [bigsum]. cbv beta. ring.
Qed.
Lemma gauss_ok0 q body r c f :
  (forall g, (g < q_n q)%nat -> exists k, body g = Ok k /\ is_mat k r c (f g)) ->
  exists K', gauss q body (mnew R_ops r c) = Ok K' /\ is_mat K' r c (fun i j => bigsum (q_n q) (fun g => f g i j)).
Proof.
  intros H. destruct (gauss_ok q body _ r c f _ (Rmnew r c) H) as (K & E & HK). exists K. split; auto.
  eapply is_mat_ext; [|exact HK]. intros. cbv beta. ring.
Qed.
Lemma gaussv_ok0 q body r f :
  (forall g, (g < q_n q)%nat -> exists k, body g = Ok k /\ is_vec k r (f g)) ->
  exists K', gaussv q body (vnew R_ops r) = Ok K' /\ is_vec K' r (fun i => bigsum (q_n q) (fun g => f g i)).
Proof.
  intros Hb. unfold gaussv.
  apply (loop_inv (fun K g => k <- body g ;; vadd R_ops K k)
    (fun n K => is_vec K r (fun i => bigsum n (fun g => f g i))) (q_n q) (vnew R_ops r)).
  - apply Rvnew.
  - intros g K1 Hg H1. destruct (Hb g Hg) as (k & Ek & Hk). rewrite Ek. cbn [bind].
    destruct (Rvadd _ _ _ _ _ H1 Hk) as (m & Em & Hm). exists m. split; auto.
Qed.
Lemma gausss_ok0 q body f : (forall g, (g < q_n q)%nat -> body g = Ok (f g)) -> gausss q body 0 = Ok (bigsum (q_n q) f).
Proof.
  intros Hb. unfold gausss.
  destruct (loop_inv (fun v g => x <- body g ;; Ok (v + x)) (fun n v => v = bigsum n f) (q_n q) 0) as (v & E & ->); auto.
  intros g v Hg ->. rewrite Hb by auto. eexists. split; reflexivity.
Qed.

Lemma bigsum_ite n k f : (k < n)%nat -> bigsum n (fun i => (if (k =? i)%nat then 1 else 0) * f i) = f k.
Proof. intros H. rewrite <- (bigsum_delta n k f H). apply bigsum_ext. intros i _. unfold delta. now rewrite Nat.eqb_sym. Qed.

(** ** Gradients *)
(** derivative of shape function i in direction x_l *)
Definition gradN (s : shape) (x : nat -> nat -> R) (r : nat -> R) (l i : nat) : R :=
  bigsum (sf_d s) (fun k => cof (sf_d s) (tangent s x r) l k / jac s x r * dshp s r k i).

Section Grad.
Variables (d : nat) (s : shape) (q : rule) (elem : list nat) (xs : list (list R)).
Hypothesis He : element_ok d s q elem xs.
Let x := nodal elem xs.

Lemma jacobian_ok' g X x' : (g < q_n q)%nat -> is_mat X (sf_n s) d x' -> exists T,
  jacobian s q g X = Ok (jac s x' (pt q g), T, sf_mat s (nth g (q_points q) [])) /\
  is_mat T d d (tangent s x' (pt q g)).
Proof.
  intros Hg HX. destruct He as (Hs & Hd & HL & Hn & Hq & HJ). subst d.
  unfold jacobian. rewrite (gpoint_ok _ q g Hq Hg). cbn [bind].
  destruct (Rmmul _ _ _ _ _ _ _ (sf_mat_ok s Hs (nth g (q_points q) [])) HX) as (T & ET & HT).
  rewrite ET. cbn [bind]. rewrite (Rdetd _ _ _ (sf_d_range s Hs) HT). cbn [bind].
  exists T. split; [reflexivity|exact HT].
Qed.
Lemma jacobian_ok g X : (g < q_n q)%nat -> is_mat X (length elem) d x -> exists T,
  jacobian s q g X = Ok (jac s x (pt q g), T, sf_mat s (nth g (q_points q) [])) /\
  is_mat T d d (tangent s x (pt q g)).
Proof. intros Hg HX. destruct He as (_ & _ & HL & _). rewrite HL in HX. now apply jacobian_ok'. Qed.

Lemma gradient_ok g X : (2 <= d)%nat -> (g < q_n q)%nat -> is_mat X (length elem) d x -> exists G,
  gradient s q g X = Ok (jac s x (pt q g), G) /\ is_mat G d (length elem) (gradN s x (pt q g)).
Proof.
  intros Hd2 Hg HX. unfold gradient. destruct (jacobian_ok g X Hg HX) as (T & E & HT). rewrite E. cbn [bind].
  destruct He as (Hs & Hd & HL & Hn & Hq & HJ). pose proof (sf_d_range s Hs). subst d.
  destruct (Rminv (sf_d s) _ _ ltac:(lia) HT (HJ g Hg)) as (Ti & ETi & HTi). rewrite ETi. cbn [bind].
  destruct (Rmmul _ _ _ _ _ _ _ HTi (sf_mat_ok s Hs (nth g (q_points q) []))) as (G & EG & HG).
  rewrite EG. cbn [bind]. exists G. split; [reflexivity|]. rewrite HL. exact HG.
Qed.

Lemma gradient_singular g X : (2 <= d)%nat -> (g < q_n q)%nat -> is_mat X (length elem) d x -> jac s x (pt q g) = 0 ->
  gradient s q g X = Fail DivByZero.
Proof.
  intros Hd2 Hg HX HJ0. unfold gradient. destruct (jacobian_ok g X Hg HX) as (T & E & HT). rewrite E. cbn [bind].
  destruct He as (Hs & Hd & HL & Hn & Hq & HJ). pose proof (sf_d_range s Hs). subst d.
  rewrite (Rminv_singular (sf_d s) _ _ ltac:(lia) HT HJ0). reflexivity.
Qed.
End Grad.

(** gradN is the gradient: T * gradN = dN *)
Section GradFacts.
Variables (s : shape) (x : nat -> nat -> R) (r : nat -> R).
Hypothesis Hs : In s all_shapes.
Hypothesis Hd : (2 <= sf_d s)%nat.
Hypothesis HJ : jac s x r <> 0.

(** interpolated gradient of nodal values *)
Definition gradU (u : nat -> nat -> R) (l c : nat) : R := bigsum (sf_n s) (fun i => gradN s x r l i * u i c).

Lemma gradU_alt u l c : gradU u l c =
  bigsum (sf_d s) (fun k => cof (sf_d s) (tangent s x r) l k / jac s x r * bigsum (sf_n s) (fun i => dshp s r k i * u i c)).
Proof.
  unfold gradU, gradN.
  rewrite (bigsum_ext _ _ (fun i => bigsum (sf_d s) (fun k => cof (sf_d s) (tangent s x r) l k / jac s x r * dshp s r k i * u i c)))
    by (intros; now rewrite bigsum_scal_r).
  rewrite bigsum_swap. apply bigsum_ext. intros k _. rewrite <- bigsum_scal. apply bigsum_ext. intros. ring.
Qed.

Lemma gradU_field m u : field_gradient s x r m u (gradU u).
Proof.
  intros k c Hk Hc. pose proof (sf_d_range s Hs).
  rewrite (bigsum_ext _ _ (fun l => bigsum (sf_d s) (fun k' => tangent s x r k l * (cof (sf_d s) (tangent s x r) l k' / jac s x r) *
      bigsum (sf_n s) (fun i => dshp s r k' i * u i c)))).
  2:{ intros l _. rewrite gradU_alt, <- bigsum_scal. apply bigsum_ext. intros. ring. }
  rewrite bigsum_swap.
  rewrite (bigsum_ext _ _ (fun k' => (if (k =? k')%nat then 1 else 0) * bigsum (sf_n s) (fun i => dshp s r k' i * u i c))).
  - now rewrite (bigsum_ite (sf_d s) k (fun k' => bigsum (sf_n s) (fun i => dshp s r k' i * u i c))) by auto.
  - intros k' Hk'. rewrite bigsum_scal_r. f_equal. apply cof_right; auto. lia.
Qed.

Lemma field_gradient_unique m u H : field_gradient s x r m u H ->
  forall l c, (l < sf_d s)%nat -> (c < m)%nat -> H l c = gradU u l c.
Proof.
  intros HF l c Hl Hc. pose proof (sf_d_range s Hs). rewrite gradU_alt.
  rewrite (bigsum_ext _ _ (fun k => bigsum (sf_d s) (fun l' => cof (sf_d s) (tangent s x r) l k / jac s x r * tangent s x r k l' * H l' c))).
  2:{ intros k Hk. rewrite <- (HF k c Hk Hc), <- bigsum_scal. apply bigsum_ext. intros. ring. }
  rewrite bigsum_swap.
  rewrite (bigsum_ext _ _ (fun l' => (if (l =? l')%nat then 1 else 0) * H l' c)).
  - now rewrite (bigsum_ite (sf_d s) l (fun l' => H l' c)) by auto.
  - intros l' Hl'. rewrite bigsum_scal_r. f_equal. apply (cof_left (sf_d s) (tangent s x r)); auto. lia.
Qed.

(** an affine field has a constant gradient *)
Lemma affine_gradient m u a A : 
  (forall i c, (i < sf_n s)%nat -> (c < m)%nat -> u i c = a c + bigsum (sf_d s) (fun l => x i l * A l c)) ->
  field_gradient s x r m u A.
Proof.
  intros Hu k c Hk Hc. unfold tangent.
  rewrite (bigsum_ext (sf_n s) _ (fun i => dshp s r k i * a c + bigsum (sf_d s) (fun l => dshp s r k i * x i l * A l c))).
  2:{ intros i Hi. rewrite Hu by auto. rewrite Rmult_plus_distr_l, <- bigsum_scal. f_equal. apply bigsum_ext. intros. ring. }
  rewrite bigsum_plus, bigsum_scal_r, dshp_sum, bigsum_swap by auto. rewrite Rmult_0_l, Rplus_0_l.
  apply bigsum_ext. intros l _. now rewrite bigsum_scal_r.
Qed.
End GradFacts.

(** ** Bilinear forms *)
Lemma bigsum_block2 n f : bigsum (2 * n) f = bigsum n (fun i => f (2 * i)%nat + f (2 * i + 1)%nat).
Proof. induction n as [|n IH]; [reflexivity|]. replace (2 * S n)%nat with (S (S (2 * n))) by lia.
  cbn [bigsum]. rewrite IH. replace (2 * n + 1)%nat with (S (2 * n)) by lia. ring. Qed.
Lemma bigsum_block3 n f : bigsum (3 * n) f = bigsum n (fun i => f (3 * i)%nat + f (3 * i + 1)%nat + f (3 * i + 2)%nat).
Proof. induction n as [|n IH]; [reflexivity|]. replace (3 * S n)%nat with (S (S (S (3 * n)))) by lia.
  cbn [bigsum]. rewrite IH. replace (3 * n + 1)%nat with (S (3 * n)) by lia. replace (3 * n + 2)%nat with (S (S (3 * n))) by lia. ring. Qed.

Lemma dm m i j : (j < m)%nat -> ((m * i + j) / m = i /\ (m * i + j) mod m = j)%nat.
Proof. intros. rewrite (Nat.mul_comm m i). now apply div_add. Qed.

(** sum_ab y_a (sum_ij A_ia D_ij B_jb) z_b *)
Lemma form_atdb N p1 p2 (A D B : nat -> nat -> R) (y z : nat -> R) :
  bigsum N (fun a => bigsum N (fun b => y a * bigsum p2 (fun j => bigsum p1 (fun i => A i a * D i j) * B j b) * z b)) =
  bigsum p1 (fun i => bigsum p2 (fun j => bigsum N (fun a => A i a * y a) * D i j * bigsum N (fun b => B j b * z b))).
Proof.
  transitivity (bigsum N (fun a => bigsum N (fun b => bigsum p1 (fun i => bigsum p2 (fun j => (A i a * y a) * D i j * (B j b * z b)))))).
  { apply bigsum_ext; intros a _. apply bigsum_ext; intros b _.
    rewrite (bigsum_swap p1 p2), <- bigsum_scal, <- bigsum_scal_r. apply bigsum_ext; intros j _.
    rewrite <- bigsum_scal_r, <- bigsum_scal, <- bigsum_scal_r. apply bigsum_ext; intros i _. ring. }
  rewrite (bigsum_ext N _ (fun a => bigsum p1 (fun i => bigsum p2 (fun j => A i a * y a * D i j * bigsum N (fun b => B j b * z b))))).
  2:{ intros a _. rewrite (bigsum_swap N p1). apply bigsum_ext; intros i _. rewrite (bigsum_swap N p2). apply bigsum_ext; intros j _.
      now rewrite bigsum_scal. }
  rewrite (bigsum_swap N p1). apply bigsum_ext; intros i _. rewrite (bigsum_swap N p2). apply bigsum_ext; intros j _.
  now rewrite !bigsum_scal_r.
Qed.

(** linearity of [form] in the matrix *)
Lemma form_sum m n ng (k : nat -> nat -> nat -> R) y z :
  form m n (fun a b => bigsum ng (fun g => k g a b)) y z = bigsum ng (fun g => form m n (k g) y z).
Proof.
  unfold form. rewrite (bigsum_swap ng). apply bigsum_ext; intros a _. rewrite (bigsum_swap ng). apply bigsum_ext; intros b _.
  rewrite <- bigsum_scal, <- bigsum_scal_r. reflexivity.
Qed.
Lemma form_scal m n k c y z : form m n (fun a b => k a b * c) y z = form m n k y z * c.
Proof.
  unfold form. rewrite <- bigsum_scal_r. apply bigsum_ext; intros a _. rewrite <- bigsum_scal_r. apply bigsum_ext; intros b _. ring.
Qed.
Lemma form_plus m n k k' y z : form m n (fun a b => k a b + k' a b) y z = form m n k y z + form m n k' y z.
Proof.
  unfold form. rewrite <- bigsum_plus. apply bigsum_ext; intros a _. rewrite <- bigsum_plus. apply bigsum_ext; intros b _. ring.
Qed.
Lemma form_ext m n k k' y z : (forall a b, (a < m * n)%nat -> (b < m * n)%nat -> k a b = k' a b) -> form m n k y z = form m n k' y z.
Proof. intros H. unfold form. apply bigsum_ext; intros a Ha. apply bigsum_ext; intros b Hb. now rewrite H. Qed.
Lemma form_swap m n k y z : form m n k y z = form m n (fun a b => k b a) z y.
Proof.
  unfold form. rewrite bigsum_swap. apply bigsum_ext; intros a _. apply bigsum_ext; intros b _. ring.
Qed.
Lemma form_apply m n k y z : form m n k y z = bigsum (m * n) (fun a => y (a / m)%nat (a mod m)%nat * apply_field m n k z a).
Proof. unfold form, apply_field. apply bigsum_ext; intros a _. rewrite <- bigsum_scal. apply bigsum_ext; intros; ring. Qed.
(** testing with a unit vector *)
Definition unitv (m a i c : nat) : R := if (m * i + c =? a)%nat then 1 else 0.
Lemma form_unit m n k a z : (a < m * n)%nat -> form m n k (unitv m a) z = apply_field m n k z a.
Proof.
  intros Ha. rewrite form_apply. assert (m <> 0)%nat by nia.
  rewrite (bigsum_ext _ _ (fun b => (if (a =? b)%nat then 1 else 0) * apply_field m n k z b)).
  - now rewrite (bigsum_ite (m * n) a (apply_field m n k z)).
  - intros b Hb. f_equal. unfold unitv. rewrite <- Nat.div_mod by lia. now rewrite Nat.eqb_sym.
Qed.
Lemma apply_unit m n k a b : (b < m * n)%nat -> apply_field m n k (unitv m b) a = k a b.
Proof.
  intros Hb. unfold apply_field. assert (m <> 0)%nat by nia.
  rewrite (bigsum_ext _ _ (fun b' => k a b' * delta b' b)).
  - now rewrite bigsum_delta_r.
  - intros b' Hb'. f_equal. unfold unitv, delta. now rewrite <- Nat.div_mod by lia.
Qed.
(** symmetry of the form is symmetry of the entries *)
Lemma form_sym_entries m n k : (forall y z, form m n k y z = form m n k z y) ->
  forall a b, (a < m * n)%nat -> (b < m * n)%nat -> k a b = k b a.
Proof.
  intros H a b Ha Hb. specialize (H (unitv m a) (unitv m b)).
  rewrite !form_unit, !apply_unit in H by auto. exact H.
Qed.
