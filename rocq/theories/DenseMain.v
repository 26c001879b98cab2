(** Properties C19 and C21: dense matrices and vectors: the proofs. *)
From Coq Require Import List Arith Lia Bool Reals Lra Psatz.
From Verif Require Import Res SumR DenseModel DenseSpec DenseProof DenseR.
Import ListNotations.

Lemma is_mat_ext {T} (a : mat T) r c f g :
  (forall i j, i < r -> j < c -> f i j = g i j) -> is_mat a r c f -> is_mat a r c g.
Proof.
  intros H (H1 & H2 & H3 & H4 & H5). unfold is_mat. splits; auto.
  intros i j Hi Hj. now rewrite H4, H.
Qed.
Lemma is_vec_ext {T} (a : list T) n f g :
  (forall i, i < n -> f i = g i) -> is_vec a n f -> is_vec a n g.
Proof.
  intros H (H1 & H2 & H3). unfold is_vec. splits; auto.
  intros i Hi. now rewrite H2, H.
Qed.
Lemma is_vec_nth {T} (v : list T) n f d : is_vec v n f ->
  length v = n /\ forall i, i < n -> nth i v d = f i.
Proof.
  intros (H1 & H2 & _). split; auto. intros i Hi. specialize (H2 i Hi). unfold vget in H2.
  destruct (Nat.ltb_spec i (length v)); [|lia]. cbn [assert_ bind] in H2.
  rewrite (rd_nth v i d) in H2 by auto. congruence.
Qed.
Ltac from_mat O H := let W := fresh "W" in let Rw := fresh "Rw" in let C := fresh "C" in let E := fresh "E" in
  destruct (is_mat_ent O _ _ _ _ H) as (W & Rw & C & E).
Lemma eqb_neq_false a b : a <> b -> (a =? b) = false.
Proof. apply Nat.eqb_neq. Qed.
Lemma gsum_bigsum n f : gsum R_ops n f = bigsum n f.
Proof. induction n as [|n IH]; simpl; auto. now rewrite IH. Qed.
Lemma vdot_ok T (O : ops T) a b n f g : is_vec a n f -> is_vec b n g ->
  vdot O a b = Ok (gsum O n (fun i => omul O (f i) (g i))).
Proof.
  intros Ha Hb. destruct (is_vec_nth a n f (o0 O) Ha) as [La Ea].
  destruct (is_vec_nth b n g (o0 O) Hb) as [Lb Eb].
  unfold vdot. rewrite La, Lb, Nat.eqb_refl. cbn [assert_ bind].
  apply accum_ok. intros k Hk.
  rewrite (rd_nth a k (o0 O)), (rd_nth b k (o0 O)) by lia. cbn [bind]. now rewrite Ea, Eb.
Qed.
Lemma is_vec_self {T} (O : ops T) (v : list T) : is_vec v (length v) (fun i => nth i v (o0 O)).
Proof. now apply (is_vec_intro O). Qed.
Lemma vnorm_ok a n f : is_vec a n f -> vnorm a = Ok (sqrt (bigsum n (fun i => f i * f i)%R)).
Proof.
  intros Ha. destruct (is_vec_nth a n f 0%R Ha) as [La Ea].
  unfold vnorm. rewrite (accum_ok R_ops _ _ (fun i => f i * f i)%R).
  - cbn [bind]. now rewrite gsum_bigsum, La.
  - intros k Hk. rewrite (rd_nth a k 0%R) by lia. cbn [bind]. now rewrite Ea by lia.
Qed.
Lemma mapM_vdiv (l : list R) s : s <> 0%R -> mapM (fun x => Rdiv_res x s) l = Ok (map (fun x => x / s)%R l).
Proof. intros Hs. induction l as [|x l IH]; simpl; auto. rewrite Rdiv_res_ok by auto. cbn [bind]. now rewrite IH. Qed.

Lemma C19_write_pf : forall T (a : mat T) r c f i j x, is_mat a r c f ->
  (i < r -> j < c -> exists m, mset a i j x = Ok m /\
     is_mat m r c (fun i' j' => if (i' =? i) && (j' =? j) then x else f i' j')) /\
  (~ (i < r /\ j < c) -> mset a i j x = Fail AssertFail).
Proof.
  intros T a r c f i j x H.
  destruct H as (Hw & Hr & Hc & Hg & Ho). subst r c. unfold mset. split.
  - intros Hi Hj. destruct (Nat.ltb_spec i (mrow a)), (Nat.ltb_spec j (mcol a)); try lia. cbn [andb assert_ bind].
    assert (Hlt : i * mcol a + j < length (mval a)) by (rewrite Hw; now apply idx_lt).
    rewrite wr_Ok by auto. cbn [bind]. eexists; split; [reflexivity|].
    unfold is_mat, mget, mat_wf. cbn [mrow mcol mval]. rewrite upd_length. splits; auto.
    + intros i' j' Hi' Hj'. specialize (Hg i' j' Hi' Hj'). unfold mget in Hg.
      destruct (Nat.ltb_spec i' (mrow a)), (Nat.ltb_spec j' (mcol a)); try lia. cbn [andb assert_ bind] in *.
      unfold rd in *. destruct (Nat.eqb_spec i' i), (Nat.eqb_spec j' j); subst; cbn [andb].
      1: now rewrite nth_error_upd_eq by auto.
      all: rewrite nth_error_upd_ne; auto; intros E; apply idx_inj in E; auto; lia.
    + intros i' j' Hi'. destruct (Nat.ltb_spec i' (mrow a)), (Nat.ltb_spec j' (mcol a)); auto; lia.
  - intros Hi. destruct (Nat.ltb_spec i (mrow a)), (Nat.ltb_spec j (mcol a)); auto; lia.
Qed.

Lemma C19_add_sub_pf : forall T (O : ops T) a b r c f g, is_mat a r c f -> is_mat b r c g ->
  (exists m, madd O a b = Ok m /\ is_mat m r c (fun i j => oadd O (f i j) (g i j))) /\
  (exists m, msub O a b = Ok m /\ is_mat m r c (fun i j => osub O (f i j) (g i j))).
Proof.
  intros T O a b r c f g Ha Hb. from_mat O Ha. from_mat O Hb. subst r c. split.
  - destruct (mzip_ok O (oadd O) a b) as (m & Em & Hm); auto. exists m; split; auto.
    revert Hm; apply is_mat_ext. intros. now rewrite E, E0.
  - destruct (mzip_ok O (osub O) a b) as (m & Em & Hm); auto. exists m; split; auto.
    revert Hm; apply is_mat_ext. intros. now rewrite E, E0.
Qed.

Lemma C19_scalar_pf : forall T (O : ops T) a r c f s, is_mat a r c f ->
  is_mat (mneg O a) r c (fun i j => omul O (f i j) (oopp O (o1 O))) /\
  is_mat (mscal O s a) r c (fun i j => omul O (f i j) s) /\
  ((forall x, exists y, odiv O x s = Ok y) ->
   exists m g, mdivs O a s = Ok m /\ is_mat m r c g /\
     forall i j, i < r -> j < c -> odiv O (f i j) s = Ok (g i j)).
Proof.
  intros T O a r c f s Ha. from_mat O Ha. subst r c. splits.
  - generalize (mmap_ok O (fun x => omul O x (oopp O (o1 O))) a W). apply is_mat_ext. intros; now rewrite E.
  - generalize (mmap_ok O (fun x => omul O x s) a W). apply is_mat_ext. intros; now rewrite E.
  - intros Hs. destruct (mapM_nth O (fun x => odiv O x s) (mval a) (o0 O)) as (ys & Ey & Ly & Hy); auto.
    unfold mdivs. rewrite Ey. cbn [bind].
    assert (Hm : mat_wf (mkMat (mrow a) (mcol a) ys)) by (unfold mat_wf in *; cbn; congruence).
    exists (mkMat (mrow a) (mcol a) ys), (ent O (mkMat (mrow a) (mcol a) ys)). splits; auto.
    + apply (mat_wf_is_mat O _ Hm).
    + intros i j Hi Hj. rewrite <- E by auto. unfold ent at 1. rewrite Hy; auto.
      rewrite W. now apply idx_lt.
Qed.

Lemma C19_product_pf : forall T (O : ops T) a b x r n c f g h,
  is_mat a r n f -> is_mat b n c g -> is_vec x n h ->
  (exists m, mmul O a b = Ok m /\ is_mat m r c (fun i j => gsum O n (fun k => omul O (f i k) (g k j)))) /\
  (exists y, mmulv O a x = Ok y /\ is_vec y r (fun i => gsum O n (fun k => omul O (f i k) (h k)))).
Proof.
  intros T O a b x r n c f g h Ha Hb Hx. from_mat O Ha. from_mat O Hb.
  destruct (is_vec_nth x n h (o0 O) Hx) as [Lx Ex]. subst r c. split.
  - destruct (mmul_ok O a b) as (m & Em & Hm); auto; [congruence|]. exists m; split; auto.
    revert Hm. rewrite C. apply is_mat_ext. intros i j Hi Hj. apply gsum_ext. intros k Hk. rewrite E, E0; auto.
  - destruct (mmulv_ok O a x) as (y & Ey & Hy); auto; [congruence|]. exists y; split; auto.
    revert Hy. rewrite C. apply is_vec_ext. intros i Hi. apply gsum_ext. intros k Hk. rewrite E, Ex; auto.
Qed.

Lemma C19_reshape_pf : forall T (O : ops T) a r c f, is_mat a r c f ->
  (exists m, mtrans O a = Ok m /\ is_mat m c r (fun i j => f j i)) /\
  (forall b r' g, is_mat b r' c g ->
     exists m, mvstack O a b = Ok m /\ is_mat m (r + r') c (fun i j => if i <? r then f i j else g (i - r) j)) /\
  (forall b c' g, is_mat b r c' g ->
     exists m, mhstack O a b = Ok m /\ is_mat m r (c + c') (fun i j => if j <? c then f i j else g i (j - c))) /\
  (forall i0 j0 h w, 0 < h -> 0 < w -> i0 + h <= r -> j0 + w <= c ->
     exists m, mblock O a i0 j0 h w = Ok m /\ is_mat m h w (fun i j => f (i0 + i) (j0 + j))) /\
  (forall i0 j0, i0 < r -> j0 < c ->
     exists m, mminor O a i0 j0 = Ok m /\
       is_mat m (r - 1) (c - 1) (fun i j => f (if i <? i0 then i else S i) (if j <? j0 then j else S j))).
Proof.
  intros T O a r c f Ha. from_mat O Ha. subst r c. splits.
  - destruct (mtrans_ok O a W) as (m & Em & Hm). exists m; split; auto.
    revert Hm; apply is_mat_ext. intros; now rewrite E.
  - intros b r' g Hb. from_mat O Hb. destruct (mvstack_ok O a b) as (m & Em & Hm); auto.
    exists m; split; auto. subst r'. revert Hm. apply is_mat_ext. intros i j Hi Hj.
    destruct (Nat.ltb_spec i (mrow a)); [now rewrite E|rewrite E0; auto; lia].
  - intros b c' g Hb. from_mat O Hb. destruct (mhstack_ok O a b) as (m & Em & Hm); auto.
    exists m; split; auto. subst c'. revert Hm. apply is_mat_ext. intros i j Hi Hj.
    destruct (Nat.ltb_spec j (mcol a)); [now rewrite E|rewrite E0; auto; lia].
  - intros i0 j0 h w Hh Hw Hr Hc. destruct (mblock_ok O a i0 j0 h w) as (m & Em & Hm); auto.
    exists m; split; auto. revert Hm; apply is_mat_ext. intros. rewrite E; auto; lia.
  - intros i0 j0 Hi Hj. destruct (mminor_ok O a i0 j0) as (m & Em & Hm); auto.
    exists m; split; auto. revert Hm; apply is_mat_ext. intros i j Hi' Hj'. unfold skip. apply E.
    + destruct (Nat.ltb_spec i i0); lia.
    + destruct (Nat.ltb_spec j j0); lia.
Qed.

Lemma C19_constructors_pf : forall T (O : ops T),
  (forall r c, is_mat (mnew O r c) r c (fun _ _ => o0 O)) /\
  (forall n, exists m, midentity O n = Ok m /\ is_mat m n n (fun i j => if i =? j then o1 O else o0 O)) /\
  (forall x n f, is_vec x n f ->
     (exists m, mdiagonal O x = Ok m /\ is_mat m n n (fun i j => if i =? j then f i else o0 O)) /\
     (exists m, vtrans O x = Ok m /\ is_mat m 1 n (fun _ j => f j)) /\
     is_mat (mat_of_vec x) n 1 (fun i _ => f i) /\
     vec_of_mat O (mat_of_vec x) = Ok x /\
     (forall b c g, is_mat b 1 c g ->
        exists m, vouter O x b = Ok m /\ is_mat m n c (fun i j => omul O (f i) (g 0 j)))).
Proof.
  intros T O. splits.
  - intros r c. apply (is_mat_intro O); auto.
    + unfold mat_wf, mnew; cbn. now rewrite repeat_length.
    + intros i j Hi Hj. unfold ent, mnew; cbn. apply nth_repeat.
  - intros n. destruct (diag_ok O n (fun _ => Ok (o1 O)) (fun _ => o1 O)) as (v & E & Hv); auto.
    unfold midentity. rewrite E. cbn [bind]. eauto.
  - intros x n f Hx. destruct (is_vec_nth x n f (o0 O) Hx) as [Lx Ex]. splits.
    + destruct (diag_ok O n (rd x) f) as (v & E & Hv).
      * intros i Hi. rewrite (rd_nth x i (o0 O)) by lia. now rewrite Ex.
      * unfold mdiagonal. rewrite Lx, E. cbn [bind]. eauto.
    + unfold vtrans. rewrite Lx.
      destruct (fill_vec O (1 * n) (rd x) f (repeat (o0 O) (1 * n))) as (v & E & Hv).
      * now rewrite repeat_length.
      * intros i Hi. rewrite (rd_nth x i (o0 O)) by lia. rewrite Ex; auto. lia.
      * rewrite E. cbn [bind]. eexists; split; [reflexivity|].
        destruct (is_vec_nth v _ _ (o0 O) Hv) as [Lv Ev].
        apply (is_mat_intro O); auto. intros i j Hi Hj. unfold ent; cbn [mcol mval].
        replace (i * n + j) with j by nia. apply Ev. lia.
    + apply (is_mat_intro O); auto.
      * unfold mat_wf; cbn; lia.
      * intros i j Hi Hj. unfold ent; cbn [mcol mval mat_of_vec]. replace (i * 1 + j) with i by lia. auto.
    + unfold vec_of_mat, mat_of_vec. cbn [mcol mrow mval Nat.eqb assert_ bind].
      destruct (fill_vec O (length x) (rd x) (fun i => nth i x (o0 O)) (vnew O (length x))) as (v & E & Hv).
      * unfold vnew. now rewrite repeat_length.
      * intros i Hi. now apply rd_nth.
      * rewrite E. f_equal. destruct (is_vec_nth v _ _ (o0 O) Hv) as [Lv Ev].
        apply nth_ext with (o0 O) (o0 O); auto. intros k Hk. apply Ev. lia.
    + intros b c g Hb. from_mat O Hb. unfold vouter. rewrite Rw, Nat.eqb_refl. cbn [assert_ bind]. rewrite Lx, C.
      apply mbuild_ok. intros i j Hi Hj. rewrite (rd_nth x i (o0 O)) by lia. cbn [bind].
      rewrite (rd_nth (mval b) j (o0 O)) by (rewrite W, Rw, C; lia). cbn [bind]. rewrite Ex by auto.
      rewrite <- E by auto. unfold ent. rewrite C. reflexivity.
Qed.

Lemma C19_mismatch_pf : forall T (O : ops T) (a b : mat T) (x y : list T),
  (mrow a <> mrow b \/ mcol a <> mcol b -> madd O a b = Fail AssertFail /\ msub O a b = Fail AssertFail) /\
  (mcol a <> mrow b -> mmul O a b = Fail AssertFail) /\
  (mcol a <> length x -> mmulv O a x = Fail AssertFail) /\
  (mcol a <> mcol b -> mvstack O a b = Fail AssertFail) /\
  (mrow a <> mrow b -> mhstack O a b = Fail AssertFail) /\
  (forall i0 j0 h w, ~ (0 < h /\ 0 < w /\ i0 + h <= mrow a /\ j0 + w <= mcol a) ->
     mblock O a i0 j0 h w = Fail AssertFail) /\
  (mrow a <> mcol a -> mdet O a = Fail AssertFail /\ minv O a = Fail AssertFail) /\
  (mcol a <> 1 -> vec_of_mat O a = Fail AssertFail) /\
  (mrow a <> 1 -> vouter O x a = Fail AssertFail) /\
  (length x <> length y -> vadd O x y = Fail AssertFail /\ vsub O x y = Fail AssertFail /\
     vdot O x y = Fail AssertFail).
Proof.
  intros T O a b x y. splits.
  - intros H. unfold madd, msub, mzip.
    destruct (Nat.eqb_spec (mrow a) (mrow b)), (Nat.eqb_spec (mcol a) (mcol b)); try (split; reflexivity). lia.
  - intros H. unfold mmul. now rewrite eqb_neq_false.
  - intros H. unfold mmulv. now rewrite eqb_neq_false.
  - intros H. unfold mvstack. now rewrite eqb_neq_false.
  - intros H. unfold mhstack. now rewrite eqb_neq_false.
  - intros i0 j0 h w H. unfold mblock.
    destruct (Nat.ltb_spec 0 h), (Nat.ltb_spec 0 w), (Nat.leb_spec (i0 + h) (mrow a)),
      (Nat.leb_spec (j0 + w) (mcol a)); try reflexivity. lia.
  - intros H. assert (D : forall k, mdet_fuel O k a = Fail AssertFail).
    { intros [|k]; cbn [mdet_fuel]; rewrite eqb_neq_false by auto; reflexivity. }
    split; [apply D|]. unfold minv. now rewrite eqb_neq_false.
  - intros H. unfold vec_of_mat. now rewrite eqb_neq_false.
  - intros H. unfold vouter. now rewrite eqb_neq_false.
  - intros H. unfold vadd, vsub, vzip, vdot. rewrite eqb_neq_false by auto. splits; reflexivity.
Qed.

Lemma C19_vectors_pf : forall T (O : ops T) x n f, is_vec x n f ->
  (forall y g, is_vec y n g ->
     (exists z, vadd O x y = Ok z /\ is_vec z n (fun i => oadd O (f i) (g i))) /\
     (exists z, vsub O x y = Ok z /\ is_vec z n (fun i => osub O (f i) (g i)))) /\
  (forall s, is_vec (vscal O s x) n (fun i => omul O (f i) s)) /\
  is_vec (vneg O x) n (fun i => omul O (f i) (oopp O (o1 O))) /\
  (forall y m g, is_vec y m g ->
     exists z, vvstack O x y = Ok z /\ is_vec z (n + m) (fun i => if i <? n then f i else g (i - n))) /\
  (forall h t, h < t -> t <= n -> exists z, vsegment O x h t = Ok z /\ is_vec z (t - h) (fun i => f (h + i))) /\
  (forall h t, ~ (h < t /\ t <= n) -> vsegment O x h t = Fail AssertFail).
Proof.
  intros T O x n f Hx. destruct (is_vec_nth x n f (o0 O) Hx) as [Lx Ex].
  assert (Hmap : forall h : T -> T, is_vec (map h x) n (fun i => h (f i))).
  { intros h. apply (is_vec_intro O). - now rewrite map_length.
    - intros i Hi. rewrite nth_indep with (d' := h (o0 O)) by (rewrite map_length; lia).
      rewrite map_nth. now rewrite Ex. }
  splits.
  - intros y g Hy. destruct (is_vec_nth y n g (o0 O) Hy) as [Ly Ey].
    assert (Hz : forall h : T -> T -> T, exists z, vzip h x y = Ok z /\ is_vec z n (fun i => h (f i) (g i))).
    { intros h. unfold vzip. rewrite Lx, Ly, Nat.eqb_refl. cbn [assert_ bind].
      destruct (zip_loop h x y n (o0 O)) as (v & Ev & Lv & Hv); [congruence..|].
      exists v; split; auto. apply (is_vec_intro O); [congruence|].
      intros i Hi. rewrite Hv, Ex, Ey; auto. }
    split; apply Hz.
  - intros s. apply Hmap with (h := fun u => omul O u s).
  - apply Hmap with (h := fun u => omul O u (oopp O (o1 O))).
  - intros y m g Hy. destruct (is_vec_nth y m g (o0 O) Hy) as [Ly Ey]. unfold vvstack. rewrite Lx, Ly.
    destruct (fill_ok n 1 (fun i _ => i) (fun i _ => rd x i) (fun i _ => f i) (vnew O (n + m)) (o0 O))
      as (v & Ev & Lv & Hv & _).
    + intros i j Hi Hj. rewrite (rd_nth x i (o0 O)) by lia. now rewrite Ex.
    + intros. unfold vnew. rewrite repeat_length. lia.
    + intros; lia.
    + rewrite Ev. cbn [bind].
      destruct (fill_ok m 1 (fun i _ => i + n) (fun i _ => rd y i) (fun i _ => g i) v (o0 O))
        as (w & Ew & Lw & Hw & Ho).
      * intros i j Hi Hj. rewrite (rd_nth y i (o0 O)) by lia. now rewrite Ey.
      * intros. rewrite Lv. unfold vnew. rewrite repeat_length. lia.
      * intros; lia.
      * exists w; split; auto. apply (is_vec_intro O).
        -- rewrite Lw, Lv. unfold vnew. apply repeat_length.
        -- intros i Hi. destruct (Nat.ltb_spec i n).
           ++ rewrite Ho; [apply (Hv i 0); lia|]. intros; lia.
           ++ specialize (Hw (i - n) 0). replace (i - n + n) with i in Hw by lia. apply Hw; lia.
  - intros h t Hh Ht. unfold vsegment. rewrite Lx.
    destruct (Nat.leb_spec t n), (Nat.ltb_spec h t); try lia. cbn [andb assert_ bind].
    apply (fill_vec O (t - h) (fun i => rd x (h + i))).
    + unfold vnew. apply repeat_length.
    + intros i Hi. rewrite (rd_nth x (h + i) (o0 O)) by lia. rewrite Ex by lia. reflexivity.
  - intros h t H. unfold vsegment. rewrite Lx.
    destruct (Nat.leb_spec t n), (Nat.ltb_spec h t); try reflexivity. lia.
Qed.

Lemma C21_dot_pf : forall (x y z : list R) (s : R), length x = length y -> length y = length z ->
  exists xy xz yz xx sxy n,
    vdot R_ops x y = Ok xy /\ vdot R_ops y x = Ok xy /\
    vdot R_ops x z = Ok xz /\ vdot R_ops y z = Ok yz /\
    (forall w, vadd R_ops x y = Ok w -> vdot R_ops w z = Ok sxy /\ sxy = (xz + yz)%R) /\
    vdot R_ops (vscal R_ops s x) y = Ok (s * xy)%R /\
    vdot R_ops x x = Ok xx /\ vnorm x = Ok n /\ (n * n = xx)%R /\ (0 <= n)%R /\
    (n = 0%R <-> forall i, i < length x -> nth i x 0%R = 0%R).
Proof.
  intros x y z s Hxy Hyz. pose proof (is_vec_self R_ops x) as Hx. pose proof (is_vec_self R_ops y) as Hy.
  pose proof (is_vec_self R_ops z) as Hz. rewrite <- Hyz in Hz. rewrite <- Hxy in Hy, Hz.
  set (n := length x) in *. set (f := fun i => nth i x (o0 R_ops)) in *.
  set (g := fun i => nth i y (o0 R_ops)) in *. set (h := fun i => nth i z (o0 R_ops)) in *.
  pose proof (fun a b p q => vdot_ok R R_ops a b n p q) as D.
  exists (bigsum n (fun i => f i * g i)%R), (bigsum n (fun i => f i * h i)%R), (bigsum n (fun i => g i * h i)%R),
    (bigsum n (fun i => f i * f i)%R), (bigsum n (fun i => (f i + g i) * h i)%R), (sqrt (bigsum n (fun i => f i * f i)%R)).
  assert (Hnn : (0 <= bigsum n (fun i => f i * f i))%R).
  { apply bigsum_nonneg. intros. nra. }
  splits.
  - rewrite (D _ _ _ _ Hx Hy). now rewrite gsum_bigsum.
  - rewrite (D _ _ _ _ Hy Hx). rewrite gsum_bigsum. f_equal. apply bigsum_ext. intros. cbn. ring.
  - rewrite (D _ _ _ _ Hx Hz). now rewrite gsum_bigsum.
  - rewrite (D _ _ _ _ Hy Hz). now rewrite gsum_bigsum.
  - intros w Hw. destruct (proj1 (proj1 (C19_vectors_pf R R_ops x n f Hx) y g Hy)) as (w' & E & Hw').
    assert (w = w') by congruence. subst w'. rewrite (D _ _ _ _ Hw' Hz), gsum_bigsum. split; auto.
    rewrite <- bigsum_plus. apply bigsum_ext. intros. ring.
  - rewrite (D _ _ _ _ (proj1 (proj2 (C19_vectors_pf R R_ops x n f Hx)) s) Hy), gsum_bigsum. f_equal.
    rewrite <- bigsum_scal. apply bigsum_ext. intros. cbn. ring.
  - rewrite (D _ _ _ _ Hx Hx). now rewrite gsum_bigsum.
  - apply vnorm_ok; auto.
  - now apply sqrt_sqrt.
  - apply sqrt_pos.
  - split.
    + intros H. apply sqrt_eq_0 in H; auto. intros i Hi. now apply (bigsum_sqr_eq0 n f).
    + intros H. rewrite (bigsum_zero n); [apply sqrt_0|]. intros i Hi. unfold f. cbn. rewrite H by auto. ring.
Qed.

Lemma C21_vector_product_pf : forall a b : list R,
  (length a = 3 -> length b = 3 ->
   exists c d ab aa bb cc,
     vprod R_ops a b = Ok c /\ vprod R_ops b a = Ok d /\ d = vneg R_ops c /\ length c = 3 /\
     vdot R_ops a c = Ok 0%R /\ vdot R_ops b c = Ok 0%R /\
     vdot R_ops a b = Ok ab /\ vdot R_ops a a = Ok aa /\ vdot R_ops b b = Ok bb /\ vdot R_ops c c = Ok cc /\
     (cc = aa * bb - ab * ab)%R) /\
  (~ (length a = 3 /\ length b = 3) -> vprod R_ops a b = Fail AssertFail).
Proof.
  intros a b. split.
  - intros Ha Hb. destruct a as [|a0 [|a1 [|a2 [|]]]]; try discriminate.
    destruct b as [|b0 [|b1 [|b2 [|]]]]; try discriminate.
    unfold vprod, vdot, vset, vget, wr, rd, accum, vneg. cbn - [Rplus Rmult Rminus].
    do 6 eexists. splits; try reflexivity.
    + cbn. f_equal; [ring|f_equal; [ring|f_equal; ring]].
    + cbn - [Rplus Rmult Rminus]. f_equal; ring.
    + cbn - [Rplus Rmult Rminus]. f_equal; ring.
    + ring.
  - intros H. unfold vprod. destruct (Nat.eqb_spec (length a) 3), (Nat.eqb_spec (length b) 3); try reflexivity. lia.
Qed.

Lemma C21_normal_pf : forall v : list R,
  ((exists i, i < length v /\ nth i v 0%R <> 0%R) ->
   exists u n, vnormal v = Ok u /\ vnorm v = Ok n /\ (0 < n)%R /\ vnorm u = Ok 1%R /\
     length u = length v /\ forall i, i < length v -> (nth i v 0 = n * nth i u 0)%R) /\
  (0 < length v -> (forall i, i < length v -> nth i v 0%R = 0%R) -> vnormal v = Fail DivByZero).
Proof.
  intros v. pose proof (is_vec_self R_ops v) as Hv. unfold vnormal. rewrite (vnorm_ok _ _ _ Hv). cbn [bind]. cbn [o0 R_ops].
  set (f := fun i => nth i v 0%R). change (fun i => nth i v 0 * nth i v 0)%R with (fun i => f i * f i)%R.
  set (q := bigsum (length v) (fun i => f i * f i)%R).
  assert (Hq : (0 <= q)%R) by (apply bigsum_nonneg; intros; nra).
  split.
  - intros (i & Hi & Hn).
    assert (0 < q)%R.
    { destruct Hq as [|Hq]; auto. exfalso. apply Hn. symmetry in Hq. now apply (bigsum_sqr_eq0 (length v) f Hq). }
    assert (Hs : (0 < sqrt q)%R) by now apply sqrt_lt_R0.
    unfold vdiv. cbn [odiv R_ops]. rewrite mapM_vdiv by lra.
    do 2 eexists. splits; try reflexivity; auto.
    + assert (Hu : is_vec (map (fun x => x / sqrt q)%R v) (length v) (fun i => f i / sqrt q)%R).
      { apply (is_vec_intro R_ops). - apply map_length.
        - intros k Hk. rewrite nth_indep with (d' := (0 / sqrt q)%R) by (rewrite map_length; lia).
          rewrite (map_nth (fun x => x / sqrt q)%R). reflexivity. }
      rewrite (vnorm_ok _ _ _ Hu). f_equal.
      rewrite (bigsum_ext _ _ (fun i => / q * (f i * f i))%R), bigsum_scal.
      * fold q. rewrite <- sqrt_1. f_equal. field. lra.
      * intros k Hk. rewrite <- (sqrt_sqrt q) at 3 by auto. field. lra.
    + apply map_length.
    + intros k Hk. rewrite nth_indep with (l := map _ _) (d' := (0 / sqrt q)%R) by (rewrite map_length; lia).
      rewrite (map_nth (fun x => x / sqrt q)%R). field. lra.
  - intros Hl H0. assert (Hq0 : q = 0%R).
    { apply bigsum_zero. intros k Hk. unfold f. rewrite H0 by auto. ring. }
    rewrite Hq0, sqrt_0. unfold vdiv. destruct v as [|x v]; [cbn in Hl; lia|]. cbn. now rewrite Rdiv_res_0.
Qed.
