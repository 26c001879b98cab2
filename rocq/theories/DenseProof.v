(** Storage-level facts about the dense classes. *)
From Coq Require Import List Arith Lia Bool.
From Verif Require Import Res DenseModel DenseSpec.
Import ListNotations.

Lemma foldM_ext {S X} (f g : S -> X -> res S) l s :
  (forall s x, In x l -> f s x = g s x) -> foldM f l s = foldM g l s.
Proof.
  revert s; induction l as [|x l IH]; intros s H; simpl; auto.
  rewrite H by (left; auto). destruct (g s x); simpl; auto.
  apply IH. intros; apply H; right; auto.
Qed.

(** invariant rule for counting loops *)
Lemma loop_inv {S} (f : S -> nat -> res S) (I : nat -> S -> Prop) n s0 :
  I 0 s0 ->
  (forall i s, i < n -> I i s -> exists s', f s i = Ok s' /\ I (Datatypes.S i) s') ->
  exists s, foldM f (seq 0 n) s0 = Ok s /\ I n s.
Proof.
  intros H0 Hs. induction n as [|n IH].
  - exists s0; auto.
  - destruct IH as (s & E & HI); [intros; apply Hs; auto; lia|].
    rewrite seq_S, foldM_app, E. cbn [bind foldM].
    destruct (Hs n s) as (s' & E' & HI'); [lia|auto|].
    simpl. rewrite E'. cbn [bind]. eauto.
Qed.

Lemma div_add i c j : j < c -> (i * c + j) / c = i /\ (i * c + j) mod c = j.
Proof.
  intros H. split.
  - rewrite Nat.div_add_l by lia. rewrite Nat.div_small by lia. lia.
  - rewrite Nat.add_comm, Nat.mod_add by lia. now apply Nat.mod_small.
Qed.

Lemma idx_lt i j r c : i < r -> j < c -> i * c + j < r * c.
Proof. intros. nia. Qed.

Lemma idx_inj i j i' j' c : j < c -> j' < c -> i * c + j = i' * c + j' -> i = i' /\ j = j'.
Proof.
  intros H H' E. destruct (div_add i c j H) as [A B]. destruct (div_add i' c j' H') as [A' B'].
  rewrite E in A, B. split; congruence.
Qed.

Section DP.
Context {T : Type}.
Variable O : ops T.

Lemma accum_ok n f g : (forall k, k < n -> f k = Ok (g k)) -> accum O n f = Ok (gsum O n g).
Proof.
  intros H. unfold accum.
  destruct (loop_inv (fun acc k => x <- f k ;; Ok (oadd O acc x)) (fun k acc => acc = gsum O k g) n (o0 O))
    as (s & E & ->); auto.
  intros i s Hi ->. rewrite H by auto. cbn [bind]. eauto.
Qed.

Lemma gsum_ext n f g : (forall k, k < n -> f k = g k) -> gsum O n f = gsum O n g.
Proof.
  induction n as [|n IH]; intros H; simpl; auto. rewrite IH by (intros; apply H; lia).
  rewrite H by lia. reflexivity.
Qed.

(** the filling loop *)
Lemma fill_ok r c pos f g (v : list T) d :
  (forall i j, i < r -> j < c -> f i j = Ok (g i j)) ->
  (forall i j, i < r -> j < c -> pos i j < length v) ->
  (forall i j i' j', i < r -> j < c -> i' < r -> j' < c -> pos i j = pos i' j' -> i = i' /\ j = j') ->
  exists v', fill r c pos f v = Ok v' /\ length v' = length v /\
    (forall i j, i < r -> j < c -> nth (pos i j) v' d = g i j) /\
    (forall k, (forall i j, i < r -> j < c -> pos i j <> k) -> nth k v' d = nth k v d).
Proof.
  intros Hf Hp Hinj. unfold fill.
  set (P := fun i0 j0 (v' : list T) => length v' = length v /\
    (forall i j, i < r -> j < c -> (i < i0 \/ i = i0 /\ j < j0) -> nth (pos i j) v' d = g i j) /\
    (forall k, (forall i j, i < r -> j < c -> (i < i0 \/ i = i0 /\ j < j0) -> pos i j <> k) ->
       nth k v' d = nth k v d)).
  destruct (loop_inv (fun v i => foldM (fun v j => x <- f i j ;; wr v (pos i j) x) (seq 0 c) v)
    (fun i v' => P i 0 v') r v) as (v' & E & HP).
  - unfold P. splits; auto. intros; lia.
  - intros i s Hi Hs.
    destruct (loop_inv (fun v j => x <- f i j ;; wr v (pos i j) x) (fun j v' => P i j v') c s) as (s' & E & HP); auto.
    + intros j s1 Hj (HL & HA & HB). rewrite Hf by auto. cbn [bind].
      rewrite wr_Ok by (rewrite HL; auto). eexists; split; [reflexivity|]. unfold P.
      rewrite upd_length. splits; auto.
      * intros i' j' Hi' Hj' Hlt. rewrite nth_upd.
        destruct (Nat.eqb_spec (pos i j) (pos i' j')) as [Ep|Ep].
        -- destruct (Hinj i j i' j') as [-> ->]; auto.
           destruct (Nat.ltb_spec (pos i' j') (length s1)) as [|Hx]; [reflexivity|].
           specialize (Hp i' j' Hi' Hj'). lia.
        -- cbn [andb]. apply HA; auto. destruct Hlt as [|[-> Hlt]]; [auto|right; split; auto].
           assert (j' <> j) by (intros ->; congruence). lia.
      * intros k Hk. rewrite nth_upd.
        destruct (Nat.eqb_spec (pos i j) k) as [Ep|Ep].
        -- exfalso. apply (Hk i j); auto.
        -- cbn [andb]. apply HB. intros i' j' Hi' Hj' Hlt. apply Hk; auto. lia.
    + exists s'; split; auto. destruct HP as (HL & HA & HB). unfold P. splits; auto.
      * intros i' j' Hi' Hj' Hlt. apply HA; auto. lia.
      * intros k Hk. apply HB. intros i' j' Hi' Hj' Hlt. apply Hk; auto. lia.
  - destruct HP as (HL & HA & HB). exists v'; splits; auto.
Qed.

Definition ent (a : mat T) (i j : nat) : T := nth (i * mcol a + j) (mval a) (o0 O).

Lemma mget_ok a i j : mat_wf a -> i < mrow a -> j < mcol a -> mget a i j = Ok (ent a i j).
Proof.
  intros Hw Hi Hj. unfold mget, ent.
  destruct (Nat.ltb_spec i (mrow a)), (Nat.ltb_spec j (mcol a)); try lia. cbn [andb assert_ bind].
  apply rd_nth. rewrite Hw. now apply idx_lt.
Qed.

Lemma mraw_ok a i j : mat_wf a -> i < mrow a -> j < mcol a -> mraw a i j = Ok (ent a i j).
Proof. intros Hw Hi Hj. unfold mraw, ent. apply rd_nth. rewrite Hw. now apply idx_lt. Qed.

Lemma is_mat_intro a r c f :
  mat_wf a -> mrow a = r -> mcol a = c ->
  (forall i j, i < r -> j < c -> ent a i j = f i j) -> is_mat a r c f.
Proof.
  intros Hw <- <- He. unfold is_mat. splits; auto.
  - intros i j Hi Hj. rewrite mget_ok, He; auto.
  - intros i j H. unfold mget.
    destruct (Nat.ltb_spec i (mrow a)), (Nat.ltb_spec j (mcol a)); cbn; auto. tauto.
Qed.

Lemma is_mat_ent a r c f : is_mat a r c f ->
  mat_wf a /\ mrow a = r /\ mcol a = c /\ forall i j, i < r -> j < c -> ent a i j = f i j.
Proof.
  intros (Hw & Hr & Hc & Hg & _). splits; auto. intros i j Hi Hj.
  specialize (Hg i j Hi Hj). rewrite mget_ok in Hg by (auto; lia). congruence.
Qed.

Lemma mat_wf_is_mat a : mat_wf a -> is_mat a (mrow a) (mcol a) (ent a).
Proof. intros H. now apply is_mat_intro. Qed.

Lemma mbuild_ok r c f g :
  (forall i j, i < r -> j < c -> f i j = Ok (g i j)) ->
  exists m, mbuild O r c f = Ok m /\ is_mat m r c g.
Proof.
  intros Hf. unfold mbuild.
  destruct (fill_ok r c (fun i j => i * c + j) f g (repeat (o0 O) (r * c)) (o0 O)) as (v & E & HL & HA & _); auto.
  - intros i j Hi Hj. rewrite repeat_length. now apply idx_lt.
  - intros. eapply idx_inj; eauto.
  - rewrite E. cbn [bind]. eexists; split; [reflexivity|].
    apply is_mat_intro; cbn [mrow mcol]; auto.
    unfold mat_wf; cbn. now rewrite HL, repeat_length.
Qed.

Lemma is_vec_intro (v : list T) n f :
  length v = n -> (forall i, i < n -> nth i v (o0 O) = f i) -> is_vec v n f.
Proof.
  intros <- H. unfold is_vec, vget. splits; auto.
  - intros i Hi. destruct (Nat.ltb_spec i (length v)); [|lia]. cbn [assert_ bind].
    rewrite <- H by auto. now apply rd_nth.
  - intros i Hi. destruct (Nat.ltb_spec i (length v)); [lia|reflexivity].
Qed.

Lemma fill_vec n f g (v : list T) :
  length v = n -> (forall i, i < n -> f i = Ok (g i)) ->
  exists v', fill n 1 (fun i _ => i) (fun i _ => f i) v = Ok v' /\ is_vec v' n g.
Proof.
  intros HL Hf.
  destruct (fill_ok n 1 (fun i _ => i) (fun i _ => f i) (fun i _ => g i) v (o0 O)) as (v' & E & HL' & HA & _); auto.
  - intros; lia.
  - intros. lia.
  - exists v'; split; auto. apply is_vec_intro; [congruence|]. intros i Hi. apply (HA i 0); auto.
Qed.

Lemma zip_loop (g : T -> T -> T) (a b : list T) n d :
  n = length a -> length a = length b ->
  exists v, foldM (fun v i => x <- rd v i ;; y <- rd b i ;; wr v i (g x y)) (seq 0 n) a = Ok v /\
    length v = length a /\ forall i, i < n -> nth i v d = g (nth i a d) (nth i b d).
Proof.
  intros -> Hab.
  destruct (loop_inv (fun v i => x <- rd v i ;; y <- rd b i ;; wr v i (g x y))
    (fun k v => length v = length a /\ forall i, i < length a ->
        nth i v d = if i <? k then g (nth i a d) (nth i b d) else nth i a d) (length a) a) as (v & E & HL & Hv).
  - split; auto.
  - intros i v Hi (HL & Hv). rewrite (rd_nth v i d), (rd_nth b i d) by lia. cbn [bind].
    rewrite wr_Ok by lia. eexists; split; [reflexivity|]. rewrite upd_length. split; auto.
    intros j Hj. rewrite nth_upd. rewrite !Hv by auto.
    destruct (Nat.eqb_spec i j) as [->|Hne]; cbn [andb].
    + destruct (Nat.ltb_spec j (length v)); [|lia].
      destruct (Nat.ltb_spec j j); [lia|]. destruct (Nat.ltb_spec j (S j)); [auto|lia].
    + destruct (Nat.ltb_spec j i), (Nat.ltb_spec j (S i)); auto; lia.
  - exists v; splits; auto. intros i Hi. rewrite Hv by auto. destruct (Nat.ltb_spec i (length a)); [auto|lia].
Qed.

Lemma mzip_ok g a b :
  mat_wf a -> mat_wf b -> mrow a = mrow b -> mcol a = mcol b ->
  exists m, mzip g a b = Ok m /\ is_mat m (mrow a) (mcol a) (fun i j => g (ent a i j) (ent b i j)).
Proof.
  intros Ha Hb Hr Hc. unfold mzip. rewrite Hr, Hc, !Nat.eqb_refl. cbn [andb assert_ bind].
  unfold mat_wf in *.
  destruct (zip_loop g (mval a) (mval b) (mrow b * mcol b) (o0 O)) as (v & E & HL & Hv); try congruence.
  rewrite E. cbn [bind]. eexists; split; [reflexivity|].
  apply is_mat_intro; cbn [mrow mcol]; auto.
  - unfold mat_wf; cbn. congruence.
  - intros i j Hi Hj. unfold ent; cbn [mcol mval]. rewrite Hc. apply Hv. now apply idx_lt.
Qed.

Lemma mmap_ok (f : T -> T) (a : mat T) :
  mat_wf a ->
  is_mat (mkMat (mrow a) (mcol a) (map f (mval a))) (mrow a) (mcol a) (fun i j => f (ent a i j)).
Proof.
  intros Ha. apply is_mat_intro; auto.
  - unfold mat_wf in *; cbn. now rewrite map_length.
  - intros i j Hi Hj. unfold ent; cbn. unfold mat_wf in Ha. pose proof (idx_lt i j _ _ Hi Hj).
    rewrite (nth_indep _ _ (f (o0 O))) by (rewrite map_length; lia). apply map_nth.
Qed.

Lemma mapM_nth {A} (f : A -> res T) (l : list A) da :
  (forall x, In x l -> exists y, f x = Ok y) ->
  exists ys, mapM f l = Ok ys /\ length ys = length l /\
    forall i, i < length l -> f (nth i l da) = Ok (nth i ys (o0 O)).
Proof.
  induction l as [|x l IH]; intros H; simpl.
  - exists []; splits; auto. intros; lia.
  - destruct (H x) as (y & Ey); [left; auto|]. rewrite Ey. cbn [bind].
    destruct IH as (ys & E & HL & Hn); [intros; apply H; right; auto|]. rewrite E. cbn [bind].
    exists (y :: ys). splits; auto; simpl; [congruence|].
    intros [|i] Hi; auto. apply Hn; lia.
Qed.

Lemma mmul_ok a b :
  mat_wf a -> mat_wf b -> mcol a = mrow b ->
  exists m, mmul O a b = Ok m /\
    is_mat m (mrow a) (mcol b) (fun i j => gsum O (mcol a) (fun k => omul O (ent a i k) (ent b k j))).
Proof.
  intros Ha Hb Hc. unfold mmul. rewrite Hc, Nat.eqb_refl. cbn [assert_ bind].
  apply mbuild_ok. intros i j Hi Hj. apply accum_ok. intros k Hk.
  rewrite mraw_ok, mraw_ok by (auto; lia). reflexivity.
Qed.

Lemma mmulv_ok a x :
  mat_wf a -> mcol a = length x ->
  exists y, mmulv O a x = Ok y /\
    is_vec y (mrow a) (fun i => gsum O (mcol a) (fun j => omul O (ent a i j) (nth j x (o0 O)))).
Proof.
  intros Ha Hc. unfold mmulv. rewrite Hc, Nat.eqb_refl. cbn [assert_ bind].
  apply fill_vec. { apply repeat_length. }
  intros i Hi. apply accum_ok. intros j Hj. rewrite mraw_ok by (auto; lia). cbn [bind].
  rewrite (rd_nth x j (o0 O)) by lia. reflexivity.
Qed.

Lemma mtrans_ok a : mat_wf a ->
  exists m, mtrans O a = Ok m /\ is_mat m (mcol a) (mrow a) (fun i j => ent a j i).
Proof. intros Ha. apply mbuild_ok. intros. now rewrite mraw_ok. Qed.

Definition skip (k i : nat) : nat := if i <? k then i else S i.

Lemma mminor_ok a i0 j0 : mat_wf a -> i0 < mrow a -> j0 < mcol a ->
  exists m, mminor O a i0 j0 = Ok m /\
    is_mat m (mrow a - 1) (mcol a - 1) (fun i j => ent a (skip i0 i) (skip j0 j)).
Proof.
  intros Ha Hi0 Hj0. unfold mminor.
  destruct (Nat.ltb_spec i0 (mrow a)), (Nat.ltb_spec j0 (mcol a)); try lia. cbn [andb assert_ bind].
  apply mbuild_ok. intros i j Hi Hj. unfold skip.
  destruct (Nat.ltb_spec i i0), (Nat.ltb_spec j j0); rewrite mraw_ok by (auto; lia);
    rewrite ?Nat.add_1_r; reflexivity.
Qed.

Lemma mvstack_ok a b : mat_wf a -> mat_wf b -> mcol a = mcol b ->
  exists m, mvstack O a b = Ok m /\
    is_mat m (mrow a + mrow b) (mcol a)
      (fun i j => if i <? mrow a then ent a i j else ent b (i - mrow a) j).
Proof.
  intros Ha Hb Hc. unfold mvstack. rewrite Hc, Nat.eqb_refl. cbn [assert_ bind]. set (c := mcol b) in *.
  destruct (fill_ok (mrow a) c (fun i j => i * c + j) (fun i j => mraw a i j) (ent a)
     (repeat (o0 O) ((mrow a + mrow b) * c)) (o0 O)) as (v & E & HL & HA & HB).
  - intros; apply mraw_ok; auto; lia.
  - intros i j Hi Hj. rewrite repeat_length. apply idx_lt; lia.
  - intros. eapply idx_inj; eauto.
  - rewrite E. cbn [bind]. rewrite repeat_length in HL.
    destruct (fill_ok (mrow b) c (fun i j => (i + mrow a) * c + j) (fun i j => mraw b i j) (ent b) v (o0 O))
      as (v' & E' & HL' & HA' & HB').
    + intros; apply mraw_ok; auto.
    + intros i j Hi Hj. rewrite HL. apply idx_lt; lia.
    + intros i j i' j' Hi Hj Hi' Hj' Ep. apply idx_inj in Ep; auto. lia.
    + rewrite E'. cbn [bind]. eexists; split; [reflexivity|].
      apply is_mat_intro; cbn [mrow mcol]; auto.
      * unfold mat_wf; cbn. congruence.
      * intros i j Hi Hj. unfold ent at 1; cbn [mcol mval].
        destruct (Nat.ltb_spec i (mrow a)).
        -- rewrite HB'; [apply HA; auto|]. intros i' j' Hi' Hj' Ep. apply idx_inj in Ep; auto. lia.
        -- replace i with (i - mrow a + mrow a) at 1 by lia. apply HA'; lia.
Qed.

Lemma mhstack_ok a b : mat_wf a -> mat_wf b -> mrow a = mrow b ->
  exists m, mhstack O a b = Ok m /\
    is_mat m (mrow a) (mcol a + mcol b)
      (fun i j => if j <? mcol a then ent a i j else ent b i (j - mcol a)).
Proof.
  intros Ha Hb Hr. unfold mhstack. rewrite Hr, Nat.eqb_refl. cbn [assert_ bind].
  set (c := mcol a + mcol b) in *.
  destruct (fill_ok (mrow b) (mcol a) (fun i j => i * c + j) (fun i j => mraw a i j) (ent a)
     (repeat (o0 O) (mrow b * c)) (o0 O)) as (v & E & HL & HA & HB).
  - intros; apply mraw_ok; auto; lia.
  - intros i j Hi Hj. rewrite repeat_length. apply idx_lt; lia.
  - intros i j i' j' Hi Hj Hi' Hj' Ep. apply idx_inj in Ep; auto; lia.
  - rewrite E. cbn [bind]. rewrite repeat_length in HL.
    destruct (fill_ok (mrow b) (mcol b) (fun i j => i * c + (j + mcol a)) (fun i j => mraw b i j) (ent b) v (o0 O))
      as (v' & E' & HL' & HA' & HB').
    + intros; apply mraw_ok; auto.
    + intros i j Hi Hj. rewrite HL. apply idx_lt; lia.
    + intros i j i' j' Hi Hj Hi' Hj' Ep. apply idx_inj in Ep; lia.
    + rewrite E'. cbn [bind]. eexists; split; [reflexivity|].
      apply is_mat_intro; cbn [mrow mcol]; auto.
      * unfold mat_wf; cbn. congruence.
      * intros i j Hi Hj. unfold ent at 1; cbn [mcol mval].
        destruct (Nat.ltb_spec j (mcol a)).
        -- rewrite HB'; [apply HA; auto|]. intros i' j' Hi' Hj' Ep. apply idx_inj in Ep; lia.
        -- replace j with (j - mcol a + mcol a) at 1 by lia. apply HA'; lia.
Qed.

Lemma mblock_ok a r c h w : mat_wf a -> 0 < h -> 0 < w -> r + h <= mrow a -> c + w <= mcol a ->
  exists m, mblock O a r c h w = Ok m /\ is_mat m h w (fun i j => ent a (r + i) (c + j)).
Proof.
  intros Ha Hh Hw Hr Hc. unfold mblock.
  destruct (Nat.ltb_spec 0 h), (Nat.ltb_spec 0 w), (Nat.leb_spec (r + h) (mrow a)),
    (Nat.leb_spec (c + w) (mcol a)); try lia. cbn [andb assert_ bind].
  apply mbuild_ok. intros i j Hi Hj. apply mraw_ok; auto; lia.
Qed.

Lemma diag_ok n f g :
  (forall i, i < n -> f i = Ok (g i)) ->
  exists v, fill n 1 (fun i _ => i * n + i) (fun i _ => f i) (repeat (o0 O) (n * n)) = Ok v /\
    is_mat (mkMat n n v) n n (fun i j => if i =? j then g i else o0 O).
Proof.
  intros Hf.
  destruct (fill_ok n 1 (fun i _ => i * n + i) (fun i _ => f i) (fun i _ => g i)
    (repeat (o0 O) (n * n)) (o0 O)) as (v & E & HL & HA & HB); auto.
  - intros i j Hi Hj. rewrite repeat_length. now apply idx_lt.
  - intros i j i' j' Hi Hj Hi' Hj' Ep. apply idx_inj in Ep; lia.
  - rewrite repeat_length in HL. exists v; split; auto. apply is_mat_intro; auto.
    intros i j Hi Hj. unfold ent; cbn [mcol mval]. destruct (Nat.eqb_spec i j) as [->|Hne].
    + apply (HA j 0); auto.
    + rewrite HB.
      * apply nth_repeat.
      * intros i' j' Hi' Hj' Ep. apply idx_inj in Ep; lia.
Qed.

End DP.
