(** The smoothing of all nodes. *)
From Coq Require Import List Arith ZArith Lia Bool Reals Lra Psatz.
From Verif Require Import Res DenseModel DenseR LUModel DelaunayModel DelaunaySpec DelaunaySpec2 DelaunayProof DelaunayProof2 DelaunayProof6 DelaunayProof7 DelaunayProof8.
Import ListNotations.
Local Open Scope R_scope.

Lemma start_ok es i : corner es i -> exists e j, nth_error es (start_elem es i) = Some e /\ (j < 3)%nat /\ at3 (en e) j = i.
Proof.
  intros (e & j & He & Hj & E). unfold start_elem. destruct (find _ _) as [[a f]|] eqn:F.
  - apply find_some in F. destruct F as [F1 F2]. apply In_index in F1. rewrite Nat.sub_0_r in F1. destruct F1 as [_ F1]. cbn [fst snd] in *.
    apply has_node_ok in F2. destruct F2 as (j' & Hj' & E'). eauto.
  - exfalso. apply In_nth_error in He. destruct He as (a & Ha). assert (Q := find_none _ _ F _ (index_In es 0 a e Ha)). cbn [snd] in Q.
    assert (T : has_node e i = true) by (apply has_node_ok; eauto). congruence.
Qed.
Lemma border_closed ns es i n : border_ok ns es -> nth_error ns i = Some n -> isonb n = false ->
  forall e j, In e es -> (j < 3)%nat -> (fst (side e j) = i \/ snd (side e j) = i) -> at3 (enb e) j <> None.
Proof.
  intros [B1 B2] Hn Hb e j He Hj Hs N. assert (M := B1 e j He Hj N).
  assert (isonb n = true); [|congruence]. apply (B2 e j n He Hj M). destruct Hs as [<-|<-]; auto.
Qed.
Lemma ring_at es i l : ring es i l -> forall a, In a l -> exists e j, nth_error es a = Some e /\ (j < 3)%nat /\ at3 (en e) j = i.
Proof. intros (_ & _ & H) a Ha. apply In_nth_error in Ha. destruct Ha as (m & Ha). destruct (H m a Ha) as (e & j & H1 & H2 & H3 & _). eauto. Qed.
Lemma after_ne es i l a : (forall e, In e es -> proper e) -> ring es i l -> In a (afters es i l) -> a <> i /\ corner es a.
Proof.
  intros Pr Hr Ha. apply in_map_iff in Ha. destruct Ha as (b & <- & Hb). destruct (ring_at es i l Hr b Hb) as (e & j & He & Hj & E).
  rewrite (nth_error_nth _ _ _ He). assert (Ie := nth_error_In _ _ He). rewrite (after_proper e i j (Pr e Ie) Hj E). split.
  - rewrite <- E. apply proper_ne; auto. now apply nx_ne.
  - exists e, (nx3 j). auto.
Qed.
Lemma mean_ext (f g : nat -> pt) l : (forall a, In a l -> f a = g a) -> mean (map f l) = mean (map g l).
Proof. intros H. f_equal. now apply map_ext_in. Qed.
Lemma mean_half u v w l : l <> [] -> (forall p, In p l -> half_plane u v w p) -> half_plane u v w (mean l).
Proof.
  intros Ne H. unfold half_plane, mean. cbn [fst snd].
  assert (S : u * fold_right (fun p s => fst p + s) 0 l + v * fold_right (fun p s => snd p + s) 0 l <= w * INR (length l)).
  { clear Ne. induction l as [|p l IH]; [cbn; lra|]. cbn [fold_right]. rewrite (S_INR (length l)) || idtac. change (length (p :: l)) with (Datatypes.S (length l)). rewrite S_INR.
    assert (H1 := H p (or_introl eq_refl)). assert (H2 := IH (fun q Hq => H q (or_intror Hq))). unfold half_plane in H1. lra. }
  assert (P : 0 < INR (length l)). { destruct l; [congruence|]. apply lt_0_INR. cbn. lia. }
  set (N := INR (length l)) in *. clearbody N.
  apply Rmult_le_reg_r with N; [exact P|].
  replace ((u * (fold_right (fun p s => fst p + s) 0 l / N) + v * (fold_right (fun p s => snd p + s) 0 l / N)) * N) with (u * fold_right (fun p s => fst p + s) 0 l + v * fold_right (fun p s => snd p + s) 0 l) by (field; lra).
  exact S.
Qed.

(** what the smoothing does *)
Record smoothed (ns : list dnode) (es : list delem) (k : nat) (s : list dnode) : Prop := mkSm {
  sm_len : length s = length ns;
  sm_flat : flat s;
  sm_set : map isset s = map isset ns;
  sm_onb : map isonb s = map isonb ns;
  sm_later : forall q, (k <= q)%nat -> xy s q = xy ns q;
  sm_fix : forall q, onb ns q = true -> xy s q = xy ns q;
  sm_total : total2 s es = total2 ns es;
  sm_mean : forall q, (q < k)%nat -> (q < length ns)%nat -> onb ns q = false -> exists l, ring es q l /\
    xy s q = mean (map (fun r => if (r <? q)%nat then xy s r else xy ns r) (afters es q l))
}.
Lemma upd_map {A B} (f : A -> B) l i x n : nth_error l i = Some n -> f x = f n -> map f (upd l i x) = map f l.
Proof. revert i. induction l as [|y l IH]; intros [|i] H E; cbn in *; try discriminate. inversion H; subst; congruence. now rewrite (IH i). Qed.
Lemma onb_nth ns i n : nth_error ns i = Some n -> onb ns i = isonb n.
Proof. intros H. unfold onb. now rewrite (nth_error_nth _ _ _ H). Qed.
Lemma onb_map ns i : onb ns i = nth i (map isonb ns) false.
Proof. symmetry. exact (map_nth isonb ns (mkNode [] false false) i). Qed.

Lemma smooth_fold ns es fuel : topo_ok ns es -> border_ok ns es -> cover_ok ns es -> (length es <= fuel)%nat ->
  forall k, (k <= length ns)%nat -> exists s,
  foldM (fun ns i => n <- rd ns i ;;
          if isonb n then Ok ns
          else let s := start_elem es i in st <- around fuel es i s s ;; move_node ns es i st) (seq 0 k) ns = Ok s /\ smoothed ns es k s.
Proof.
  intros OK B C Hf. induction k as [|k IH]; intros Hk.
  { exists ns. split; [reflexivity|]. constructor; auto. apply (tp_flat _ _ OK). intros; lia. }
  destruct (IH ltac:(lia)) as (s & H & Sm). destruct Sm as [L F Se On La Fx To Me].
  rewrite seq_S, foldM_app, H. cbn [bind]. cbn [plus]. rewrite foldM_cons.
  destruct (nth_error s k) as [n|] eqn:En; [|apply nth_error_None in En; lia].
  rewrite (rd_nth_error _ _ _ En). cbn [bind].
  assert (Onk : onb ns k = isonb n). { rewrite onb_map, <- On, <- onb_map. now apply onb_nth. }
  destruct (isonb n) eqn:Bn.
  { cbn [bind foldM]. exists s. split; [reflexivity|]. constructor; auto.
    - intros q Hq. apply La. lia.
    - intros q Hq Hq' Hb. apply Me; auto. destruct (Nat.eq_dec q k); [subst; congruence|lia]. }
  destruct (nth_error ns k) as [n0|] eqn:En0; [|apply nth_error_None in En0; lia].
  assert (Bn0 : isonb n0 = false) by (rewrite <- (onb_nth _ _ _ En0); exact Onk).
  assert (Cl := border_closed ns es k n0 B En0 Bn0).
  destruct (start_ok es k (C k n0 En0 Bn0)) as (e & j & He & Hj & E).
  destruct (around_ok ns es k OK Cl (start_elem es k) fuel ltac:(exists e, j; auto) Hf) as (l & -> & Rg & _). cbn [bind].
  destruct (move_node_ok s es k n) with (st := l) as (n' & Hm & Ln & S1 & S2 & Xn); auto.
  - intros f Hf'. rewrite L. now apply (tp_ids _ _ OK).
  - apply (tp_proper _ _ OK).
  - exact (proj1 Rg).
  - exact (ring_at es k l Rg).
  - cbv zeta. rewrite Hm. cbn [bind foldM]. exists (upd s k n'). split; [reflexivity|].
    assert (Lk : (k < length s)%nat) by lia.
    constructor.
    + now rewrite upd_length.
    + intros x Hx. apply In_nth_error in Hx. destruct Hx as (a & Ha). destruct (Nat.eq_dec a k) as [->|Ne].
      * rewrite nth_error_upd_eq in Ha by assumption. inversion Ha; subst x; exact Ln.
      * rewrite nth_error_upd_ne in Ha by auto. apply F. eapply nth_error_In; eauto.
    + rewrite (upd_map isset s k n' n); auto.
    + rewrite (upd_map isonb s k n' n); try congruence; auto.
    + intros q Hq. rewrite xy_upd_ne by lia. apply La. lia.
    + intros q Hq. rewrite xy_upd_ne by congruence. now apply Fx.
    + rewrite <- To. apply (move_total s (upd s k n') es k).
      * constructor; [exact F| |apply (tp_proper _ _ OK)|apply (tp_mutual _ _ OK)]. intros f Hf'. rewrite L. now apply (tp_ids _ _ OK).
      * exact Cl.
      * intros a Ha. now apply xy_upd_ne.
    + intros q Hq Hq' Hb. destruct (Nat.eq_dec q k) as [->|Ne].
      * exists l. split; auto. rewrite xy_upd_eq, Xn by assumption. apply mean_ext. intros a Ha.
        destruct (after_ne es k l a (tp_proper _ _ OK) Rg Ha) as [Na _]. rewrite xy_upd_ne by auto.
        destruct (Nat.ltb_spec a k); try (apply La; lia); auto.
      * destruct (Me q ltac:(lia) Hq' Hb) as (l' & Rg' & X'). exists l'. split; auto. rewrite xy_upd_ne, X' by auto. apply mean_ext. intros a Ha.
        destruct (Nat.ltb_spec a q); auto. rewrite xy_upd_ne by lia. reflexivity.
Qed.
Lemma around_more es i s : forall fuel fuel' now, (exists l, around fuel es i s now = Ok l) -> (fuel <= fuel')%nat -> around fuel' es i s now = around fuel es i s now.
Proof.
  induction fuel as [|fuel IH]; intros fuel' now (l & H) L; [discriminate H|]. destruct fuel' as [|fuel']; [lia|]. cbn [around] in *.
  destruct (rd es now) as [e|]; [|reflexivity]. cbn [bind] in *. destruct (at3 (enb e) (next_of e i)) as [t|]; [|reflexivity].
  destruct (t =? s)%nat; [reflexivity|]. destruct (around fuel es i s t) as [l'|] eqn:E; [|discriminate H]. rewrite (IH fuel' t); eauto; [|lia]. now rewrite E.
Qed.
Lemma smooth_ok ns es : topo_ok ns es -> border_ok ns es -> cover_ok ns es -> exists s,
  (forall fuel, (length es <= fuel)%nat -> laplacesmoothing fuel (mkMesh ns es) = Ok (mkMesh s es)) /\ smoothed ns es (length ns) s.
Proof.
  intros OK B C. destruct (smooth_fold ns es (length es) OK B C (le_n _) (length ns) (le_n _)) as (s & H & Sm).
  exists s. split; auto. intros fuel Hf. unfold laplacesmoothing. change (mns (mkMesh ns es)) with ns. change (mes (mkMesh ns es)) with es.
  assert (G : forall k, (k <= length ns)%nat -> exists s1, foldM (fun ns i => n <- rd ns i ;;
          if isonb n then Ok ns
          else let s := start_elem es i in st <- around fuel es i s s ;; move_node ns es i st) (seq 0 k) ns = Ok s1 /\
     foldM (fun ns i => n <- rd ns i ;;
          if isonb n then Ok ns
          else let s := start_elem es i in st <- around (length es) es i s s ;; move_node ns es i st) (seq 0 k) ns = Ok s1).
  { induction k as [|k IH]; intros Hk; [exists ns; auto|].
    destruct (IH ltac:(lia)) as (s1 & E1 & E2).
    destruct (smooth_fold ns es (length es) OK B C (le_n _) (S k) Hk) as (s2 & E3 & _).
    destruct (smooth_fold ns es fuel OK B C Hf (S k) Hk) as (s3 & E4 & _).
    exists s2. split; auto. rewrite <- E3.
    rewrite !seq_S, !foldM_app, E1, E2. cbn [bind plus]. rewrite !foldM_cons. destruct (smooth_fold ns es (length es) OK B C (le_n _) k ltac:(lia)) as (s1' & E2' & Sm').
    rewrite E2 in E2'; inversion E2'; subst s1'. destruct Sm' as [L F Se On La Fx To Me].
    destruct (nth_error s1 k) as [n|] eqn:En; [|apply nth_error_None in En; lia].
    rewrite (rd_nth_error _ _ _ En). cbn [bind]. destruct (isonb n) eqn:Bn; auto.
    destruct (nth_error ns k) as [n0|] eqn:En0; [|apply nth_error_None in En0; lia].
    assert (Bn0 : isonb n0 = false). { rewrite <- (onb_nth _ _ _ En0), onb_map, <- On, <- onb_map, (onb_nth _ _ _ En). exact Bn. }
    assert (Cl := border_closed ns es k n0 B En0 Bn0).
    destruct (start_ok es k (C k n0 En0 Bn0)) as (e & j & He & Hj & E).
    cbv zeta. rewrite (around_more es k (start_elem es k) (length es) fuel (start_elem es k)); auto.
    destruct (around_ok ns es k OK Cl (start_elem es k) (length es) ltac:(exists e, j; auto) (le_n _)) as (l & -> & _ & _). now exists l. }
  destruct (G (length ns) (le_n _)) as (s1 & E1 & E2). rewrite H in E2. inversion E2; subst s1. cbv zeta in E1 |- *. rewrite E1. reflexivity.
Qed.
Lemma smoothed_half ns es s u v w : topo_ok ns es -> smoothed ns es (length ns) s ->
  (forall i, (i < length ns)%nat -> half_plane u v w (xy ns i)) -> forall i, (i < length ns)%nat -> half_plane u v w (xy s i).
Proof.
  intros OK [L F Se On La Fx To Me] H i. induction i as [i IH] using lt_wf_ind. intros Hi.
  destruct (onb ns i) eqn:B; [rewrite Fx by exact B; now apply H|].
  destruct (Me i Hi Hi B) as (l & Rg & ->). apply mean_half.
  - destruct Rg as [Ne _]. destruct l; [congruence|discriminate].
  - intros p Hp. apply in_map_iff in Hp. destruct Hp as (a & <- & Ha). destruct (after_ne es i l a (tp_proper _ _ OK) Rg Ha) as [_ (e & j & He & Hj & E)].
    assert (La' := tp_ids _ _ OK e He j Hj). rewrite E in La'. destruct (Nat.ltb_spec a i); [now apply IH|now apply H].
Qed.
