(** One element of a time step. *)
From Coq Require Import List Arith Lia Bool Reals Lra.
From Verif Require Import Res SumR DenseModel DenseR DenseSpec ShapeModel QuadModel QuadSpec ElemModel ElemSpec SparseModel SparseSpec AssemblyModel AssemblySpec KrylovSpec PatchSpec StableSpec ThetaModel ThetaSpec.
From Verif Require Import DenseProof AssemblyProof AssemblyProof3 ShapeMain ElemProof ElemProof2 ElemProof3 ElemMain HomMain PatchProof PatchProof2 StableProof StableProof2 StableProof3.
Import ListNotations.
Local Open Scope R_scope.

Lemma pair_energy dou xs fC fK : theta_pair dou xs fC fK -> length dou = 1%nat ->
  stiff_routine dou xs 2 1 fK /\ exists rho, 0 < rho /\ forall s q el, element_ok 2 s q el xs -> mass_of 2 1 s q el dou xs (fC s q el) rho.
Proof.
  intros HP HD. destruct HP as [alpha rho c t Ha Hr Hc Ht|D HDp].
  - split; [now constructor|]. exists (rho * c * t). split; [repeat apply Rmult_lt_0_compat; auto|]. intros s q el He. now apply call_capacity.
  - split; [now apply (sr_diffusion dou xs D)|]. exists 1. split; [lra|]. intros s q el He. now apply call_rd_mass.
Qed.
Lemma numbered_unique m n dou ne ne' : numbered m n dou ne -> numbered m n dou ne' -> ne = ne'.
Proof.
  intros [L H] [L' H']. apply (nth_ext _ _ [] []); [congruence|]. intros i Hi. rewrite L in Hi. destruct (H i Hi) as [A B]. destruct (H' i Hi) as [A' B'].
  apply (nth_ext _ _ (O, O) (O, O)); [congruence|]. intros j Hj. rewrite A in Hj. now rewrite B, B'.
Qed.
Lemma is_vec_nth (v : list R) n f i : is_vec v n f -> (i < n)%nat -> nth i v 0 = f i.
Proof.
  intros (L & H & _) Hi. specialize (H i Hi). unfold vget in H. assert (Hb : (i <? length v)%nat = true) by (apply Nat.ltb_lt; lia). rewrite Hb in H. cbn [assert_ bind] in H.
  apply rd_Ok in H. now apply nth_error_nth.
Qed.
Lemma numbered_nodup dou el ne : numbered 1 (length el) dou ne -> NoDup (map dloc (dofs el ne)) /\ length (dofs el ne) = length el.
Proof.
  intros HN. assert (E : map dloc (dofs el ne) = seq 0 (length el)).
  { destruct HN as [HL HN].
    assert (G : forall el ne off, length ne = length el -> (forall i, (i < length el)%nat -> length (nth i ne []) = 1%nat /\ forall j, (j < 1)%nat -> nth j (nth i ne []) (O, O) = (nth j dou O, (1 * (off + i) + j)%nat)) ->
      map dloc (dofs el ne) = seq off (length el)); [|apply (G el ne O); auto].
    clear. induction el as [|k el IH]; intros [|r ne] off L H; cbn [length] in L; try lia; [reflexivity|]. cbn [dofs length seq]. rewrite map_app.
    destruct (H O ltac:(cbn; lia)) as [L1 H1]. cbn [nth] in L1, H1. destruct r as [|d [|]]; cbn in L1; try lia. specialize (H1 O ltac:(lia)). cbn [nth] in H1. subst d.
    cbn [map app dloc snd]. f_equal; [lia|]. apply IH; [lia|]. intros i Hi. destruct (H (S i) ltac:(cbn; lia)) as [A B]. cbn [nth] in A, B. split; auto. intros j Hj. rewrite (B j Hj). f_equal. lia. }
  split; [rewrite E; apply seq_NoDup|]. rewrite <- (map_length dloc), E. apply seq_length.
Qed.
(** ** One element *)
Lemma theta_elem dou xs fC fK load s q el dt theta T :
  theta_pair dou xs fC fK -> length dou = 1%nat -> stable_piece 2 xs (mkPiece s q el) -> 0 < dt ->
  (forall k c, In k el -> In c dou -> in_table T k c) ->
  (exists Fe, load T el = Ok Fe /\ match Fe with Some v => length v = length el | None => True end) ->
  exists eC eK eA, made_by fC (mkPiece s q el) eC /\ made_by fK (mkPiece s q el) eK /\ carries load T el eC /\
    e_nodes eA = el /\ e_nte eC = e_nte eA /\ e_nte eK = e_nte eA /\
    (forall t, (forall k c, In k el -> In c dou -> in_table t k c) -> elem_fits t eA /\ elem_fits t eC) /\
    (forall t acc, theta_add fC fK load s q dt theta T t acc el =
       (' (K, F) <- assemble_K_F acc T (e_K eA) t (e_nte eA) (e_nodes eA) ;; F <- assemble_F F (e_F eA) t (e_nte eA) (e_nodes eA) ;; Ok (K, F))) /\
    (forall a b, In a (e_dofs eA) -> In b (e_dofs eA) -> e_k eA (dloc a) (dloc b) = e_k eC (dloc a) (dloc b) / dt + theta * e_k eK (dloc a) (dloc b)) /\
    (forall a, In a (e_dofs eA) -> e_f eA (dloc a) = e_f eC (dloc a) + sum_over (e_dofs eA) (fun b => (e_k eC (dloc a) (dloc b) / dt - (1 - theta) * e_k eK (dloc a) (dloc b)) * duval T b)).
Proof.
  intros HP HD (_ & He & _) Hdt HT (Fe & EL & LFe). cbn [p_shape p_rule p_nodes] in He.
  destruct (pair_energy dou xs fC fK HP HD) as (HS & rho & Hrho & HM). destruct (routine_energy dou xs 2 1 fK HS HD) as (_ & _ & W & HW & _).
  destruct (HW s q el He) as (K & neK & k & EK & Hk & HnK & _). destruct (HM s q el He) as (C & ne & c & EC & Hc & Hn & _).
  rewrite (numbered_unique _ _ _ _ _ HnK Hn) in EK. clear HnK neK. rewrite Nat.mul_1_l in Hk, Hc. set (N := length el) in *.
  destruct (Rmdivs C N N c dt ltac:(lra) Hc) as (C1 & EC1 & HC1). destruct (Rmadd _ _ _ _ _ _ HC1 (Rmscal theta _ _ _ _ Hk)) as (A & EA & HA). destruct (Rmsub _ _ _ _ _ _ HC1 (Rmscal (1 - theta) _ _ _ _ Hk)) as (B & EB & HB).
  destruct (numbered_nodup dou el ne Hn) as [ND LD].
  assert (DF : forall a, In a (dofs el ne) -> exists i, (i < N)%nat /\ a = mkDof (nth i el O) (nth 0 dou O) i).
  { intros a Ha. destruct (numbered_dofs 1 dou a el ne Hn Ha) as (i & j & Hi & Hj & ->). exists i. split; auto. f_equal; [f_equal|]; lia. }
  assert (D0 : In (nth 0 dou O) dou) by (apply nth_In; lia).
  destruct (element_vector_ok T el ne) as (Te & ET & LT & HTe); [destruct Hn as [-> _]; fold N; lia| |exact ND|].
  { intros a Ha. destruct (DF a Ha) as (i & Hi & ->). cbn [dnode ddof dloc]. split; [|rewrite LD; exact Hi]. apply HT; auto. now apply nth_In. }
  destruct (Rmmulv B Te N N _ (fun i => nth i Te 0) HB) as (b & Eb & Hb). { rewrite LD in LT. fold N in LT. rewrite <- LT. apply is_vec_of_list. }
  set (fe := match Fe with Some v => v | None => repeat 0 N end).
  assert (Lfe : length fe = N) by (unfold fe; destruct Fe; [exact LFe|apply repeat_length]).
  assert (exists b2, match Fe with None => Ok b | Some f => vadd R_ops b f end = Ok b2 /\ length b2 = N /\ forall i, (i < N)%nat -> nth i b2 0 = nth i b 0 + nth i fe 0) as (b2 & Eb2 & Lb2 & Hb2).
  { destruct Fe as [v|].
    - destruct (Rvadd b v N _ (fun i => nth i v 0) Hb) as (z & Ez & Hz). { rewrite <- LFe. apply is_vec_of_list. }
      exists z. splits; auto; [apply Hz|]. intros i Hi. rewrite (is_vec_nth _ _ _ _ Hz Hi). unfold fe. f_equal. symmetry. exact (is_vec_nth _ _ _ _ Hb Hi).
    - exists b. splits; auto; [apply Hb|]. intros i Hi. unfold fe. rewrite nth_repeat. lra. }
  exists (mkElem el ne C fe), (mkElem el ne K (repeat 0 N)), (mkElem el ne A b2). cbn [e_nodes e_nte e_K e_F]. unfold made_by. cbn [p_shape p_rule p_nodes e_nodes e_nte e_K]. unfold e_dofs. cbn [e_nodes e_nte].
  assert (MA : mrow A = N /\ mcol A = N /\ mat_wf A) by (splits; apply HA). assert (MC : mrow C = N /\ mcol C = N /\ mat_wf C) by (splits; apply Hc).
  assert (KE : forall M f (F : list R) a b, is_mat M N N f -> In a (dofs el ne) -> In b (dofs el ne) -> e_k (mkElem el ne M F) (dloc a) (dloc b) = f (dloc a) (dloc b)).
  { intros M f F a b' HM' Ha Hb'. destruct (DF a Ha) as (i & Hi & ->). destruct (DF b' Hb') as (i' & Hi' & ->). cbn [dloc]. unfold e_k. cbn [e_K]. now rewrite (mat_entry _ _ _ _ _ _ HM'). }
  splits; auto.
  - unfold carries. rewrite EL. unfold e_f. cbn [e_F]. unfold fe. destruct Fe; [auto|]. intros a. apply nth_repeat.
  - intros t Ht. assert (G : forall M F, mrow M = N /\ mcol M = N /\ mat_wf M -> length F = N -> elem_fits t (mkElem el ne M F)).
    { intros M F (R1 & C2 & Wf) LF. unfold elem_fits, e_dofs. cbn [e_nodes e_nte e_K e_F]. split; [destruct Hn as [-> _]; fold N; lia|]. split; auto.
      intros a Ha. destruct (DF a Ha) as (i & Hi & ->). cbn [dnode ddof dloc]. splits; [|lia..]. apply Ht; auto. now apply nth_In. }
    split; apply G; auto.
  - intros t acc. unfold theta_add. rewrite EK, EC. cbn [bind]. rewrite EL. cbn [bind]. rewrite ET. cbn [bind]. unfold theta_element. rewrite EC1. cbn [bind]. rewrite EA. cbn [bind]. rewrite EB. cbn [bind]. rewrite Eb. cbn [bind]. rewrite Eb2. reflexivity.
  - intros a b' Ha Hb'. rewrite (KE A _ _ a b' HA Ha Hb'), (KE C _ _ a b' Hc Ha Hb'), (KE K _ _ a b' Hk Ha Hb'). ring.
  - intros a Ha. unfold e_f. cbn [e_F]. destruct (DF a Ha) as (i & Hi & Ea). rewrite Ea at 1 2. cbn [dloc]. rewrite Hb2 by auto. rewrite Rplus_comm. f_equal.
    rewrite (is_vec_nth _ _ _ _ Hb Hi). rewrite (numbered_sum 1 dou el ne _ Hn). fold N. apply bigsum_ext. intros i' Hi'. cbn [bigsum]. rewrite Rplus_0_l.
    replace (1 * i' + 0)%nat with i' by lia. cbn [dloc].
    assert (Hin : In (mkDof (nth i' el O) (nth 0 dou O) i') (dofs el ne)).
    { assert (Hs : In i' (map dloc (dofs el ne))).
      { assert (I : incl (seq 0 N) (map dloc (dofs el ne))).
        { apply NoDup_length_incl; [exact ND|rewrite seq_length, map_length, LD; auto|]. intros x Hx. apply in_map_iff in Hx. destruct Hx as (y & <- & Hy). destruct (DF y Hy) as (z & Hz & ->). apply in_seq. cbn. lia. }
        apply I, in_seq. lia. }
      apply in_map_iff in Hs. destruct Hs as (y & Ey & Hy). destruct (DF y Hy) as (z & Hz & E). rewrite E in Ey. cbn [dloc] in Ey. subst z. rewrite <- E. exact Hy. }
    rewrite <- (HTe _ Hin). cbn [dloc]. pose proof (KE C _ fe a _ Hc Ha Hin) as K1. pose proof (KE K _ (repeat 0 N) a _ Hk Ha Hin) as K2. cbn [dloc] in K1, K2. rewrite K1, K2, Ea. cbn [dloc]. ring.
Qed.
