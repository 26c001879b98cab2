(** Assembly: effect of every overload. *)
From Coq Require Import List Arith Lia Bool Reals Lra Permutation.
From Verif Require Import Res SumR SparseModel SparseSpec SparseProof DenseModel DenseSpec DenseProof DenseR DenseMain
  LUProof AssemblyModel AssemblySpec.
Import ListNotations.
Local Open Scope R_scope.

(** ** Flattening the loops *)
Lemma foldM_map {S X Y} (f : S -> Y -> res S) (g : X -> Y) l s :
  foldM f (map g l) s = foldM (fun s x => f s (g x)) l s.
Proof. revert s; induction l as [|x l IH]; intros s; cbn [map foldM]; auto. destruct (f s (g x)); cbn [bind]; auto. Qed.

Lemma foldM_seq_S {S} (f : S -> nat -> res S) n m s :
  foldM f (seq (Datatypes.S n) m) s = foldM (fun s i => f s (Datatypes.S i)) (seq n m) s.
Proof. rewrite <- seq_shift. apply foldM_map. Qed.

Lemma foldM_ext {S X} (f g : S -> X -> res S) l s :
  (forall s x, In x l -> f s x = g s x) -> foldM f l s = foldM g l s.
Proof.
  revert s; induction l as [|x l IH]; intros s H; cbn [foldM]; auto.
  rewrite H by (left; auto). destruct (g s x); cbn [bind]; auto. apply IH. intros; apply H; right; auto.
Qed.

Lemma rd_S {A} (x : A) l i : rd (x :: l) (S i) = rd l i.
Proof. reflexivity. Qed.

Lemma for_dofs_flat {S} element nte (body : S -> nat -> nat -> nat -> res S) s :
  (length element <= length nte)%nat ->
  for_dofs element nte body s =
  foldM (fun s a => body s (dnode a) (ddof a) (dloc a)) (dofs element nte) s.
Proof.
  unfold for_dofs. revert nte s; induction element as [|e es IH]; intros nte s HL; [reflexivity|].
  destruct nte as [|nt nts]; [cbn in HL; lia|]. cbn [length seq foldM dofs].
  rewrite foldM_app, foldM_map. cbn [dnode ddof dloc].
  change (rd (nt :: nts) 0) with (Ok nt). cbn [bind].
  change (fun s d => e0 <- rd (e :: es) 0 ;; body s e0 (fst d) (snd d))
    with (fun (s : S) (d : nat * nat) => body s e (fst d) (snd d)).
  destruct (foldM (fun s d => body s e (fst d) (snd d)) nt s) as [s1|]; cbn [bind]; auto.
  rewrite foldM_seq_S. rewrite <- IH by (cbn in HL; lia). reflexivity.
Qed.

Lemma for_groups_flat {S} elements ntes (body : S -> nat -> nat -> nat -> res S) s :
  Forall2 (fun el nte => length el = length nte) elements ntes ->
  for_groups elements ntes body s = for_dofs (concat elements) (concat ntes) body s.
Proof.
  intros HF. rewrite for_dofs_flat.
  2:{ induction HF; cbn; auto. rewrite !app_length. lia. }
  unfold for_groups. revert s. induction HF as [|el nte els ntes' HL HF IH]; intros s; [reflexivity|].
  cbn [length seq foldM concat]. change (rd (el :: els) 0) with (Ok el). change (rd (nte :: ntes') 0) with (Ok nte). cbn [bind].
  assert (HD : dofs (el ++ concat els) (nte ++ concat ntes') = dofs el nte ++ dofs (concat els) (concat ntes')).
  { clear - HL. revert nte HL. induction el as [|e el IH]; intros [|nt nte] HL; cbn in *; try lia; auto.
    rewrite <- app_assoc, IH by lia. reflexivity. }
  rewrite HD, foldM_app, <- (for_dofs_flat el nte) by lia. unfold for_dofs at 1.
  match goal with |- bind ?x _ = bind ?y _ => replace x with y by (apply foldM_ext; intros; reflexivity) end.
  destruct (foldM _ (seq 0 (length el)) s) as [s1|]; cbn [bind]; auto.
  rewrite foldM_seq_S. rewrite <- IH. reflexivity.
Qed.

Lemma dofs_app el nte els nts : length el = length nte ->
  dofs (el ++ els) (nte ++ nts) = dofs el nte ++ dofs els nts.
Proof.
  intros HL. revert nte HL. induction el as [|e el IH]; intros [|nt nte] HL; cbn in *; try lia; auto.
  rewrite <- app_assoc, IH by lia. reflexivity.
Qed.

(** ** Accessors *)
Lemma n2g_ok (t : table) i j : in_table t i j -> n2g t i j = Ok (num t i j).
Proof.
  unfold in_table, n2g, num. intros H. destruct (Nat.lt_ge_cases i (length t)).
  - rewrite (rd_nth t i []) by auto. cbn [bind]. now apply rd_nth.
  - rewrite nth_overflow in H by lia. cbn in H. lia.
Qed.
Lemma uget_ok u i j : in_table u i j -> uget u i j = Ok (uval u i j).
Proof.
  unfold in_table, uget, uval. intros H. destruct (Nat.lt_ge_cases i (length u)).
  - rewrite (rd_nth u i []) by auto. cbn [bind]. unfold vget.
    destruct (Nat.ltb_spec j (length (nth i u []))); [|lia]. cbn [assert_ bind]. now apply rd_nth.
  - rewrite nth_overflow in H by lia. cbn in H. lia.
Qed.

Lemma vec_is_ext n F H H' : (forall i, (i < n)%nat -> H i = H' i) -> vec_is n F H -> vec_is n F H'.
Proof. intros E (L & HH). split; auto. intros i Hi. rewrite HH, E; auto. Qed.
Lemma mat_is_ext n K G G' : (forall i j, (i < n)%nat -> G i j = G' i j) -> mat_is n K G -> mat_is n K G'.
Proof. intros E (A & B & C & D & F). unfold mat_is. splits; auto. intros i j Hi. rewrite F, E; auto. Qed.

Lemma fadd_ok n F H k v : vec_is n F H -> (k < n)%nat ->
  exists F', fadd F k v = Ok F' /\ vec_is n F' (fun i => H i + (if (k =? i)%nat then v else 0)).
Proof.
  intros (L & HH) Hk. unfold fadd. rewrite (rd_nth F k 0) by lia. cbn [bind]. rewrite wr_Ok by lia.
  eexists; split; [reflexivity|]. split; [now rewrite upd_length|]. intros i Hi. rewrite nth_upd.
  destruct (Nat.eqb_spec k i), (Nat.ltb_spec k (length F)); cbn [andb]; subst; try lia.
  - now rewrite HH. - rewrite HH by auto. lra.
Qed.
Lemma fsub_ok n F H k v : vec_is n F H -> (k < n)%nat ->
  exists F', fsub F k v = Ok F' /\ vec_is n F' (fun i => H i - (if (k =? i)%nat then v else 0)).
Proof.
  intros (L & HH) Hk. unfold fsub. rewrite (rd_nth F k 0) by lia. cbn [bind]. rewrite wr_Ok by lia.
  eexists; split; [reflexivity|]. split; [now rewrite upd_length|]. intros i Hi. rewrite nth_upd.
  destruct (Nat.eqb_spec k i), (Nat.ltb_spec k (length F)); cbn [andb]; subst; try lia.
  - now rewrite HH. - rewrite HH by auto. lra.
Qed.

Lemma kadd_ok n K G gi gj v : mat_is n K G -> (gi < n)%nat -> (gj < n)%nat ->
  exists K', kadd K gi gj v = Ok K' /\
    mat_is n K' (fun i j => G i j + (if ((gi =? i) && (gj =? j))%nat then v else 0)).
Proof.
  intros (W & HR & HC & HK & HG) Hi Hj. unfold kadd. rewrite HG by auto. cbn [bind].
  unfold lil_set. destruct W as [HL HN]. rewrite HR in HL.
  destruct (rd_lt (ldata K) gi) as [row Erow]; [lia|]. rewrite Erow. cbn [bind].
  destruct (row_set row gj (G gi gj + v)) as [b row'] eqn:Es. cbn [bind].
  assert (Er : row' = snd (row_set row gj (G gi gj + v))) by now rewrite Es.
  eexists; split; [reflexivity|]. unfold mat_is, lil_wf, lil_cols_ok. cbn [lrows lcols ldata]. rewrite upd_length.
  assert (Hin : In row (ldata K)) by (apply rd_Ok in Erow; eapply nth_error_In; eauto).
  assert (Hup : forall r, In r (upd (ldata K) gi row') -> r = row' \/ In r (ldata K)).
  { intros r Hr. apply In_nth_error in Hr. destruct Hr as [k Hk]. rewrite nth_error_upd in Hk.
    destruct (_ && _); [left; congruence|right; eapply nth_error_In; eauto]. }
  splits; auto; try lia.
  - intros r Hr. apply Hup in Hr. destruct Hr as [->|Hr]; auto. rewrite Er. apply row_set_NoDup; auto.
  - intros r c Hr Hc. apply Hup in Hr. destruct Hr as [->|Hr]; [|eapply HK; eauto].
    rewrite Er, row_set_keys in Hc. destruct (row_mem row gj); [eapply HK; eauto|].
    apply in_app_or in Hc. destruct Hc as [Hc|[<-|[]]]; [eapply HK; eauto|lia].
  - intros i j Hi'. unfold lil_get. cbn [ldata]. unfold rd. rewrite nth_error_upd.
    specialize (HG i j Hi'). unfold lil_get in HG.
    destruct (Nat.ltb_spec gi (length (ldata K))) as [Hl|Hl]; [|lia].
    destruct (Nat.eqb_spec gi i) as [E|Hne]; [subst i|]; cbn [andb].
    + cbn [bind]. rewrite Er, row_set_get. rewrite Erow in HG. cbn [bind] in HG.
      destruct (Nat.eqb_spec gj j) as [E|]; [subst j; auto|]. rewrite Rplus_0_r. auto.
    + unfold rd in HG. rewrite HG. f_equal. lra.
Qed.

Lemma sum_over_cons {A} (x : A) l f : sum_over (x :: l) f = f x + sum_over l f.
Proof. reflexivity. Qed.
Lemma sum_over_nil {A} (f : A -> R) : sum_over [] f = 0.
Proof. reflexivity. Qed.

Ltac unind := repeat match goal with |- context [ind ?b ?x] => change (ind b x) with (if b then x else 0) end.

Section OneElement.
Variables (n : nat) (t : table) (u : list (list R)) (e : elem).
Hypothesis Hok : elem_ok n t u e.

Let Ke := e_K e. Let Fe := e_F e.

Lemma ke_get a b : In a (e_dofs e) -> In b (e_dofs e) -> mget Ke (dloc a) (dloc b) = Ok (e_k e (dloc a) (dloc b)).
Proof.
  destruct Hok as (_ & W & H). intros Ha Hb.
  destruct (H a Ha) as (_ & _ & _ & Ra & _). destruct (H b Hb) as (_ & _ & _ & _ & Cb & _).
  unfold e_k. apply (mget_ok R_ops); auto.
Qed.
Lemma fe_get a : In a (e_dofs e) -> vget Fe (dloc a) = Ok (e_f e (dloc a)).
Proof.
  destruct Hok as (_ & _ & H). intros Ha. destruct (H a Ha) as (_ & _ & _ & _ & _ & L).
  unfold vget, e_f. fold Fe in L. destruct (Nat.ltb_spec (dloc a) (length Fe)); [|lia]. cbn [assert_ bind]. now apply rd_nth.
Qed.
Lemma num_get a : In a (e_dofs e) -> n2g t (dnode a) (ddof a) = Ok (dnum t a).
Proof. destruct Hok as (_ & _ & H). intros Ha. apply n2g_ok. now destruct (H a Ha). Qed.
Lemma u_get a : In a (e_dofs e) -> uget u (dnode a) (ddof a) = Ok (duval u a).
Proof. destruct Hok as (_ & _ & H). intros Ha. apply uget_ok. now destruct (H a Ha) as (_ & ? & _). Qed.
Lemma num_lt a k : In a (e_dofs e) -> dnum t a = Some k -> (k < n)%nat.
Proof. destruct Hok as (_ & _ & H). intros Ha. destruct (H a Ha) as (_ & _ & X & _). apply X. Qed.

(** one row of the element *)
Definition kterm a b (gi gj : nat) := ind (is_eq (dnum t a) gi && is_eq (dnum t b) gj) (e_k e (dloc a) (dloc b)).
Definition dterm a b (gi : nat) := ind (is_eq (dnum t a) gi && match dnum t b with None => true | _ => false end)
   (e_k e (dloc a) (dloc b) * duval u b).

Lemma entries_ok a r : In a (e_dofs e) -> dnum t a = Some r -> forall bs K F G H,
  incl bs (e_dofs e) -> mat_is n K G -> vec_is n F H ->
  exists K' F', foldM (fun s b => asm_entry u Ke t r (dloc a) s (dnode b) (ddof b) (dloc b)) bs (K, F) = Ok (K', F') /\
    mat_is n K' (fun i j => G i j + sum_over bs (fun b => kterm a b i j)) /\
    vec_is n F' (fun i => H i - sum_over bs (fun b => dterm a b i)).
Proof.
  intros Ha Er. pose proof (num_lt a r Ha Er) as Hr.
  induction bs as [|b bs IH]; intros K F G H Hi HK HF.
  - exists K, F. cbn [foldM]. splits; auto.
    + revert HK; apply mat_is_ext. intros. rewrite sum_over_nil. lra.
    + revert HF; apply vec_is_ext. intros. rewrite sum_over_nil. lra.
  - assert (Hb : In b (e_dofs e)) by (apply Hi; left; auto).
    assert (Hbs : incl bs (e_dofs e)) by (intros x Hx; apply Hi; right; auto).
    cbn [foldM]. unfold asm_entry at 1. rewrite num_get by auto. cbn [bind].
    destruct (dnum t b) as [c|] eqn:Eb.
    + rewrite ke_get by auto. cbn [bind]. pose proof (num_lt b c Hb Eb) as Hc.
      destruct (kadd_ok n K G r c (e_k e (dloc a) (dloc b)) HK Hr Hc) as (K1 & E1 & HK1). rewrite E1. cbn [bind].
      destruct (IH K1 F _ H Hbs HK1 HF) as (K' & F' & E' & HK' & HF'). exists K', F'. splits; auto.
      * revert HK'; apply mat_is_ext. intros. rewrite sum_over_cons. unfold kterm at 2. rewrite Er, Eb. cbn [is_eq].
        unfold ind. lra.
      * revert HF'; apply vec_is_ext. intros. rewrite sum_over_cons. unfold dterm at 2. rewrite Er, Eb.
        rewrite andb_false_r. unfold ind. lra.
    + rewrite ke_get, u_get by auto. cbn [bind].
      destruct (fsub_ok n F H r (e_k e (dloc a) (dloc b) * duval u b) HF Hr) as (F1 & E1 & HF1). rewrite E1. cbn [bind].
      destruct (IH K F1 G _ Hbs HK HF1) as (K' & F' & E' & HK' & HF'). exists K', F'. splits; auto.
      * revert HK'; apply mat_is_ext. intros. rewrite sum_over_cons. unfold kterm at 2. rewrite Eb. cbn [is_eq].
        rewrite andb_false_r. unfold ind. lra.
      * revert HF'; apply vec_is_ext. intros. rewrite sum_over_cons. unfold dterm at 2. rewrite Er, Eb. cbn [is_eq].
        rewrite andb_true_r. unfold ind. lra.
Qed.

Lemma kterm_none a b i j : dnum t a = None -> kterm a b i j = 0.
Proof. unfold kterm. now intros ->. Qed.
Lemma dterm_none a b i : dnum t a = None -> dterm a b i = 0.
Proof. unfold dterm. now intros ->. Qed.
Lemma sum_zero {A} (l : list A) f : (forall x, In x l -> f x = 0) -> sum_over l f = 0.
Proof. apply sumlist_map_zero. Qed.
Lemma sum_ext {A} (l : list A) f g : (forall x, In x l -> f x = g x) -> sum_over l f = sum_over l g.
Proof. intros H. apply sumlist_map_ext; auto. Qed.

(** Assembling.h:21-42 *)
Lemma assemble_KFe_ok K F G H : mat_is n K G -> vec_is n F H ->
  exists K' F', assemble_KFe (K, F) u Ke Fe t (e_nte e) (e_nodes e) = Ok (K', F') /\
    mat_is n K' (fun i j => G i j + k_contrib t e i j) /\
    vec_is n F' (fun i => H i - d_contrib t u e i + f_contrib t e i).
Proof.
  intros HK HF. unfold assemble_KFe. rewrite for_dofs_flat by apply Hok. unfold k_contrib, d_contrib, f_contrib. fold (e_dofs e).
  set (D := e_dofs e) at 1 2 4 6. assert (HD : incl D (e_dofs e)) by apply incl_refl. clearbody D.
  revert K F G H HK HF. induction D as [|a D IH]; intros K F G H HK HF.
  - exists K, F. cbn [foldM]. splits; auto.
    + revert HK; apply mat_is_ext. intros. rewrite sum_over_nil. lra.
    + revert HF; apply vec_is_ext. intros. rewrite !sum_over_nil. lra.
  - assert (Ha : In a (e_dofs e)) by (apply HD; left; auto).
    assert (HDs : incl D (e_dofs e)) by (intros x Hx; apply HD; right; auto). specialize (IH HDs).
    cbn [foldM]. rewrite num_get by auto. cbn [bind]. destruct (dnum t a) as [r|] eqn:Er.
    + rewrite for_dofs_flat by apply Hok. fold (e_dofs e).
      destruct (entries_ok a r Ha Er (e_dofs e) K F G H (incl_refl _) HK HF) as (K1 & F1 & E1 & HK1 & HF1).
      rewrite E1. cbn [bind]. rewrite fe_get by auto. cbn [bind].
      destruct (fadd_ok n F1 _ r (e_f e (dloc a)) HF1 (num_lt a r Ha Er)) as (F2 & E2 & HF2). rewrite E2. cbn [bind].
      destruct (IH K1 F2 _ _ HK1 HF2) as (K' & F' & E' & HK' & HF'). exists K', F'. splits; auto.
      * revert HK'; apply mat_is_ext. intros. rewrite sum_over_cons. unfold kterm. lra.
      * revert HF'; apply vec_is_ext. intros. rewrite !sum_over_cons. unfold dterm. rewrite Er. cbn [is_eq]. unind. lra.
    + cbn [bind]. destruct (IH K F G H HK HF) as (K' & F' & E' & HK' & HF'). exists K', F'. splits; auto.
      * revert HK'; apply mat_is_ext. intros. rewrite sum_over_cons, Er. cbn [is_eq andb].
        rewrite (sum_zero (e_dofs e) (fun b => ind false _)) by reflexivity. lra.
      * revert HF'; apply vec_is_ext. intros. rewrite !sum_over_cons, Er. cbn [is_eq andb].
        rewrite (sum_zero (e_dofs e) (fun b => ind false _)) by reflexivity. unind. lra.
Qed.

(** Assembling.h:46-66 *)
Lemma assemble_K_F_ok K F G H : mat_is n K G -> vec_is n F H ->
  exists K' F', assemble_K_F (K, F) u Ke t (e_nte e) (e_nodes e) = Ok (K', F') /\
    mat_is n K' (fun i j => G i j + k_contrib t e i j) /\
    vec_is n F' (fun i => H i - d_contrib t u e i).
Proof.
  intros HK HF. unfold assemble_K_F. rewrite for_dofs_flat by apply Hok. unfold k_contrib, d_contrib. fold (e_dofs e).
  set (D := e_dofs e) at 1 2 4. assert (HD : incl D (e_dofs e)) by apply incl_refl. clearbody D.
  revert K F G H HK HF. induction D as [|a D IH]; intros K F G H HK HF.
  - exists K, F. cbn [foldM]. splits; auto.
    + revert HK; apply mat_is_ext. intros. rewrite sum_over_nil. lra.
    + revert HF; apply vec_is_ext. intros. rewrite !sum_over_nil. lra.
  - assert (Ha : In a (e_dofs e)) by (apply HD; left; auto).
    assert (HDs : incl D (e_dofs e)) by (intros x Hx; apply HD; right; auto). specialize (IH HDs).
    cbn [foldM]. rewrite num_get by auto. cbn [bind]. destruct (dnum t a) as [r|] eqn:Er.
    + rewrite for_dofs_flat by apply Hok. fold (e_dofs e).
      destruct (entries_ok a r Ha Er (e_dofs e) K F G H (incl_refl _) HK HF) as (K1 & F1 & E1 & HK1 & HF1).
      rewrite E1. cbn [bind].
      destruct (IH K1 F1 _ _ HK1 HF1) as (K' & F' & E' & HK' & HF'). exists K', F'. splits; auto.
      * revert HK'; apply mat_is_ext. intros. rewrite sum_over_cons. unfold kterm. lra.
      * revert HF'; apply vec_is_ext. intros. rewrite !sum_over_cons. unfold dterm. lra.
    + cbn [bind]. destruct (IH K F G H HK HF) as (K' & F' & E' & HK' & HF'). exists K', F'. splits; auto.
      * revert HK'; apply mat_is_ext. intros. rewrite sum_over_cons, Er. cbn [is_eq andb].
        rewrite (sum_zero (e_dofs e) (fun b => ind false _)) by reflexivity. lra.
      * revert HF'; apply vec_is_ext. intros. rewrite !sum_over_cons, Er. cbn [is_eq andb].
        rewrite (sum_zero (e_dofs e) (fun b => ind false _)) by reflexivity. lra.
Qed.

(** Assembling.h:98-114 *)
Lemma assemble_K_ok K G : mat_is n K G ->
  exists K', assemble_K K Ke t (e_nte e) (e_nodes e) = Ok K' /\
    mat_is n K' (fun i j => G i j + k_contrib t e i j).
Proof.
  intros HK. unfold assemble_K. rewrite for_dofs_flat by apply Hok. unfold k_contrib. fold (e_dofs e).
  set (D := e_dofs e) at 1 2. assert (HD : incl D (e_dofs e)) by apply incl_refl. clearbody D.
  revert K G HK. induction D as [|a D IH]; intros K G HK.
  - exists K. cbn [foldM]. splits; auto. revert HK; apply mat_is_ext. intros. rewrite sum_over_nil. lra.
  - assert (Ha : In a (e_dofs e)) by (apply HD; left; auto).
    assert (HDs : incl D (e_dofs e)) by (intros x Hx; apply HD; right; auto). specialize (IH HDs).
    cbn [foldM]. rewrite num_get by auto. cbn [bind]. destruct (dnum t a) as [r|] eqn:Er.
    + rewrite for_dofs_flat by apply Hok. fold (e_dofs e).
      assert (HX : forall bs K G, incl bs (e_dofs e) -> mat_is n K G ->
        exists K', foldM (fun K b => gb <- n2g t (dnode b) (ddof b) ;;
           match gb with Some gj => v <- mget Ke (dloc a) (dloc b) ;; kadd K r gj v | None => Ok K end) bs K = Ok K' /\
        mat_is n K' (fun i j => G i j + sum_over bs (fun b => kterm a b i j))).
      { clear K G HK. induction bs as [|b bs IHb]; intros K G Hi HK.
        - exists K. cbn [foldM]. splits; auto. revert HK; apply mat_is_ext. intros. rewrite sum_over_nil. lra.
        - assert (Hb : In b (e_dofs e)) by (apply Hi; left; auto).
          assert (Hbs : incl bs (e_dofs e)) by (intros x Hx; apply Hi; right; auto).
          cbn [foldM]. rewrite num_get by auto. cbn [bind]. destruct (dnum t b) as [c|] eqn:Eb.
          + rewrite ke_get by auto. cbn [bind].
            destruct (kadd_ok n K G r c (e_k e (dloc a) (dloc b)) HK (num_lt a r Ha Er) (num_lt b c Hb Eb)) as (K1 & E1 & HK1).
            rewrite E1. cbn [bind]. destruct (IHb K1 _ Hbs HK1) as (K' & E' & HK'). exists K'. split; auto.
            revert HK'; apply mat_is_ext. intros. rewrite sum_over_cons. unfold kterm at 2. rewrite Er, Eb. cbn [is_eq].
            unfold ind. lra.
          + cbn [bind]. destruct (IHb K G Hbs HK) as (K' & E' & HK'). exists K'. split; auto.
            revert HK'; apply mat_is_ext. intros. rewrite sum_over_cons. unfold kterm at 2. rewrite Eb. cbn [is_eq].
            rewrite andb_false_r. unfold ind. lra. }
      destruct (HX (e_dofs e) K G (incl_refl _) HK) as (K1 & E1 & HK1). rewrite E1. cbn [bind].
      destruct (IH K1 _ HK1) as (K' & E' & HK'). exists K'. split; auto.
      revert HK'; apply mat_is_ext. intros. rewrite sum_over_cons. unfold kterm. lra.
    + cbn [bind]. destruct (IH K G HK) as (K' & E' & HK'). exists K'. split; auto.
      revert HK'; apply mat_is_ext. intros. rewrite sum_over_cons, Er. cbn [is_eq andb].
      rewrite (sum_zero (e_dofs e) (fun b => ind false _)) by reflexivity. lra.
Qed.

(** Assembling.h:118-127 *)
Lemma assemble_F_ok F H : vec_is n F H ->
  exists F', assemble_F F Fe t (e_nte e) (e_nodes e) = Ok F' /\ vec_is n F' (fun i => H i + f_contrib t e i).
Proof.
  intros HF. unfold assemble_F. rewrite for_dofs_flat by apply Hok. unfold f_contrib. fold (e_dofs e).
  set (D := e_dofs e). assert (HD : incl D (e_dofs e)) by apply incl_refl. clearbody D.
  revert F H HF. induction D as [|a D IH]; intros F H HF.
  - exists F. cbn [foldM]. split; auto. revert HF; apply vec_is_ext. intros. rewrite sum_over_nil. lra.
  - assert (Ha : In a (e_dofs e)) by (apply HD; left; auto).
    assert (HDs : incl D (e_dofs e)) by (intros x Hx; apply HD; right; auto). specialize (IH HDs).
    cbn [foldM]. rewrite num_get by auto. cbn [bind]. destruct (dnum t a) as [r|] eqn:Er.
    + rewrite fe_get by auto. cbn [bind].
      destruct (fadd_ok n F H r (e_f e (dloc a)) HF (num_lt a r Ha Er)) as (F2 & E2 & HF2). rewrite E2. cbn [bind].
      destruct (IH F2 _ HF2) as (F' & E' & HF'). exists F'. split; auto.
      revert HF'; apply vec_is_ext. intros. rewrite sum_over_cons, Er. cbn [is_eq]. unind. lra.
    + cbn [bind]. destruct (IH F H HF) as (F' & E' & HF'). exists F'. split; auto.
      revert HF'; apply vec_is_ext. intros. rewrite sum_over_cons, Er. cbn [is_eq]. unind. lra.
Qed.

(** Assembling.h:131-147 *)
Lemma assemble_D_ok F H : vec_is n F H ->
  exists F', assemble_D F u Ke t (e_nte e) (e_nodes e) = Ok F' /\ vec_is n F' (fun i => H i - d_contrib t u e i).
Proof.
  intros HF. unfold assemble_D. rewrite for_dofs_flat by apply Hok. unfold d_contrib. fold (e_dofs e).
  set (D := e_dofs e) at 1 2. assert (HD : incl D (e_dofs e)) by apply incl_refl. clearbody D.
  revert F H HF. induction D as [|a D IH]; intros F H HF.
  - exists F. cbn [foldM]. split; auto. revert HF; apply vec_is_ext. intros. rewrite sum_over_nil. lra.
  - assert (Ha : In a (e_dofs e)) by (apply HD; left; auto).
    assert (HDs : incl D (e_dofs e)) by (intros x Hx; apply HD; right; auto). specialize (IH HDs).
    cbn [foldM]. rewrite num_get by auto. cbn [bind]. destruct (dnum t a) as [r|] eqn:Er.
    + rewrite for_dofs_flat by apply Hok. fold (e_dofs e).
      assert (HX : forall bs F H, incl bs (e_dofs e) -> vec_is n F H ->
        exists F', foldM (fun F b => gb <- n2g t (dnode b) (ddof b) ;;
           match gb with Some _ => Ok F | None => k <- mget Ke (dloc a) (dloc b) ;; x <- uget u (dnode b) (ddof b) ;; fsub F r (k * x) end) bs F = Ok F' /\
        vec_is n F' (fun i => H i - sum_over bs (fun b => dterm a b i))).
      { clear F H HF. induction bs as [|b bs IHb]; intros F H Hi HF.
        - exists F. cbn [foldM]. split; auto. revert HF; apply vec_is_ext. intros. rewrite sum_over_nil. lra.
        - assert (Hb : In b (e_dofs e)) by (apply Hi; left; auto).
          assert (Hbs : incl bs (e_dofs e)) by (intros x Hx; apply Hi; right; auto).
          cbn [foldM]. rewrite num_get by auto. cbn [bind]. destruct (dnum t b) as [c|] eqn:Eb.
          + cbn [bind]. destruct (IHb F H Hbs HF) as (F' & E' & HF'). exists F'. split; auto.
            revert HF'; apply vec_is_ext. intros. rewrite sum_over_cons. unfold dterm at 2. rewrite Eb.
            rewrite andb_false_r. unfold ind. lra.
          + rewrite ke_get, u_get by auto. cbn [bind].
            destruct (fsub_ok n F H r (e_k e (dloc a) (dloc b) * duval u b) HF (num_lt a r Ha Er)) as (F1 & E1 & HF1).
            rewrite E1. cbn [bind]. destruct (IHb F1 _ Hbs HF1) as (F' & E' & HF'). exists F'. split; auto.
            revert HF'; apply vec_is_ext. intros. rewrite sum_over_cons. unfold dterm at 2. rewrite Er, Eb. cbn [is_eq].
            rewrite andb_true_r. unfold ind. lra. }
      destruct (HX (e_dofs e) F H (incl_refl _) HF) as (F1 & E1 & HF1). rewrite E1. cbn [bind].
      destruct (IH F1 _ HF1) as (F' & E' & HF'). exists F'. split; auto.
      revert HF'; apply vec_is_ext. intros. rewrite sum_over_cons. unfold dterm. lra.
    + cbn [bind]. destruct (IH F H HF) as (F' & E' & HF'). exists F'. split; auto.
      revert HF'; apply vec_is_ext. intros. rewrite sum_over_cons, Er. cbn [is_eq andb].
      rewrite (sum_zero (e_dofs e) (fun b => ind false _)) by reflexivity. lra.
Qed.
End OneElement.

(** Assembling.h:151-158 *)
Lemma assemble_N_ok n t f : forall F H,
  (forall i j v, In (i, j, v) f -> in_table t i j /\ forall k, num t i j = Some k -> (k < n)%nat) ->
  vec_is n F H ->
  exists F', assemble_N F f t = Ok F' /\ vec_is n F' (fun i => H i + n_contrib t f i).
Proof.
  unfold assemble_N, n_contrib. induction f as [|[[i j] v] f IH]; intros F H Hf HF.
  - exists F. split; auto. revert HF; apply vec_is_ext. intros. rewrite sum_over_nil. lra.
  - cbn [foldM]. destruct (Hf i j v (or_introl eq_refl)) as [H1 H2]. rewrite n2g_ok by auto. cbn [bind].
    assert (Hf' : forall i j v, In (i, j, v) f -> in_table t i j /\ forall k, num t i j = Some k -> (k < n)%nat).
    { intros i' j' v' Hin. eapply Hf. right; eauto. }
    destruct (num t i j) as [k|] eqn:Ek.
    + destruct (fadd_ok n F H k v HF (H2 k eq_refl)) as (F1 & E1 & HF1). rewrite E1. cbn [bind].
      destruct (IH F1 _ Hf' HF1) as (F' & E' & HF'). exists F'. split; auto.
      revert HF'; apply vec_is_ext. intros. rewrite sum_over_cons. cbn [fst snd]. rewrite Ek. cbn [is_eq]. unind. lra.
    + cbn [bind]. destruct (IH F H Hf' HF) as (F' & E' & HF'). exists F'. split; auto.
      revert HF'; apply vec_is_ext. intros. rewrite sum_over_cons. cbn [fst snd]. rewrite Ek. cbn [is_eq]. unind. lra.
Qed.
