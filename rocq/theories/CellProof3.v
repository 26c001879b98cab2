(** The system of the homogenization sample. *)
From Coq Require Import List Arith Lia Bool Reals Lra.
From Verif Require Import Res SumR DenseModel DenseR DenseSpec ShapeModel QuadModel QuadSpec ElemModel ElemSpec HomSpec SparseModel SparseSpec AssemblyModel AssemblySpec KrylovSpec CellModel CellSpec.
From Verif Require Import DenseProof DenseMain SparseMain AssemblyProof AssemblyProof2 AssemblyProof3 AssemblyMain ElemProof ElemProof2 ElemProof3 ElemProof4 ElemMain HomProof HomMain StableProof3 ThetaProof5 TopProof4 CellProof CellProof2.
Import ListNotations.
Local Open Scope R_scope.

Definition fld (t : table) (x : nat -> R) : field := fun i j => match num t i j with Some k => x k | None => 0 end.

(** ** The numbers *)
Record tab_ok (d : cell) (t : table) (n : nat) : Prop := mkTab {
  to_run : cell_table d = Ok (t, n);
  to_shape : same_shape t (repeat (repeat (Some 0%nat) 2) (length (cl_x d)));
  to_in : forall i j, in_table t i j <-> (i < length (cl_x d))%nat /\ (j < 2)%nat;
  to_some : forall i j, (i < length (cl_x d))%nat -> (j < 2)%nat -> exists k, num t i j = Some k /\ (k < n)%nat;
  to_bound : forall i j k, num t i j = Some k -> (k < n)%nat;
  to_pair : forall m s j, In (m, s) (cl_pairs d) -> (j < 2)%nat -> num t s j = num t m j;
  to_inj : forall i j i' j' k, ~ In i (map snd (cl_pairs d)) -> ~ In i' (map snd (cl_pairs d)) -> num t i j = Some k -> num t i' j' = Some k -> i = i' /\ j = j';
  to_onto : forall k, (k < n)%nat -> exists i j, ~ In i (map snd (cl_pairs d)) /\ num t i j = Some k }.
Lemma num_in (t : table) i j k : num t i j = Some k -> in_table t i j.
Proof. unfold num, in_table. intros H. destruct (le_lt_dec (length (nth i t [])) j) as [L|L]; auto. rewrite nth_overflow in H by auto. discriminate. Qed.
Lemma tab_exists d : cell_ok d -> exists t n, tab_ok d t n.
Proof.
  intros HC. set (N := length (cl_x d)). set (t0 := repeat (repeat (Some 0%nat) 2) N).
  assert (HP : forall m s, In (m, s) (cl_pairs d) -> (s < length t0)%nat /\ (length (nth s t0 []) <= length (nth m t0 []))%nat).
  { intros m s Hin. destruct (ck_pairs d HC m s Hin) as [Hm Hs]. fold N in Hm, Hs. unfold t0. rewrite repeat_length. split; auto. rewrite !nth_repeat_in. destruct (Nat.ltb_spec s N); destruct (Nat.ltb_spec m N); cbn; lia. }
  destruct (set_periodic_ok t0 (cl_pairs d) HP) as (t & n & E & SH & P1 & P2 & P3 & P4 & P5). exists t, n.
  assert (PP : forall m s j, In (m, s) (cl_pairs d) -> (j < 2)%nat -> num t s j = num t m j).
  { destruct (C11_periodic_pf t0 (cl_pairs d) HP) as (t' & n' & E' & _ & _ & _ & _ & _ & _ & PP). rewrite E in E'. injection E' as <- <-.
    intros m s j Hin Hj. apply PP; [apply (ck_slaves d HC)|apply (ck_masters d HC)|auto|]. destruct (ck_pairs d HC m s Hin) as [_ Hs]. fold N in Hs. unfold t0. rewrite nth_repeat_in. destruct (Nat.ltb_spec s N); [cbn; lia|lia]. }
  assert (TI : forall i j, in_table t i j <-> (i < N)%nat /\ (j < 2)%nat). { intros i j. rewrite (same_shape_in t t0 i j SH). apply in_table_repeat. }
  assert (NS : forall i j, ~ In i (map snd (cl_pairs d)) -> (i < N)%nat -> (j < 2)%nat -> exists k, num t i j = Some k /\ (k < n)%nat).
  { intros i j Hs Hi Hj. destruct (num t i j) as [k|] eqn:En; [exists k; split; auto; eauto|]. apply (P1 i j Hs) in En. unfold t0 in En. rewrite num_repeat in En. destruct (Nat.ltb_spec i N), (Nat.ltb_spec j 2); try lia. discriminate. }
  split; fold N; [exact E|exact SH|exact TI| |exact P2|exact PP| | ]. 2: exact P3. 2: exact P4.
  intros i j Hi Hj. destruct (in_dec Nat.eq_dec i (map snd (cl_pairs d))) as [Hs|Hs]; [|now apply NS].
  apply in_map_iff in Hs. destruct Hs as ((m & s) & Es & Hin). cbn [snd] in Es. subst s. rewrite (PP m i j Hin Hj). apply NS; auto.
  - apply (ck_masters d HC). apply in_map_iff. exists (m, i). auto.
  - apply (ck_pairs d HC m i Hin).
Qed.
Lemma fld_periodic d t n x : tab_ok d t n -> periodic d (fld t x).
Proof. intros T m s j Hin Hj. unfold fld. now rewrite (to_pair d t n T m s j Hin Hj). Qed.
(** every periodic field is the field of a vector *)
Definition owner (N : nat) (t : table) (k : nat) : nat * nat :=
  match find (fun p => is_eq (num t (fst p) (snd p)) k) (list_prod (seq 0 N) [0%nat; 1%nat]) with Some p => p | None => (O, O) end.
Lemma rep_exists d t n i j : cell_ok d -> tab_ok d t n -> (i < length (cl_x d))%nat -> (j < 2)%nat ->
  exists m, ~ In m (map snd (cl_pairs d)) /\ num t m j = num t i j /\ forall w, periodic d w -> w m j = w i j.
Proof.
  intros HC T Hi Hj. destruct (in_dec Nat.eq_dec i (map snd (cl_pairs d))) as [Hs|Hs]; [|exists i; auto].
  apply in_map_iff in Hs. destruct Hs as ((m & s) & Es & Hin). cbn [snd] in Es. subst s. exists m. splits.
  - apply (ck_masters d HC). apply in_map_iff. exists (m, i). auto.
  - symmetry. exact (to_pair d t n T m i j Hin Hj).
  - intros w Hw. symmetry. now apply Hw.
Qed.
Lemma vec_of_field d t n w : cell_ok d -> tab_ok d t n -> periodic d w -> exists x, agree_on d (fld t x) w.
Proof.
  intros HC T Hw. set (N := length (cl_x d)). exists (fun k => w (fst (owner N t k)) (snd (owner N t k))). intros i j Hi Hj. fold N in Hi.
  destruct (to_some d t n T i j Hi Hj) as (k & Ek & _). unfold fld. rewrite Ek. unfold owner.
  destruct (find (fun p => is_eq (num t (fst p) (snd p)) k) (list_prod (seq 0 N) [0%nat; 1%nat])) as [[i' j']|] eqn:F.
  - apply find_some in F. destruct F as [Fi Fe]. apply in_prod_iff in Fi. destruct Fi as [Fi Fj]. apply in_seq in Fi. cbn [fst snd] in *. assert (Hj' : (j' < 2)%nat) by (destruct Fj as [<-|[<-|[]]]; lia).
    destruct (num t i' j') as [k'|] eqn:E'; [|discriminate]. cbn [is_eq] in Fe. apply Nat.eqb_eq in Fe. subst k'.
    destruct (rep_exists d t n i j HC T Hi Hj) as (m & M1 & M2 & M3). destruct (rep_exists d t n i' j' HC T ltac:(lia) Hj') as (m' & M1' & M2' & M3').
    destruct (to_inj d t n T m j m' j' k M1 M1' ltac:(congruence) ltac:(congruence)) as [-> ->]. rewrite <- (M3 w Hw). now rewrite <- (M3' w Hw).
  - exfalso. assert (Hin : In (i, j) (list_prod (seq 0 N) [0%nat; 1%nat])) by (apply in_prod_iff; split; [apply in_seq; lia|destruct j as [|[|]]; cbn; auto; lia]).
    pose proof (find_none _ _ F (i, j) Hin) as X. cbn [fst snd] in X. rewrite Ek in X. cbn [is_eq] in X. rewrite Nat.eqb_refl in X. discriminate.
Qed.

(** ** Assembling *)
Lemma d_contrib_zero d t e gi : d_contrib t (cell_zero d) e gi = 0.
Proof.
  unfold d_contrib. apply sum_zero. intros a _. apply sum_zero. intros b _. unfold duval, cell_zero. rewrite uval_zero, Rmult_0_r. now destruct (_ && _).
Qed.
Definition loads_is (n : nat) (a : loads) (G : nat -> nat -> R) (H0 H1 H2 : nat -> R) : Prop :=
  mat_is n (ld_K a) G /\ vec_is n (ld_F0 a) H0 /\ vec_is n (ld_F1 a) H1 /\ vec_is n (ld_F2 a) H2.
Lemma zero_in d i j : in_table (cell_zero d) i j <-> (i < length (cl_x d))%nat /\ (j < 2)%nat.
Proof. unfold cell_zero, vnew. apply in_table_repeat. Qed.
Lemma kel_eok d t n c el : cell_ok d -> tab_ok d t n -> In el (cl_elements d) -> (c < 3)%nat -> elem_ok n t (cell_zero d) (kel d c el).
Proof.
  intros HC T Hel Hc. apply (elem_fits_ok n (repeat (repeat (Some 0%nat) 2) (length (cl_x d))) t).
  - apply (kk_fits d el (kel_is d el HC Hel)); auto. intros k j Hk Hj. apply in_table_repeat. split; auto. now apply (node_in d el).
  - apply T.
  - intros i j. rewrite in_table_repeat, zero_in. auto.
  - apply T.
Qed.
Lemma sel_eok d t n el : cell_ok d -> tab_ok d t n -> In el (cl_elements d) -> elem_ok n t (cell_zero d) (sel d el).
Proof.
  intros HC T Hel. apply (elem_fits_ok n (repeat (repeat (Some 0%nat) 2) (length (cl_x d))) t).
  - apply (sk_fits d el (sel_is d el)); auto. intros k j Hk Hj. apply in_table_repeat. split; auto. now apply (node_in d el).
  - apply T.
  - intros i j. rewrite in_table_repeat, zero_in. auto.
  - apply T.
Qed.
Lemma add_one d t n el a G H0 H1 H2 : cell_ok d -> tab_ok d t n -> In el (cl_elements d) -> loads_is n a G H0 H1 H2 ->
  exists a', cell_add d (cell_zero d) (cell_zero d) (cell_zero d) t a el = Ok a' /\
    loads_is n a' (fun i j => G i j + k_contrib t (kel d 0 el) i j) (fun i => H0 i + f_contrib t (kel d 0 el) i) (fun i => H1 i + f_contrib t (kel d 1 el) i) (fun i => H2 i + f_contrib t (kel d 2 el) i).
Proof.
  intros HC T Hel (A & A0 & A1 & A2). pose proof (kel_is d el HC Hel) as KK. pose proof (fun c Hc => kel_eok d t n c el HC T Hel Hc) as KO.
  unfold cell_add. rewrite (kk_call d el KK). cbn [bind].
  assert (EN : forall c, (c < 3)%nat -> e_nodes (kel d c el) = el) by (intros c Hc; apply (kk_same d el KK c Hc)).
  assert (ENt : forall c, (c < 3)%nat -> e_nte (kel d c el) = e_nte (kel d 0 el)) by (intros c Hc; apply (kk_same d el KK c Hc)).
  destruct (assemble_K_ok n t (cell_zero d) (kel d 0 el) (KO 0%nat ltac:(lia)) _ _ A) as (K' & EK & HK). rewrite (EN 0%nat) in EK by lia. rewrite EK. cbn [bind].
  assert (DD : forall F H, vec_is n F H -> exists F', assemble_D F (cell_zero d) (e_K (kel d 0 el)) t (e_nte (kel d 0 el)) el = Ok F' /\ vec_is n F' H).
  { intros F H HF. destruct (assemble_D_ok n t (cell_zero d) (kel d 0 el) (KO 0%nat ltac:(lia)) F H HF) as (F' & EF & HF'). rewrite (EN 0%nat) in EF by lia. exists F'. split; auto.
    revert HF'. apply vec_is_ext. intros. rewrite d_contrib_zero. lra. }
  destruct (DD _ _ A0) as (F0 & E0 & V0). destruct (DD _ _ A1) as (F1 & E1 & V1). destruct (DD _ _ A2) as (F2 & E2 & V2). rewrite E0, E1, E2. cbn [bind].
  destruct (kk_load d el KK) as (F & EF & CO). rewrite EF. cbn [bind].
  assert (FF : forall c F H, (c < 3)%nat -> vec_is n F H -> exists F', assemble_F F (e_F (kel d c el)) t (e_nte (kel d 0 el)) el = Ok F' /\ vec_is n F' (fun i => H i + f_contrib t (kel d c el) i)).
  { intros c X H Hc HF. destruct (assemble_F_ok n t (cell_zero d) (kel d c el) (KO c Hc) X H HF) as (F' & E' & HF'). rewrite (EN c Hc), (ENt c Hc) in E'. eauto. }
  destruct (FF 0%nat _ _ ltac:(lia) V0) as (G0 & X0 & Y0). destruct (FF 1%nat _ _ ltac:(lia) V1) as (G1 & X1 & Y1). destruct (FF 2%nat _ _ ltac:(lia) V2) as (G2 & X2 & Y2).
  rewrite (CO 0%nat), (CO 1%nat), (CO 2%nat) by lia. cbn [bind]. rewrite X0. cbn [bind]. rewrite X1. cbn [bind]. rewrite X2. cbn [bind].
  eexists. split; [reflexivity|]. unfold loads_is. cbn [ld_K ld_F0 ld_F1 ld_F2]. auto.
Qed.
Lemma add_all d t n : cell_ok d -> tab_ok d t n -> forall els, (forall el, In el els -> In el (cl_elements d)) -> forall a G H0 H1 H2, loads_is n a G H0 H1 H2 ->
  exists a', foldM (cell_add d (cell_zero d) (cell_zero d) (cell_zero d) t) els a = Ok a' /\
    loads_is n a' (fun i j => G i j + sum_over els (fun el => k_contrib t (kel d 0 el) i j)) (fun i => H0 i + sum_over els (fun el => f_contrib t (kel d 0 el) i))
      (fun i => H1 i + sum_over els (fun el => f_contrib t (kel d 1 el) i)) (fun i => H2 i + sum_over els (fun el => f_contrib t (kel d 2 el) i)).
Proof.
  intros HC T. assert (LE : forall a G G' H0 H0' H1 H1' H2 H2', loads_is n a G H0 H1 H2 -> (forall i j, G i j = G' i j) -> (forall i, H0 i = H0' i) -> (forall i, H1 i = H1' i) -> (forall i, H2 i = H2' i) -> loads_is n a G' H0' H1' H2').
  { intros a G G' H0 H0' H1 H1' H2 H2' (A & B & C & D) EG E0 E1 E2. unfold loads_is. splits; [revert A; apply mat_is_ext|revert B; apply vec_is_ext|revert C; apply vec_is_ext|revert D; apply vec_is_ext]; intros; auto. }
  induction els as [|el els IH]; intros Hin a G H0 H1 H2 HA.
  - exists a. split; [reflexivity|]. eapply LE; [exact HA|..]; intros; cbv beta; rewrite sum_over_nil; ring.
  - destruct (add_one d t n el a G H0 H1 H2 HC T (Hin el (or_introl eq_refl)) HA) as (a1 & E1 & HA1). cbn [foldM]. rewrite E1. cbn [bind].
    destruct (IH (fun e He => Hin e (or_intror He)) a1 _ _ _ _ HA1) as (a2 & E2 & HA2). exists a2. split; auto. eapply LE; [exact HA2|..]; intros; cbv beta; rewrite sum_over_cons; ring.
Qed.
Lemma spring_all d t n : cell_ok d -> tab_ok d t n -> forall els, (forall el, In el els -> In el (cl_elements d)) -> forall K G, mat_is n K G ->
  exists K', foldM (cell_spring d t) els K = Ok K' /\ mat_is n K' (fun i j => G i j + sum_over els (fun el => k_contrib t (sel d el) i j)).
Proof.
  intros HC T. induction els as [|el els IH]; intros Hin K G HK.
  - exists K. split; [reflexivity|]. revert HK. apply mat_is_ext. intros. rewrite sum_over_nil. ring.
  - cbn [foldM]. unfold cell_spring at 1. pose proof (sel_is d el) as SK. rewrite (sk_call d el SK). cbn [bind].
    destruct (assemble_K_ok n t (cell_zero d) (sel d el) (sel_eok d t n el HC T (Hin el (or_introl eq_refl))) K G HK) as (K1 & E1 & HK1). rewrite (sk_nodes d el SK) in E1. rewrite E1. cbn [bind].
    destruct (IH (fun e He => Hin e (or_intror He)) K1 _ HK1) as (K2 & E2 & HK2). exists K2. split; auto. revert HK2. apply mat_is_ext. intros. rewrite sum_over_cons. ring.
Qed.

(** ** Forms *)
Lemma k_bil n t u e x y : elem_ok n t u e -> dot n x (fun i => bigsum n (fun j => k_contrib t e i j * y j)) = bil e (e_dofs e) (fld t x) (fld t y).
Proof.
  intros H. unfold dot. rewrite (bigsum_ext n _ (fun i => sum_over (e_dofs e) (fun a => ind (is_eq (dnum t a) i) (x i) * sum_over (e_dofs e) (fun b => e_k e (dloc a) (dloc b) * xval t y b)))).
  2:{ intros i Hi. rewrite (k_contrib_matvec n t u e y i H), <- sum_over_scal. apply sum_ext. intros a Ha. destruct (is_eq (dnum t a) i); cbn; lra. }
  rewrite bigsum_over. apply sum_ext. intros a Ha. rewrite bigsum_scal_r, (pick n).
  2:{ destruct H as (_ & _ & H). intros k Hk. destruct (H a Ha) as (_ & _ & X & _). auto. }
  reflexivity.
Qed.
Lemma f_lin n t u e x : elem_ok n t u e -> dot n x (f_contrib t e) = sum_over (e_dofs e) (fun a => e_f e (dloc a) * fld t x (dnode a) (ddof a)).
Proof.
  intros H. unfold dot, f_contrib. rewrite (bigsum_ext n _ (fun i => sum_over (e_dofs e) (fun a => e_f e (dloc a) * ind (is_eq (dnum t a) i) (x i)))).
  2:{ intros i Hi. rewrite <- sum_over_scal. apply sum_ext. intros a Ha. destruct (is_eq (dnum t a) i); cbn; lra. }
  rewrite bigsum_over. apply sum_ext. intros a Ha. rewrite bigsum_scal, (pick n); [reflexivity|]. destruct H as (_ & _ & H). intros k Hk. destruct (H a Ha) as (_ & _ & X & _). auto.
Qed.
Lemma dot_sum {A} n x (l : list A) (f : A -> nat -> R) : dot n x (fun i => sum_over l (fun a => f a i)) = sum_over l (fun a => dot n x (f a)).
Proof. unfold dot. rewrite <- bigsum_over. apply bigsum_ext. intros i _. now rewrite sum_over_scal. Qed.

Record sys_ok (d : cell) (sy : system) (n : nat) : Prop := mkSys {
  ss_run : cell_system d = Ok sy;
  ss_tab : tab_ok d (sy_t sy) n;
  ss_square : square_csr n (sy_A sy);
  ss_len : forall c, (c < 3)%nat -> length (sy_F sy c) = n;
  ss_sym : symmetric n (entry (sy_A sy));
  ss_A : forall x y, dot n x (matvec n (entry (sy_A sy)) y) = Bf d (fld (sy_t sy) x) (fld (sy_t sy) y);
  ss_F : forall c x, (c < 3)%nat -> dot n x (ix (sy_F sy c)) = Lf d c (fld (sy_t sy) x) }.
Lemma sys_exists d : cell_ok d -> exists sy n, sys_ok d sy n.
Proof.
  intros HC. destruct (tab_exists d HC) as (t & n & T).
  assert (L0 : loads_is n (mkLoads (lil_new n n) (repeat 0 n) (repeat 0 n) (repeat 0 n)) (fun _ _ => 0) (fun _ => 0) (fun _ => 0) (fun _ => 0)).
  { unfold loads_is. cbn [ld_K ld_F0 ld_F1 ld_F2]. splits; try apply vec_zero_is. apply lil_new_is. }
  destruct (add_all d t n HC T (cl_elements d) (fun el H => H) _ _ _ _ _ L0) as (a & EA & (AK & A0 & A1 & A2)).
  destruct (spring_all d t n HC T (cl_elements d) (fun el H => H) _ _ AK) as (K & EK & HK).
  destruct HK as (HK1 & HK2 & HK3 & HK4 & HK5). destruct (csr_of_lil_cols K HK1 HK4) as (Kc & K' & E5 & W & C & R1 & C1 & G1).
  set (sy := mkSystem t Kc (ld_F0 a) (ld_F1 a) (ld_F2 a)). exists sy, n.
  assert (EE : forall i j, (i < n)%nat -> entry Kc i j = sum_over (cl_elements d) (fun el => k_contrib t (kel d 0 el) i j) + sum_over (cl_elements d) (fun el => k_contrib t (sel d el) i j)).
  { intros i j Hi. unfold entry, csr_entry. rewrite G1 by lia. rewrite HK5 by auto. apply f_equal with (f := fun x => x). cbv beta. now rewrite Rplus_0_l. }
  split; cbn [sy_t sy_A sy].
  - unfold cell_system. rewrite (to_run d t n T). cbn [bind]. rewrite EA. cbn [bind]. rewrite EK. cbn [bind]. rewrite E5. reflexivity.
  - exact T.
  - unfold square_csr. splits; auto; congruence.
  - intros c Hc. destruct c as [|[|[|]]]; try lia; cbn [sy_F sy sy_F0 sy_F1 sy_F2]; [apply A0|apply A1|apply A2].
  - intros i j Hi Hj. rewrite !EE by auto. f_equal; apply sum_ext; intros el Hel; apply k_contrib_sym; [apply (kk_sym d el (kel_is d el HC Hel))|apply (sk_sym d el (sel_is d el))].
  - intros x y. transitivity (sum_over (cl_elements d) (fun el => dot n x (fun i => bigsum n (fun j => k_contrib t (kel d 0 el) i j * y j))) + sum_over (cl_elements d) (fun el => dot n x (fun i => bigsum n (fun j => k_contrib t (sel d el) i j * y j)))).
    + rewrite <- !dot_sum. unfold dot. rewrite <- bigsum_plus. apply bigsum_ext. intros i Hi. rewrite <- Rmult_plus_distr_l. f_equal. unfold matvec.
      rewrite <- !bigsum_over, <- bigsum_plus. apply bigsum_ext. intros j Hj. rewrite EE by auto. rewrite Rmult_plus_distr_r, !(Rmult_comm (sum_over _ _)), <- !sum_over_scal. f_equal; apply sum_ext; intros; ring.
    + unfold Bf. f_equal; apply sum_ext; intros el Hel.
      * rewrite (k_bil n t (cell_zero d)) by (apply kel_eok; auto). apply (kk_bil d el (kel_is d el HC Hel)).
      * rewrite (k_bil n t (cell_zero d)) by (apply sel_eok; auto). apply (sk_bil d el (sel_is d el)).
  - assert (FV : forall c F, (c < 3)%nat -> vec_is n F (fun i => 0 + sum_over (cl_elements d) (fun el => f_contrib t (kel d c el) i)) -> forall x, dot n x (ix F) = Lf d c (fld t x)).
    { intros c F Hc [_ VF] x. transitivity (dot n x (fun i => sum_over (cl_elements d) (fun el => f_contrib t (kel d c el) i))).
      - unfold dot. apply bigsum_ext. intros i Hi. f_equal. unfold ix. rewrite VF by auto. ring.
      - rewrite dot_sum. unfold Lf. apply sum_ext. intros el Hel. rewrite (f_lin n t (cell_zero d)) by (apply kel_eok; auto). apply (kk_lin d el (kel_is d el HC Hel)); auto. }
    intros c x Hc. destruct c as [|[|[|]]]; try lia; cbn [sy_F sy sy_F0 sy_F1 sy_F2]; apply FV; auto.
Qed.
