(** The system of one time step. *)
From Coq Require Import List Arith Lia Bool Reals Lra.
From Verif Require Import Res SumR DenseModel DenseR DenseSpec ShapeModel QuadModel QuadSpec ElemModel ElemSpec SparseModel SparseSpec AssemblyModel AssemblySpec KrylovSpec PatchSpec StableSpec ThetaModel ThetaSpec.
From Verif Require Import DenseProof SparseMain AssemblyProof AssemblyProof2 AssemblyProof3 AssemblyMain PatchProof3 StableProof3 StableProof4 ThetaProof ThetaProof2.
Import ListNotations.
Local Open Scope R_scope.

Definition add_split (T : list (list R)) (t : table) (acc : lil R * list R) (e : elem) : res (lil R * list R) :=
  ' (K, F) <- assemble_K_F acc T (e_K e) t (e_nte e) (e_nodes e) ;; F <- assemble_F F (e_F e) t (e_nte e) (e_nodes e) ;; Ok (K, F).
Lemma split_ok n t u es : forall K F G H, (forall e, In e es -> elem_ok n t u e) -> mat_is n K G -> vec_is n F H ->
  exists K' F', foldM (add_split u t) es (K, F) = Ok (K', F') /\
    mat_is n K' (fun i j => G i j + sum_over es (fun e => k_contrib t e i j)) /\
    vec_is n F' (fun i => H i + sum_over es (fun e => f_contrib t e i - d_contrib t u e i)).
Proof.
  induction es as [|e es IH]; intros K F G H He HK HF.
  - exists K, F. splits; auto.
    + revert HK; apply mat_is_ext. intros; rewrite sum_over_nil; lra.
    + revert HF; apply vec_is_ext. intros; rewrite sum_over_nil; lra.
  - cbn [foldM]. destruct (assemble_K_F_ok n t u e (He e (or_introl eq_refl)) K F G H HK HF) as (K1 & F1 & E1 & HK1 & HF1).
    destruct (assemble_F_ok n t u e (He e (or_introl eq_refl)) F1 _ HF1) as (F2 & E2 & HF2).
    unfold add_split at 1. rewrite E1. cbn [bind]. rewrite E2. cbn [bind].
    destruct (IH K1 F2 _ _ (fun e' He' => He e' (or_intror He')) HK1 HF2) as (K' & F' & E' & HK' & HF').
    exists K', F'. splits; auto.
    + revert HK'; apply mat_is_ext. intros; rewrite sum_over_cons; lra.
    + revert HF'; apply vec_is_ext. intros; rewrite sum_over_cons; lra.
Qed.
Lemma split_system n t T es : numbering n t -> (forall i j, in_table t i j -> in_table T i j) -> (forall e, In e es -> elem_fits t e) ->
  exists K F Kc K', foldM (add_split T t) es (lil_new n n, repeat 0 n) = Ok (K, F) /\ csr_of_lil K = Ok (Kc, K') /\
    square_csr n Kc /\ length F = n /\ (forall i j, (i < n)%nat -> entry Kc i j = sum_over es (fun e => k_contrib t e i j)) /\ (forall e, In e es -> elem_ok n t T e) /\
    forall x, length x = n -> exists T1, disassemble T x t = Ok T1 /\ (forall i j, in_table T1 i j <-> in_table T i j) /\
      (forall i j, uval T1 i j = match num t i j with Some k => nth k x 0 | None => uval T i j end) /\
      (forall i j k, num t i j = Some k -> internal_force es T1 i j - element_load es i j = - residual n Kc F x k).
Proof.
  intros (B2 & I2 & O2) HU He.
  assert (He' : forall e, In e es -> elem_ok n t T e). { intros e Hin. eapply elem_fits_ok; eauto. split; auto. }
  destruct (split_ok n t T es (lil_new n n) (repeat 0 n) _ _ He' (lil_new_is n) (vec_zero_is n)) as (K & F & E3 & HK & HF).
  destruct HK as (HK1 & HK2 & HK3 & HK4 & HK5). destruct HF as [LF HF].
  destruct (csr_of_lil_cols K HK1 HK4) as (Kc & K' & E5 & W & C & R1 & C1 & G1).
  assert (EK : forall i j, (i < n)%nat -> entry Kc i j = sum_over es (fun e => k_contrib t e i j)).
  { intros i j Hi. unfold entry, csr_entry. rewrite G1 by lia. rewrite HK5 by auto. apply Rplus_0_l. }
  exists K, F, Kc, K'. splits; auto; [unfold square_csr; splits; auto; congruence|]. intros x Hx.
  destruct (disassemble_ok T x t HU) as (T1 & E6 & SH & V2). { intros i j k Hk. rewrite Hx. eauto. }
  exists T1. splits; auto.
  { intros i j. apply (same_shape_in T1 T). exact SH. }
  intros i j gi Eg. pose proof (B2 _ _ _ Eg) as Hgi.
  assert (Hat : forall a, is_eq (dnum t a) gi = at_dof i j a).
  { intros a. unfold at_dof. destruct (dnum t a) as [k|] eqn:Ea; cbn [is_eq].
    - destruct (Nat.eqb_spec k gi).
      + subst k. destruct (I2 _ _ _ _ _ Ea Eg) as [-> ->]. now rewrite !Nat.eqb_refl.
      + destruct (Nat.eqb_spec (dnode a) i); auto. destruct (Nat.eqb_spec (ddof a) j); auto.
        subst. unfold dnum in Ea. congruence.
    - destruct (Nat.eqb_spec (dnode a) i); auto. destruct (Nat.eqb_spec (ddof a) j); auto.
      subst. unfold dnum in Ea. congruence. }
  unfold residual, ix. rewrite HF by auto. unfold matvec.
  rewrite (bigsum_ext n _ (fun j0 => sum_over es (fun e => k_contrib t e gi j0 * nth j0 x 0))).
  2:{ intros j0 Hj0. rewrite EK by auto. rewrite Rmult_comm, <- sum_over_scal. apply sum_ext. intros; lra. }
  rewrite bigsum_over. rewrite sum_over_minus.
  assert (HFe : sum_over es (fun e => f_contrib t e gi) = element_load es i j).
  { apply sum_ext. intros e Hin. apply sum_ext. intros a Ha. now rewrite Hat. }
  assert (HI : internal_force es T1 i j =
    sum_over es (fun e => bigsum n (fun j0 => k_contrib t e gi j0 * nth j0 x 0)) + sum_over es (fun e => d_contrib t T e gi)).
  { rewrite <- sum_over_plus. apply sum_ext. intros e Hin.
    rewrite (equilibrium_row n t T e (fun k => nth k x 0) gi (He' e Hin)). apply sum_ext. intros a Ha. rewrite Hat. f_equal.
    apply sum_ext. intros b Hb. f_equal. unfold duval. rewrite V2. reflexivity. }
  rewrite HI, HFe. lra.
Qed.

(** ** The elements of a step *)
Record tri (dou : list nat) (dt theta : R) (T : list (list R)) (t : table) (fC fK : routine) (load : source) (s : shape) (q : rule) (el : list nat) (c : elem * elem * elem) : Prop := mkTri {
  tri_C : made_by fC (mkPiece s q el) (fst (fst c));
  tri_K : made_by fK (mkPiece s q el) (snd (fst c));
  tri_dC : e_dofs (fst (fst c)) = e_dofs (snd c);
  tri_dK : e_dofs (snd (fst c)) = e_dofs (snd c);
  tri_dofs : forall a, In a (e_dofs (snd c)) -> In (dnode a) el /\ In (ddof a) dou;
  tri_fit : elem_fits t (snd c);
  tri_add : forall acc, theta_add fC fK load s q dt theta T t acc el = add_split T t acc (snd c);
  tri_k : forall a b, In a (e_dofs (snd c)) -> In b (e_dofs (snd c)) -> e_k (snd c) (dloc a) (dloc b) = e_k (fst (fst c)) (dloc a) (dloc b) / dt + theta * e_k (snd (fst c)) (dloc a) (dloc b);
  tri_f : forall a, In a (e_dofs (snd c)) -> e_f (snd c) (dloc a) = e_f (fst (fst c)) (dloc a) + sum_over (e_dofs (snd c)) (fun b => (e_k (fst (fst c)) (dloc a) (dloc b) / dt - (1 - theta) * e_k (snd (fst c)) (dloc a) (dloc b)) * duval T b) }.

Lemma tri_of dou xs fC fK load s q el dt theta T t eC eK :
  theta_pair dou xs fC fK -> length dou = 1%nat -> stable_piece 2 xs (mkPiece s q el) -> 0 < dt ->
  (forall k c, In k el -> In c dou -> in_table T k c) -> (forall k c, In k el -> In c dou -> in_table t k c) ->
  made_by fC (mkPiece s q el) eC -> made_by fK (mkPiece s q el) eK -> carries load T el eC -> exists eA, tri dou dt theta T t fC fK load s q el (eC, eK, eA).
Proof.
  intros HP HD HS Hdt HT Ht HC HK HL.
  destruct (theta_elem dou xs fC fK load s q el dt theta T HP HD HS Hdt HT) as (eC' & eK' & eA & HC' & HK' & HL' & EN & NC & NK & FIT & ADD & Ek & Ef).
  { unfold carries in HL. destruct (load T el) as [[Fe|]|]; [|exists None; auto|contradiction]. exists (Some Fe). split; auto. apply HL. }
  exists eA. destruct HC as [C1 C2], HC' as [C1' C2'], HK as [K1 K2], HK' as [K1' K2']. cbn [p_shape p_rule p_nodes] in *.
  rewrite C2 in C2'. injection C2' as EC1 EC2. rewrite K2 in K2'. injection K2' as EK1 EK2.
  assert (EF : forall a, e_f eC a = e_f eC' a). { intros a. unfold carries in HL, HL'. destruct (load T el) as [[Fe|]|]; [|congruence|contradiction]. destruct HL as [_ ->], HL' as [_ ->]. reflexivity. }
  assert (X : forall a b, e_k eC a b = e_k eC' a b /\ e_k eK a b = e_k eK' a b) by (intros; unfold e_k; split; congruence).
  split; cbn [fst snd]; auto.
  - split; auto.
  - split; auto.
  - unfold e_dofs. congruence.
  - unfold e_dofs. congruence.
  - intros a Ha. unfold e_dofs in Ha. destruct HS as (_ & He & _). cbn [p_shape p_rule p_nodes] in He. destruct (pair_energy dou xs fC fK HP HD) as (_ & rho & _ & HM). destruct (HM s q el He) as (C & ne & c & EC & _ & Hn & _).
    rewrite C2 in EC. injection EC as <- <-. replace (e_nte eA) with (e_nte eC) in Ha by congruence. rewrite EN in Ha. destruct (numbered_dofs 1 dou a _ _ Hn Ha) as (i & j & Hi & Hj & ->). cbn. split; apply nth_In; lia.
  - apply (FIT t Ht).
  - intros acc. rewrite ADD. reflexivity.
  - intros a b Ha Hb. destruct (X (dloc a) (dloc b)) as [-> ->]. now apply Ek.
  - intros a Ha. rewrite EF, Ef by auto. f_equal. apply sum_ext. intros b Hb. destruct (X (dloc a) (dloc b)) as [-> ->]. reflexivity.
Qed.

Lemma tris dou xs fC fK load s q elements dt theta T t esC esK :
  theta_pair dou xs fC fK -> length dou = 1%nat -> (forall el, In el elements -> stable_piece 2 xs (mkPiece s q el)) -> 0 < dt ->
  (forall el k c, In el elements -> In k el -> In c dou -> in_table T k c) -> (forall el k c, In el elements -> In k el -> In c dou -> in_table t k c) ->
  Forall2 (made_by fC) (map (mkPiece s q) elements) esC -> Forall2 (made_by fK) (map (mkPiece s q) elements) esK -> Forall2 (carries load T) elements esC ->
  exists ts, Forall2 (tri dou dt theta T t fC fK load s q) elements ts /\ esC = map (fun c => fst (fst c)) ts /\ esK = map (fun c => snd (fst c)) ts.
Proof.
  intros HP HD HS Hdt HT Ht. revert esC esK. induction elements as [|el elements IH]; intros esC esK HC HK HL; cbn [map] in *.
  - inversion HC; inversion HK; subst. exists []. splits; auto.
  - inversion HC as [|? eC ? esC' C1 C2]; inversion HK as [|? eK ? esK' K1 K2]; subst. inversion HL as [|? ? ? ? L1 L2]; subst.
    destruct (IH (fun e H => HS e (or_intror H)) (fun e k c H => HT e k c (or_intror H)) (fun e k c H => Ht e k c (or_intror H)) esC' esK' C2 K2 L2) as (ts & H1 & -> & ->).
    destruct (tri_of dou xs fC fK load s q el dt theta T t eC eK HP HD (HS el (or_introl eq_refl)) Hdt (fun k c => HT el k c (or_introl eq_refl)) (fun k c => Ht el k c (or_introl eq_refl)) C1 K1 L1) as (eA & H2).
    exists ((eC, eK, eA) :: ts). splits; auto.
Qed.
Lemma sum_map {A B} (f : A -> B) (l : list A) g : sum_over (map f l) g = sum_over l (fun x => g (f x)).
Proof. unfold sum_over. now rewrite map_map. Qed.
Lemma fold_tri dou dt theta T t fC fK load s q elements ts acc : Forall2 (tri dou dt theta T t fC fK load s q) elements ts ->
  foldM (theta_add fC fK load s q dt theta T t) elements acc = foldM (add_split T t) (map snd ts) acc.
Proof.
  intros H. revert acc. induction H as [|el c elements ts H1 _ IH]; intros acc; [reflexivity|]. cbn [foldM map]. rewrite (tri_add _ _ _ _ _ _ _ _ _ _ _ _ H1).
  destruct (add_split T t acc (snd c)) as [acc'|]; cbn [bind]; auto.
Qed.

(** what the assembled system of a step says *)
Lemma tri_row dou dt theta T t fC fK load s q elements ts T1 i j : 0 < dt -> Forall2 (tri dou dt theta T t fC fK load s q) elements ts ->
  dt * (internal_force (map snd ts) T1 i j - element_load (map snd ts) i j) =
  internal_force (map (fun c => fst (fst c)) ts) T1 i j - internal_force (map (fun c => fst (fst c)) ts) T i j -
  dt * (element_load (map (fun c => fst (fst c)) ts) i j - theta * internal_force (map (fun c => snd (fst c)) ts) T1 i j - (1 - theta) * internal_force (map (fun c => snd (fst c)) ts) T i j).
Proof.
  intros Hdt H. unfold internal_force, element_load. rewrite !sum_map. induction H as [|el c elements ts H1 _ IH]; [rewrite !sum_over_nil; ring|].
  rewrite !sum_over_cons. rewrite (tri_dC _ _ _ _ _ _ _ _ _ _ _ _ H1), (tri_dK _ _ _ _ _ _ _ _ _ _ _ _ H1). set (D := e_dofs (snd c)) in *.
  enough (E : dt * (sum_over D (fun a => ind (at_dof i j a) (sum_over D (fun b => e_k (snd c) (dloc a) (dloc b) * duval T1 b))) - sum_over D (fun a => ind (at_dof i j a) (e_f (snd c) (dloc a)))) =
    sum_over D (fun a => ind (at_dof i j a) (sum_over D (fun b => e_k (fst (fst c)) (dloc a) (dloc b) * duval T1 b))) - sum_over D (fun a => ind (at_dof i j a) (sum_over D (fun b => e_k (fst (fst c)) (dloc a) (dloc b) * duval T b))) -
    dt * (sum_over D (fun a => ind (at_dof i j a) (e_f (fst (fst c)) (dloc a))) - theta * sum_over D (fun a => ind (at_dof i j a) (sum_over D (fun b => e_k (snd (fst c)) (dloc a) (dloc b) * duval T1 b))) - (1 - theta) * sum_over D (fun a => ind (at_dof i j a) (sum_over D (fun b => e_k (snd (fst c)) (dloc a) (dloc b) * duval T b))))) by lra.
  rewrite <- !sum_over_scal, <- !sum_over_minus, <- !sum_over_scal, <- !sum_over_minus. apply sum_ext. intros a Ha. destruct (at_dof i j a); cbn [ind]; [|ring].
  rewrite (tri_f _ _ _ _ _ _ _ _ _ _ _ _ H1 a Ha). fold D.
  rewrite (sum_ext D (fun b => e_k (snd c) (dloc a) (dloc b) * duval T1 b) (fun b => / dt * (e_k (fst (fst c)) (dloc a) (dloc b) * duval T1 b) + theta * (e_k (snd (fst c)) (dloc a) (dloc b) * duval T1 b))).
  2:{ intros b Hb. rewrite (tri_k _ _ _ _ _ _ _ _ _ _ _ _ H1 a b Ha Hb). field. lra. }
  rewrite (sum_ext D (fun b => (e_k (fst (fst c)) (dloc a) (dloc b) / dt - (1 - theta) * e_k (snd (fst c)) (dloc a) (dloc b)) * duval T b) (fun b => / dt * (e_k (fst (fst c)) (dloc a) (dloc b) * duval T b) - (1 - theta) * (e_k (snd (fst c)) (dloc a) (dloc b) * duval T b))).
  2:{ intros b Hb. field. lra. }
  rewrite sum_over_plus, sum_over_minus, !sum_over_scal. field. lra.
Qed.
