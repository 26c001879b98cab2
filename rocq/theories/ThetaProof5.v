(** What a time step does to the capacity norm and to the heat content. *)
From Coq Require Import List Arith Lia Bool Reals Lra.
From Verif Require Import Res SumR DenseModel DenseR DenseSpec ShapeModel QuadModel QuadSpec ElemModel ElemSpec SparseModel SparseSpec AssemblyModel AssemblySpec KrylovSpec PatchSpec StableSpec ThetaModel ThetaSpec.
From Verif Require Import DenseProof SparseMain AssemblyProof AssemblyProof2 AssemblyProof3 AssemblyMain PatchProof3 StableProof3 StableProof4 ThetaProof ThetaProof2 ThetaProof3 ThetaProof4.
Import ListNotations.
Local Open Scope R_scope.

Definition good_pair (dou : list nat) (elements : list (list nat)) (c : elem * elem) : Prop :=
  e_dofs (snd c) = e_dofs (fst c) /\ (forall a, In a (e_dofs (fst c)) -> In (ddof a) dou /\ exists el, In el elements /\ In (dnode a) el) /\
  (forall a b, In a (e_dofs (fst c)) -> In b (e_dofs (fst c)) -> e_k (fst c) (dloc a) (dloc b) = e_k (fst c) (dloc b) (dloc a)) /\
  (forall v, 0 <= denergy (fst c) v /\ 0 <= denergy (snd c) v) /\
  (forall b, In b (e_dofs (fst c)) -> sum_over (e_dofs (fst c)) (fun a => e_k (snd c) (dloc a) (dloc b)) = 0).
Lemma pairs dou xs fC fK s q elements esC esK : theta_pair dou xs fC fK -> length dou = 1%nat -> (forall el, In el elements -> stable_piece 2 xs (mkPiece s q el)) ->
  Forall2 (made_by fC) (map (mkPiece s q) elements) esC -> Forall2 (made_by fK) (map (mkPiece s q) elements) esK ->
  exists ps, esC = map fst ps /\ esK = map snd ps /\ forall c, In c ps -> good_pair dou elements c.
Proof.
  intros HP HD HS. assert (G : forall els, incl els elements -> forall esC esK, Forall2 (made_by fC) (map (mkPiece s q) els) esC -> Forall2 (made_by fK) (map (mkPiece s q) els) esK ->
    exists ps, esC = map fst ps /\ esK = map snd ps /\ forall c, In c ps -> good_pair dou elements c); [|apply G; apply incl_refl].
  clear esC esK. induction els as [|el els IH]; intros HI esC esK HC HK; cbn [map] in *.
  - inversion HC; inversion HK; subst. exists []. splits; auto. intros c [].
  - inversion HC as [|? eC ? esC' C1 C2]; inversion HK as [|? eK ? esK' K1 K2]; subst.
    destruct (IH (fun x Hx => HI x (or_intror Hx)) esC' esK' C2 K2) as (ps & -> & -> & Hps). exists ((eC, eK) :: ps). splits; auto.
    intros c [<-|Hc]; auto. assert (Hel : In el elements) by (apply HI; left; auto). pose proof (theta_energy dou xs fC fK s q el eC eK) as TE.
    assert (EN : e_dofs eK = e_dofs eC /\ forall a, In a (e_dofs eC) -> In (ddof a) dou /\ In (dnode a) el).
    { destruct (pair_energy dou xs fC fK HP HD) as (HSt & rho & Hrho & HM). destruct (StableProof.routine_energy dou xs 2 1 fK HSt HD) as (_ & _ & W & HW & _).
      destruct (HS el Hel) as (_ & He & _). cbn [p_shape p_rule p_nodes] in He. destruct (HW s q el He) as (K & neK & k & EK & _ & HnK & _). destruct (HM s q el He) as (C & ne & c & EC & _ & Hn & _).
      destruct C1 as [N1 E1], K1 as [N2 E2]. cbn [p_shape p_rule p_nodes] in *. rewrite E1 in EC. injection EC as _ <-. rewrite E2 in EK. injection EK as _ <-.
      unfold e_dofs. rewrite N1, N2, (numbered_unique _ _ _ _ _ HnK Hn). split; auto. intros a Ha. destruct (numbered_dofs 1 dou a _ _ Hn Ha) as (i & j & Hi & Hj & ->). cbn. split; apply nth_In; lia. }
    destruct EN as [EN DN]. unfold good_pair. cbn [fst snd]. destruct (TE (fun _ _ => 0) HP HD (HS el Hel) C1 K1) as (SC & _ & _ & _ & _ & CS). rewrite EN in CS. splits; auto.
    + intros a Ha. destruct (DN a Ha). eauto.
    + intros v. destruct (TE v HP HD (HS el Hel) C1 K1) as (_ & _ & P1 & P2 & _). auto.
Qed.

Definition bil (e : elem) (D : list ldof) (u v : nat -> nat -> R) : R :=
  sum_over D (fun a => u (dnode a) (ddof a) * sum_over D (fun b => e_k e (dloc a) (dloc b) * v (dnode b) (ddof b))).
Lemma bil_energy e v : bil e (e_dofs e) v v = denergy e v.
Proof. unfold bil, denergy. apply sum_ext. intros a Ha. rewrite <- sum_over_scal. apply sum_ext. intros; ring. Qed.
Lemma bil_l e D p q u u' v : bil e D (fun i j => p * u i j + q * u' i j) v = p * bil e D u v + q * bil e D u' v.
Proof. unfold bil. rewrite <- !sum_over_scal, <- sum_over_plus. apply sum_ext. intros; ring. Qed.
Lemma bil_r e D p q u v v' : bil e D u (fun i j => p * v i j + q * v' i j) = p * bil e D u v + q * bil e D u v'.
Proof.
  unfold bil. rewrite <- !sum_over_scal, <- sum_over_plus. apply sum_ext. intros a Ha.
  rewrite (sum_ext D (fun b => e_k e (dloc a) (dloc b) * (p * v (dnode b) (ddof b) + q * v' (dnode b) (ddof b))) (fun b => p * (e_k e (dloc a) (dloc b) * v (dnode b) (ddof b)) + q * (e_k e (dloc a) (dloc b) * v' (dnode b) (ddof b)))) by (intros; ring).
  rewrite sum_over_plus, !sum_over_scal. ring.
Qed.
Lemma bil_sym e D u v : (forall a b, In a D -> In b D -> e_k e (dloc a) (dloc b) = e_k e (dloc b) (dloc a)) -> bil e D u v = bil e D v u.
Proof.
  intros H. unfold bil. rewrite (sum_ext D _ (fun a => sum_over D (fun b => u (dnode a) (ddof a) * (e_k e (dloc a) (dloc b) * v (dnode b) (ddof b))))) by (intros; now rewrite sum_over_scal).
  rewrite sum_over_swap. apply sum_ext. intros b Hb. rewrite <- sum_over_scal. apply sum_ext. intros a Ha. rewrite (H a b) by auto. ring.
Qed.
Definition bal_row (c : elem * elem) (dt theta : R) (T0 T1 : list (list R)) (a : ldof) : R :=
  sum_over (e_dofs (fst c)) (fun b => e_k (fst c) (dloc a) (dloc b) * duval T1 b) - sum_over (e_dofs (fst c)) (fun b => e_k (fst c) (dloc a) (dloc b) * duval T0 b) -
  dt * (e_f (fst c) (dloc a) - theta * sum_over (e_dofs (fst c)) (fun b => e_k (snd c) (dloc a) (dloc b) * duval T1 b) - (1 - theta) * sum_over (e_dofs (fst c)) (fun b => e_k (snd c) (dloc a) (dloc b) * duval T0 b)).
Lemma balance_rows dou elements ps dt theta T0 T1 i j : (forall c, In c ps -> good_pair dou elements c) -> theta_balance (map fst ps) (map snd ps) dt theta T0 T1 i j ->
  sum_over ps (fun c => sum_over (e_dofs (fst c)) (fun a => ind (at_dof i j a) (bal_row c dt theta T0 T1 a))) = 0.
Proof.
  intros HG HB. unfold theta_balance, internal_force, element_load in HB. rewrite !sum_map in HB.
  assert (E : forall f : elem -> R, True) by auto. clear E.
  enough (X : sum_over ps (fun c => sum_over (e_dofs (fst c)) (fun a => ind (at_dof i j a) (bal_row c dt theta T0 T1 a))) =
    sum_over ps (fun c => sum_over (e_dofs (fst c)) (fun a => ind (at_dof i j a) (sum_over (e_dofs (fst c)) (fun b => e_k (fst c) (dloc a) (dloc b) * duval T1 b)))) -
    sum_over ps (fun c => sum_over (e_dofs (fst c)) (fun a => ind (at_dof i j a) (sum_over (e_dofs (fst c)) (fun b => e_k (fst c) (dloc a) (dloc b) * duval T0 b)))) -
    dt * (sum_over ps (fun c => sum_over (e_dofs (fst c)) (fun a => ind (at_dof i j a) (e_f (fst c) (dloc a)))) -
      theta * sum_over ps (fun c => sum_over (e_dofs (snd c)) (fun a => ind (at_dof i j a) (sum_over (e_dofs (snd c)) (fun b => e_k (snd c) (dloc a) (dloc b) * duval T1 b)))) -
      (1 - theta) * sum_over ps (fun c => sum_over (e_dofs (snd c)) (fun a => ind (at_dof i j a) (sum_over (e_dofs (snd c)) (fun b => e_k (snd c) (dloc a) (dloc b) * duval T0 b))))))
    by (rewrite X; lra).
  clear HB. rewrite <- !sum_over_scal, <- !sum_over_minus, <- !sum_over_scal, <- !sum_over_minus. apply sum_ext. intros c Hc. destruct (HG c Hc) as (-> & _).
  rewrite <- !sum_over_scal, <- !sum_over_minus, <- !sum_over_scal, <- !sum_over_minus. apply sum_ext. intros a Ha. unfold bal_row. destruct (at_dof i j a); cbn [ind]; ring.
Qed.

Lemma contract_step dou elements ps dt theta t n T0 T1 S0 S1 : numbering n t -> (forall c, In c ps -> good_pair dou elements c) -> 0 < dt -> 1/2 <= theta ->
  (forall i j, num t i j = None -> uval T0 i j = uval S0 i j /\ uval T1 i j = uval S1 i j) ->
  (forall i j, num t i j <> None -> theta_balance (map fst ps) (map snd ps) dt theta T0 T1 i j) ->
  (forall i j, num t i j <> None -> theta_balance (map fst ps) (map snd ps) dt theta S0 S1 i j) ->
  cap_dist (map fst ps) T1 S1 <= cap_dist (map fst ps) T0 S0.
Proof.
  intros NU HG Hdt Hth HF HT HS. set (D0 := fun i j => uval T0 i j - uval S0 i j). set (D1 := fun i j => uval T1 i j - uval S1 i j).
  set (w := fun i j => theta * D1 i j + (1 - theta) * D0 i j). set (dl := fun i j => 1 * D1 i j + (- 1) * D0 i j).
  assert (V : sum_over ps (fun c => sum_over (e_dofs (fst c)) (fun a => w (dnode a) (ddof a) * (bal_row c dt theta T0 T1 a - bal_row c dt theta S0 S1 a))) = 0).
  { apply (virtual ps (fun c => e_dofs (fst c)) (fun c a => bal_row c dt theta T0 T1 a - bal_row c dt theta S0 S1 a) w n t NU).
    - intros c a _ _ H. unfold w, D0, D1. destruct (HF _ _ H) as [-> ->]. ring.
    - intros i j H. rewrite (sum_ext ps _ (fun c => sum_over (e_dofs (fst c)) (fun a => ind (at_dof i j a) (bal_row c dt theta T0 T1 a)) - sum_over (e_dofs (fst c)) (fun a => ind (at_dof i j a) (bal_row c dt theta S0 S1 a)))).
      + rewrite sum_over_minus. rewrite (balance_rows dou elements ps dt theta T0 T1 i j HG (HT i j H)), (balance_rows dou elements ps dt theta S0 S1 i j HG (HS i j H)). ring.
      + intros c Hc. rewrite <- sum_over_minus. apply sum_ext. intros a Ha. destruct (at_dof i j a); cbn [ind]; ring. }
  assert (CD : forall T S, cap_dist (map fst ps) T S = sum_over ps (fun c => bil (fst c) (e_dofs (fst c)) (fun i j => uval T i j - uval S i j) (fun i j => uval T i j - uval S i j))).
  { intros T S. unfold cap_dist. rewrite sum_map. apply sum_ext. intros c Hc. apply sum_ext. intros a Ha. rewrite <- sum_over_scal. apply sum_ext. intros b Hb. unfold duval. ring. }
  rewrite !CD. fold D0 D1.
  enough (0 <= sum_over ps (fun c => bil (fst c) (e_dofs (fst c)) D0 D0) - sum_over ps (fun c => bil (fst c) (e_dofs (fst c)) D1 D1)) by lra.
  rewrite <- sum_over_minus.
  enough (X : 0 <= sum_over ps (fun c => (bil (fst c) (e_dofs (fst c)) D0 D0 - bil (fst c) (e_dofs (fst c)) D1 D1) + 2 * sum_over (e_dofs (fst c)) (fun a => w (dnode a) (ddof a) * (bal_row c dt theta T0 T1 a - bal_row c dt theta S0 S1 a)))).
  { rewrite sum_over_plus, sum_over_scal, V in X. lra. }
  apply sum_over_nonneg. intros c Hc. destruct (HG c Hc) as (ED & _ & SY & PO & _). set (D := e_dofs (fst c)) in *.
  assert (E1 : sum_over D (fun a => w (dnode a) (ddof a) * (bal_row c dt theta T0 T1 a - bal_row c dt theta S0 S1 a)) = bil (fst c) D w dl + dt * bil (snd c) D w w).
  { unfold bil. rewrite <- sum_over_scal, <- sum_over_plus. apply sum_ext. intros a Ha. unfold bal_row. fold D.
    rewrite (sum_ext D (fun b => e_k (fst c) (dloc a) (dloc b) * dl (dnode b) (ddof b)) (fun b => (e_k (fst c) (dloc a) (dloc b) * duval T1 b - e_k (fst c) (dloc a) (dloc b) * duval S1 b) - (e_k (fst c) (dloc a) (dloc b) * duval T0 b - e_k (fst c) (dloc a) (dloc b) * duval S0 b))) by (intros; unfold dl, D1, D0, duval; ring).
    rewrite (sum_ext D (fun b => e_k (snd c) (dloc a) (dloc b) * w (dnode b) (ddof b)) (fun b => theta * (e_k (snd c) (dloc a) (dloc b) * duval T1 b - e_k (snd c) (dloc a) (dloc b) * duval S1 b) + (1 - theta) * (e_k (snd c) (dloc a) (dloc b) * duval T0 b - e_k (snd c) (dloc a) (dloc b) * duval S0 b))) by (intros; unfold w, D1, D0, duval; ring).
    rewrite ?sum_over_minus, ?sum_over_plus, ?sum_over_scal, ?sum_over_minus. ring. }
  rewrite E1. clear E1. assert (K0 : 0 <= bil (snd c) D w w) by (destruct (PO w) as [_ X]; rewrite <- bil_energy, ED in X; exact X).
  assert (C0 : 0 <= bil (fst c) D dl dl) by (destruct (PO dl) as [X _]; rewrite <- bil_energy in X; exact X).
  assert (EW : bil (fst c) D w dl = theta * (bil (fst c) D D1 D1 - bil (fst c) D D1 D0) + (1 - theta) * (bil (fst c) D D0 D1 - bil (fst c) D D0 D0)) by (unfold w, dl; rewrite bil_l, !bil_r; ring).
  assert (EL : bil (fst c) D dl dl = bil (fst c) D D1 D1 - bil (fst c) D D1 D0 - bil (fst c) D D0 D1 + bil (fst c) D D0 D0) by (unfold dl; rewrite bil_l, !bil_r; ring).
  rewrite (bil_sym (fst c) D D0 D1 SY) in *. nra.
Qed.

Lemma heat_step dou elements ps dt theta t n T0 T1 : numbering n t -> (forall c, In c ps -> good_pair dou elements c) ->
  (forall el k c, In el elements -> In k el -> In c dou -> num t k c <> None) ->
  (forall i j, num t i j <> None -> theta_balance (map fst ps) (map snd ps) dt theta T0 T1 i j) ->
  heat (map fst ps) T1 - heat (map fst ps) T0 = dt * sum_over (map fst ps) (fun e => sum_over (e_dofs e) (fun a => e_f e (dloc a))).
Proof.
  intros NU HG HF HT.
  assert (V : sum_over ps (fun c => sum_over (e_dofs (fst c)) (fun a => (fun _ _ => 1) (dnode a) (ddof a) * bal_row c dt theta T0 T1 a)) = 0).
  { apply (virtual ps (fun c => e_dofs (fst c)) (fun c a => bal_row c dt theta T0 T1 a) (fun _ _ => 1) n t NU).
    - intros c a Hc Ha H. exfalso. destruct (HG c Hc) as (_ & X & _). destruct (X a Ha) as (H1 & el & H2 & H3). exact (HF _ _ _ H2 H3 H1 H).
    - intros i j H. exact (balance_rows dou elements ps dt theta T0 T1 i j HG (HT i j H)). }
  unfold heat. rewrite !sum_map. rewrite <- sum_over_scal, <- sum_over_minus.
  enough (X : sum_over ps (fun c => sum_over (e_dofs (fst c)) (fun a => 1 * bal_row c dt theta T0 T1 a)) =
    sum_over ps (fun c => sum_over (e_dofs (fst c)) (fun a => sum_over (e_dofs (fst c)) (fun b => e_k (fst c) (dloc a) (dloc b) * duval T1 b)) - sum_over (e_dofs (fst c)) (fun a => sum_over (e_dofs (fst c)) (fun b => e_k (fst c) (dloc a) (dloc b) * duval T0 b))) -
    sum_over ps (fun c => dt * sum_over (e_dofs (fst c)) (fun a => e_f (fst c) (dloc a)))) by (cbv beta in V; rewrite X in V; lra).
  rewrite <- sum_over_minus. apply sum_ext. intros c Hc. destruct (HG c Hc) as (_ & _ & _ & _ & CS). set (D := e_dofs (fst c)) in *.
  assert (Z : forall T, sum_over D (fun a => sum_over D (fun b => e_k (snd c) (dloc a) (dloc b) * duval T b)) = 0).
  { intros T. rewrite sum_over_swap. apply AssemblyProof.sum_zero. intros b Hb. rewrite (sum_ext D _ (fun a => duval T b * e_k (snd c) (dloc a) (dloc b))) by (intros; ring). rewrite sum_over_scal, CS by auto. ring. }
  transitivity (sum_over D (fun a => sum_over D (fun b => e_k (fst c) (dloc a) (dloc b) * duval T1 b)) - sum_over D (fun a => sum_over D (fun b => e_k (fst c) (dloc a) (dloc b) * duval T0 b)) -
    dt * (sum_over D (fun a => e_f (fst c) (dloc a)) - theta * sum_over D (fun a => sum_over D (fun b => e_k (snd c) (dloc a) (dloc b) * duval T1 b)) - (1 - theta) * sum_over D (fun a => sum_over D (fun b => e_k (snd c) (dloc a) (dloc b) * duval T0 b)))).
  - rewrite <- !sum_over_scal, <- !sum_over_minus, <- !sum_over_scal, <- !sum_over_minus. apply sum_ext. intros a Ha. unfold bal_row. fold D. ring.
  - rewrite !Z. ring.
Qed.
