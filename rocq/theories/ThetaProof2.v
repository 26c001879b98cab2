(** Energies of one element of a time step. *)
From Coq Require Import List Arith Lia Bool Reals Lra.
From Verif Require Import Res SumR DenseModel DenseR DenseSpec ShapeModel QuadModel QuadSpec ElemModel ElemSpec SparseModel SparseSpec AssemblyModel AssemblySpec KrylovSpec PatchSpec StableSpec ThetaModel ThetaSpec.
From Verif Require Import DenseProof AssemblyProof AssemblyProof3 ShapeMain ElemProof ElemProof2 ElemProof3 ElemMain HomMain PatchProof PatchProof2 StableProof StableProof2 StableProof3 ThetaProof.
Import ListNotations.
Local Open Scope R_scope.

Lemma theta_energy dou xs fC fK s q el eC eK v :
  theta_pair dou xs fC fK -> length dou = 1%nat -> stable_piece 2 xs (mkPiece s q el) ->
  made_by fC (mkPiece s q el) eC -> made_by fK (mkPiece s q el) eK ->
  (forall a b, In a (e_dofs eC) -> In b (e_dofs eC) -> e_k eC (dloc a) (dloc b) = e_k eC (dloc b) (dloc a)) /\
  (forall a b, In a (e_dofs eK) -> In b (e_dofs eK) -> e_k eK (dloc a) (dloc b) = e_k eK (dloc b) (dloc a)) /\
  0 <= denergy eC v /\ 0 <= denergy eK v /\ (denergy eC v = 0 -> denergy eK v = 0 -> forall k c, In k el -> In c dou -> v k c = 0) /\
  (forall b, In b (e_dofs eK) -> sum_over (e_dofs eK) (fun a => e_k eK (dloc a) (dloc b)) = 0).
Proof.
  intros HP HD HSP HmC HmK. destruct (pair_energy dou xs fC fK HP HD) as (HS & rho & Hrho & HM).
  destruct (element_held dou xs 2 1 fK (mkPiece s q el) eK v HS HD HSP HmK) as (NK & SK & _).
  destruct HSP as (HSt & He & HQ). cbn [p_shape p_rule p_nodes] in *.
  destruct (routine_energy dou xs 2 1 fK HS HD) as (_ & _ & W & HW & HW0 & HWs & HWz).
  pose proof (HW s q el He) as HSf. pose proof (HM s q el He) as HMf. pose proof (mass_symmetric _ _ _ _ _ _ _ _ _ HMf) as (C0 & ne0 & c0 & E0 & Hc0 & Sy).
  destruct HmC as [EnC EfC]. destruct HmK as [EnK EfK]. cbn [p_shape p_rule p_nodes] in *.
  pose proof HSf as HSf'. destruct HSf as (K & neK & k & EK & Hk & HnK & HF). destruct HMf as (C & ne & c & EC & Hc & Hn & HG).
  rewrite EfC in EC, E0. injection EC as <- <-. injection E0 as <- <-. rewrite EfK in EK. injection EK as <- <-.
  assert (HL : length el = sf_n s) by (destruct He as (_ & _ & HL & _); exact HL).
  rewrite Nat.mul_1_l in Hc0.
  assert (DE : forall w, denergy eC w = form 1 (length el) c (fun i a => w (nth i el O) (nth a dou O)) (fun i a => w (nth i el O) (nth a dou O)) /\
    denergy eK w = form 1 (length el) k (fun i a => w (nth i el O) (nth a dou O)) (fun i a => w (nth i el O) (nth a dou O))).
  { intros w. split.
    - pose proof (denergy_form 2 1 s q dou xs (fK s q el) W eC c w) as D. rewrite EnC in D. apply D; auto.
    - pose proof (denergy_form 2 1 s q dou xs (fK s q el) W eK k w) as D. rewrite EnK in D. apply D; auto. }
  destruct (DE v) as [DC DK]. set (z := fun i a => v (nth i el O) (nth a dou O)) in *.
  assert (NNC : forall g, (g < q_n q)%nat -> 0 <= wprod 2 (nth g (q_weights q) []) * (jac s (nodal el xs) (pt q g) * (rho * bigsum 1 (fun c => field_value s (pt q g) z c * field_value s (pt q g) z c)))).
  { intros g Hg. destruct (HQ g Hg) as [HJ Hw]. cbn [bigsum]. apply Rmult_le_pos; [lra|]. apply Rmult_le_pos; [lra|]. apply Rmult_le_pos; [lra|]. rewrite Rplus_0_l. apply Rle_0_sqr. }
  splits; auto.
  - intros a b Ha Hb. unfold e_dofs in *. rewrite EnC in Ha, Hb. destruct (numbered_dofs 1 dou a _ _ Hn Ha) as (i & j & Hi & Hj & ->). destruct (numbered_dofs 1 dou b _ _ Hn Hb) as (i' & j' & Hi' & Hj' & ->).
    cbn [dloc]. unfold e_k. rewrite !(mat_entry _ _ _ _ _ _ Hc0) by lia. apply Sy; lia.
  - rewrite DC, HG. apply quad_nonneg. exact NNC.
  - intros ZC ZK k' a Hin Ha. rewrite DC, HG in ZC. rewrite DK in ZK.
    pose proof (gradients_gradU s q el xs 2 1 z He ltac:(lia)) as Hgr. rewrite (HF z z _ _ Hgr Hgr) in ZK.
    set (H := fun r => gradU s (nodal el xs) r z) in *.
    assert (NNK : forall g, (g < q_n q)%nat -> 0 <= wprod 2 (nth g (q_weights q) []) * (jac s (nodal el xs) (pt q g) * W (H (pt q g)) (H (pt q g)))).
    { intros g Hg. destruct (HQ g Hg) as [HJ Hw]. apply Rmult_le_pos; [lra|]. apply Rmult_le_pos; [lra|]. apply HW0. }
    assert (ST : forall g, (g < q_n q)%nat -> still 2 1 (H (pt q g))).
    { intros g Hg. apply HWz. pose proof (bigsum_nonneg_eq0 _ _ NNK ZK g Hg) as Z. cbv beta in Z. destruct (HQ g Hg) as [HJ Hw].
      apply Rmult_integral in Z. destruct Z as [Z|Z]; [lra|]. apply Rmult_integral in Z. destruct Z as [Z|Z]; [lra|exact Z]. }
    assert (Hq : (0 < q_n q)%nat). { destruct HSt as [[_ X]|[[_ (g1 & _ & _ & X & _)]|[_ X]]]; lia. }
    destruct (In_nth _ _ O Hin) as (i & Hi & <-). destruct (In_nth _ _ O Ha) as (a' & Ha' & <-). change (z i a' = 0). replace a' with O by lia.
    rewrite HL in Hi. assert (Hsd : sf_d s = 2%nat) by (destruct He as (_ & X & _); exact X). assert (Hall : In s all_shapes) by (destruct He as (X & _); exact X).
    pose proof (bigsum_nonneg_eq0 _ _ NNC ZC O Hq) as Z. cbv beta in Z. destruct (HQ O Hq) as [HJ Hw]. cbn [bigsum] in Z.
    assert (FV : field_value s (pt q 0) z 0 = z i O).
    { unfold field_value. rewrite (bigsum_ext _ _ (fun i' => shp s (pt q 0) i' * z i O)).
      - rewrite bigsum_scal_r. pose proof (value_one s (pt q 0) 0%nat 0%nat Hall) as V1. unfold field_value in V1. cbn [Nat.eqb] in V1. rewrite bigsum_scal_r in V1. rewrite Rmult_1_r in V1. rewrite V1. ring.
      - intros i' Hi'. f_equal. now apply (still_scalar s q (nodal el xs) z H 2 HSt Hsd Hgr ST). }
    fold (pt q 0) in Z. change (fun k : nat => nth k (nth 0 (q_points q) []) 0) with (pt q 0) in Z. rewrite FV in Z.
    assert (Z2 : z i O * z i O = 0).
    { destruct (Req_dec (z i O * z i O) 0) as [X|X]; auto. exfalso. assert (0 < z i O * z i O) by (pose proof (Rle_0_sqr (z i O)) as Q; unfold Rsqr in Q; lra).
      assert (0 < wprod 2 (nth 0 (q_weights q) []) * (jac s (nodal el xs) (pt q 0) * (rho * (0 + z i O * z i O)))); [|lra].
      apply Rmult_lt_0_compat; [lra|]. apply Rmult_lt_0_compat; [lra|]. apply Rmult_lt_0_compat; lra. }
    apply Rmult_integral in Z2. tauto.
  - intros b Hb. rewrite (sum_ext _ _ (fun a => e_k eK (dloc b) (dloc a))) by (intros a Ha; now apply SK).
    assert (KL : kills 1 (length el) (fK s q el) (fun _ _ => 1)).
    { destruct HP as [alpha rho0 c1 t Ha Hr Hc1 Ht|D HDp]; [apply (C36_constant_temperature_pf s q el dou xs alpha t 1 1 He HD)|apply (C36_constant_temperature_pf s q el dou xs 1 1 D 1 He HD)]. }
    destruct KL as (K' & ne' & k1 & E1 & H1 & A1). rewrite EfK in E1. injection E1 as <- <-. unfold e_dofs in *. rewrite EnK in *. rewrite (numbered_sum 1 dou _ _ _ HnK).
    destruct (numbered_dofs 1 dou b _ _ HnK Hb) as (i & j & Hi & Hj & ->). cbn [dloc]. specialize (A1 (1 * i + j)%nat ltac:(lia)). refine (eq_trans _ A1). unfold apply_field. rewrite (Nat.mul_1_l (length el)).
    apply bigsum_ext. intros i' Hi'. cbn [bigsum]. rewrite Rplus_0_l, Rmult_1_r. unfold e_k. rewrite !Nat.mul_1_l, Nat.add_0_r. now rewrite (mat_entry _ _ _ _ _ _ H1) by lia.
Qed.
