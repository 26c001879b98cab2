(** The elements of the homogenization sample. *)
From Coq Require Import List Arith Lia Bool Reals Lra.
From Verif Require Import Res SumR DenseModel DenseR DenseSpec ShapeModel QuadModel QuadSpec ElemModel ElemSpec HomSpec SparseModel SparseSpec AssemblyModel AssemblySpec KrylovSpec CellModel CellSpec.
From Verif Require Import DenseProof DenseMain SparseMain AssemblyProof AssemblyProof2 AssemblyProof3 AssemblyMain ElemProof ElemProof2 ElemProof3 ElemProof4 ElemMain HomProof HomMain PatchProof PatchProof2 StableProof3 ThetaProof5 TopProof2.
From Verif Require SpringMain.
Import ListNotations.
Local Open Scope R_scope.

Definition ufld (el : list nat) (u : field) : nat -> nat -> R := fun i j => u (nth i el O) j.
(** the gradient of a field in an element *)
Definition grd (d : cell) (u : field) (el : list nat) (p : nat -> R) : nat -> nat -> R := gradU (cl_s d) (nodal el (cl_x d)) p (ufld el u).
(** integral over an element of the stress of one strain times another strain *)
Definition work1 (d : cell) (el : list nat) (e f : (nat -> R) -> nat -> nat -> R) : R :=
  quad 2 (cl_q d) (fun p => jac (cl_s d) (nodal el (cl_x d)) p * (cl_t d * hooke 2 (lame_lambda (cl_E d) (cl_V d)) (lame_mu (cl_E d) (cl_V d)) (e p) (f p))).
Definition eps (d : cell) (u : field) (el : list nat) : (nat -> R) -> nat -> nat -> R := fun p => strain (grd d u el p).
Definition unit (c : nat) : (nat -> R) -> nat -> nat -> R := fun _ => unit_strain c.
Definition spring1 (d : cell) (el : list nat) (u w : field) : R :=
  cl_alpha d * sum_over el (fun i => (u i 0%nat + u i 1%nat) * (w i 0%nat + w i 1%nat)).

Lemma nv d : cell_ok d -> (1 - 2 * cl_V d) * (1 + cl_V d) <> 0.
Proof. intros H. pose proof (ck_poisson d H). nra. Qed.
Lemma bil_form e kf dou m u w : (m <> 0)%nat -> is_mat (e_K e) (m * length (e_nodes e)) (m * length (e_nodes e)) kf -> numbered m (length (e_nodes e)) dou (e_nte e) ->
  bil e (e_dofs e) u w = form m (length (e_nodes e)) kf (fun i c => u (nth i (e_nodes e) O) (nth c dou O)) (fun i c => w (nth i (e_nodes e) O) (nth c dou O)).
Proof.
  intros Hm Hk Hn. unfold bil, e_dofs. rewrite (numbered_sum m dou _ _ _ Hn), form_blocks by auto. apply bigsum_ext. intros i Hi. apply bigsum_ext. intros c Hc.
  rewrite (numbered_sum m dou _ _ _ Hn), <- bigsum_scal. apply bigsum_ext. intros i' Hi'. rewrite <- bigsum_scal. apply bigsum_ext. intros c' Hc'. cbn [dnode ddof dloc]. unfold e_k.
  rewrite (mat_entry _ _ _ _ _ _ Hk) by nia. ring.
Qed.
Lemma nth01 c : (c < 2)%nat -> nth c [0%nat; 1%nat] O = c.
Proof. destruct c as [|[|]]; intros; try lia; reflexivity. Qed.
Lemma form_ext m n k y y' z z' : (m <> 0)%nat -> (forall i c, (i < n)%nat -> (c < m)%nat -> y i c = y' i c) -> (forall i c, (i < n)%nat -> (c < m)%nat -> z i c = z' i c) -> form m n k y z = form m n k y' z'.
Proof.
  intros Hm Hy Hz. rewrite !form_blocks by auto. apply bigsum_ext. intros i Hi. apply bigsum_ext. intros j Hj. apply bigsum_ext. intros i' Hi'. apply bigsum_ext. intros j' Hj'. now rewrite Hy, Hz.
Qed.
Lemma column_ok Fes r f c : is_mat Fes r 3 f -> (0 < r)%nat -> (c < 3)%nat -> exists v, column Fes c r = Ok v /\ length v = r /\ forall a, (a < r)%nat -> nth a v 0 = f a c.
Proof.
  intros HF Hr Hc. unfold column. destruct (is_mat_ent R_ops Fes r 3 f HF) as (W & E1 & E2 & EE).
  destruct (mblock_ok R_ops Fes 0 c r 1 W Hr ltac:(lia) ltac:(lia) ltac:(lia)) as (m & Em & Hm). rewrite Em. cbn [bind].
  pose proof (fun a b => mat_entry m r 1 _ a b Hm) as ME. cbv beta in ME.
  destruct (is_mat_ent R_ops m r 1 _ Hm) as (Wm & R1 & C1 & _).
  assert (LV : length (mval m) = r). { unfold mat_wf in Wm. rewrite Wm, R1, C1. lia. }
  assert (EM : m = mat_of_vec (mval m)). { unfold mat_of_vec. rewrite LV, <- R1. destruct m as [a b v]. cbn [mrow mcol mval] in *. now rewrite C1. }
  assert (VM : vec_of_mat R_ops m = Ok (mval m)). { rewrite EM at 1. destruct (C19_constructors_pf R R_ops) as (_ & _ & CV). destruct (CV (mval m) _ _ (is_vec_of_list (mval m))) as (_ & _ & _ & V & _). exact V. }
  exists (mval m). splits; auto. intros a Ha. specialize (ME a 0%nat Ha ltac:(lia)). rewrite C1 in ME. replace (a * 1 + 0)%nat with a in ME by lia. rewrite ME.
  rewrite Nat.add_0_l, Nat.add_0_r. apply EE; auto.
Qed.

(** ** The elements *)
Definition kel (d : cell) (c : nat) (el : list nat) : elem :=
  match PlaneStrainStiffness (cl_s d) (cl_q d) el [0%nat; 1%nat] (cl_x d) (cl_E d) (cl_V d) (cl_t d),
        HomogenizePlaneStrainBodyForce (cl_s d) (cl_q d) el [0%nat; 1%nat] (cl_x d) (cl_E d) (cl_V d) (cl_t d) with
  | Ok (K, ne), Ok (F, _) => mkElem el ne K (match column F c (mrow K) with Ok v => v | Fail _ => [] end)
  | _, _ => mkElem el [] (mnew R_ops 0 0) [] end.
Definition sel (d : cell) (el : list nat) : elem :=
  match WeakSpring el [0%nat; 1%nat] (cl_alpha d) with Ok (K, ne) => mkElem el ne K (repeat 0 (2 * length el)) | Fail _ => mkElem el [] (mnew R_ops 0 0) [] end.

Record kel_ok (d : cell) (el : list nat) : Prop := mkKel {
  kk_call : PlaneStrainStiffness (cl_s d) (cl_q d) el [0%nat; 1%nat] (cl_x d) (cl_E d) (cl_V d) (cl_t d) = Ok (e_K (kel d 0 el), e_nte (kel d 0 el));
  kk_load : exists F, HomogenizePlaneStrainBodyForce (cl_s d) (cl_q d) el [0%nat; 1%nat] (cl_x d) (cl_E d) (cl_V d) (cl_t d) = Ok (F, e_nte (kel d 0 el)) /\
    forall c, (c < 3)%nat -> column F c (mrow (e_K (kel d 0 el))) = Ok (e_F (kel d c el));
  kk_same : forall c, (c < 3)%nat -> e_nodes (kel d c el) = el /\ e_nte (kel d c el) = e_nte (kel d 0 el) /\ e_K (kel d c el) = e_K (kel d 0 el);
  kk_fits : forall c t, (c < 3)%nat -> (forall k j, In k el -> (j < 2)%nat -> in_table t k j) -> elem_fits t (kel d c el);
  kk_in : forall a, In a (e_dofs (kel d 0 el)) -> In (dnode a) el /\ (ddof a < 2)%nat;
  kk_sym : forall a b, In a (e_dofs (kel d 0 el)) -> In b (e_dofs (kel d 0 el)) -> e_k (kel d 0 el) (dloc a) (dloc b) = e_k (kel d 0 el) (dloc b) (dloc a);
  kk_bil : forall u w, bil (kel d 0 el) (e_dofs (kel d 0 el)) u w = work1 d el (eps d u el) (eps d w el);
  kk_lin : forall c w, (c < 3)%nat -> sum_over (e_dofs (kel d c el)) (fun a => e_f (kel d c el) (dloc a) * w (dnode a) (ddof a)) = work1 d el (unit c) (eps d w el) }.

Lemma kel_is d el : cell_ok d -> In el (cl_elements d) -> kel_ok d el.
Proof.
  intros HC Hel. destruct (ck_element d HC el Hel) as [He Hp]. pose proof (nv d HC) as NV.
  destruct (call_strain _ _ el [0%nat; 1%nat] _ (cl_E d) (cl_V d) (cl_t d) He eq_refl NV) as (K & ne & k & E1 & H1 & N1 & F1).
  destruct (C84_body_force_pf _ _ el [0%nat; 1%nat] _ (cl_E d) (cl_V d) (cl_t d) He eq_refl NV) as (F & ne2 & f & E2 & H2 & N2 & F2 & _).
  rewrite <- (numbered_eq _ _ _ _ _ N1 N2) in E2. clear ne2 N2.
  assert (MR : mrow K = (2 * length el)%nat /\ mcol K = (2 * length el)%nat) by (split; apply H1). destruct MR as [MR MC].
  assert (LE : (0 < length el)%nat). { destruct He as (A & _ & B & _). rewrite B. clear -A. cbn in A. repeat (destruct A as [<-|A]; [cbn; lia|]). destruct A. }
  assert (CO : forall c, (c < 3)%nat -> exists v, column F c (mrow K) = Ok v /\ length v = (2 * length el)%nat /\ forall a, (a < 2 * length el)%nat -> nth a v 0 = f a c).
  { intros c Hc. rewrite MR. apply column_ok; auto. lia. }
  assert (KE : forall c, (c < 3)%nat -> exists v, kel d c el = mkElem el ne K v /\ column F c (mrow K) = Ok v /\ length v = (2 * length el)%nat /\ forall a, (a < 2 * length el)%nat -> nth a v 0 = f a c).
  { intros c Hc. destruct (CO c Hc) as (v & A & B & C). exists v. unfold kel. rewrite E1, E2, A. auto. }
  assert (DF : forall a, In a (dofs el ne) -> In (dnode a) el /\ (ddof a < 2)%nat /\ (dloc a < 2 * length el)%nat).
  { intros a Ha. destruct (numbered_dofs 2 [0%nat; 1%nat] a el ne N1 Ha) as (i & j & Hi & Hj & ->). cbn [dnode ddof dloc]. splits; [now apply nth_In|destruct j as [|[|]]; cbn; lia|lia]. }
  pose proof (fun y => gradients_gradU (cl_s d) (cl_q d) el (cl_x d) 2 2 y He ltac:(lia)) as G.
  destruct (KE 0%nat ltac:(lia)) as (v0 & K0 & C0 & L0 & V0).
  assert (BF : forall u w, bil (kel d 0 el) (e_dofs (kel d 0 el)) u w = form 2 (length el) k (ufld el u) (ufld el w)).
  { intros u w. rewrite K0. rewrite (bil_form (mkElem el ne K v0) k [0%nat; 1%nat] 2 u w ltac:(lia) H1 N1). cbn [e_nodes]. apply form_ext; [lia| |]; intros i c Hi Hc; now rewrite nth01. }
  split.
  - now rewrite K0.
  - exists F. rewrite K0. cbn [e_K e_nte]. split; auto. intros c Hc. destruct (KE c Hc) as (v & -> & A & _). exact A.
  - intros c Hc. destruct (KE c Hc) as (v & -> & A & _). rewrite K0. auto.
  - intros c t Hc Ht. destruct (KE c Hc) as (v & -> & A & L & _). unfold elem_fits, e_dofs. cbn [e_nodes e_nte e_K e_F]. split; [rewrite (proj1 N1); lia|]. split; [apply H1|].
    intros a Ha. destruct (DF a Ha) as (A1 & B & C). rewrite L. splits; [now apply Ht|lia..].
  - rewrite K0. intros a Ha. split; apply DF; auto.
  - rewrite K0. unfold e_dofs. cbn [e_nodes e_nte]. intros a b Ha Hb. unfold e_k. cbn [e_K]. rewrite !(mat_entry _ _ _ _ _ _ H1) by (apply DF; auto).
    rewrite <- (form_entry 2 (length el) k (dloc a) (dloc b)), <- (form_entry 2 (length el) k (dloc b) (dloc a)) by (apply DF; auto).
    rewrite !(F1 _ _ _ _ (G _) (G _)). apply quad_ext. intros g Hg. do 2 f_equal. apply hooke_sym_.
  - intros u w. rewrite BF. rewrite (F1 _ _ _ _ (G _) (G _)). reflexivity.
  - intros c w Hc. destruct (KE c Hc) as (v & -> & _ & L & V). unfold e_dofs, e_f. cbn [e_nodes e_nte e_F]. rewrite (numbered_sum 2 [0%nat; 1%nat] el ne _ N1).
    unfold work1, unit, eps, grd. cbv beta. rewrite <- (F2 c (ufld el w) _ Hc (G _)). rewrite (Nat.mul_comm 2), bigsum_blocks. apply bigsum_ext. intros i Hi. apply bigsum_ext. intros j Hj.
    cbn [dloc dnode ddof]. rewrite (nth01 j Hj), (Nat.mul_comm i 2), V by lia. destruct (dm 2 i j Hj) as [-> ->]. reflexivity.
Qed.

(** ** The springs *)
Lemma spring_bil alpha (k : nat -> nat -> R) (u w : field) : forall el s,
  (forall a b, In a (SpringMain.spring_dofs_from [0%nat; 1%nat] el s) -> In b (SpringMain.spring_dofs_from [0%nat; 1%nat] el s) -> k (dloc a) (dloc b) = (if (dloc a =? dloc b)%nat then 1 else 0) * alpha) ->
  sum_over (SpringMain.spring_dofs_from [0%nat; 1%nat] el s) (fun a => u (dnode a) (ddof a) * sum_over (SpringMain.spring_dofs_from [0%nat; 1%nat] el s) (fun b => k (dloc a) (dloc b) * w (dnode b) (ddof b))) =
  alpha * sum_over el (fun i => (u i 0%nat + u i 1%nat) * (w i 0%nat + w i 1%nat)).
Proof.
  induction el as [|e el IH]; intros s Hk; cbn [SpringMain.spring_dofs_from]; [rewrite !sum_over_nil; ring|].
  set (T := SpringMain.spring_dofs_from [0%nat; 1%nat] el (S s)) in *. cbn [map app length]. cbn [SpringMain.spring_dofs_from map app length] in Hk. fold T in Hk.
  set (D0 := mkDof e 0 (2 * s)) in *. set (D1 := mkDof e 1 (2 * s)) in *.
  assert (HT : forall a, In a T -> dloc a <> (2 * s)%nat). { intros a Ha E. apply SpringMain.spring_dofs_in in Ha. destruct Ha as (_ & _ & i & Hi & Ei). cbn [length] in Ei. lia. }
  assert (I0 : In D0 (D0 :: D1 :: T)) by (now left). assert (I1 : In D1 (D0 :: D1 :: T)) by (right; now left).
  assert (IT : forall a, In a T -> In a (D0 :: D1 :: T)) by (intros; right; now right).
  assert (ZT : forall a, In a T -> k (dloc a) (2 * s)%nat = 0 /\ k (2 * s)%nat (dloc a) = 0).
  { intros a Ha. pose proof (Hk a D0 (IT a Ha) I0) as A. pose proof (Hk D0 a I0 (IT a Ha)) as B. change (dloc D0) with (2 * s)%nat in A, B. destruct (Nat.eqb_spec (dloc a) (2 * s)) as [E|_]; [destruct (HT a Ha E)|].
    destruct (Nat.eqb_spec (2 * s) (dloc a)) as [E|_]; [destruct (HT a Ha); now symmetry|]. rewrite A, B. split; ring. }
  assert (KD : k (2 * s)%nat (2 * s)%nat = alpha). { pose proof (Hk D0 D0 I0 I0) as A. change (dloc D0) with (2 * s)%nat in A. rewrite Nat.eqb_refl in A. rewrite A. ring. }
  assert (RT : sum_over T (fun b => k (2 * s)%nat (dloc b) * w (dnode b) (ddof b)) = 0).
  { rewrite (sum_ext T _ (fun _ => 0)); [apply sum_zero; reflexivity|]. intros b Hb. rewrite (proj2 (ZT b Hb)). ring. }
  rewrite !sum_over_cons. change (dloc D0) with (2 * s)%nat. change (dloc D1) with (2 * s)%nat. change (dnode D0) with e. change (dnode D1) with e. change (ddof D0) with 0%nat. change (ddof D1) with 1%nat.
  rewrite RT, KD. rewrite (sum_ext T _ (fun a => u (dnode a) (ddof a) * sum_over T (fun b => k (dloc a) (dloc b) * w (dnode b) (ddof b)))).
  - pose proof (IH (S s) (fun a b Ha Hb => Hk a b (IT a Ha) (IT b Hb))) as IH'. fold T in IH'. rewrite IH'. ring.
  - intros a Ha. rewrite !sum_over_cons. change (dloc D0) with (2 * s)%nat. change (dloc D1) with (2 * s)%nat. rewrite (proj1 (ZT a Ha)). ring.
Qed.
Record sel_ok (d : cell) (el : list nat) : Prop := mkSel {
  sk_call : WeakSpring el [0%nat; 1%nat] (cl_alpha d) = Ok (e_K (sel d el), e_nte (sel d el));
  sk_nodes : e_nodes (sel d el) = el;
  sk_fits : forall t, (forall k j, In k el -> (j < 2)%nat -> in_table t k j) -> elem_fits t (sel d el);
  sk_in : forall a, In a (e_dofs (sel d el)) -> In (dnode a) el /\ (ddof a < 2)%nat;
  sk_sym : forall a b, In a (e_dofs (sel d el)) -> In b (e_dofs (sel d el)) -> e_k (sel d el) (dloc a) (dloc b) = e_k (sel d el) (dloc b) (dloc a);
  sk_bil : forall u w, bil (sel d el) (e_dofs (sel d el)) u w = spring1 d el u w }.
Lemma sel_is d el : sel_ok d el.
Proof.
  destruct (SpringMain.spring_ok el [0%nat; 1%nat] (cl_alpha d)) as (K & E & HK). cbn [length] in HK.
  assert (SE : sel d el = mkElem el (map (SpringMain.spring_row [0%nat; 1%nat]) (seq 0 (length el))) K (repeat 0 (2 * length el))) by (unfold sel; now rewrite E).
  assert (DE : e_dofs (sel d el) = SpringMain.spring_dofs_from [0%nat; 1%nat] el 0) by (rewrite SE; unfold e_dofs; cbn [e_nodes e_nte]; apply SpringMain.spring_dofs_eq).
  assert (DI : forall a, In a (e_dofs (sel d el)) -> In (dnode a) el /\ (ddof a < 2)%nat /\ (dloc a < 2 * length el)%nat).
  { intros a Ha. rewrite DE in Ha. destruct (SpringMain.spring_dofs_in _ _ _ _ Ha) as (A & B & i & Hi & C). splits; auto; [destruct B as [<-|[<-|[]]]; lia|cbn [length] in C; lia]. }
  assert (EK : forall a b, In a (e_dofs (sel d el)) -> In b (e_dofs (sel d el)) -> e_k (sel d el) (dloc a) (dloc b) = (if (dloc a =? dloc b)%nat then 1 else 0) * cl_alpha d).
  { intros a b Ha Hb. unfold e_k. rewrite SE. cbn [e_K]. rewrite (mat_entry _ _ _ _ _ _ HK) by (apply DI; auto). reflexivity. }
  split.
  - rewrite E, SE. reflexivity.
  - now rewrite SE.
  - intros t Ht. unfold elem_fits. split; [rewrite SE; cbn [e_nodes e_nte]; rewrite map_length, seq_length; lia|]. split; [rewrite SE; apply HK|].
    intros a Ha. destruct (DI a Ha) as (A & B & C). assert (MR : mrow (e_K (sel d el)) = (2 * length el)%nat /\ mcol (e_K (sel d el)) = (2 * length el)%nat) by (rewrite SE; split; apply HK). rewrite SE at 3. cbn [e_F]. rewrite repeat_length. splits; [now apply Ht|lia..].
  - intros a Ha. split; apply DI; auto.
  - intros a b Ha Hb. rewrite !EK, Nat.eqb_sym by auto. reflexivity.
  - intros u w. unfold bil, spring1. rewrite DE in EK |- *. now apply spring_bil.
Qed.
