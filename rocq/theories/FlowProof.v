(** Lemmas on the flow elements. *)
From Coq Require Import List Arith Lia Bool Reals Lra.
From Verif Require Import Res SumR DenseModel DenseR DenseSpec DenseProof DenseMain ShapeModel ShapeMain QuadModel QuadSpec
  ElemModel ElemSpec ElemProof FlowModel FlowSpec.
Import ListNotations.
Local Open Scope R_scope.

(** ** Linear combinations of states *)
Definition sadd (S T : pstate) : pstate :=
  mkS (sv0 S + sv0 T) (sv1 S + sv1 T) (sH00 S + sH00 T) (sH01 S + sH01 T) (sH10 S + sH10 T) (sH11 S + sH11 T)
    (sp S + sp T) (sG0 S + sG0 T) (sG1 S + sG1 T).
Definition sscal (c : R) (S : pstate) : pstate :=
  mkS (c * sv0 S) (c * sv1 S) (c * sH00 S) (c * sH01 S) (c * sH10 S) (c * sH11 S) (c * sp S) (c * sG0 S) (c * sG1 S).
Definition szero : pstate := mkS 0 0 0 0 0 0 0 0 0.
Fixpoint comb (N : nat) (y : nat -> R) (S : nat -> pstate) : pstate :=
  match N with O => szero | Datatypes.S k => sadd (comb k y S) (sscal (y k) (S k)) end.

Definition linear (L : pstate -> R) : Prop :=
  L szero = 0 /\ (forall S T, L (sadd S T) = L S + L T) /\ (forall c S, L (sscal c S) = c * L S).
Lemma linear_comb L N y S : linear L -> L (comb N y S) = bigsum N (fun a => y a * L (S a)).
Proof.
  intros (H0 & Ha & Hs). induction N as [|N IH]; cbn [comb bigsum]; [exact H0|]. now rewrite Ha, Hs, IH.
Qed.
Lemma bilinear_comb W N y z S T : (forall X, linear (W X)) -> (forall X, linear (fun Y => W Y X)) ->
  W (comb N y S) (comb N z T) = bigsum N (fun a => bigsum N (fun b => y a * W (S a) (T b) * z b)).
Proof.
  intros HR HL. rewrite (linear_comb (fun Y => W Y (comb N z T)) N y S (HL _)). apply bigsum_ext; intros a _.
  rewrite (linear_comb _ N z T (HR (S a))), <- bigsum_scal. apply bigsum_ext; intros. ring.
Qed.

(** ** Layout of the dofs *)
Definition size (m n c : nat) : nat := if (c =? 2)%nat then n else m.
Lemma split_range m n a : (a < 2 * m + n)%nat -> let '(c, i) := split m a in (c < 3)%nat /\ (i < size m n c)%nat /\ (a = c * m + i)%nat.
Proof. intros H. unfold split, size. nat_all; cbn; lia. Qed.
Lemma split_at m n c i : (c < 3)%nat -> (i < size m n c)%nat -> split m (c * m + i) = (c, i).
Proof.
  intros Hc Hi. unfold split, size in *. destruct c as [|[|[|c]]]; try lia; cbn [Nat.eqb Nat.mul Nat.add] in *; nat_all; f_equal; lia.
Qed.

Lemma mixed_ok_ m n t T : (forall c e i j, (c < 3)%nat -> (e < 3)%nat -> (i < size m n c)%nat -> (j < size m n e)%nat ->
    ent2 (t i j) c e = Ok (T (c, i) (e, j))) ->
  exists K, mixed m n t = Ok K /\ is_mat K (2 * m + n) (2 * m + n) (fun a b => T (split m a) (split m b)).
Proof.
  intros H. apply Rmbuild. intros a b Ha Hb. pose proof (split_range m n a Ha) as Sa. pose proof (split_range m n b Hb) as Sb.
  destruct (split m a) as [c i]. destruct (split m b) as [e j]. apply H; tauto.
Qed.
Lemma mixedv_ok_ m n t T : (forall c i, (c < 3)%nat -> (i < size m n c)%nat -> nth c (t i) (Fail OutOfBounds) = Ok (T (c, i))) ->
  exists F, mixedv m n t = Ok F /\ is_vec F (2 * m + n) (fun a => T (split m a)).
Proof.
  intros H. unfold mixedv. rewrite (mapM_seq _ (fun a => T (split m a))).
  - eexists. split; [reflexivity|]. apply (is_vec_intro R_ops); [now rewrite map_length, seq_length|].
    intros i Hi. apply (@nth_map_seq R (fun a => T (split m a)) _ i 0 Hi).
  - intros a Ha. pose proof (split_range m n a Ha) as Sa. destruct (split m a) as [c i]. apply H; tauto.
Qed.

(** ** The states of the unit dofs *)
Definition basis (M : nat -> R) (dM : nat -> nat -> R) (N : nat -> R) (dN : nat -> nat -> R) (ci : nat * nat) : pstate :=
  let '(c, i) := ci in
  match c with
  | O => mkS (M i) 0 (dM 0%nat i) 0 (dM 1%nat i) 0 0 0 0
  | 1%nat => mkS 0 (M i) 0 (dM 0%nat i) 0 (dM 1%nat i) 0 0 0
  | _ => mkS 0 0 0 0 0 0 (N i) (dN 0%nat i) (dN 1%nat i)
  end.

Lemma bigsum_mixed m n (f : nat -> R) :
  bigsum (2 * m + n) f = bigsum m (fun i => f i) + bigsum m (fun i => f (m + i)%nat) + bigsum n (fun j => f (2 * m + j)%nat).
Proof. replace (2 * m)%nat with (m + m)%nat by lia. rewrite !bigsum_split. reflexivity. Qed.

Lemma comb_mixed m n M dM N dN y L : linear L ->
  L (comb (2 * m + n) y (fun a => basis M dM N dN (split m a))) =
  L (mkS (bigsum m (fun i => M i * vel m y i 0)) (bigsum m (fun i => M i * vel m y i 1))
         (bigsum m (fun i => dM 0%nat i * vel m y i 0)) (bigsum m (fun i => dM 0%nat i * vel m y i 1))
         (bigsum m (fun i => dM 1%nat i * vel m y i 0)) (bigsum m (fun i => dM 1%nat i * vel m y i 1))
         (bigsum n (fun j => N j * prs m y j 0)) (bigsum n (fun j => dN 0%nat j * prs m y j 0)) (bigsum n (fun j => dN 1%nat j * prs m y j 0))).
Proof.
  intros HL. f_equal. set (C := comb _ _ _).
  assert (P : forall f : pstate -> R, linear f -> f C = bigsum m (fun i => y i * f (basis M dM N dN (0%nat, i)))
     + bigsum m (fun i => y (m + i)%nat * f (basis M dM N dN (1%nat, i))) + bigsum n (fun j => y (2 * m + j)%nat * f (basis M dM N dN (2%nat, j)))).
  { intros f Hf. unfold C. rewrite (linear_comb f _ _ _ Hf), bigsum_mixed. f_equal; [f_equal|].
    - apply bigsum_ext; intros i Hi. pose proof (split_at m n 0 i ltac:(lia) Hi) as Q. cbn [Nat.mul Nat.add] in Q. now rewrite Q.
    - apply bigsum_ext; intros i Hi. replace (m + i)%nat with (1 * m + i)%nat by lia. now rewrite (split_at m n 1 i) by (cbn; lia).
    - apply bigsum_ext; intros i Hi. now rewrite (split_at m n 2 i) by (cbn; lia). }
  assert (Z : forall k (f : nat -> R), bigsum k (fun i => f i * 0) = 0) by (intros; apply bigsum_zero; intros; ring).
  destruct C as [c0 c1 c2 c3 c4 c5 c6 c7 c8] eqn:EC.
  assert (Lin : forall f, In f [sv0; sv1; sH00; sH01; sH10; sH11; sp; sG0; sG1] -> linear f).
  { intros f Hf. repeat (destruct Hf as [<-|Hf]; [repeat split|]). destruct Hf. }
  f_equal.
  1: pose proof (P sv0 ltac:(apply Lin; cbn; tauto)) as Q. 2: pose proof (P sv1 ltac:(apply Lin; cbn; tauto)) as Q.
  3: pose proof (P sH00 ltac:(apply Lin; cbn; tauto)) as Q. 4: pose proof (P sH01 ltac:(apply Lin; cbn; tauto)) as Q.
  5: pose proof (P sH10 ltac:(apply Lin; cbn; tauto)) as Q. 6: pose proof (P sH11 ltac:(apply Lin; cbn; tauto)) as Q.
  7: pose proof (P sp ltac:(apply Lin; cbn; tauto)) as Q. 8: pose proof (P sG0 ltac:(apply Lin; cbn; tauto)) as Q.
  9: pose proof (P sG1 ltac:(apply Lin; cbn; tauto)) as Q.
  all: cbn [basis sv0 sv1 sH00 sH01 sH10 sH11 sp sG0 sG1] in Q; rewrite ?Z in Q; rewrite Q; ring_simplify;
    apply bigsum_ext; intros; unfold vel, prs; cbn [Nat.mul Nat.add]; rewrite ?Nat.add_0_r; ring.
Qed.

(** ** Gradients with a separate geometry *)
Definition gradM (sg su : shape) (x : nat -> nat -> R) (r : nat -> R) (l i : nat) : R :=
  bigsum 2 (fun k => cof 2 (tangent sg x r) l k / jac sg x r * dshp su r k i).
Section Via.
Variables (sg su : shape) (x : nat -> nat -> R) (r : nat -> R).
Hypothesis Hd : sf_d sg = 2%nat.
Hypothesis HJ : jac sg x r <> 0.
Definition gradV (u : nat -> nat -> R) (l c : nat) : R := bigsum (sf_n su) (fun i => gradM sg su x r l i * u i c).
Lemma gradV_alt u l c : gradV u l c =
  bigsum 2 (fun k => cof 2 (tangent sg x r) l k / jac sg x r * bigsum (sf_n su) (fun i => dshp su r k i * u i c)).
Proof using .
  unfold gradV, gradM.
  rewrite (bigsum_ext _ _ (fun i => bigsum 2 (fun k => cof 2 (tangent sg x r) l k / jac sg x r * dshp su r k i * u i c)))
    by (intros; now rewrite bigsum_scal_r).
  rewrite bigsum_swap. apply bigsum_ext. intros k _. rewrite <- bigsum_scal. apply bigsum_ext. intros. ring.
Qed.
Lemma jac_det : jac sg x r = detd 2 (tangent sg x r).
Proof. unfold jac. now rewrite Hd. Qed.
Lemma gradV_via mc u : gradient_via sg su x r mc u (gradV u).
Proof.
  intros k c Hk Hc.
  rewrite (bigsum_ext _ _ (fun l => bigsum 2 (fun k' => tangent sg x r k l * (cof 2 (tangent sg x r) l k' / jac sg x r) *
      bigsum (sf_n su) (fun i => dshp su r k' i * u i c)))).
  2:{ intros l _. rewrite gradV_alt, <- bigsum_scal. apply bigsum_ext. intros. ring. }
  rewrite bigsum_swap.
  rewrite (bigsum_ext _ _ (fun k' => (if (k =? k')%nat then 1 else 0) * bigsum (sf_n su) (fun i => dshp su r k' i * u i c))).
  - now rewrite (bigsum_ite 2 k (fun k' => bigsum (sf_n su) (fun i => dshp su r k' i * u i c))) by auto.
  - intros k' Hk'. rewrite bigsum_scal_r. f_equal. rewrite jac_det in *. apply cof_right; auto.
Qed.
Lemma via_unique mc u H : gradient_via sg su x r mc u H ->
  forall l c, (l < 2)%nat -> (c < mc)%nat -> H l c = gradV u l c.
Proof.
  intros HF l c Hl Hc. rewrite gradV_alt.
  rewrite (bigsum_ext _ _ (fun k => bigsum 2 (fun l' => cof 2 (tangent sg x r) l k / jac sg x r * tangent sg x r k l' * H l' c))).
  2:{ intros k Hk. rewrite <- (HF k c Hk Hc), <- bigsum_scal. apply bigsum_ext. intros. ring. }
  rewrite bigsum_swap.
  rewrite (bigsum_ext _ _ (fun l' => (if (l =? l')%nat then 1 else 0) * H l' c)).
  - now rewrite (bigsum_ite 2 l (fun l' => H l' c)) by auto.
  - intros l' Hl'. rewrite bigsum_scal_r. f_equal. rewrite jac_det in *. apply (cof_left 2 (tangent sg x r)); auto.
Qed.
End Via.

(** the state of a dof vector, computed *)
Definition state (su sg : shape) (x : nat -> nat -> R) (m n : nat) (y : nat -> R) (r : nat -> R) : pstate :=
  mkS (bigsum m (fun i => shp su r i * vel m y i 0)) (bigsum m (fun i => shp su r i * vel m y i 1))
      (bigsum m (fun i => gradM sg su x r 0 i * vel m y i 0)) (bigsum m (fun i => gradM sg su x r 0 i * vel m y i 1))
      (bigsum m (fun i => gradM sg su x r 1 i * vel m y i 0)) (bigsum m (fun i => gradM sg su x r 1 i * vel m y i 1))
      (bigsum n (fun j => shp sg r j * prs m y j 0)) (bigsum n (fun j => gradM sg sg x r 0 j * prs m y j 0))
      (bigsum n (fun j => gradM sg sg x r 1 j * prs m y j 0)).
Lemma state_eq su sg x y r S : sf_d sg = 2%nat -> jac sg x r <> 0 ->
  velocity_at su sg x (sf_n su) y r S -> pressure_at sg x (sf_n su) y r S -> S = state su sg x (sf_n su) (sf_n sg) y r.
Proof.
  intros Hd HJ (Hv & Hg) (Hp & Hpg). pose proof (via_unique sg su x r Hd HJ 2 _ _ Hg) as G. pose proof (via_unique sg sg x r Hd HJ 1 _ _ Hpg) as P.
  destruct S as [a0 a1 b00 b01 b10 b11 p g0 g1]. unfold state.
  f_equal.
  - apply (Hv 0%nat); lia.
  - apply (Hv 1%nat); lia.
  - apply (G 0%nat 0%nat); lia.
  - apply (G 0%nat 1%nat); lia.
  - apply (G 1%nat 0%nat); lia.
  - apply (G 1%nat 1%nat); lia.
  - exact Hp.
  - apply (P 0%nat 0%nat); lia.
  - apply (P 1%nat 0%nat); lia.
Qed.
Lemma state_flow su sg x y r : sf_d sg = 2%nat -> jac sg x r <> 0 ->
  velocity_at su sg x (sf_n su) y r (state su sg x (sf_n su) (sf_n sg) y r) /\
  pressure_at sg x (sf_n su) y r (state su sg x (sf_n su) (sf_n sg) y r).
Proof.
  intros Hd HJ. split; split.
  - intros [|[|c]] Hc; [reflexivity|reflexivity|lia].
  - pose proof (gradV_via sg su x r Hd HJ 2 (vel (sf_n su) y)) as G. intros k c Hk Hc. rewrite <- (G k c Hk Hc).
    apply bigsum_ext. intros l Hl. destruct c as [|[|c]]; [| |lia]; (destruct l as [|[|l]]; [| |lia]); reflexivity.
  - reflexivity.
  - pose proof (gradV_via sg sg x r Hd HJ 1 (prs (sf_n su) y)) as G. intros k c Hk Hc. rewrite <- (G k c Hk Hc).
    apply bigsum_ext. intros l Hl. destruct c as [|c]; [|lia]; (destruct l as [|[|l]]; [| |lia]); reflexivity.
Qed.
Lemma vstate_eq s x y r S : sf_d s = 2%nat -> jac s x r <> 0 -> velocity_at s s x (sf_n s) y r S ->
  mkS (sv0 S) (sv1 S) (sH00 S) (sH01 S) (sH10 S) (sH11 S) 0 0 0 = state s s x (sf_n s) 0 y r.
Proof.
  intros Hd HJ (Hv & Hg). pose proof (via_unique s s x r Hd HJ 2 _ _ Hg) as G.
  destruct S as [a0 a1 b00 b01 b10 b11 p g0 g1]. unfold state. cbn [sv0 sv1 sH00 sH01 sH10 sH11 bigsum].
  f_equal; [apply (Hv 0%nat)|apply (Hv 1%nat)|apply (G 0%nat 0%nat)|apply (G 0%nat 1%nat)|apply (G 1%nat 0%nat)|apply (G 1%nat 1%nat)]; lia.
Qed.

(** ** Values at an integration point *)
Lemma nte_u_ok m dou : (2 <= length dou)%nat -> exists nu, nte_u m dou = Ok nu /\ numbered_u m dou nu.
Proof.
  intros H. unfold nte_u. rewrite (mapM_seq _ (fun i => [(nth 0 dou O, i); (nth 1 dou O, (m + i)%nat)])).
  - eexists. split; reflexivity.
  - intros i Hi. cbn [seq mapM]. rewrite !rd_nth with (d := O) by lia. cbn [bind Nat.mul Nat.add]. now rewrite Nat.add_0_r.
Qed.
Lemma nte_p_ok m n dou : (3 <= length dou)%nat -> exists np, nte_p m n dou = Ok np /\ numbered_p m n dou np.
Proof.
  intros H. unfold nte_p. rewrite (mapM_seq _ (fun i => [(nth 2 dou O, (2 * m + i)%nat)])).
  - eexists. split; reflexivity.
  - intros i Hi. rewrite rd_nth with (d := O) by lia. reflexivity.
Qed.

Section Point.
Variables (su sg : shape) (q : rule) (elemu elemp dou : list nat) (xs : list (list R)).
Hypothesis He : mixed_ok su sg q elemu elemp dou xs.
Let x := nodal elemp xs.
Let m := length elemu.
Let n := length elemp.

Lemma flow_jacobian g Xp : (g < q_n q)%nat -> is_mat Xp n 2 x -> exists T,
  jacobian sg q g Xp = Ok (jac sg x (pt q g), T, sf_mat sg (nth g (q_points q) [])) /\ is_mat T 2 2 (tangent sg x (pt q g)).
Proof.
  intros Hg HX. destruct He as (H1 & H2 & H3 & H4 & H5 & H6 & H7 & H8 & H9 & H10 & H11).
  unfold jacobian. rewrite (gpoint_ok _ q g H10 Hg). cbn [bind]. pose proof (sf_mat_ok sg H2 (nth g (q_points q) [])) as HS.
  unfold n in HX. rewrite H6 in HX. rewrite H4 in HS.
  destruct (Rmmul _ _ _ _ _ _ _ HS HX) as (T & ET & HT). rewrite ET. cbn [bind].
  rewrite (Rdetd 2 _ _ ltac:(lia) HT). cbn [bind]. exists T. split; [|exact HT]. unfold jac. rewrite H4. reflexivity.
Qed.
Lemma point_ok g Xp : (g < q_n q)%nat -> is_mat Xp n 2 x -> exists N M dN dM,
  mixed_point su sg q g Xp = Ok (mkPoint (jac sg x (pt q g)) N M dN dM) /\
  is_vec N n (shp sg (pt q g)) /\ is_vec M m (shp su (pt q g)) /\
  is_mat dN 2 n (gradM sg sg x (pt q g)) /\ is_mat dM 2 m (gradM sg su x (pt q g)).
Proof.
  intros Hg HX. destruct (flow_jacobian g Xp Hg HX) as (T & ET & HT).
  destruct He as (H1 & H2 & H3 & H4 & H5 & H6 & H7 & H8 & H9 & H10 & H11).
  unfold mixed_point. rewrite (gpoint_ok _ q g H10 Hg). cbn [bind]. rewrite ET. cbn [bind].
  pose proof (jac_det sg x (pt q g) H4) as JD.
  destruct (Rminv 2 _ _ ltac:(lia) HT) as (Ti & ETi & HTi). { rewrite <- JD. apply (H11 g Hg). }
  rewrite ETi. cbn [bind].
  pose proof (sf_mat_ok sg H2 (nth g (q_points q) [])) as HS. rewrite H4 in HS.
  pose proof (sf_mat_ok su H1 (nth g (q_points q) [])) as HU. rewrite H3 in HU.
  destruct (Rmmul _ _ _ _ _ _ _ HTi HS) as (A & EA & HA). rewrite EA. cbn [bind].
  destruct (Rmmul _ _ _ _ _ _ _ HTi HU) as (B & EB & HB). rewrite EB. cbn [bind].
  do 4 eexists. split; [reflexivity|]. unfold m, n. rewrite H5, H6.
  split; [apply (sf_vec_ok sg H2)|]. split; [apply (sf_vec_ok su H1)|].
  rewrite <- JD in HA, HB. split; assumption.
Qed.
End Point.

(** evaluation of lifted arithmetic *)
Lemma rmul_Ok a b x y : a = Ok x -> b = Ok y -> a *! b = Ok (x * y). Proof. intros -> ->. reflexivity. Qed.
Lemma radd_Ok a b x y : a = Ok x -> b = Ok y -> a +! b = Ok (x + y). Proof. intros -> ->. reflexivity. Qed.
Lemma rsub_Ok a b x y : a = Ok x -> b = Ok y -> a -! b = Ok (x - y). Proof. intros -> ->. reflexivity. Qed.
Lemma ropp_Ok a x : a = Ok x -> ropp a = Ok (- x). Proof. intros ->. reflexivity. Qed.
Lemma Ok_eq (a : res R) x y : a = Ok x -> x = y -> a = Ok y. Proof. now intros -> ->. Qed.

(** ** Matrices and vectors as forms on dof vectors *)
Definition has_mform (N : nat) (K : mat R) (F : (nat -> R) -> (nat -> R) -> R) : Prop :=
  exists k, is_mat K N N k /\ forall y z, mform N k y z = F y z.
Definition has_mlin (N : nat) (v : list R) (F : (nat -> R) -> R) : Prop :=
  exists f, is_vec v N f /\ forall y, bigsum N (fun a => f a * y a) = F y.
Lemma mform_scal N k c y z : mform N (fun a b => k a b * c) y z = mform N k y z * c.
Proof.
  unfold mform. rewrite <- bigsum_scal_r. apply bigsum_ext; intros a _. rewrite <- bigsum_scal_r. apply bigsum_ext; intros b _. ring.
Qed.
Lemma mform_plus N k k' y z : mform N (fun a b => k a b + k' a b) y z = mform N k y z + mform N k' y z.
Proof.
  unfold mform. rewrite <- bigsum_plus. apply bigsum_ext; intros a _. rewrite <- bigsum_plus. apply bigsum_ext; intros b _. ring.
Qed.
Lemma hm_eq N K F G : (forall y z, F y z = G y z) -> has_mform N K F -> has_mform N K G.
Proof. intros E (k & Hk & H). exists k. split; auto. intros. now rewrite H. Qed.
Lemma hm_new N : has_mform N (mnew R_ops N N) (fun _ _ => 0).
Proof.
  exists (fun _ _ => 0). split; [apply Rmnew|]. intros. apply bigsum_zero; intros. apply bigsum_zero; intros. ring.
Qed.
Lemma hm_scal N K F s : has_mform N K F -> has_mform N (mscal R_ops s K) (fun y z => F y z * s).
Proof. intros (k & Hk & H). eexists. split; [apply (Rmscal s _ _ _ _ Hk)|]. intros. now rewrite mform_scal, H. Qed.
Lemma hm_add N K F K' F' : has_mform N K F -> has_mform N K' F' -> exists K2, madd R_ops K K' = Ok K2 /\ has_mform N K2 (fun y z => F y z + F' y z).
Proof.
  intros (k & Hk & H) (k' & Hk' & H'). destruct (Rmadd _ _ _ _ _ _ Hk Hk') as (K2 & E & H2). exists K2. split; auto.
  eexists. split; [exact H2|]. intros. now rewrite mform_plus, H, H'.
Qed.
Lemma hm_weigh N q g K F : rule_ok 2 q -> (g < q_n q)%nat -> has_mform N K F ->
  exists K2, weigh 2 q g K = Ok K2 /\ has_mform N K2 (fun y z => F y z * wgt 2 q g).
Proof.
  intros Hq Hg (k & Hk & H). destruct (weigh_ok 2 2 q g K N N k (le_n _) Hq Hg Hk) as (K2 & E & H2). exists K2. split; auto.
  eexists. split; [exact H2|]. intros. now rewrite mform_scal, H.
Qed.
Lemma hm_gauss N q body F :
  (forall g, (g < q_n q)%nat -> exists k, body g = Ok k /\ has_mform N k (F g)) ->
  exists K', gauss q body (mnew R_ops N N) = Ok K' /\ has_mform N K' (fun y z => bigsum (q_n q) (fun g => F g y z)).
Proof.
  intros Hb. unfold gauss.
  apply (loop_inv (fun K g => k <- body g ;; madd R_ops K k)
    (fun n K => has_mform N K (fun y z => bigsum n (fun g => F g y z))) (q_n q) (mnew R_ops N N)).
  - apply hm_new.
  - intros g K1 Hg H1. destruct (Hb g Hg) as (k & Ek & Hk). rewrite Ek. cbn [bind]. apply (hm_add _ _ _ _ _ H1 Hk).
Qed.

Lemma hv_new N : has_mlin N (vnew R_ops N) (fun _ => 0).
Proof. exists (fun _ => 0). split; [apply Rvnew|]. intros. apply bigsum_zero; intros. ring. Qed.
Lemma hv_scal N v F s : has_mlin N v F -> has_mlin N (vscal R_ops s v) (fun y => F y * s).
Proof.
  intros (f & Hf & E). eexists. split; [apply (Rvscal s _ _ _ Hf)|]. intros. rewrite <- E, <- bigsum_scal_r. apply bigsum_ext; intros; ring.
Qed.
Lemma hv_add N v F v' F' : has_mlin N v F -> has_mlin N v' F' -> exists v2, vadd R_ops v v' = Ok v2 /\ has_mlin N v2 (fun y => F y + F' y).
Proof.
  intros (f & Hf & E) (f' & Hf' & E'). destruct (Rvadd _ _ _ _ _ Hf Hf') as (v2 & E2 & H2). exists v2. split; auto.
  eexists. split; [exact H2|]. intros. rewrite <- E, <- E', <- bigsum_plus. apply bigsum_ext; intros; ring.
Qed.
Lemma hv_sub N v F v' F' : has_mlin N v F -> has_mlin N v' F' -> exists v2, vsub R_ops v v' = Ok v2 /\ has_mlin N v2 (fun y => F y - F' y).
Proof.
  intros (f & Hf & E) (f' & Hf' & E'). destruct (Rvsub _ _ _ _ _ Hf Hf') as (v2 & E2 & H2). exists v2. split; auto.
  eexists. split; [exact H2|]. intros. rewrite <- E, <- E', <- bigsum_minus. apply bigsum_ext; intros; ring.
Qed.
Lemma hv_weigh w N q g v F : (w <= 2)%nat -> rule_ok 2 q -> (g < q_n q)%nat -> has_mlin N v F ->
  exists v2, weighv w q g v = Ok v2 /\ has_mlin N v2 (fun y => F y * wgt w q g).
Proof.
  intros Hw Hq Hg (f & Hf & E). destruct (weighv_ok w 2 q g v N f Hw Hq Hg Hf) as (v2 & E2 & H2). exists v2. split; auto.
  eexists. split; [exact H2|]. intros. rewrite <- E, <- bigsum_scal_r. apply bigsum_ext; intros; ring.
Qed.
Lemma hv_gauss N q body F :
  (forall g, (g < q_n q)%nat -> exists k, body g = Ok k /\ has_mlin N k (F g)) ->
  exists K', gaussv q body (vnew R_ops N) = Ok K' /\ has_mlin N K' (fun y => bigsum (q_n q) (fun g => F g y)).
Proof.
  intros Hb. unfold gaussv.
  apply (loop_inv (fun K g => k <- body g ;; vadd R_ops K k)
    (fun n K => has_mlin N K (fun y => bigsum n (fun g => F g y))) (q_n q) (vnew R_ops N)).
  - apply hv_new.
  - intros g K1 Hg H1. destruct (Hb g Hg) as (k & Ek & Hk). rewrite Ek. cbn [bind]. apply (hv_add _ _ _ _ _ H1 Hk).
Qed.
(** F -= f over the points *)
Lemma hv_minus N q (body : nat -> res (list R)) F :
  (forall g, (g < q_n q)%nat -> exists k, body g = Ok k /\ has_mlin N k (F g)) ->
  exists K', foldM (fun v g => f <- body g ;; vsub R_ops v f) (seq 0 (q_n q)) (vnew R_ops N) = Ok K' /\
    has_mlin N K' (fun y => - bigsum (q_n q) (fun g => F g y)).
Proof.
  intros Hb.
  destruct (loop_inv (fun K g => k <- body g ;; vsub R_ops K k)
    (fun n K => has_mlin N K (fun y => - bigsum n (fun g => F g y))) (q_n q) (vnew R_ops N)) as (v & E & H).
  - destruct (hv_new N) as (f & Hf & E). exists f. split; auto. intros. rewrite E. cbn [bigsum]. ring.
  - intros g K1 Hg H1. destruct (Hb g Hg) as (k & Ek & Hk). rewrite Ek. cbn [bind]. destruct (hv_sub _ _ _ _ _ H1 Hk) as (v2 & E & f & Hf & Q).
    exists v2. split; auto. exists f. split; auto. intros. rewrite Q. cbn [bigsum]. ring.
  - exists v. split; auto.
Qed.

(** a table of values of a bilinear function on the unit states *)
Lemma table_form m n M dM N dN t W :
  (forall X, linear (W X)) -> (forall X, linear (fun Y => W Y X)) ->
  (forall c e i j, (c < 3)%nat -> (e < 3)%nat -> (i < size m n c)%nat -> (j < size m n e)%nat ->
     ent2 (t i j) c e = Ok (W (basis M dM N dN (c, i)) (basis M dM N dN (e, j)))) ->
  exists K, mixed m n t = Ok K /\ has_mform (2 * m + n) K (fun y z =>
    W (comb (2 * m + n) y (fun a => basis M dM N dN (split m a))) (comb (2 * m + n) z (fun a => basis M dM N dN (split m a)))).
Proof.
  intros HR HL H. destruct (mixed_ok_ m n t (fun a b => W (basis M dM N dN a) (basis M dM N dN b)) H) as (K & E & HK).
  exists K. split; auto. eexists. split; [exact HK|]. intros. unfold mform. symmetry. now apply bilinear_comb.
Qed.
Lemma table_lin m n M dM N dN t L : linear L ->
  (forall c i, (c < 3)%nat -> (i < size m n c)%nat -> nth c (t i) (Fail OutOfBounds) = Ok (L (basis M dM N dN (c, i)))) ->
  exists F, mixedv m n t = Ok F /\ has_mlin (2 * m + n) F (fun y => L (comb (2 * m + n) y (fun a => basis M dM N dN (split m a)))).
Proof.
  intros HL H. destruct (mixedv_ok_ m n t (fun a => L (basis M dM N dN a)) H) as (F & E & HF).
  exists F. split; auto. eexists. split; [exact HF|]. intros. rewrite (linear_comb _ _ _ _ HL). apply bigsum_ext; intros; ring.
Qed.
Lemma bilinear_state W m n su sg x r y z :
  (forall X, linear (W X)) -> (forall X, linear (fun Y => W Y X)) ->
  W (comb (2 * m + n) y (fun a => basis (shp su r) (gradM sg su x r) (shp sg r) (gradM sg sg x r) (split m a)))
    (comb (2 * m + n) z (fun a => basis (shp su r) (gradM sg su x r) (shp sg r) (gradM sg sg x r) (split m a))) =
  W (state su sg x m n y r) (state su sg x m n z r).
Proof.
  intros HR HL. rewrite (comb_mixed m n (shp su r) (gradM sg su x r) (shp sg r) (gradM sg sg x r) z _ (HR _)).
  apply (comb_mixed m n (shp su r) (gradM sg su x r) (shp sg r) (gradM sg sg x r) y _ (HL _)).
Qed.

Definition bilinear (W : pstate -> pstate -> R) : Prop := (forall X, linear (W X)) /\ (forall X, linear (fun Y => W Y X)).
(** entries of the tables *)
Definition unit_at su sg x r := basis (shp su r) (gradM sg su x r) (shp sg r) (gradM sg sg x r).

Section Loops.
Variables (su sg : shape) (q : rule) (elemu elemp dou : list nat) (xs : list (list R)).
Hypothesis He : mixed_ok su sg q elemu elemp dou xs.
Let x := nodal elemp xs.
Let m := length elemu.
Let n := length elemp.
Let N := (2 * m + n)%nat.
Let dofs_ r := unit_at su sg x r.
Let st y r := state su sg x m n y r.

Lemma rule2 : rule_ok 2 q. Proof. apply He. Qed.

Lemma loop_form (t : point -> res (nat -> nat -> list (list (res R)))) (W : (nat -> R) -> pstate -> pstate -> R) Xp : is_mat Xp n 2 x ->
  (forall g, (g < q_n q)%nat -> bilinear (W (pt q g))) ->
  (forall g P N M dN dM, (g < q_n q)%nat -> P = mkPoint (jac sg x (pt q g)) N M dN dM ->
     is_vec N n (shp sg (pt q g)) -> is_vec M m (shp su (pt q g)) ->
     is_mat dN 2 n (gradM sg sg x (pt q g)) -> is_mat dM 2 m (gradM sg su x (pt q g)) ->
     exists T, t P = Ok T /\
       forall c e i j, (c < 3)%nat -> (e < 3)%nat -> (i < size m n c)%nat -> (j < size m n e)%nat ->
         ent2 (T i j) c e = Ok (W (pt q g) (dofs_ (pt q g) (c, i)) (dofs_ (pt q g) (e, j)))) ->
  exists K, mixed_loop su sg q m n Xp t = Ok K /\
    has_mform N K (fun y z => quad 2 q (fun p => jac sg x p * W p (st y p) (st z p))).
Proof.
  intros HX HW HT. unfold mixed_loop.
  destruct (hm_gauss N q (fun g =>
    P <- mixed_point su sg q g Xp ;; T <- t P ;; k <- mixed m n T ;;
    weigh 2 q g (mscal R_ops (pJ P) k)) (fun g y z => W (pt q g) (st y (pt q g)) (st z (pt q g)) * jac sg x (pt q g) * wgt 2 q g)) as (K & E & H).
  - intros g Hg. destruct (point_ok su sg q elemu elemp dou xs He g Xp Hg HX) as (Nv & M & dN & dM & EP & H1 & H2 & H3 & H4).
    fold x in EP, H3, H4.
    rewrite EP. cbn [bind]. destruct (HT g _ Nv M dN dM Hg eq_refl H1 H2 H3 H4) as (T & ET & HE). rewrite ET. cbn [bind].
    destruct (HW g Hg) as (HR & HL).
    destruct (table_form m n _ _ _ _ T (W (pt q g)) HR HL HE) as (k & Ek & Hk). rewrite Ek. cbn [bind pJ].
    apply (hm_weigh N q g); [apply rule2|exact Hg|]. apply (hm_scal N k (fun y z => W (pt q g) (st y (pt q g)) (st z (pt q g)))).
    apply (hm_eq _ _ _ _ (fun y z => bilinear_state (W (pt q g)) m n su sg x (pt q g) y z HR HL) Hk).
  - exists K. split; [exact E|]. refine (hm_eq _ _ _ _ _ H). intros y z. unfold quad. apply bigsum_ext; intros g Hg.
    change (fun k => nth k (nth g (q_points q) []) 0) with (pt q g). unfold wgt. ring.
Qed.
Lemma vloop_form (t : list R -> nat -> nat -> list (list (res R))) (W : (nat -> R) -> pstate -> pstate -> R) Xp : is_mat Xp n 2 x ->
  (forall g, (g < q_n q)%nat -> bilinear (W (pt q g))) ->
  (forall g M, (g < q_n q)%nat -> is_vec M m (shp su (pt q g)) ->
       forall c e i j, (c < 3)%nat -> (e < 3)%nat -> (i < size m n c)%nat -> (j < size m n e)%nat ->
         ent2 (t M i j) c e = Ok (W (pt q g) (dofs_ (pt q g) (c, i)) (dofs_ (pt q g) (e, j)))) ->
  exists K, value_loop su sg q m n Xp t = Ok K /\
    has_mform N K (fun y z => quad 2 q (fun p => jac sg x p * W p (st y p) (st z p))).
Proof.
  intros HX HW HT. unfold value_loop.
  destruct (hm_gauss N q (fun g =>
    p <- gpoint q g ;;
    j <- jacobian sg q g Xp ;; let '(J, _, _) := j in
    k <- mixed m n (t (sf_vec su p)) ;;
    weigh 2 q g (mscal R_ops J k)) (fun g y z => W (pt q g) (st y (pt q g)) (st z (pt q g)) * jac sg x (pt q g) * wgt 2 q g)) as (K & E & H).
  - intros g Hg. destruct (flow_jacobian su sg q elemu elemp dou xs He g Xp Hg HX) as (T & ET & _).
    fold x in ET. rewrite (gpoint_ok 2 q g rule2 Hg). cbn [bind]. rewrite ET. cbn [bind].
    destruct (HW g Hg) as (HR & HL). destruct He as (Hs & _ & _ & _ & HL5 & _).
    pose proof (sf_vec_ok su Hs (nth g (q_points q) [])) as HM. rewrite <- HL5 in HM.
    destruct (table_form m n _ _ _ _ _ (W (pt q g)) HR HL (HT g _ Hg HM)) as (k & Ek & Hk). rewrite Ek. cbn [bind].
    apply (hm_weigh N q g); [apply rule2|exact Hg|]. apply (hm_scal N k (fun y z => W (pt q g) (st y (pt q g)) (st z (pt q g)))).
    apply (hm_eq _ _ _ _ (fun y z => bilinear_state (W (pt q g)) m n su sg x (pt q g) y z HR HL) Hk).
  - exists K. split; [exact E|]. refine (hm_eq _ _ _ _ _ H). intros y z. unfold quad. apply bigsum_ext; intros g Hg.
    change (fun k => nth k (nth g (q_points q) []) 0) with (pt q g). unfold wgt. ring.
Qed.

(** the form in terms of any description of the fields *)
Lemma flow_intro K nu np W : numbered_u m dou nu -> numbered_p m n dou np ->
  has_mform N K (fun y z => quad 2 q (fun p => jac sg x p * W p (st y p) (st z p))) ->
  flow_of su sg q elemu elemp dou xs (Ok (K, nu, np)) W.
Proof.
  intros Hu Hp (k & Hk & H). exists K, nu, np, k. splits; auto. intros y z Y Z HY HZ. fold m n N. rewrite H.
  destruct He as (H1 & H2 & H3 & H4 & H5 & H6 & H7 & H8 & H9 & H10 & H11).
  unfold quad. apply bigsum_ext; intros g Hg. change (fun k => nth k (nth g (q_points q) []) 0) with (pt q g). fold x.
  destruct (HY g Hg) as (a & b). destruct (HZ g Hg) as (c & d). unfold m in a, b, c, d. fold x in a, b, c, d. rewrite H5 in a, b, c, d.
  unfold st, m, n. rewrite H5, H6. fold x in H11.
  rewrite <- (state_eq su sg x y _ _ H4 (H11 g Hg) a b), <- (state_eq su sg x z _ _ H4 (H11 g Hg) c d). reflexivity.
Qed.
End Loops.
