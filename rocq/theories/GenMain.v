(** Properties C94-C96: interpolation, averages and line integrals: the proofs. *)
From Coq Require Import List Arith Lia Bool Reals Lra.
From Verif Require Import Res SumR DenseModel DenseR ShapeModel QuadModel QuadSpec ElemModel ElemSpec ElemSpec2 GenModel GenSpec.
Import ListNotations.
Local Open Scope R_scope.
From Verif Require Import DenseSpec DenseProof DenseMain ShapeMain ElemProof ElemProof2 ElemProof3 ElemMain SturmMath GenProof GenProof2.

(** ** The overload for numbers *)
Lemma total_R l x : total Rplus l x = x + sumlist l.
Proof. revert x. unfold total. induction l as [|a l IH]; intros x; cbn [fold_left sumlist fold_right]; [ring|]. rewrite IH. unfold sumlist. ring. Qed.
Lemma nth_map_seq {A} (f : nat -> A) n i d : (i < n)%nat -> nth i (map f (seq 0 n)) d = f i.
Proof. intros H. rewrite (nth_indep _ d (f O)) by (rewrite map_length, seq_length; auto). now rewrite map_nth, seq_nth by auto. Qed.
Lemma Rdiv_fail x : Rdiv_res x 0 = Fail DivByZero.
Proof. unfold Rdiv_res. destruct (Req_EM_T 0 0); [reflexivity|contradiction]. Qed.
Lemma Forall_True {A} (l : list A) : Forall (fun _ => True) l.
Proof. apply Forall_forall. auto. Qed.
Lemma touched {V} (d : V) ue elements n : (exists e, In e elements /\ In n e) -> received d ue elements n <> [].
Proof.
  intros (e & He & Hn) C. apply (In_nth _ _ []) in He as (i & Hi & <-). assert (L : length (received d ue elements n) = O) by now rewrite C.
  unfold received in L. assert (Hin : In i (seq 0 (length elements))) by (apply in_seq; lia). apply in_split in Hin as (l1 & l2 & E).
  rewrite E, flat_map_app, app_length in L. cbn [flat_map] in L. rewrite app_length, repeat_length in L.
  apply (count_occ_In Nat.eq_dec) in Hn. lia.
Qed.
Lemma received_bound ue elements n lo hi : (length elements <= length ue)%nat -> (forall u, In u ue -> lo <= u <= hi) -> forall u, In u (received 0 ue elements n) -> lo <= u <= hi.
Proof.
  intros HL H u Hu. unfold received in Hu. apply in_flat_map in Hu as (i & Hi & Hu). apply in_seq in Hi. apply repeat_spec in Hu. subst u. apply H, nth_In. lia.
Qed.
Lemma sum_bound l lo hi : (forall u, In u l -> lo <= u <= hi) -> INR (length l) * lo <= sumlist l <= INR (length l) * hi.
Proof.
  induction l as [|a l IH]; intros H; [cbn; lra|]. cbn [length sumlist fold_right]. fold (sumlist l). rewrite S_INR.
  specialize (H a (or_introl eq_refl)) as Ha. assert (IH' := IH ltac:(intros; apply H; now right)). lra.
Qed.
Lemma mean_bound l lo hi : l <> [] -> (forall u, In u l -> lo <= u <= hi) -> lo <= mean l <= hi.
Proof.
  intros Hl H. pose proof (sum_bound l lo hi H) as B. assert (P : 0 < INR (length l)). { apply lt_0_INR. destruct l; [congruence|cbn; lia]. }
  unfold mean. split; [apply (Rmult_le_reg_l (INR (length l)))|apply (Rmult_le_reg_l (INR (length l)))]; auto;
    replace (INR (length l) * (sumlist l / INR (length l))) with (sumlist l) by (field; lra); lra.
Qed.
Lemma count_total N e : (forall n, In n e -> (n < N)%nat) -> bigsum N (fun n => INR (count_occ Nat.eq_dec e n)) = INR (length e).
Proof.
  induction e as [|a e IH]; intros H.
  - cbn [count_occ length INR]. apply bigsum_0.
  - rewrite (bigsum_ext _ _ (fun n => INR (count_occ Nat.eq_dec e n) + (if (n =? a)%nat then 1 else 0))).
    + rewrite bigsum_plus, IH by (intros; apply H; now right). cbn [length]. rewrite S_INR. f_equal.
      rewrite (bigsum_single _ a); [now rewrite Nat.eqb_refl|apply H; now left|]. intros i Hi Hne. destruct (Nat.eqb_spec i a); [congruence|auto].
    + intros n Hn. cbn [count_occ]. destruct (Nat.eq_dec a n) as [->|Hne]; [rewrite Nat.eqb_refl, S_INR; ring|].
      destruct (Nat.eqb_spec n a); [congruence|ring].
Qed.
Lemma sum_repeat u k : sumlist (repeat u k) = INR k * u.
Proof. induction k as [|k IH]; [cbn; ring|]. rewrite S_INR. cbn [repeat sumlist fold_right]. fold (sumlist (repeat u k)). rewrite IH. ring. Qed.
Lemma received_total N ue elements : mesh_ok N elements ->
  bigsum N (fun n => sumlist (received 0 ue elements n)) = bigsum (length elements) (fun i => INR (length (nth i elements [])) * nth i ue 0).
Proof.
  intros H. unfold received.
  rewrite (bigsum_ext _ _ (fun n => bigsum (length elements) (fun i => INR (count_occ Nat.eq_dec (nth i elements []) n) * nth i ue 0))).
  - rewrite bigsum_swap. apply bigsum_ext. intros i Hi. rewrite bigsum_scal_r. rewrite count_total; auto. intros n Hn. apply (H (nth i elements [])); auto. now apply nth_In.
  - intros n Hn. rewrite <- (map_id (flat_map _ _)), sumlist_concat_map. rewrite sumlist_seq. apply bigsum_ext. intros i Hi. rewrite map_id. apply sum_repeat.
Qed.

(** ** The overload for vectors *)
Definition plusv (a b : list R) : list R := map (fun i => nth i a 0 + nth i b 0) (seq 0 (length a)).
Lemma vadd_plusv k a b : length a = k -> length b = k -> vadd R_ops a b = Ok (plusv a b) /\ length (plusv a b) = k.
Proof.
  intros Ha Hb. pose proof (is_vec_of_list a) as VA. pose proof (is_vec_of_list b) as VB. rewrite Ha in VA. rewrite Hb in VB.
  destruct (Rvadd _ _ _ _ _ VA VB) as (z & E & Hz). destruct (is_vec_nth _ _ _ 0 Hz) as (HL & HN).
  unfold plusv. rewrite map_length, seq_length. split; auto. rewrite E. f_equal. apply (nth_ext _ _ 0 0); [now rewrite map_length, seq_length, HL|].
  rewrite HL. intros i Hi. rewrite HN by auto. now rewrite nth_map_seq by lia.
Qed.
Lemma vdiv_map a c : c <> 0 -> vdiv R_ops a c = Ok (map (fun x => x / c) a).
Proof.
  intros Hc. unfold vdiv. induction a as [|x a IH]; cbn [mapM map]; auto. change (odiv R_ops x c) with (Rdiv_res x c). rewrite Rdiv_res_ok by auto. cbn [bind]. rewrite IH. reflexivity.
Qed.
Lemma total_V k l x c : length x = k -> Forall (fun v => length v = k) l -> (c < k)%nat -> nth c (total plusv l x) 0 = nth c x 0 + sumlist (map (fun v => nth c v 0) l) /\ length (total plusv l x) = k.
Proof.
  intros Hx Hl Hc. revert x Hx. unfold total. induction l as [|a l IH]; intros x Hx; cbn [fold_left map sumlist fold_right]; [split; [ring|auto]|].
  inversion Hl; subst. destruct (IH H2 (plusv x a)) as (E & L); [unfold plusv; now rewrite map_length, seq_length|]. rewrite E. split; auto.
  unfold plusv. rewrite nth_map_seq by auto. unfold sumlist. ring.
Qed.
Lemma total_len k l x : length x = k -> Forall (fun v : list R => length v = k) l -> length (total plusv l x) = k.
Proof.
  intros Hx Hl. revert x Hx. unfold total. induction l as [|a l IH]; intros x Hx; cbn [fold_left]; auto. inversion Hl; subst. apply IH; auto. unfold plusv. now rewrite map_length, seq_length.
Qed.
Lemma nth_divs c k a i : length a = k -> (i < k)%nat -> nth i (map (fun x => x / c) a) 0 = nth i a 0 / c.
Proof. intros Ha Hi. rewrite (nth_indep _ 0 (0 / c)) by (rewrite map_length; lia). now rewrite (map_nth (fun x => x / c)). Qed.
Lemma received_forall (P : list R -> Prop) ue elements n : (length elements <= length ue)%nat -> Forall P ue -> Forall P (received [] ue elements n).
Proof.
  intros HL H. apply Forall_forall. intros u Hu. unfold received in Hu. apply in_flat_map in Hu as (i & Hi & Hu). apply in_seq in Hi. apply repeat_spec in Hu. subst u.
  apply (proj1 (Forall_forall P ue) H). apply nth_In. lia.
Qed.

(** ** Lines *)
Lemma line_point s elem xs X p : In s all_shapes -> length elem = sf_n s -> is_mat X (length elem) 1 (nodal elem xs) ->
  interpolate X (sf_vec s p) = Ok [field_value s (fun k => nth k p 0) (nodal elem xs) 0].
Proof.
  intros Hs Hl HX. unfold interpolate. destruct (Rmtrans _ _ _ _ HX) as (T & ET & HT). rewrite ET. cbn [bind].
  pose proof (sf_vec_ok s Hs p) as HV. rewrite <- Hl in HV.
  destruct (Rmmulv _ _ _ _ _ _ HT HV) as (U & EU & HU). rewrite EU. f_equal. destruct (is_vec_nth _ _ _ 0 HU) as (HL & HN).
  destruct U as [|u [|w U]]; try discriminate. f_equal. pose proof (HN 0%nat ltac:(lia)) as A. cbn [nth] in A. rewrite A. unfold field_value. rewrite <- Hl.
  apply bigsum_ext. intros; ring.
Qed.
Lemma line_length s elem xs X p : In s all_shapes -> sf_d s = 1%nat -> length elem = sf_n s -> is_mat X (length elem) 1 (nodal elem xs) ->
  exists T, mmul R_ops (sf_mat s p) X = Ok T /\ length_element T = Ok (Rabs (tangent s (nodal elem xs) (fun k => nth k p 0) 0 0)).
Proof.
  intros Hs Hd Hl HX. pose proof (sf_mat_ok s Hs p) as HM. rewrite Hd, <- Hl in HM.
  destruct (Rmmul _ _ _ _ _ _ _ HM HX) as (T & ET & HT). exists T. split; auto.
  unfold length_element. destruct (Rmtrans _ _ _ _ HT) as (T' & E' & H'). rewrite E'. cbn [bind].
  destruct (Rmmul _ _ _ _ _ _ _ HT H') as (P & EP & HP). rewrite EP. cbn [bind].
  rewrite (Rget _ _ _ _ _ _ HP) by lia. cbn [bind]. f_equal. rewrite <- sqrt_Rsqr_abs. f_equal. unfold Rsqr, tangent. rewrite <- Hl. cbn [bigsum]. ring.
Qed.


Lemma C94_lagrange_basis_pf : forall xs, NoDup xs -> exists N : R -> nat -> R,
  (forall x, LagrangeInterpolation xs x = Ok (map (N x) (seq 0 (length xs)))) /\ nodal_basis xs N /\
  forall p x, polynomial (length xs) p -> bigsum (length xs) (fun i => N x i * p (nth i xs 0)) = p x.
Proof.
  intros xs H. exists (lag_value xs). split; [intros; now apply lagrange_ok|]. split.
  - intros i j Hi Hj. destruct (Nat.eqb_spec i j) as [->|Hne]; [now apply lag_self|now apply lag_other].
  - intros p x Hp. now apply lag_poly.
Qed.

Lemma C94_lagrange_derivative_pf : forall xs, NoDup xs -> exists N D : R -> nat -> R,
  (forall x, LagrangeInterpolation xs x = Ok (map (N x) (seq 0 (length xs)))) /\
  (forall x, LagrangeInterpolationDerivative xs x = Ok (map (D x) (seq 0 (length xs)))) /\
  (forall i x, (i < length xs)%nat -> derivable_pt_lim (fun x => N x i) x (D x i)) /\
  forall p x, polynomial (length xs) p -> derivable_pt_lim p x (bigsum (length xs) (fun i => D x i * p (nth i xs 0))).
Proof.
  intros xs H. exists (lag_value xs), (dlag_value xs). split; [intros; now apply lagrange_ok|]. split; [intros; now apply dlagrange_ok|]. split.
  - intros i x _. apply lag_deriv.
  - intros p x Hp. now apply dlag_poly.
Qed.

Lemma C94_repeated_point_pf : forall xs x, ~ NoDup xs ->
  LagrangeInterpolation xs x = Fail DivByZero /\ LagrangeInterpolationDerivative xs x = Fail DivByZero.
Proof. intros xs x H. split; [now apply lagrange_fails|now apply dlagrange_fails]. Qed.

Lemma C95_nodal_mean_pf : forall N u0 ue elements, mesh_ok N elements -> (length elements <= length ue)%nat ->
  (forall n, (n < N)%nat -> exists e, In e elements /\ In n e) ->
  exists un, InterpolateNodalFromElemental N u0 ue elements = Ok un /\ length un = N /\
    forall n, (n < N)%nat -> nth n un 0 = mean_with u0 (received 0 ue elements n).
Proof.
  intros N u0 ue elements HM HL HT. unfold InterpolateNodalFromElemental.
  rewrite (nodal_ok 0 (fun x y => Ok (x + y)) Rplus (fun _ => True)) with (divf := Rdiv); auto using Forall_True.
  - eexists. split; [reflexivity|]. split; [now rewrite map_length, seq_length|]. intros n Hn. rewrite nth_map_seq by auto. now rewrite total_R.
  - intros x c _ Hc. now apply Rdiv_res_ok.
  - intros n Hn. apply touched, HT, Hn.
Qed.

Lemma C95_nodal_bounds_pf : forall N ue elements, mesh_ok N elements -> (length elements <= length ue)%nat ->
  (forall n, (n < N)%nat -> exists e, In e elements /\ In n e) ->
  exists un, InterpolateNodalFromElemental N 0 ue elements = Ok un /\ length un = N /\
    (forall lo hi, (forall u, In u ue -> lo <= u <= hi) -> forall u, In u un -> lo <= u <= hi) /\
    bigsum N (fun n => INR (length (received 0 ue elements n)) * nth n un 0) =
    bigsum (length elements) (fun i => INR (length (nth i elements [])) * nth i ue 0).
Proof.
  intros N ue elements HM HL HT. destruct (C95_nodal_mean_pf N 0 ue elements HM HL HT) as (un & E & L & H). exists un. split; auto. split; auto. split.
  - intros lo hi HB u Hu. apply (In_nth _ _ 0) in Hu as (n & Hn & <-). rewrite L in Hn. rewrite H by auto. unfold mean_with. rewrite Rplus_0_l.
    apply mean_bound; [apply touched, HT, Hn|]. eapply received_bound; eauto.
  - rewrite <- (received_total N) by auto. apply bigsum_ext. intros n Hn. rewrite H by auto. unfold mean_with. field.
    apply not_0_INR. pose proof (touched 0 ue elements n (HT n Hn)). destruct (received 0 ue elements n); [congruence|discriminate].
Qed.

Lemma C95_nodal_vector_pf : forall N dim u0 ue elements, mesh_ok N elements -> (length elements <= length ue)%nat ->
  length u0 = dim -> Forall (fun u => length u = dim) ue -> (forall n, (n < N)%nat -> exists e, In e elements /\ In n e) ->
  exists un, InterpolateNodalFromElementalV N u0 ue elements = Ok un /\ length un = N /\
    forall n, (n < N)%nat -> length (nth n un []) = dim /\
      forall c, (c < dim)%nat -> nth c (nth n un []) 0 = mean_with (nth c u0 0) (map (fun u => nth c u 0) (received [] ue elements n)).
Proof.
  intros N dim u0 ue elements HM HL H0 HU HT. unfold InterpolateNodalFromElementalV.
  rewrite (nodal_ok [] (vadd R_ops) plusv (fun v => length v = dim)) with (divf := fun v c => map (fun x => x / c) v); auto.
  - eexists. split; [reflexivity|]. split; [now rewrite map_length, seq_length|]. intros n Hn. rewrite nth_map_seq by auto.
    pose proof (received_forall _ ue elements n HL HU) as HF. split; [rewrite map_length; now apply total_len|]. intros c Hc.
    destruct (total_V dim (received [] ue elements n) u0 c H0 HF Hc) as (ET & LT). rewrite (nth_divs _ dim) by auto. rewrite ET. unfold mean_with. now rewrite map_length.
  - intros x y Hx Hy. now apply vadd_plusv.
  - intros x c _ Hc. now apply vdiv_map.
  - intros n Hn. apply touched, HT, Hn.
Qed.

Lemma C95_isolated_node_pf : forall N u0 ue elements n, mesh_ok N elements -> (length elements <= length ue)%nat ->
  (n < N)%nat -> (forall e, In e elements -> ~ In n e) -> InterpolateNodalFromElemental N u0 ue elements = Fail DivByZero.
Proof.
  intros N u0 ue elements n HM HL Hn HI. unfold InterpolateNodalFromElemental.
  apply (nodal_fails 0 (fun x y => Ok (x + y)) Rplus (fun _ => True)) with (divf := Rdiv) (n0 := n); auto using Forall_True.
  - intros x c _ Hc. now apply Rdiv_res_ok.
  - intros x _. apply Rdiv_fail.
Qed.

Lemma C95_elemental_mean_pf :
  (forall u0 un elements, mesh_ok (length un) elements -> (forall e, In e elements -> e <> []) ->
    InterpolateElementalFromNodal u0 un elements = Ok (map (fun e => mean_with u0 (map (fun n => nth n un 0) e)) elements)) /\
  (forall dim u0 un elements, mesh_ok (length un) elements -> (forall e, In e elements -> e <> []) -> length u0 = dim -> Forall (fun u => length u = dim) un ->
    exists ue, InterpolateElementalFromNodalV u0 un elements = Ok ue /\ length ue = length elements /\
      forall i, (i < length elements)%nat -> length (nth i ue []) = dim /\
        forall c, (c < dim)%nat -> nth c (nth i ue []) 0 = mean_with (nth c u0 0) (map (fun n => nth c (nth n un []) 0) (nth i elements []))).
Proof.
  split.
  - intros u0 un elements HM HE. unfold InterpolateElementalFromNodal.
    rewrite (gather_ok 0 (fun x y => Ok (x + y)) Rplus (fun _ => True)) with (divf := Rdiv); auto using Forall_True.
    + f_equal. apply map_ext. intros e. rewrite total_R. unfold mean_with. now rewrite map_length.
    + intros x c _ Hc. now apply Rdiv_res_ok.
  - intros dim u0 un elements HM HE H0 HU. unfold InterpolateElementalFromNodalV.
    rewrite (gather_ok [] (vadd R_ops) plusv (fun v => length v = dim)) with (divf := fun v c => map (fun x => x / c) v); auto.
    + eexists. split; [reflexivity|]. split; [now rewrite map_length|]. intros i Hi.
      set (f := fun e : list nat => map (fun x => x / INR (length e)) (total plusv (map (fun n => nth n un []) e) u0)).
      rewrite (nth_indep (map f _) [] (f [])) by (rewrite map_length; auto). rewrite map_nth. unfold f.
      assert (HF : Forall (fun v => length v = dim) (map (fun n => nth n un []) (nth i elements []))).
      { apply Forall_forall. intros v Hv. apply in_map_iff in Hv as (n & <- & Hn). apply (proj1 (Forall_forall _ un) HU). apply nth_In. apply (HM (nth i elements [])); auto. now apply nth_In. }
      split; [rewrite map_length; now apply total_len|]. intros c Hc.
      destruct (total_V dim _ u0 c H0 HF Hc) as (ET & LT). rewrite (nth_divs _ dim) by auto. rewrite ET, map_map. unfold mean_with. now rewrite map_length.
    + intros x y Hx Hy. now apply vadd_plusv.
    + intros x c _ Hc. now apply vdiv_map.
Qed.

Lemma C95_center_of_gravity_pf : forall dim xs elem, elem <> [] -> mesh_ok (length xs) [elem] -> Forall (fun x => length x = dim) xs ->
  exists c, CenterOfGravity xs elem = Ok c /\ length c = dim /\
    (forall k, (k < dim)%nat -> nth k c 0 = mean (map (fun n => nth k (nth n xs []) 0) elem)) /\
    forall a b, InterpolateElementalFromNodal 0 (map (fun x => a + bigsum dim (fun k => b k * nth k x 0)) xs) [elem] =
      Ok [a + bigsum dim (fun k => b k * nth k c 0)].
Proof.
  intros dim xs elem HE HM HX. unfold CenterOfGravity.
  assert (HN : forall n, In n elem -> (n < length xs)%nat) by (intros n Hn; apply (HM elem n); cbn; auto).
  destruct elem as [|e0 el] eqn:EE; [congruence|]. rewrite <- EE in *. assert (L0 : (0 < length xs)%nat). { pose proof (HN e0 ltac:(rewrite EE; now left)). lia. }
  rewrite (rd_nth xs 0 []) by auto. cbn [bind]. assert (D0 : length (nth 0 xs []) = dim) by (apply (proj1 (Forall_forall _ xs) HX), nth_In; auto). rewrite D0.
  assert (DN : forall n, In n elem -> length (nth n xs []) = dim) by (intros n Hn; apply (proj1 (Forall_forall _ xs) HX), nth_In; auto).
  assert (G : forall l v, (forall n, In n l -> In n elem) -> length v = dim -> foldM (fun c i => v <- rd xs i ;; vadd R_ops c v) l v = Ok (total plusv (map (fun n => nth n xs []) l) v)).
  { induction l as [|n l IH]; intros v Hl Hv; cbn [foldM map]; [reflexivity|]. rewrite (rd_nth xs n []) by (apply HN, Hl; now left). cbn [bind].
    destruct (vadd_plusv dim v (nth n xs []) Hv) as (-> & LP); [apply DN, Hl; now left|]. cbn [bind]. rewrite IH; auto. intros m Hm. apply Hl. now right. }
  rewrite G; auto; [|apply repeat_length]. cbn [bind].
  assert (NZ : INR (length elem) <> 0) by (apply not_0_INR; rewrite EE; discriminate).
  rewrite vdiv_map by auto. set (t := total plusv _ _).
  assert (HF : Forall (fun v => length v = dim) (map (fun n => nth n xs []) elem)).
  { apply Forall_forall. intros v Hv. apply in_map_iff in Hv as (n & <- & Hn). auto. }
  assert (TL : length t = dim) by (apply total_len; auto; apply repeat_length).
  assert (TC : forall k, (k < dim)%nat -> nth k (map (fun x => x / INR (length elem)) t) 0 = mean (map (fun n => nth k (nth n xs []) 0) elem)).
  { intros k Hk. rewrite (nth_divs _ dim) by auto. destruct (total_V dim (map (fun n => nth n xs []) elem) (vnew R_ops dim) k) as (ET & _); auto; [apply repeat_length|].
    unfold t. rewrite ET, map_map. unfold mean, vnew. rewrite nth_repeat, map_length. change (o0 R_ops) with 0. f_equal. ring. }
  eexists. split; [reflexivity|]. split; [now rewrite map_length|]. split; auto. intros a b.
  set (F := fun x : list R => a + bigsum dim (fun k => b k * nth k x 0)).
  destruct C95_elemental_mean_pf as (HEM & _). rewrite HEM.
  - cbn [map]. do 2 f_equal. unfold mean_with. rewrite map_length, Rplus_0_l.
    rewrite (sumlist_map_ext _ (fun n => a + bigsum dim (fun k => b k * nth k (nth n xs []) 0))).
    + rewrite sumlist_map_plus. rewrite <- bigsum_sumlist_swap.
      rewrite (bigsum_ext _ (fun k => b k * nth k _ 0) (fun k => / INR (length elem) * sumlist (map (fun n => b k * nth k (nth n xs []) 0) elem))).
      * rewrite bigsum_scal. assert (C : sumlist (map (fun _ : nat => a) elem) = INR (length elem) * a).
        { clear. induction elem as [|x l IH]; [cbn; ring|]. cbn [map sumlist fold_right length]. rewrite S_INR. unfold sumlist in IH. rewrite IH. ring. }
        rewrite C. field. auto.
      * intros k Hk. rewrite TC by auto. rewrite (sumlist_map_scal (b k) (fun n => nth k (nth n xs []) 0)). unfold mean. rewrite map_length. field. auto.
    + intros n Hn. rewrite (nth_indep _ 0 (F [])) by (rewrite map_length; auto). now rewrite map_nth.
  - rewrite map_length. exact HM.
  - intros e [<-|[]]. exact HE.
Qed.

Lemma C96_line_integral_pf : forall s q xs elem (f : list R -> R), In s all_shapes -> sf_d s = 1%nat -> length elem = sf_n s -> rule_ok 1 q ->
  (forall e, In e elem -> (e < length xs)%nat /\ length (nth e xs []) = 1%nat) ->
  NumericIntegrationOnLine s q xs elem f =
  Ok (quad 1 q (fun r => f [field_value s r (nodal elem xs) 0] * Rabs (tangent s (nodal elem xs) r 0 0))).
Proof.
  intros s q xs elem f Hs Hd Hl Hq HX. unfold NumericIntegrationOnLine. destruct (stack_ok 1 elem xs HX) as (X & EX & MX). rewrite EX. cbn [bind].
  rewrite (gausss_ok0 q _ (fun g => wprod 1 (nth g (q_weights q) []) * (f [field_value s (pt q g) (nodal elem xs) 0] * Rabs (tangent s (nodal elem xs) (pt q g) 0 0)))); [reflexivity|].
  intros g Hg. rewrite (gpoint_ok 1) by auto. cbn [bind]. rewrite (line_point s elem xs) by auto. cbn [bind].
  destruct (line_length s elem xs X (nth g (q_points q) []) Hs Hd Hl MX) as (T & -> & ET). cbn [bind]. rewrite ET. cbn [bind].
  rewrite (gweight_ok 1) by auto. cbn [bind]. f_equal. unfold wprod, pt. cbn. ring.
Qed.

Lemma C96_curves_in_the_plane_refuted_pf :
  (forall s q xs e elem f, (e < length xs)%nat -> length (nth e xs []) <> 1%nat ->
    NumericIntegrationOnLine s q xs (e :: elem) f = Fail AssertFail) /\
  exists xs elem, nodes_ok 2 elem xs /\ NumericIntegrationOnLine sf_2Line Gauss2Line xs elem (fun _ => 1) = Fail AssertFail.
Proof.
  assert (G : forall s q xs e elem f, (e < length xs)%nat -> length (nth e xs []) <> 1%nat -> NumericIntegrationOnLine s q xs (e :: elem) f = Fail AssertFail).
  { intros s q xs e elem f He Hl. unfold NumericIntegrationOnLine, stack_nodes. cbn [foldM]. rewrite (rd_nth xs e []) by auto. cbn [bind].
    destruct (Rvtrans _ _ _ (is_vec_of_list (nth e xs []))) as (vt & E & Hvt). rewrite E. cbn [bind]. unfold mvstack. destruct Hvt as (_ & _ & C & _).
    cbn [mnew mcol]. rewrite C. destruct (Nat.eqb_spec 1 (length (nth e xs []))); [congruence|]. reflexivity. }
  split; auto. exists [[0; 0]; [3; 4]], [0; 1]%nat. split.
  - intros e He. cbn in He. decompose [or] He; subst; cbn; auto; contradiction.
  - apply G; cbn; lia.
Qed.
