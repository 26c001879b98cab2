(** Beam and shell: the steps of the routines. *)
From Coq Require Import List Arith Lia Bool Reals Lra.
From Verif Require Import Res SumR DenseModel DenseR DenseSpec DenseProof DenseMain ShapeModel ShapeMain QuadModel QuadSpec ElemModel ElemSpec ElemProof ElemProof2 ElemProof3 ElemMain FlowModel BeamModel BeamSpec.
Import ListNotations.
Local Open Scope R_scope.

(** ** vectors *)
Lemma cross3_ext a a' b b' : (forall i, (i < 3)%nat -> a i = a' i) -> (forall i, (i < 3)%nat -> b i = b' i) -> forall c, cross3 a b c = cross3 a' b' c.
Proof. intros Ha Hb c. destruct c as [|[|c]]; cbn [cross3]; rewrite !Ha, !Hb by lia; reflexivity. Qed.
Lemma unit3_ext a a' : (forall i, (i < 3)%nat -> a i = a' i) -> forall c, (c < 3)%nat -> unit3 a c = unit3 a' c.
Proof. intros H c Hc. unfold unit3, dot3. rewrite (H c) by auto. do 2 f_equal. apply bigsum_ext. intros i Hi. now rewrite H. Qed.
Lemma dot3_pos a : nonzero3 a -> 0 < dot3 a a.
Proof.
  intros (c & Hc & Hn). unfold dot3. apply (bigsum_pos 3 _ c); auto; [intros; nra|nra].
Qed.
Lemma dot3_ext a a' b b' : (forall i, (i < 3)%nat -> a i = a' i) -> (forall i, (i < 3)%nat -> b i = b' i) -> dot3 a b = dot3 a' b'.
Proof. intros Ha Hb. unfold dot3. apply bigsum_ext. intros. now rewrite Ha, Hb. Qed.
Lemma unit3_dot a b c : dot3 (unit3 a) b = dot3 a b / sqrt (dot3 a a) /\ (nonzero3 a -> dot3 (unit3 a) (unit3 a) = 1) /\ unit3 a c = a c * / sqrt (dot3 a a).
Proof.
  splits.
  - unfold dot3 at 1 2, unit3. cbn [bigsum]. unfold Rdiv. ring.
  - intros H. apply dot3_pos in H. assert (Hs : 0 < sqrt (dot3 a a)) by now apply sqrt_lt_R0.
    transitivity (dot3 a a / (sqrt (dot3 a a) * sqrt (dot3 a a))).
    + unfold dot3 at 1 2, unit3. cbn [bigsum]. field. lra.
    + rewrite sqrt_sqrt by lra. field. lra.
  - reflexivity.
Qed.
Lemma unit3_unit a : dot3 a a = 1 -> forall c, unit3 a c = a c.
Proof. intros H c. unfold unit3. rewrite H, sqrt_1. field. Qed.
Lemma dot3_nonzero a : dot3 a a <> 0 -> nonzero3 a.
Proof.
  intros H. unfold dot3 in H. cbn [bigsum] in H.
  destruct (Req_dec (a 0%nat) 0) as [E0|]; [|exists 0%nat; split; [lia|auto]].
  destruct (Req_dec (a 1%nat) 0) as [E1|]; [|exists 1%nat; split; [lia|auto]].
  destruct (Req_dec (a 2%nat) 0) as [E2|]; [|exists 2%nat; split; [lia|auto]].
  exfalso. apply H. rewrite E0, E1, E2. ring.
Qed.

Lemma vprod_ok a b f g : is_vec a 3 f -> is_vec b 3 g -> exists c, vprod R_ops a b = Ok c /\ is_vec c 3 (cross3 f g).
Proof.
  intros Ha Hb. pose proof (Rvget a 3 f) as Ga. pose proof (Rvget b 3 g) as Gb.
  unfold vprod. destruct Ha as (La & Ha). destruct Hb as (Lb & Hb). rewrite La, Lb. cbn [Nat.eqb andb assert_ bind].
  rewrite !Ga, !Gb by (first [lia | split; auto]). cbn [bind].
  eexists. split; [reflexivity|]. cbn [osub omul R_ops].
  match goal with |- is_vec ?l _ _ => pose proof (is_vec_of_list l) as H; cbn [length] in H end.
  eapply is_vec_ext; [|exact H]. intros i Hi. destruct i as [|[|[|i]]]; try lia; reflexivity.
Qed.
Lemma vnormal_ok v f : is_vec v 3 f -> nonzero3 f -> exists u, vnormal v = Ok u /\ is_vec u 3 (unit3 f).
Proof.
  intros Hv Hn. unfold vnormal. rewrite (vnorm_ok _ _ _ Hv). cbn [bind].
  pose proof (dot3_pos f Hn) as Hp. change (bigsum 3 (fun i => f i * f i)) with (dot3 f f).
  assert (0 < sqrt (dot3 f f)) by now apply sqrt_lt_R0.
  unfold vdiv. cbn [odiv R_ops]. rewrite mapM_vdiv by lra. eexists. split; [reflexivity|].
  destruct (is_vec_nth v 3 f 0 Hv) as [L E].
  pose proof (is_vec_of_list (map (fun x => x / sqrt (dot3 f f)) v)) as H1. rewrite map_length, L in H1.
  eapply is_vec_ext; [|exact H1]. intros i Hi. cbv beta. rewrite (nth_indep _ 0 (0 / sqrt (dot3 f f))) by (rewrite map_length; lia).
  rewrite (map_nth (fun x => x / sqrt (dot3 f f))). unfold unit3. now rewrite E.
Qed.
Lemma vec_of_mat_ok (a : mat R) r f : is_mat a r 1 f -> exists v, vec_of_mat R_ops a = Ok v /\ is_vec v r (fun i => f i 0%nat).
Proof.
  intros Ha. unfold vec_of_mat. destruct (is_mat_ent R_ops a r 1 f Ha) as (W & E1 & E2 & E). rewrite E2, E1. cbn [Nat.eqb assert_ bind].
  destruct (fill_vec R_ops r (fun i => rd (mval a) i) (fun i => f i 0%nat) (vnew R_ops r)) as (v & Ev & Hv).
  - apply repeat_length.
  - intros i Hi. rewrite (mval_nth a f r 1) by (auto; lia). now rewrite Nat.div_1_r, Nat.mod_1_r.
  - exists v. auto.
Qed.
Lemma Rmblock (a : mat R) r c f i0 j0 h w : is_mat a r c f -> (0 < h)%nat -> (0 < w)%nat -> (i0 + h <= r)%nat -> (j0 + w <= c)%nat ->
  exists m, mblock R_ops a i0 j0 h w = Ok m /\ is_mat m h w (fun i j => f (i0 + i)%nat (j0 + j)%nat).
Proof. intros Ha. destruct (C19_reshape_pf R R_ops a r c f Ha) as (_ & _ & _ & H & _). apply H. Qed.
Lemma Rmvstack (a b : mat R) r r' c f g : is_mat a r c f -> is_mat b r' c g ->
  exists m, mvstack R_ops a b = Ok m /\ is_mat m (r + r') c (fun i j => if (i <? r)%nat then f i j else g (i - r)%nat j).
Proof. intros Ha. destruct (C19_reshape_pf R R_ops a r c f Ha) as (_ & H & _). apply H. Qed.
Lemma add_row_ok v w r f g : is_mat v r 3 f -> is_vec w 3 g ->
  exists m, add_row v w = Ok m /\ is_mat m (S r) 3 (fun i j => if (i <? r)%nat then f i j else g j).
Proof.
  intros Hv Hw. unfold add_row. destruct (Rvtrans _ _ _ Hw) as (wt & E & Ht). rewrite E. cbn [bind].
  destruct (Rmvstack _ _ _ _ _ _ _ Hv Ht) as (m & Em & Hm). exists m. split; auto. now rewrite Nat.add_1_r in Hm.
Qed.

(** rows with the normalised entries of a table *)
Lemma beam_directors_ok vs elem : nodes3 elem vs -> (forall i, (i < length elem)%nat -> nonzero3 (nodal elem vs i)) ->
  exists v, beam_directors vs elem = Ok v /\ is_mat v (length elem) 3 (fun i => unit3 (nodal elem vs i)).
Proof.
  intros Hn Hz. unfold beam_directors.
  set (stp := fun v i => w <- rd vs i ;; u <- vnormal w ;; add_row v u).
  assert (G : forall l pre v, elem = pre ++ l -> is_mat v (length pre) 3 (fun i => unit3 (nodal elem vs i)) ->
    exists v', foldM stp l v = Ok v' /\ is_mat v' (length elem) 3 (fun i => unit3 (nodal elem vs i))).
  { induction l as [|e l IH]; intros pre v Hp Hv.
    - exists v. split; auto. rewrite app_nil_r in Hp. now subst pre.
    - cbn [foldM]. destruct (Hn e) as [He Hl]; [rewrite Hp; apply in_or_app; right; now left|].
      unfold stp at 1. rewrite (rd_nth _ _ []) by auto. cbn [bind].
      pose proof (is_vec_of_list (nth e vs [])) as HV. rewrite Hl in HV.
      assert (Hi : (length pre < length elem)%nat) by (rewrite Hp, app_length; cbn; lia).
      assert (Ee : nth (length pre) elem O = e) by (rewrite Hp, app_nth2, Nat.sub_diag by lia; reflexivity).
      destruct (vnormal_ok _ _ HV) as (u & Eu & Hu).
      { specialize (Hz _ Hi). unfold nodal in Hz. now rewrite Ee in Hz. }
      rewrite Eu. cbn [bind]. destruct (add_row_ok _ _ _ _ _ Hv Hu) as (m & Em & Hm). rewrite Em. cbn [bind].
      apply (IH (pre ++ [e]) m); [rewrite <- app_assoc; exact Hp|]. rewrite app_length, Nat.add_1_r.
      eapply is_mat_ext; [|exact Hm]. intros i j Hi' Hj. cbv beta.
      destruct (Nat.ltb_spec i (length pre)); auto. replace i with (length pre) by lia. unfold nodal. now rewrite Ee. }
  destruct (G elem [] (mnew R_ops 0 3)) as (v & E & Hv); auto. 2:{ exists v. auto. }
  eapply is_mat_ext; [|apply Rmnew]. cbn [length]. intros; lia.
Qed.

(** ** tables *)
Lemma bigsum_blk m n f : bigsum (m * n) f = bigsum n (fun k => bigsum m (fun c => f (m * k + c)%nat)).
Proof. rewrite Nat.mul_comm, bigsum_blocks. apply bigsum_ext; intros k _. apply bigsum_ext; intros c _. now rewrite (Nat.mul_comm m k). Qed.
Lemma tab_ok m n p f (g : nat -> nat -> nat -> R) : (m <> 0)%nat ->
  (forall r j, (r < p)%nat -> (j / m < n)%nat -> (j mod m < m)%nat -> f r j = Ok (g r (j / m)%nat (j mod m)%nat)) ->
  exists B, mbuild R_ops p (m * n) f = Ok B /\
    has_action m n p B (fun r z => bigsum n (fun k => bigsum m (fun c => g r k c * z k c))).
Proof.
  intros Hm Hf. destruct (Rmbuild p (m * n) f (fun r j => g r (j / m)%nat (j mod m)%nat)) as (B & E & H).
  - intros i j Hi Hj. apply Hf; auto; [now apply divlt|now apply Nat.mod_upper_bound].
  - exists B. split; auto. eexists. split; [exact H|]. intros i z Hi. rewrite bigsum_blk.
    apply bigsum_ext; intros k _. apply bigsum_ext; intros c Hc. unfold dofv. destruct (dm m k c Hc) as [-> ->]. reflexivity.
Qed.
(** products with the row vectors of a strain *)
Lemma normal_row_ok p f : is_vec p 3 f -> normal_row p = map (fun x => Ok x)
  [f 0%nat * f 0%nat; f 1%nat * f 1%nat; f 2%nat * f 2%nat; f 0%nat * f 1%nat; f 0%nat * f 2%nat; f 1%nat * f 2%nat].
Proof. intros H. unfold normal_row. rewrite !(Rvget p 3 f) by (auto; lia). reflexivity. Qed.
Lemma shear_row_ok p r f g : is_vec p 3 f -> is_vec r 3 g -> shear_row p r = map (fun x => Ok x)
  [2 * f 0%nat * g 0%nat; 2 * f 1%nat * g 1%nat; 2 * f 2%nat * g 2%nat;
   f 0%nat * g 1%nat + f 1%nat * g 0%nat; f 0%nat * g 2%nat + f 2%nat * g 0%nat; f 1%nat * g 2%nat + f 2%nat * g 1%nat].
Proof. intros H H'. unfold shear_row. rewrite !(Rvget p 3 f), !(Rvget r 3 g) by (auto; lia). reflexivity. Qed.
Definition nrow (f : nat -> R) : list R :=
  [f 0%nat * f 0%nat; f 1%nat * f 1%nat; f 2%nat * f 2%nat; f 0%nat * f 1%nat; f 0%nat * f 2%nat; f 1%nat * f 2%nat].
Definition srow (f g : nat -> R) : list R :=
  [2 * f 0%nat * g 0%nat; 2 * f 1%nat * g 1%nat; 2 * f 2%nat * g 2%nat;
   f 0%nat * g 1%nat + f 1%nat * g 0%nat; f 0%nat * g 2%nat + f 2%nat * g 0%nat; f 1%nat * g 2%nat + f 2%nat * g 1%nat].
Lemma nrow_along f H : bigsum 6 (fun j => nth j (nrow f) 0 * voigt3' H j) = along (strain H) f f.
Proof. unfold along, strain. cbn [bigsum nth nrow voigt3' voigt3]. field. Qed.
Lemma srow_along f g H : bigsum 6 (fun j => nth j (srow f g) 0 * voigt3' H j) = 2 * along (strain H) f g.
Proof. unfold along, strain. cbn [bigsum nth srow voigt3' voigt3]. field. Qed.

(** the energy of B^T (P^T D0 P) B *)
Lemma hf_rotated m n p B P D0 Pf Df V : has_action m n 6 B V -> is_mat P p 6 Pf -> is_mat D0 p p Df ->
  exists D K, atdb P D0 P = Ok D /\ atdb B D B = Ok K /\
    has_form m n K (fun y z => bigsum p (fun i => bigsum p (fun j =>
      bigsum 6 (fun a => Pf i a * V a y) * Df i j * bigsum 6 (fun a => Pf j a * V a z)))).
Proof.
  intros HB HP HD.
  destruct (Rmtrans _ _ _ _ HP) as (Pt & E1 & H1). destruct (Rmmul _ _ _ _ _ _ _ H1 HD) as (M & E2 & H2).
  destruct (Rmmul _ _ _ _ _ _ _ H2 HP) as (D & E3 & H3).
  destruct (hf_atdb m n 6 6 B D B _ V V HB H3 HB) as (K & E4 & H4). exists D, K. splits; auto.
  - unfold atdb. rewrite E1. cbn [bind]. rewrite E2. cbn [bind]. exact E3.
  - eapply has_form_eq; [|exact H4]. intros y z. cbv beta. exact (form_atdb 6 p p Pf Df Pf (fun a => V a y) (fun a => V a z)).
Qed.

(** ** the gradient of the layer *)
Section Layer.
Variables (s : shape) (m : nat) (w : nat -> R) (x : nat -> nat -> R) (V : nat -> nat -> nat -> R) (r xi : nat -> R).
Hypothesis Hs : In s all_shapes.
Hypothesis Hm : (sf_d s + m = 3)%nat.
Let n := sf_n s.
Let T := layer_tangent s m w x V r xi.
Hypothesis Hdet : det3 T <> 0.
Let C (l k : nat) : R := cof 3 T l k / det3 T.
Definition lay_dN (l i : nat) : R := bigsum (sf_d s) (fun k => C l k * dshp s r k i).
(** derivative of shape function i times xi_j in direction l *)
Definition lay_dNx (j l i : nat) : R := lay_dN l i * xi j + C l (sf_d s + j)%nat * shp s r i.
(** the gradient computed by the routines *)
Definition lay_H (u : nat -> nat -> R) (U : nat -> nat -> nat -> R) (l c : nat) : R :=
  bigsum n (fun i => lay_dN l i * u i c + bigsum m (fun j => w j * lay_dNx j l i * U j i c)).
Lemma lay_H_tangent u U l c : lay_H u U l c = bigsum 3 (fun k => C l k * layer_tangent s m w u U r xi k c).
Proof.
  rewrite <- Hm, bigsum_split. unfold layer_tangent.
  rewrite (bigsum_ext (sf_d s) _ (fun k => bigsum n (fun i => C l k * dshp s r k i * (u i c + bigsum m (fun j => w j * xi j * U j i c))))).
  2:{ intros k Hk. destruct (Nat.ltb_spec k (sf_d s)); [|lia]. rewrite <- bigsum_scal. apply bigsum_ext; intros; ring. }
  rewrite (bigsum_ext m _ (fun j => bigsum n (fun i => C l (sf_d s + j)%nat * shp s r i * (w j * U j i c)))).
  2:{ intros j Hj. destruct (Nat.ltb_spec (sf_d s + j) (sf_d s)); [lia|]. rewrite <- bigsum_scal. apply bigsum_ext; intros.
      replace (sf_d s + j - sf_d s)%nat with j by lia. ring. }
  rewrite !(bigsum_swap _ n), <- bigsum_plus. apply bigsum_ext; intros i Hi. unfold lay_dNx, lay_dN.
  rewrite bigsum_scal_r, Rmult_plus_distr_l, Rplus_assoc. f_equal.
  rewrite <- bigsum_scal, <- bigsum_plus. apply bigsum_ext; intros j Hj. ring.
Qed.
Lemma lay_H_gradient u U : layer_gradient s m w x V u U r xi (lay_H u U).
Proof.
  intros k c Hk Hc. fold T.
  rewrite (bigsum_ext 3 _ (fun l => bigsum 3 (fun k' => T k l * C l k' * layer_tangent s m w u U r xi k' c))).
  2:{ intros l _. rewrite lay_H_tangent, <- bigsum_scal. apply bigsum_ext; intros; ring. }
  rewrite bigsum_swap.
  rewrite (bigsum_ext 3 _ (fun k' => (if (k =? k')%nat then 1 else 0) * layer_tangent s m w u U r xi k' c)).
  - now rewrite (bigsum_ite 3 k (fun k' => layer_tangent s m w u U r xi k' c)).
  - intros k' Hk'. rewrite bigsum_scal_r. f_equal. exact (cof_right 3 T ltac:(lia) Hdet k k' Hk Hk').
Qed.
Lemma lay_H_unique u U H : layer_gradient s m w x V u U r xi H -> forall l c, (l < 3)%nat -> (c < 3)%nat -> H l c = lay_H u U l c.
Proof.
  intros HH l c Hl Hc. rewrite lay_H_tangent.
  rewrite (bigsum_ext 3 _ (fun k => bigsum 3 (fun l' => C l k * T k l' * H l' c))).
  2:{ intros k Hk. rewrite <- (HH k c Hk Hc), <- bigsum_scal. apply bigsum_ext; intros. fold T. ring. }
  rewrite bigsum_swap.
  rewrite (bigsum_ext 3 _ (fun l' => (if (l =? l')%nat then 1 else 0) * H l' c)).
  - symmetry. apply (bigsum_ite 3 l (fun l' => H l' c) Hl).
  - intros l' Hl'. rewrite bigsum_scal_r. f_equal. exact (cof_left 3 T ltac:(lia) Hdet l l' Hl Hl').
Qed.
End Layer.

(** columns of the inverse times derivatives *)
Lemma Rdirector dN invJ N n G c Nf xi j : is_mat dN 3 n G -> is_mat invJ 3 3 c -> is_vec N n Nf -> (j < 3)%nat ->
  exists m, director_gradient dN invJ N xi j = Ok m /\ is_mat m 3 n (fun l i => G l i * xi + c l j * Nf i).
Proof.
  intros HG Hc HN Hj. unfold director_gradient.
  destruct (Rmblock _ _ _ _ 0 j 3 1 Hc) as (b & Eb & Hb); try lia. rewrite Eb. cbn [bind].
  destruct (Rvtrans _ _ _ HN) as (Nt & Et & Ht). rewrite Et. cbn [bind].
  destruct (Rmmul _ _ _ _ _ _ _ Hb Ht) as (t & Ett & Htt). rewrite Ett. cbn [bind].
  destruct (Rmadd _ _ _ _ _ _ (Rmscal xi _ _ _ _ HG) Htt) as (m & Em & Hm). exists m. split; auto.
  eapply is_mat_ext; [|exact Hm]. intros l i Hl Hi. cbv beta. cbn [bigsum Nat.add]. rewrite Nat.add_0_r. ring.
Qed.
(** voigt components of the gradient *)
Ltac entries := repeat match goal with
  | H : is_mat ?a ?r ?c ?f |- context [mget ?a ?i ?j] => rewrite (Rget a r c f i j H) by (auto; lia) end.

Lemma nonzero3_intro f : ~ (forall c, (c < 3)%nat -> f c = 0) -> nonzero3 f.
Proof.
  intros H. destruct (Req_dec (f 0%nat) 0) as [E0|]; [|exists 0%nat; split; [lia|auto]].
  destruct (Req_dec (f 1%nat) 0) as [E1|]; [|exists 1%nat; split; [lia|auto]].
  destruct (Req_dec (f 2%nat) 0) as [E2|]; [|exists 2%nat; split; [lia|auto]].
  exfalso. apply H. intros c Hc. destruct c as [|[|[|c]]]; auto; lia.
Qed.
Lemma det3_cross T : det3 T = bigsum 3 (fun c => T 0%nat c * cross3 (T 1%nat) (T 2%nat) c).
Proof. unfold det3. cbn [bigsum cross3]. ring. Qed.
Lemma det3_cross' T : det3 T = bigsum 3 (fun c => cross3 (T 0%nat) (T 1%nat) c * T 2%nat c).
Proof. unfold det3. cbn [bigsum cross3]. ring. Qed.
Lemma cross_unit3 f g c : cross3 (unit3 f) (unit3 g) c = cross3 f g c * (/ sqrt (dot3 f f) * / sqrt (dot3 g g)).
Proof. unfold unit3. destruct c as [|[|c]]; cbn [cross3]; unfold Rdiv; ring. Qed.
Lemma sqrt_dot_pos f : nonzero3 f -> 0 < sqrt (dot3 f f).
Proof. intros. now apply sqrt_lt_R0, dot3_pos. Qed.
Lemma hf_gauss2 m n q0 q1 body F :
  (forall g h, (g < q_n q0)%nat -> (h < q_n q1)%nat -> exists k, body g h = Ok k /\ has_form m n k (F g h)) ->
  exists K, gauss2 q0 q1 body (mnew R_ops (m * n) (m * n)) = Ok K /\
    has_form m n K (fun y z => bigsum (q_n q0) (fun g => bigsum (q_n q1) (fun h => F g h y z))).
Proof.
  intros Hb. unfold gauss2.
  apply (loop_inv (fun K g => gauss q1 (body g) K)
    (fun j K => has_form m n K (fun y z => bigsum j (fun g => bigsum (q_n q1) (fun h => F g h y z)))) (q_n q0)).
  - eapply has_form_eq; [|apply hf_new]. reflexivity.
  - intros g K Hg HK. destruct (hf_gauss m n q1 (body g) K _ (F g) HK) as (K' & E & H); auto.
    exists K'. split; auto.
Qed.
(** a bilinear function of the strains does not see components beyond the third *)
Lemma along_ext e f p r : (forall l c, (l < 3)%nat -> (c < 3)%nat -> e l c = f l c) -> along e p r = along f p r.
Proof. intros H. unfold along. apply bigsum_ext; intros l Hl. apply bigsum_ext; intros c Hc. now rewrite H. Qed.
Lemma strain_ext3 H H' : (forall l c, (l < 3)%nat -> (c < 3)%nat -> H l c = H' l c) -> forall l c, (l < 3)%nat -> (c < 3)%nat -> strain H l c = strain H' l c.
Proof. intros E l c Hl Hc. unfold strain. now rewrite !E. Qed.

Section Beam.
Variables (s : shape) (q0 q12 : rule) (elem dou : list nat) (xs v1s v2s : list (list R)) (E v a b : R).
Hypothesis Hok : beam_ok s q0 q12 elem xs v1s v2s a b.
Let n := sf_n s.
Let x := nodal elem xs.
Let V := beam_dirs elem v1s v2s.
Let w := half_sides a b.

Lemma beam_J_ok p xi X v1 v2 : is_mat X n 3 x -> is_mat v1 n 3 (V 0%nat) -> is_mat v2 n 3 (V 1%nat) -> (2 <= length xi)%nat ->
  exists J, beam_J a b X v1 v2 (sf_mat s p) (sf_vec s p) xi = Ok J /\
    is_mat J 3 3 (layer_tangent s 2 w x V (fun k => nth k p 0) (fun k => nth k xi 0)).
Proof.
  destruct Hok as (Hs & Hd & Hn & Hx & Hq0 & Hq1 & Hv1 & Hv2 & Hnz & Hdet).
  intros HX H1 H2 Hxi. unfold beam_J.
  pose proof (is_vec_of_list xi) as HV. rewrite !(Rvget _ _ _ _ HV) by lia. cbn [bind].
  destruct (Rmadd _ _ _ _ _ _ HX (Rmscal (1 / 2 * a * nth 0 xi 0) _ _ _ _ H1)) as (Y & EY & HY). rewrite EY. cbn [bind].
  destruct (Rmadd _ _ _ _ _ _ HY (Rmscal (1 / 2 * b * nth 1 xi 0) _ _ _ _ H2)) as (Y' & EY' & HY'). rewrite EY'. cbn [bind].
  pose proof (sf_mat_ok s Hs p) as HdN. rewrite Hd in HdN. fold n in HdN.
  destruct (Rmmul _ _ _ _ _ _ _ HdN HY') as (J0 & EJ0 & HJ0). rewrite EJ0. cbn [bind].
  destruct (Rvtrans _ _ _ (sf_vec_ok s Hs p)) as (Nt & Et & Ht). fold n in Ht. rewrite Et. cbn [bind].
  destruct (Rmmul _ _ _ _ _ _ _ (Rmscal (1 / 2 * a) _ _ _ _ Ht) H1) as (J1 & EJ1 & HJ1). rewrite EJ1. cbn [bind].
  destruct (Rmmul _ _ _ _ _ _ _ (Rmscal (1 / 2 * b) _ _ _ _ Ht) H2) as (J2 & EJ2 & HJ2). rewrite EJ2. cbn [bind].
  destruct (Rmvstack _ _ _ _ _ _ _ HJ1 HJ2) as (J12 & E12 & H12). rewrite E12. cbn [bind].
  destruct (Rmvstack _ _ _ _ _ _ _ HJ0 H12) as (J & EJ & HJ). exists J. split; auto.
  eapply is_mat_ext; [|exact HJ]. intros k l Hk Hl. cbv beta. unfold layer_tangent. rewrite Hd. fold n.
  destruct k as [|[|[|k]]]; try lia; cbn [Nat.ltb Nat.leb Nat.sub]; apply bigsum_ext; intros i _; cbn [bigsum]; unfold w, half_sides; field.
Qed.

Lemma beam_B_ok dN dNy dNz v1 v2 G Gy Gz f1 f2 : is_mat dN 3 n G -> is_mat dNy 3 n Gy -> is_mat dNz 3 n Gz -> is_mat v1 n 3 f1 -> is_mat v2 n 3 f2 ->
  exists B, beam_B n a b dN dNy dNz v1 v2 = Ok B /\
    has_action 6 n 6 B (fun r z => voigt3' (fun l c => bigsum n (fun i => G l i * z i c
       + a / 2 * Gy l i * cross3 (fun l => z i (3 + l)%nat) (f1 i) c + b / 2 * Gz l i * cross3 (fun l => z i (3 + l)%nat) (f2 i) c)) r).
Proof.
  intros HG Hy Hz H1 H2. unfold beam_B.
  pose (pp := fun i k c => 1 / 2 * a * Gy k i * f1 i c + 1 / 2 * b * Gz k i * f2 i c).
  pose (mm := fun i k c => - (1 / 2) * a * Gy k i * f1 i c - 1 / 2 * b * Gz k i * f2 i c).
  pose (mp := fun i k c k' c' => mm i k c + 1 / 2 * a * Gy k' i * f1 i c' + 1 / 2 * b * Gz k' i * f2 i c').
  pose (t := fun i => [ [G 0%nat i; 0; 0; 0; pp i 0%nat 2%nat; mm i 0%nat 1%nat];
      [0; G 1%nat i; 0; mm i 1%nat 2%nat; 0; pp i 1%nat 0%nat];
      [0; 0; G 2%nat i; pp i 2%nat 1%nat; mm i 2%nat 0%nat; 0];
      [G 1%nat i; G 0%nat i; 0; mm i 0%nat 2%nat; pp i 1%nat 2%nat; mp i 1%nat 1%nat 0%nat 0%nat];
      [G 2%nat i; 0; G 0%nat i; pp i 0%nat 1%nat; mp i 0%nat 0%nat 2%nat 2%nat; mm i 2%nat 1%nat];
      [0; G 2%nat i; G 1%nat i; mp i 2%nat 2%nat 1%nat 1%nat; mm i 1%nat 0%nat; pp i 2%nat 0%nat] ]).
  destruct (tab_ok 6 n 6 (fun r j => let i := (j / 6)%nat in
    let d k := mget dN k i in
    let p k c := Ok (1 / 2 * a) *! mget dNy k i *! mget v1 i c +! Ok (1 / 2 * b) *! mget dNz k i *! mget v2 i c in
    let m k c := Ok (- (1 / 2) * a) *! mget dNy k i *! mget v1 i c -! Ok (1 / 2 * b) *! mget dNz k i *! mget v2 i c in
    let mp k c k' c' := m k c +! Ok (1 / 2 * a) *! mget dNy k' i *! mget v1 i c' +! Ok (1 / 2 * b) *! mget dNz k' i *! mget v2 i c' in
    ent2
    [ [d 0%nat; Ok 0;    Ok 0;    Ok 0;                            p 0%nat 2%nat;                   m 0%nat 1%nat];
      [Ok 0;    d 1%nat; Ok 0;    m 1%nat 2%nat;                   Ok 0;                            p 1%nat 0%nat];
      [Ok 0;    Ok 0;    d 2%nat; p 2%nat 1%nat;                   m 2%nat 0%nat;                   Ok 0];
      [d 1%nat; d 0%nat; Ok 0;    m 0%nat 2%nat;                   p 1%nat 2%nat;                   mp 1%nat 1%nat 0%nat 0%nat];
      [d 2%nat; Ok 0;    d 0%nat; p 0%nat 1%nat;                   mp 0%nat 0%nat 2%nat 2%nat;      m 2%nat 1%nat];
      [Ok 0;    d 2%nat; d 1%nat; mp 2%nat 2%nat 1%nat 1%nat;      m 1%nat 0%nat;                   p 2%nat 0%nat] ] r (j mod 6))
    (fun r i c => nth c (nth r (t i) []) 0)) as (B & EB & HB); [lia| |].
  - intros r j Hr Hj Hm. cbv zeta. apply (ent2_ok (t (j / 6)%nat) _ r (j mod 6) 6 6); auto.
    + entries. reflexivity.
    + unfold t. rows.
  - exists B. split; [exact EB|]. eapply has_action_eq; [|exact HB]. intros r z Hr. cbv beta.
    destruct r as [|[|[|[|[|[|r]]]]]]; try lia; cbn [voigt3' voigt3]; rewrite <- ?bigsum_plus; apply bigsum_ext; intros i Hi;
      unfold t, mp, mm, pp; cbn [bigsum nth cross3 Nat.add]; field.
Qed.

Lemma beam_D0_ok : 1 + v <> 0 -> exists D, beam_D0 E v = Ok D /\
  is_mat D 3 3 (fun i j => nth (i * 3 + j) [E; 0; 0; 0; 5 / 6 * lame_mu E v; 0; 0; 0; 5 / 6 * lame_mu E v] 0).
Proof.
  intros Hv. unfold beam_D0. rewrite Rdiv_res_ok by auto. cbn [bind]. rewrite Rdiv_res_ok by lra. cbn [bind].
  eexists. split; [reflexivity|]. replace (1 / 2 * E / (1 + v) / (6 / 5)) with (5 / 6 * lame_mu E v) by (unfold lame_mu; field; auto).
  now apply is_mat_of_list.
Qed.

Lemma beam_P_ok v1 v2 p : is_mat v1 n 3 (V 0%nat) -> is_mat v2 n 3 (V 1%nat) ->
  nonzero3 (fun c => bigsum n (fun i => shp s (fun k => nth k p 0) i * V 0%nat i c)) ->
  nonzero3 (fun c => bigsum n (fun i => shp s (fun k => nth k p 0) i * V 1%nat i c)) ->
  nonzero3 (cross3 (beam_side s V 0 (fun k => nth k p 0)) (beam_side s V 1 (fun k => nth k p 0))) ->
  exists P, beam_P v1 v2 (sf_vec s p) = Ok P /\
    is_mat P 3 6 (fun i j => nth j (nth i [nrow (beam_axis s V (fun k => nth k p 0));
      srow (beam_axis s V (fun k => nth k p 0)) (beam_side s V 0 (fun k => nth k p 0));
      srow (beam_axis s V (fun k => nth k p 0)) (beam_side s V 1 (fun k => nth k p 0))] []) 0).
Proof.
  destruct Hok as (Hs & _). intros H1 H2 N1 N2 N0. unfold beam_P. set (r := fun k => nth k p 0) in *.
  pose proof (sf_vec_ok s Hs p) as HN. fold r n in HN.
  assert (Hside : forall (vm : mat R) (F : nat -> nat -> R), is_mat vm n 3 F -> nonzero3 (fun c => bigsum n (fun i => shp s r i * F i c)) ->
    exists vt w P, mtrans R_ops vm = Ok vt /\ mmulv R_ops vt (sf_vec s p) = Ok w /\ vnormal w = Ok P /\
      is_vec P 3 (unit3 (fun c => bigsum n (fun i => shp s r i * F i c)))).
  { intros vm F HF HZ. destruct (Rmtrans _ _ _ _ HF) as (vt & Et & Ht). destruct (Rmmulv _ _ _ _ _ _ Ht HN) as (w0 & Ew & Hw).
    destruct (vnormal_ok w0 (fun c => bigsum n (fun i => shp s r i * F i c))) as (P & EP & HP); auto.
    - eapply is_vec_ext; [|exact Hw]. intros c Hc. cbv beta. apply bigsum_ext; intros; ring.
    - exists vt, w0, P. auto. }
  destruct (Hside _ _ H1 N1) as (vt1 & w1 & P1 & -> & E1 & E1' & HP1). cbn [bind]. rewrite E1. cbn [bind]. rewrite E1'. cbn [bind].
  destruct (Hside _ _ H2 N2) as (vt2 & w2 & P2 & -> & E2 & E2' & HP2). cbn [bind]. rewrite E2. cbn [bind]. rewrite E2'. cbn [bind].
  destruct (vprod_ok _ _ _ _ HP1 HP2) as (w0 & E0 & H0). rewrite E0. cbn [bind].
  destruct (vnormal_ok _ _ H0 N0) as (P0 & EP0 & HP0). rewrite EP0. cbn [bind].
  apply Rmbuild. intros i j Hi Hj.
  apply (ent2_ok _ _ i j 3 6); auto; [|rows].
  rewrite (normal_row_ok P0 _ HP0), (shear_row_ok P0 P1 _ _ HP0 HP1), (shear_row_ok P0 P2 _ _ HP0 HP2). reflexivity.
Qed.

Let S (j : nat) (r : nat -> R) (c : nat) : R := bigsum n (fun i => shp s r i * V j i c).
Lemma beam_tangent j r xi c : layer_tangent s 2 w x V r xi (Datatypes.S j) c = w j * S j r c.
Proof.
  destruct Hok as (Hs & Hd & _). unfold layer_tangent. rewrite Hd. cbn [Nat.ltb Nat.leb Nat.sub]. rewrite Nat.sub_0_r.
  unfold S. rewrite <- bigsum_scal. apply bigsum_ext; intros; ring.
Qed.
Lemma beam_nonzero r xi : det3 (layer_tangent s 2 w x V r xi) <> 0 ->
  nonzero3 (S 0 r) /\ nonzero3 (S 1 r) /\ nonzero3 (cross3 (beam_side s V 0 r) (beam_side s V 1 r)).
Proof.
  intros Hdet. set (T := layer_tangent s 2 w x V r xi) in *.
  assert (E1 : forall c, T 1%nat c = w 0%nat * S 0 r c) by (intros; apply (beam_tangent 0)).
  assert (E2 : forall c, T 2%nat c = w 1%nat * S 1 r c) by (intros; apply (beam_tangent 1)).
  assert (Hc : ~ (forall c, (c < 3)%nat -> cross3 (S 0 r) (S 1 r) c = 0)).
  { intros H. apply Hdet. rewrite det3_cross. apply bigsum_zero. intros c Hc.
    replace (cross3 (T 1%nat) (T 2%nat) c) with (w 0%nat * w 1%nat * cross3 (S 0 r) (S 1 r) c).
    - rewrite H by auto. ring.
    - destruct c as [|[|c]]; cbn [cross3]; rewrite !E1, !E2; ring. }
  assert (N0 : nonzero3 (S 0 r)).
  { apply nonzero3_intro. intros H. apply Hc. intros c _. destruct c as [|[|c]]; cbn [cross3]; rewrite !H by lia; ring. }
  assert (N1 : nonzero3 (S 1 r)).
  { apply nonzero3_intro. intros H. apply Hc. intros c _. destruct c as [|[|c]]; cbn [cross3]; rewrite !H by lia; ring. }
  splits; auto. apply nonzero3_intro. intros H. apply Hc. intros c Hlt. specialize (H c Hlt).
  unfold beam_side in H. fold n in H. fold (S 0 r) in H. fold (S 1 r) in H. rewrite cross_unit3 in H.
  pose proof (sqrt_dot_pos _ N0) as P0. pose proof (sqrt_dot_pos _ N1) as P1.
  apply Rinv_0_lt_compat in P0, P1. apply Rmult_integral in H. destruct H; auto. nra.
Qed.

Lemma beam_point_ok X v1 v2 D0 g h : (g < q_n q0)%nat -> (h < q_n q12)%nat -> is_mat X n 3 x -> is_mat v1 n 3 (V 0%nat) -> is_mat v2 n 3 (V 1%nat) ->
  is_mat D0 3 3 (fun i j => nth (i * 3 + j) [E; 0; 0; 0; 5 / 6 * lame_mu E v; 0; 0; 0; 5 / 6 * lame_mu E v] 0) ->
  exists K, beam_point s q0 q12 n a b X v1 v2 D0 g h = Ok K /\
    has_form 6 n K (fun y z => wprod 1 (nth g (q_weights q0) []) * (wprod 2 (nth h (q_weights q12) []) *
       (det3 (layer_tangent s 2 w x V (pt q0 g) (pt q12 h)) *
        beam_W s V E v (pt q0 g) (pt q12 h)
          (strain (lay_H s 2 w x V (pt q0 g) (pt q12 h) y (rotated V y))) (strain (lay_H s 2 w x V (pt q0 g) (pt q12 h) z (rotated V z)))))).
Proof.
  destruct Hok as (Hs & Hd & Hn & Hx & Hq0 & Hq1 & Hv1 & Hv2 & Hnz & Hdet).
  intros Hg Hh HX H1 H2 HD. specialize (Hdet g h Hg Hh). fold w x V in Hdet.
  unfold beam_point. rewrite (gpoint_ok 1 q0 g Hq0 Hg). cbn [bind].
  set (p := nth g (q_points q0) []) in *. rewrite (gpoint_ok 2 q12 h Hq1 Hh). cbn [bind]. set (iz := nth h (q_points q12) []) in *.
  assert (Liz : (2 <= length iz)%nat) by (destruct Hq1 as (_ & _ & H); apply (H h Hh)).
  change (pt q0 g) with (fun k => nth k p 0) in *. change (pt q12 h) with (fun k => nth k iz 0) in *.
  set (r := fun k => nth k p 0) in *. set (xi := fun k => nth k iz 0) in *.
  destruct (beam_J_ok p iz X v1 v2 HX H1 H2 Liz) as (J & EJ & HJ). fold r xi in HJ. rewrite EJ. cbn [bind].
  set (T := layer_tangent s 2 w x V r xi) in *.
  rewrite (Rdet3 _ _ HJ). cbn [bind].
  destruct (Rminv 3 J T ltac:(lia) HJ Hdet) as (Ji & EJi & HJi). cbn [detd] in HJi. rewrite EJi. cbn [bind].
  destruct (Rmblock _ _ _ _ 0 0 3 1 HJi) as (c0 & Ec0 & Hc0); try lia. rewrite Ec0. cbn [bind].
  pose proof (sf_mat_ok s Hs p) as HdN. rewrite Hd in HdN. fold n r in HdN. pose proof (sf_vec_ok s Hs p) as HN. fold n r in HN.
  destruct (Rmmul _ _ _ _ _ _ _ Hc0 HdN) as (dN & EdN & HdN'). rewrite EdN. cbn [bind].
  assert (HG : is_mat dN 3 n (lay_dN s 2 w x V r xi)).
  { eapply is_mat_ext; [|exact HdN']. intros l i Hl Hi. cbv beta. unfold lay_dN. rewrite Hd. fold T. cbn [bigsum Nat.add]. ring. }
  pose proof (is_vec_of_list iz) as HV. rewrite !(Rvget _ _ _ _ HV) by lia. cbn [bind].
  destruct (Rdirector dN Ji (sf_vec s p) n _ _ _ (nth 0 iz 0) 1 HG HJi HN) as (dNy & Ey & Hy); [lia|]. rewrite Ey. cbn [bind].
  destruct (Rdirector dN Ji (sf_vec s p) n _ _ _ (nth 1 iz 0) 2 HG HJi HN) as (dNz & Ez & Hz); [lia|]. rewrite Ez. cbn [bind].
  assert (Hy' : is_mat dNy 3 n (lay_dNx s 2 w x V r xi 0)).
  { eapply is_mat_ext; [|exact Hy]. intros l i Hl Hi. unfold lay_dNx. rewrite Hd. reflexivity. }
  assert (Hz' : is_mat dNz 3 n (lay_dNx s 2 w x V r xi 1)).
  { eapply is_mat_ext; [|exact Hz]. intros l i Hl Hi. unfold lay_dNx. rewrite Hd. reflexivity. }
  destruct (beam_B_ok dN dNy dNz v1 v2 _ _ _ _ _ HG Hy' Hz' H1 H2) as (B & EB & HB). rewrite EB. cbn [bind].
  destruct (beam_nonzero r xi Hdet) as (N0 & N1 & Nc).
  destruct (beam_P_ok v1 v2 p H1 H2 N0 N1 Nc) as (P & EP & HP). rewrite EP. cbn [bind]. fold r in HP.
  destruct (hf_rotated 6 n 3 B P D0 _ _ _ HB HP HD) as (D & K & ED & EK & HK). rewrite ED. cbn [bind]. rewrite EK. cbn [bind].
  destruct (hf_weigh 1 1 6 n q0 g _ _ (le_n _) Hq0 Hg (hf_scal _ _ _ _ (det3 T) HK)) as (K1 & EK1 & HK1). rewrite EK1. cbn [bind].
  destruct (hf_weigh 2 2 6 n q12 h _ _ (le_n _) Hq1 Hh HK1) as (K2 & EK2 & HK2). exists K2. split; auto.
  eapply has_form_eq; [|exact HK2]. intros y z. cbv beta. unfold wgt.
  assert (EV : forall y p' q', along (strain (fun l c => bigsum n (fun i => lay_dN s 2 w x V r xi l i * y i c
       + a / 2 * lay_dNx s 2 w x V r xi 0 l i * cross3 (fun l => y i (3 + l)%nat) (V 0%nat i) c + b / 2 * lay_dNx s 2 w x V r xi 1 l i * cross3 (fun l => y i (3 + l)%nat) (V 1%nat i) c))) p' q'
     = along (strain (lay_H s 2 w x V r xi y (rotated V y))) p' q').
  { intros y' p' q'. apply along_ext. apply strain_ext3. intros l c _ _. unfold lay_H. apply bigsum_ext; intros i _. cbn [bigsum]. unfold rotated.
    change (w 0%nat) with (a / 2). change (w 1%nat) with (b / 2). ring. }
  cbn [bigsum]. cbn [nth Nat.mul Nat.add]. 
  assert (NA : forall f H, 0 + nth 0 (nrow f) 0 * voigt3' H 0 + nth 1 (nrow f) 0 * voigt3' H 1 + nth 2 (nrow f) 0 * voigt3' H 2 + nth 3 (nrow f) 0 * voigt3' H 3
     + nth 4 (nrow f) 0 * voigt3' H 4 + nth 5 (nrow f) 0 * voigt3' H 5 = along (strain H) f f) by (intros; apply nrow_along).
  assert (SA : forall f g H, 0 + nth 0 (srow f g) 0 * voigt3' H 0 + nth 1 (srow f g) 0 * voigt3' H 1 + nth 2 (srow f g) 0 * voigt3' H 2 + nth 3 (srow f g) 0 * voigt3' H 3
     + nth 4 (srow f g) 0 * voigt3' H 4 + nth 5 (srow f g) 0 * voigt3' H 5 = 2 * along (strain H) f g) by (intros; apply srow_along).
  rewrite !NA, !SA, !EV. unfold beam_W, beam_energy. ring.
Qed.

Lemma beam_call : length dou = 6%nat -> 1 + v <> 0 ->
  layer_stiffness_of 6 2 s q0 q12 w V (rotated V) (beam_W s V E v) elem dou xs (BeamLinearIsotropicElastic s q0 q12 elem dou xs v1s v2s E v a b).
Proof.
  intros Hdou Hv. pose proof Hok as (Hs & Hd & Hn & Hx & Hq0 & Hq1 & Hv1 & Hv2 & Hnz & Hdet).
  unfold BeamLinearIsotropicElastic. rewrite (eqb2 dou 6 Hdou). cbn [assert_ bind].
  destruct (nte_of_ok 6 (length elem) dou) as (ne & Ene & Hne); [lia|]. rewrite Ene. cbn [bind].
  destruct (node_mat_ok 3 elem xs Hx) as (X & EX & HX). rewrite EX. cbn [bind]. 
  destruct (beam_directors_ok v1s elem Hv1) as (m1 & E1 & H1); [intros i Hi; apply (Hnz i Hi)|]. rewrite E1. cbn [bind].
  destruct (beam_directors_ok v2s elem Hv2) as (m2 & E2 & H2); [intros i Hi; apply (Hnz i Hi)|]. rewrite E2. cbn [bind].
  destruct (beam_D0_ok Hv) as (D0 & ED & HD). rewrite ED. cbn [bind].
  rewrite Hn in HX, H1, H2, Hne |- *. fold n in HX, H1, H2, Hne |- *.
  destruct (hf_gauss2 6 n q0 q12 _ _ (fun g h Hg Hh => beam_point_ok X m1 m2 D0 g h Hg Hh HX H1 H2 HD)) as (K & EK & k & Hk & Ek).
  rewrite EK. cbn [bind]. exists K, ne, k. rewrite Hn. fold n. splits; auto.
  intros y z Hy Hz Gy Gz. rewrite Ek. unfold quad. rewrite Hd.
  apply bigsum_ext; intros g Hg. rewrite <- bigsum_scal. apply bigsum_ext; intros h Hh.
  fold (pt q0 g) (pt q12 h). specialize (Hdet g h Hg Hh). fold x V w in Hdet.
  assert (EU : forall u Hu, layer_gradients s q0 q12 2 w x V u (rotated V u) Hu ->
     forall p r, along (strain (lay_H s 2 w x V (pt q0 g) (pt q12 h) u (rotated V u))) p r = along (strain (Hu (pt q0 g) (pt q12 h))) p r).
  { intros u Hu Gu p r. symmetry. apply along_ext, strain_ext3. apply lay_H_unique; [lia|exact Hdet|now apply Gu]. }
  unfold beam_W, beam_energy. rewrite !(EU y Hy Gy), !(EU z Hz Gz). reflexivity.
Qed.
End Beam.
