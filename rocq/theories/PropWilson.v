(** Property C86: the incompatible modes element. *)
From Coq Require Import List Arith Lia Bool Reals Lra.
From Verif Require Import Res SumR DenseModel DenseR DenseSpec ShapeModel QuadModel QuadSpec ElemModel ElemSpec WilsonSpec WilsonMain.
Import ListNotations.
Local Open Scope R_scope.

(** C86: on an admissible call the routine succeeds exactly when no nonzero
    combination of the modes is strainless at all integration points; otherwise
    it divides by zero *)
Theorem C86_defined : forall s q elem dou xs D Df t, wt_setting s q elem dou xs D Df t ->
  (modes_strained s q (nodal elem xs) -> exists K ne k, PlaneStiffnessWilsonTaylor s q elem dou xs D t = Ok (K, ne) /\
     numbered 2 (length elem) dou ne /\ is_mat K (2 * length elem) (2 * length elem) k) /\
  (~ modes_strained s q (nodal elem xs) -> PlaneStiffnessWilsonTaylor s q elem dou xs D t = Fail DivByZero).
Proof. exact C86_defined_pf. Qed.
Print Assumptions C86_defined.

(** a square and a trapezoid *)
Definition wsq_xs : list (list R) := [[-1; -1]; [1; -1]; [1; 1]; [-1; 1]].
Definition wtrap_xs : list (list R) := [[-2; -1]; [2; -1]; [1; 1]; [-1; 1]].
Definition wsq_elem : list nat := [0; 1; 2; 3]%nat.
Lemma wsq_ok xs : xs = wsq_xs \/ xs = wtrap_xs -> element_ok 2 sf_4Square Gauss4Square wsq_elem xs /\ positive_rule 2 sf_4Square Gauss4Square (nodal wsq_elem xs).
Proof.
  intros Hxs. pose proof WilsonMain.hh_pos as Hh. pose proof WilsonMain.hh_sq as Hq. assert (Hh1 : WilsonMain.hh < 1) by nra.
  assert (HP : positive_rule 2 sf_4Square Gauss4Square (nodal wsq_elem xs)).
  { intros g Hg. cbn in Hg. split; [|destruct g as [|[|[|[|g]]]]; try lia; cbn; lra].
    unfold jac. change (sf_d sf_4Square) with 2%nat. cbn [detd]. unfold det2. rewrite !WilsonMain.sq_tangent by lia.
    destruct (WilsonMain.g4_pt g Hg) as [P Q]. rewrite P, Q. cbn [Nat.eqb]. unfold WilsonMain.ca, WilsonMain.cb, WilsonMain.cd, nodal, wsq_elem.
    destruct Hxs as [-> | ->]; unfold wsq_xs, wtrap_xs; cbn [nth]; destruct g as [|[|[|[|g]]]]; try lia; cbn [WilsonMain.s0 WilsonMain.s1]; nra. }
  split; [|exact HP].
  repeat split; try (cbn; lia).
  - cbn. tauto.
  - unfold wsq_elem in *. destruct H as [<-|[<-|[<-|[<-|[]]]]]; destruct Hxs as [-> | ->]; cbn; lia.
  - unfold wsq_elem in *. destruct H as [<-|[<-|[<-|[<-|[]]]]]; destruct Hxs as [-> | ->]; cbn; lia.
  - cbn in H. destruct g as [|[|[|[|g]]]]; try lia; cbn; lia.
  - cbn in H. destruct g as [|[|[|[|g]]]]; try lia; cbn; lia.
  - intros g Hg. pose proof (proj1 (HP g Hg)). lra.
Qed.
Lemma wsq_setting xs : xs = wsq_xs \/ xs = wtrap_xs -> exists D Df, wt_setting sf_4Square Gauss4Square wsq_elem [0; 1]%nat xs D Df 3 /\
  modes_strained sf_4Square Gauss4Square (nodal wsq_elem xs) /\
  forall H Z, dform Df H Z = hooke 2 (lame_lambda 2 (1 / 4)) (lame_mu 2 (1 / 4)) (strain H) (strain Z).
Proof.
  intros Hxs. destruct (wsq_ok xs Hxs) as [He HP]. destruct (WilsonMain.C86_plane_strain_pf sf_4Square Gauss4Square wsq_elem [0; 1]%nat xs 2 (1 / 4) 3 ltac:(lra) ltac:(lra)) as (D & Df & _ & HD & HM & HH).
  exists D, Df. split; [|split; auto].
  - split; [exact He|]. split; [reflexivity|]. split; [exact HD|]. split; [exact HM|]. split; [exact HP|lra].
  - apply (proj1 (WilsonMain.C86_points_pf _ _ _ _ He HP)). exists 0%nat, 1%nat. pose proof WilsonMain.hh_pos. split; [cbn; lia|]. split; [cbn; lia|].
    destruct (WilsonMain.g4_pt 0 ltac:(lia)) as [P Q]. destruct (WilsonMain.g4_pt 1 ltac:(lia)) as [P' Q']. rewrite P, Q, P', Q'. cbn [WilsonMain.s0 WilsonMain.s1]. split; nra.
Qed.
(** the trapezoid is accepted with four points; the square with one is not *)
Example C86_defined_ex : exists D, (exists K ne, PlaneStiffnessWilsonTaylor sf_4Square Gauss4Square wsq_elem [0; 1]%nat wtrap_xs D 3 = Ok (K, ne)) /\
  PlaneStiffnessWilsonTaylor sf_4Square Gauss1Square wsq_elem [0; 1]%nat wsq_xs D 3 = Fail DivByZero.
Proof.
  destruct (wsq_setting wtrap_xs (or_intror eq_refl)) as (D & Df & HW & HS & _). exists D. split.
  - destruct (proj1 (C86_defined _ _ _ _ _ _ _ _ HW) HS) as (K & ne & k & E & _). eauto.
  - destruct HW as (_ & _ & HD & HM & _ & Ht).
    assert (HP : positive_rule 2 sf_4Square Gauss1Square (nodal wsq_elem wsq_xs)).
    { intros g Hg. cbn in Hg. replace g with 0%nat by lia. unfold jac, tangent, dshp, sf_4Square, dN_4Square, nodal, wsq_elem, wsq_xs, pt, Gauss1Square, wprod. cbn [sf_d sf_n sf_dN detd q_points q_weights nth]. unfold det2. cbn [bigsum nth]. split; [lra|cbn; lra]. }
    assert (He : element_ok 2 sf_4Square Gauss1Square wsq_elem wsq_xs).
    { destruct (wsq_ok wsq_xs (or_introl eq_refl)) as [(H1 & H2 & H3 & H4 & _) _]. repeat (split; [assumption|]). split.
      - split; [cbn; lia|]. split; [cbn; lia|]. intros g Hg. cbn in Hg. replace g with 0%nat by lia. cbn. lia.
      - intros g Hg. pose proof (proj1 (HP g Hg)). lra. }
    apply (proj2 (C86_defined sf_4Square Gauss1Square wsq_elem [0; 1]%nat wsq_xs D Df 3 ltac:(exact (conj He (conj eq_refl (conj HD (conj HM (conj HP Ht)))))))).
    apply (proj2 (WilsonMain.C86_points_pf _ _ _ _ He HP)). reflexivity.
Qed.

(** C86: the modes are strained whenever the Jacobian is positive and the rule has
    a point with r0 r1 > 0 and one with r0 r1 < 0; with a single integration
    point they never are *)
Theorem C86_points : forall s q elem xs, element_ok 2 s q elem xs -> positive_rule 2 s q (nodal elem xs) ->
  ((exists g g', (g < q_n q)%nat /\ (g' < q_n q)%nat /\ 0 < pt q g 0 * pt q g 1 /\ pt q g' 0 * pt q g' 1 < 0) -> modes_strained s q (nodal elem xs)) /\
  (q_n q = 1%nat -> ~ modes_strained s q (nodal elem xs)).
Proof. exact C86_points_pf. Qed.
Print Assumptions C86_points.

Example C86_points_ex : modes_strained sf_4Square Gauss4Square (nodal wsq_elem wtrap_xs).
Proof.
  destruct (wsq_ok wtrap_xs (or_intror eq_refl)) as [He HP]. refine (proj1 (C86_points _ _ _ _ He HP) _). exists 0%nat, 1%nat. pose proof WilsonMain.hh_pos.
  split; [cbn; lia|]. split; [cbn; lia|].
  destruct (WilsonMain.g4_pt 0 ltac:(lia)) as [P Q]. destruct (WilsonMain.g4_pt 1 ltac:(lia)) as [P' Q']. rewrite P, Q, P', Q'. cbn [WilsonMain.s0 WilsonMain.s1]. split; nra.
Qed.

(** C86: the returned matrix is the condensed stiffness.  For each displacement z
    there are mode amplitudes a such that the stress of z plus modes does no work
    on any mode, and the force of the matrix does on y the work of that stress on
    the strain of y *)
Theorem C86_condensed : forall s q elem dou xs D Df t, wt_setting s q elem dou xs D Df t -> modes_strained s q (nodal elem xs) ->
  exists K ne k, PlaneStiffnessWilsonTaylor s q elem dou xs D t = Ok (K, ne) /\ is_mat K (2 * length elem) (2 * length elem) k /\
    forall z, exists a, forall Ha Hz, bubbles s q (nodal elem xs) a Ha -> gradients s q (nodal elem xs) 2 z Hz ->
      (forall b Hb, bubbles s q (nodal elem xs) b Hb ->
         quad 2 q (fun p => jac s (nodal elem xs) p * (t * dform Df (Hb p) (gplus (Hz p) (Ha p)))) = 0) /\
      (forall y Hy, gradients s q (nodal elem xs) 2 y Hy ->
         form 2 (length elem) k y z = quad 2 q (fun p => jac s (nodal elem xs) p * (t * dform Df (Hy p) (gplus (Hz p) (Ha p))))).
Proof. exact C86_condensed_pf. Qed.
Print Assumptions C86_condensed.

Example C86_condensed_ex : exists D Df K ne k, wt_setting sf_4Square Gauss4Square wsq_elem [0; 1]%nat wtrap_xs D Df 3 /\
  PlaneStiffnessWilsonTaylor sf_4Square Gauss4Square wsq_elem [0; 1]%nat wtrap_xs D 3 = Ok (K, ne) /\ is_mat K 8 8 k.
Proof.
  destruct (wsq_setting wtrap_xs (or_intror eq_refl)) as (D & Df & HW & HS & _).
  destruct (C86_condensed _ _ _ _ _ _ _ _ HW HS) as (K & ne & k & E & Hk & _). exists D, Df, K, ne, k. split; [exact HW|]. split; [exact E|exact Hk].
Qed.

(** C86: the energy of the matrix is the least elastic energy over the mode
    amplitudes; the matrix is symmetric and positive semidefinite *)
Theorem C86_energy : forall s q elem dou xs D Df t, wt_setting s q elem dou xs D Df t -> modes_strained s q (nodal elem xs) ->
  exists K ne k, PlaneStiffnessWilsonTaylor s q elem dou xs D t = Ok (K, ne) /\ is_mat K (2 * length elem) (2 * length elem) k /\
    (forall a b, (a < 2 * length elem)%nat -> (b < 2 * length elem)%nat -> k a b = k b a) /\
    forall y Hy, gradients s q (nodal elem xs) 2 y Hy ->
      0 <= form 2 (length elem) k y y /\
      (forall b Hb, bubbles s q (nodal elem xs) b Hb -> form 2 (length elem) k y y <=
         quad 2 q (fun p => jac s (nodal elem xs) p * (t * dform Df (gplus (Hy p) (Hb p)) (gplus (Hy p) (Hb p))))) /\
      exists b, forall Hb, bubbles s q (nodal elem xs) b Hb -> form 2 (length elem) k y y =
         quad 2 q (fun p => jac s (nodal elem xs) p * (t * dform Df (gplus (Hy p) (Hb p)) (gplus (Hy p) (Hb p)))).
Proof. exact C86_energy_pf. Qed.
Print Assumptions C86_energy.

Example C86_energy_ex : exists D K ne k, PlaneStiffnessWilsonTaylor sf_4Square Gauss4Square wsq_elem [0; 1]%nat wtrap_xs D 3 = Ok (K, ne) /\ is_mat K 8 8 k /\
  k 1%nat 6%nat = k 6%nat 1%nat /\ 0 <= k 5%nat 5%nat.
Proof.
  destruct (wsq_setting wtrap_xs (or_intror eq_refl)) as (D & Df & HW & HS & _).
  destruct (C86_energy _ _ _ _ _ _ _ _ HW HS) as (K & ne & k & E & Hk & Sy & Hp). exists D, K, ne, k. split; [exact E|]. split; [exact Hk|]. split; [apply Sy; cbn; lia|].
  destruct HW as (He & _). pose proof (proj1 (Hp _ _ (ElemProof3.gradients_gradU _ _ _ _ 2 2 (ElemProof.unitv 2 5) He (le_n 2)))) as P.
  rewrite (ElemMain.form_entry 2 (length wsq_elem) k 5 5) in P by (cbn; lia). exact P.
Qed.

(** C86: rigid motions are in the kernel *)
Theorem C86_rigid : forall s q elem dou xs D Df t z, wt_setting s q elem dou xs D Df t -> modes_strained s q (nodal elem xs) ->
  rigid_motion 2 (length elem) (nodal elem xs) z -> kills 2 (length elem) (PlaneStiffnessWilsonTaylor s q elem dou xs D t) z.
Proof. exact C86_rigid_pf. Qed.
Print Assumptions C86_rigid.

(** a rotation of the trapezoid *)
Example C86_rigid_ex : exists D, kills 2 4 (PlaneStiffnessWilsonTaylor sf_4Square Gauss4Square wsq_elem [0; 1]%nat wtrap_xs D 3)
  (fun i c => match c with O => 5 - nodal wsq_elem wtrap_xs i 1 | _ => nodal wsq_elem wtrap_xs i 0 end).
Proof.
  destruct (wsq_setting wtrap_xs (or_intror eq_refl)) as (D & Df & HW & HS & _). exists D.
  refine (C86_rigid _ _ _ _ _ _ _ _ _ HW HS _).
  exists (fun c => match c with O => 5 | _ => 0 end), (fun l c => match l, c with O, 1%nat => 1 | 1%nat, O => -1 | _, _ => 0 end). split.
  - intros l c. destruct l as [|[|l]], c as [|[|c]]; lra.
  - intros i c Hi Hc. cbn [bigsum]. destruct c as [|[|c]]; [ring|ring|lia].
Qed.

(** C86: on the four node square with the four point rule there are no further
    zero energy displacements *)
Theorem C86_null : forall elem dou xs D Df t, wt_setting sf_4Square Gauss4Square elem dou xs D Df t ->
  exists K ne k, PlaneStiffnessWilsonTaylor sf_4Square Gauss4Square elem dou xs D t = Ok (K, ne) /\ is_mat K (2 * length elem) (2 * length elem) k /\
    forall z, form 2 (length elem) k z z = 0 -> rigid_motion 2 (length elem) (nodal elem xs) z.
Proof. exact C86_null_pf. Qed.
Print Assumptions C86_null.

(** the hourglass displacement of the square has positive energy *)
Example C86_null_ex : exists D K ne k, PlaneStiffnessWilsonTaylor sf_4Square Gauss4Square wsq_elem [0; 1]%nat wsq_xs D 3 = Ok (K, ne) /\ is_mat K 8 8 k /\
  form 2 4 k (fun i c => match c with O => nth i [1; -1; 1; -1] 0 | _ => 0 end) (fun i c => match c with O => nth i [1; -1; 1; -1] 0 | _ => 0 end) <> 0.
Proof.
  destruct (wsq_setting wsq_xs (or_introl eq_refl)) as (D & Df & HW & HS & _).
  destruct (C86_null _ _ _ _ _ _ HW) as (K & ne & k & E & Hk & HN). exists D, K, ne, k. split; [exact E|]. split; [exact Hk|].
  intros Z. destruct (HN _ Z) as (a & W & _ & HR).
  pose proof (HR 0%nat 0%nat ltac:(cbn; lia) ltac:(lia)) as R0. pose proof (HR 1%nat 0%nat ltac:(cbn; lia) ltac:(lia)) as R1.
  pose proof (HR 2%nat 0%nat ltac:(cbn; lia) ltac:(lia)) as R2. pose proof (HR 3%nat 0%nat ltac:(cbn; lia) ltac:(lia)) as R3.
  unfold nodal, wsq_elem, wsq_xs in *. cbn [bigsum nth] in *. lra.
Qed.

(** C86: patch test.  The four node square with the four point rule answers every
    homogeneous displacement gradient with the forces of the homogeneous stress
    exactly when the element is a parallelogram *)
Theorem C86_patch : forall elem dou xs D Df t, wt_setting sf_4Square Gauss4Square elem dou xs D Df t ->
  exists K ne k, PlaneStiffnessWilsonTaylor sf_4Square Gauss4Square elem dou xs D t = Ok (K, ne) /\ is_mat K (2 * length elem) (2 * length elem) k /\
    ((forall z a A y Hy, (forall i c, (i < 4)%nat -> (c < 2)%nat -> z i c = a c + bigsum 2 (fun l => nodal elem xs i l * A l c)) ->
        gradients sf_4Square Gauss4Square (nodal elem xs) 2 y Hy ->
        form 2 (length elem) k y z = quad 2 Gauss4Square (fun p => jac sf_4Square (nodal elem xs) p * (t * dform Df (Hy p) A))) <->
     (forall l, (l < 2)%nat -> nodal elem xs 0 l + nodal elem xs 2 l = nodal elem xs 1 l + nodal elem xs 3 l)).
Proof. exact C86_patch_pf. Qed.
Print Assumptions C86_patch.

(** the square passes and the trapezoid does not *)
Example C86_patch_ex : (forall l, (l < 2)%nat -> nodal wsq_elem wsq_xs 0 l + nodal wsq_elem wsq_xs 2 l = nodal wsq_elem wsq_xs 1 l + nodal wsq_elem wsq_xs 3 l) /\
  exists D Df K ne k, PlaneStiffnessWilsonTaylor sf_4Square Gauss4Square wsq_elem [0; 1]%nat wtrap_xs D 3 = Ok (K, ne) /\ is_mat K 8 8 k /\
    ~ (forall z a A y Hy, (forall i c, (i < 4)%nat -> (c < 2)%nat -> z i c = a c + bigsum 2 (fun l => nodal wsq_elem wtrap_xs i l * A l c)) ->
        gradients sf_4Square Gauss4Square (nodal wsq_elem wtrap_xs) 2 y Hy ->
        form 2 4 k y z = quad 2 Gauss4Square (fun p => jac sf_4Square (nodal wsq_elem wtrap_xs) p * (3 * dform Df (Hy p) A))).
Proof.
  split.
  - intros l Hl. unfold nodal, wsq_elem, wsq_xs. destruct l as [|[|l]]; cbn; [lra|lra|lia].
  - destruct (wsq_setting wtrap_xs (or_intror eq_refl)) as (D & Df & HW & HS & _).
    destruct (C86_patch _ _ _ _ _ _ HW) as (K & ne & k & E & Hk & HI). exists D, Df, K, ne, k. split; [exact E|]. split; [exact Hk|].
    intros Z. pose proof (proj1 HI Z 0%nat ltac:(lia)) as A. unfold nodal, wsq_elem, wtrap_xs in A. cbn in A. lra.
Qed.

(** C86: the plane strain routine is the call with Hooke's matrix, which is an
    admissible material for E > 0 and -1 < V < 1/2 *)
Theorem C86_plane_strain : forall s q elem dou xs E V t, 0 < E -> -1 < V < 1 / 2 ->
  exists D Df, PlaneStrainStiffnessWilsonTaylor s q elem dou xs E V t = PlaneStiffnessWilsonTaylor s q elem dou xs D t /\
    is_mat D 3 3 Df /\ material Df /\ forall H Z, dform Df H Z = hooke 2 (lame_lambda E V) (lame_mu E V) (strain H) (strain Z).
Proof. exact C86_plane_strain_pf. Qed.
Print Assumptions C86_plane_strain.

Example C86_plane_strain_ex : exists D Df, is_mat D 3 3 Df /\ material Df /\
  PlaneStrainStiffnessWilsonTaylor sf_4Square Gauss4Square wsq_elem [0; 1]%nat wtrap_xs 2 (1 / 4) 3 = PlaneStiffnessWilsonTaylor sf_4Square Gauss4Square wsq_elem [0; 1]%nat wtrap_xs D 3.
Proof. destruct (C86_plane_strain sf_4Square Gauss4Square wsq_elem [0; 1]%nat wtrap_xs 2 (1 / 4) 3 ltac:(lra) ltac:(lra)) as (D & Df & E & HD & HM & _). exists D, Df. auto. Qed.

(** C86: pure bending.  On a rectangle with half sides a and b about the origin
    the displacement (kappa x y, 0) of the nodes has exactly the energy of a beam
    of plane strain modulus E / (1 - V^2) bent to curvature kappa *)
Theorem C86_bending : forall elem dou xs E V t a b kappa z, element_ok 2 sf_4Square Gauss4Square elem xs -> length dou = 2%nat ->
  0 < a -> 0 < b -> 0 < E -> -1 < V < 1 / 2 -> 0 < t ->
  (forall i, (i < 4)%nat -> nodal elem xs i 0 = nth i [-a; a; a; -a] 0 /\ nodal elem xs i 1 = nth i [-b; -b; b; b] 0) ->
  (forall i, (i < 4)%nat -> z i 0%nat = kappa * (nodal elem xs i 0 * nodal elem xs i 1) /\ z i 1%nat = 0) ->
  exists K ne k, PlaneStrainStiffnessWilsonTaylor sf_4Square Gauss4Square elem dou xs E V t = Ok (K, ne) /\
    is_mat K (2 * length elem) (2 * length elem) k /\
    form 2 (length elem) k z z = E / (1 - V ^ 2) * kappa ^ 2 * (t * (2 * b) ^ 3 / 12) * (2 * a).
Proof. exact C86_bending_pf. Qed.
Print Assumptions C86_bending.

(** the square bent to curvature 3: 2 / (15/16) * 9 * (8 / 12) * 2 *)
Example C86_bending_ex : exists K ne k, PlaneStrainStiffnessWilsonTaylor sf_4Square Gauss4Square wsq_elem [0; 1]%nat wsq_xs 2 (1 / 4) 1 = Ok (K, ne) /\ is_mat K 8 8 k /\
  form 2 4 k (fun i c => match c with O => nth i [3; -3; 3; -3] 0 | _ => 0 end) (fun i c => match c with O => nth i [3; -3; 3; -3] 0 | _ => 0 end) = 128 / 5.
Proof.
  destruct (wsq_ok wsq_xs (or_introl eq_refl)) as [He _].
  destruct (C86_bending wsq_elem [0; 1]%nat wsq_xs 2 (1 / 4) 1 1 1 3 (fun i c => match c with O => nth i [3; -3; 3; -3] 0 | _ => 0 end) He eq_refl) as (K & ne & k & E & Hk & Hv); try lra.
  - intros i Hi. unfold nodal, wsq_elem, wsq_xs. destruct i as [|[|[|[|i]]]]; cbn; [lra|lra|lra|lra|lia].
  - intros i Hi. unfold nodal, wsq_elem, wsq_xs. destruct i as [|[|[|[|i]]]]; cbn; [lra|lra|lra|lra|lia].
  - exists K, ne, k. split; [exact E|]. split; [exact Hk|]. refine (eq_trans Hv _). field.
Qed.
