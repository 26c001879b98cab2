(** Properties C94-C96: interpolation, averages and line integrals. *)
From Coq Require Import List Arith Lia Bool Reals Lra.
From Verif Require Import Res SumR DenseModel DenseR ShapeModel QuadModel QuadSpec ElemModel ElemSpec ElemSpec2 GenModel GenSpec GenMain.
Import ListNotations.
Local Open Scope R_scope.

(** LagrangeInterpolation with distinct points returns the values N_i(x) of the
    Lagrange basis: N_i is 1 at point i and 0 at the other points, and every
    polynomial with as many coefficients as there are points is reproduced. *)
Theorem C94_lagrange_basis : forall xs, NoDup xs -> exists N : R -> nat -> R,
  (forall x, LagrangeInterpolation xs x = Ok (map (N x) (seq 0 (length xs)))) /\ nodal_basis xs N /\
  forall p x, polynomial (length xs) p -> bigsum (length xs) (fun i => N x i * p (nth i xs 0)) = p x.
Proof. exact C94_lagrange_basis_pf. Qed.
Print Assumptions C94_lagrange_basis.

(** the interpolant of x^2 through 0, 1 and 3 is x^2: at 2 it is 4 *)
Example C94_basis_ex : exists N, LagrangeInterpolation [0; 1; 3] 2 = Ok N /\ length N = 3%nat /\
  nth 0 N 0 * 0 + nth 1 N 0 * 1 + nth 2 N 0 * 9 = 4.
Proof.
  assert (ND : NoDup [0; 1; 3]). { repeat constructor; cbn; intros H; decompose [or] H; try lra; auto. }
  destruct (C94_lagrange_basis _ ND) as (N & E & _ & P). exists (map (N 2) (seq 0 3)). split; [apply E|]. split; [reflexivity|].
  specialize (P (fun x => x * x) 2). cbn [length bigsum nth] in P. cbn [seq map nth].
  assert (Q : polynomial 3 (fun x => x * x)). { exists (fun i => if (i =? 2)%nat then 1 else 0). intros x. cbn. ring. }
  specialize (P Q). lra.
Qed.

(** LagrangeInterpolationDerivative returns the derivatives of the functions
    N_i of LagrangeInterpolation, so it differentiates every polynomial with as
    many coefficients as there are points without error. *)
Theorem C94_lagrange_derivative : forall xs, NoDup xs -> exists N D : R -> nat -> R,
  (forall x, LagrangeInterpolation xs x = Ok (map (N x) (seq 0 (length xs)))) /\
  (forall x, LagrangeInterpolationDerivative xs x = Ok (map (D x) (seq 0 (length xs)))) /\
  (forall i x, (i < length xs)%nat -> derivable_pt_lim (fun x => N x i) x (D x i)) /\
  forall p x, polynomial (length xs) p -> derivable_pt_lim p x (bigsum (length xs) (fun i => D x i * p (nth i xs 0))).
Proof. exact C94_lagrange_derivative_pf. Qed.
Print Assumptions C94_lagrange_derivative.

(** the derivative of x^2 at 2 from its values at 0, 1 and 3 *)
Example C94_derivative_ex : exists D, LagrangeInterpolationDerivative [0; 1; 3] 2 = Ok D /\
  nth 0 D 0 * 0 + nth 1 D 0 * 1 + nth 2 D 0 * 9 = 4.
Proof.
  assert (ND : NoDup [0; 1; 3]). { repeat constructor; cbn; intros H; decompose [or] H; try lra; auto. }
  destruct (C94_lagrange_derivative _ ND) as (N & D & _ & E & _ & P). exists (map (D 2) (seq 0 3)). split; [apply E|].
  assert (Q : polynomial 3 (fun x => x * x)). { exists (fun i => if (i =? 2)%nat then 1 else 0). intros x. cbn. ring. }
  specialize (P (fun x => x * x) 2 Q). cbn [length bigsum nth] in P. cbn [seq map nth].
  assert (DQ : derivable_pt_lim (fun x => x * x) 2 (1 * 2 + 2 * 1)) by (apply (derivable_pt_lim_mult id id); apply derivable_pt_lim_id).
  pose proof (uniqueness_limite _ _ _ _ P DQ). lra.
Qed.

(** With a repeated point both functions divide by zero. *)
Theorem C94_repeated_point : forall xs x, ~ NoDup xs ->
  LagrangeInterpolation xs x = Fail DivByZero /\ LagrangeInterpolationDerivative xs x = Fail DivByZero.
Proof. exact C94_repeated_point_pf. Qed.
Print Assumptions C94_repeated_point.

Example C94_repeated_ex : LagrangeInterpolation [1; 2; 1] 0 = Fail DivByZero.
Proof. apply C94_repeated_point. intros H. inversion H; subst. apply H2. cbn. auto. Qed.

(** InterpolateNodalFromElemental: the value at a node is the mean of the values
    of the elements which contain it, counted with multiplicity; a start value
    u0 is added to the sum.  Every node must belong to an element. *)
Theorem C95_nodal_mean : forall N u0 ue elements, mesh_ok N elements -> (length elements <= length ue)%nat ->
  (forall n, (n < N)%nat -> exists e, In e elements /\ In n e) ->
  exists un, InterpolateNodalFromElemental N u0 ue elements = Ok un /\ length un = N /\
    forall n, (n < N)%nat -> nth n un 0 = mean_with u0 (received 0 ue elements n).
Proof. exact C95_nodal_mean_pf. Qed.
Print Assumptions C95_nodal_mean.

(** two triangles with a common edge: the shared nodes take the mean 5 of 4 and 6 *)
Example C95_nodal_ex : exists un, InterpolateNodalFromElemental 4 0 [4; 6] [[0; 1; 2]; [1; 3; 2]]%nat = Ok un /\ un = [4; 5; 5; 6].
Proof.
  destruct (C95_nodal_mean 4 0 [4; 6] [[0; 1; 2]; [1; 3; 2]]%nat) as (un & E & L & H).
  - intros e n He Hn. cbn in He. decompose [or] He; subst; cbn in Hn; lia.
  - cbn; lia.
  - intros n Hn. destruct n as [|[|[|[|n]]]]; [exists [0; 1; 2]%nat|exists [0; 1; 2]%nat|exists [0; 1; 2]%nat|exists [1; 3; 2]%nat|lia]; cbn; auto 10.
  - exists un. split; auto. destruct un as [|a [|b [|c [|d [|]]]]]; try discriminate.
    pose proof (H 0%nat ltac:(lia)) as H0. pose proof (H 1%nat ltac:(lia)) as H1. pose proof (H 2%nat ltac:(lia)) as H2. pose proof (H 3%nat ltac:(lia)) as H3.
    unfold mean_with, received in *. cbn in H0, H1, H2, H3. repeat (f_equal; [lra|]). f_equal; lra.
Qed.

(** With the default start value 0 the nodal values stay between the bounds of
    the elemental values, and the sum weighted with the number of adjacent
    elements is the sum of the elemental values weighted with the number of
    nodes of the element. *)
Theorem C95_nodal_bounds : forall N ue elements, mesh_ok N elements -> (length elements <= length ue)%nat ->
  (forall n, (n < N)%nat -> exists e, In e elements /\ In n e) ->
  exists un, InterpolateNodalFromElemental N 0 ue elements = Ok un /\ length un = N /\
    (forall lo hi, (forall u, In u ue -> lo <= u <= hi) -> forall u, In u un -> lo <= u <= hi) /\
    bigsum N (fun n => INR (length (received 0 ue elements n)) * nth n un 0) =
    bigsum (length elements) (fun i => INR (length (nth i elements [])) * nth i ue 0).
Proof. exact C95_nodal_bounds_pf. Qed.
Print Assumptions C95_nodal_bounds.

(** a constant elemental field gives the same constant at the nodes *)
Example C95_constant_ex : forall c, InterpolateNodalFromElemental 4 0 [c; c] [[0; 1; 2]; [1; 3; 2]]%nat = Ok [c; c; c; c].
Proof.
  intros c. destruct (C95_nodal_bounds 4 [c; c] [[0; 1; 2]; [1; 3; 2]]%nat) as (un & E & L & H & _).
  - intros e n He Hn. cbn in He. decompose [or] He; subst; cbn in Hn; lia.
  - cbn; lia.
  - intros n Hn. destruct n as [|[|[|[|n]]]]; [exists [0; 1; 2]%nat|exists [0; 1; 2]%nat|exists [0; 1; 2]%nat|exists [1; 3; 2]%nat|lia]; cbn; auto 10.
  - rewrite E. f_equal. assert (A : forall u, In u un -> u = c). { intros u Hu. assert (c <= u <= c); [|lra]. apply (H c c); auto. intros v Hv. cbn in Hv. decompose [or] Hv; subst; try lra; contradiction. }
    destruct un as [|x [|y [|z [|w [|]]]]]; try discriminate. rewrite (A x), (A y), (A z), (A w) by (cbn; auto). reflexivity.
Qed.

(** The overload for a class of vectors acts component by component. *)
Theorem C95_nodal_vector : forall N dim u0 ue elements, mesh_ok N elements -> (length elements <= length ue)%nat ->
  length u0 = dim -> Forall (fun u => length u = dim) ue -> (forall n, (n < N)%nat -> exists e, In e elements /\ In n e) ->
  exists un, InterpolateNodalFromElementalV N u0 ue elements = Ok un /\ length un = N /\
    forall n, (n < N)%nat -> length (nth n un []) = dim /\
      forall c, (c < dim)%nat -> nth c (nth n un []) 0 = mean_with (nth c u0 0) (map (fun u => nth c u 0) (received [] ue elements n)).
Proof. exact C95_nodal_vector_pf. Qed.
Print Assumptions C95_nodal_vector.

Example C95_vector_ex : exists un, InterpolateNodalFromElementalV 3 [0; 0] [[2; 4]; [4; 8]] [[0; 1]; [1; 2]]%nat = Ok un /\
  nth 0 (nth 1 un []) 0 = 3 /\ nth 1 (nth 1 un []) 0 = 6.
Proof.
  destruct (C95_nodal_vector 3 2 [0; 0] [[2; 4]; [4; 8]] [[0; 1]; [1; 2]]%nat) as (un & E & L & H); auto.
  - intros e n He Hn. cbn in He. decompose [or] He; subst; cbn in Hn; lia.
  - intros n Hn. destruct n as [|[|[|n]]]; [exists [0; 1]%nat|exists [0; 1]%nat|exists [1; 2]%nat|lia]; cbn; auto 10.
  - exists un. split; auto. destruct (H 1%nat ltac:(lia)) as (_ & K). rewrite (K 0%nat), (K 1%nat) by lia. unfold mean_with, received. cbn. lra.
Qed.

(** A node which no element contains makes the call divide by zero: the means
    of the other nodes are lost as well. *)
Theorem C95_isolated_node : forall N u0 ue elements n, mesh_ok N elements -> (length elements <= length ue)%nat ->
  (n < N)%nat -> (forall e, In e elements -> ~ In n e) -> InterpolateNodalFromElemental N u0 ue elements = Fail DivByZero.
Proof. exact C95_isolated_node_pf. Qed.
Print Assumptions C95_isolated_node.

Example C95_isolated_ex : InterpolateNodalFromElemental 5 0 [4; 6] [[0; 1; 2]; [1; 3; 2]]%nat = Fail DivByZero.
Proof.
  apply (C95_isolated_node _ _ _ _ 4%nat).
  - intros e n He Hn. cbn in He. decompose [or] He; subst; cbn in Hn; lia.
  - cbn; lia.
  - lia.
  - intros e He Hn. cbn in He. decompose [or] He; subst; cbn in Hn; lia.
Qed.

(** InterpolateElementalFromNodal: the value of an element is the mean of the
    values of its nodes, for numbers and, by components, for vectors. *)
Theorem C95_elemental_mean :
  (forall u0 un elements, mesh_ok (length un) elements -> (forall e, In e elements -> e <> []) ->
    InterpolateElementalFromNodal u0 un elements = Ok (map (fun e => mean_with u0 (map (fun n => nth n un 0) e)) elements)) /\
  (forall dim u0 un elements, mesh_ok (length un) elements -> (forall e, In e elements -> e <> []) -> length u0 = dim -> Forall (fun u => length u = dim) un ->
    exists ue, InterpolateElementalFromNodalV u0 un elements = Ok ue /\ length ue = length elements /\
      forall i, (i < length elements)%nat -> length (nth i ue []) = dim /\
        forall c, (c < dim)%nat -> nth c (nth i ue []) 0 = mean_with (nth c u0 0) (map (fun n => nth c (nth n un []) 0) (nth i elements []))).
Proof. exact C95_elemental_mean_pf. Qed.
Print Assumptions C95_elemental_mean.

Example C95_elemental_ex : InterpolateElementalFromNodal 0 [1; 2; 6; 10] [[0; 1; 2]; [3; 2]]%nat =
  Ok [mean_with 0 [1; 2; 6]; mean_with 0 [10; 6]] /\ mean_with 0 [1; 2; 6] = 3 /\ mean_with 0 [10; 6] = 8.
Proof.
  split; [|unfold mean_with; cbn; lra]. destruct C95_elemental_mean as (H & _). rewrite H; [reflexivity| |].
  - intros e n He Hn. cbn in He. decompose [or] He; subst; cbn in Hn; cbn [length]; lia.
  - intros e He. cbn in He. decompose [or] He; subst; try discriminate; contradiction.
Qed.

(** CenterOfGravity is the mean of the nodes of the element, and a nodal field
    that is affine in the position is averaged to its value there. *)
Theorem C95_center_of_gravity : forall dim xs elem, elem <> [] -> mesh_ok (length xs) [elem] -> Forall (fun x => length x = dim) xs ->
  exists c, CenterOfGravity xs elem = Ok c /\ length c = dim /\
    (forall k, (k < dim)%nat -> nth k c 0 = mean (map (fun n => nth k (nth n xs []) 0) elem)) /\
    forall a b, InterpolateElementalFromNodal 0 (map (fun x => a + bigsum dim (fun k => b k * nth k x 0)) xs) [elem] =
      Ok [a + bigsum dim (fun k => b k * nth k c 0)].
Proof. exact C95_center_of_gravity_pf. Qed.
Print Assumptions C95_center_of_gravity.

Example C95_center_ex : exists c, CenterOfGravity [[0; 0]; [3; 0]; [0; 6]] [0; 1; 2]%nat = Ok c /\ nth 0 c 0 = 1 /\ nth 1 c 0 = 2.
Proof.
  destruct (C95_center_of_gravity 2 [[0; 0]; [3; 0]; [0; 6]] [0; 1; 2]%nat) as (c & E & _ & H & _).
  - discriminate.
  - intros e n [<-|[]] Hn. cbn in Hn. cbn [length]. lia.
  - repeat constructor.
  - exists c. split; auto. rewrite !H by lia. unfold mean. cbn. lra.
Qed.

(** NumericIntegrationOnLine on nodes with one coordinate is the quadrature sum
    of f(x(r)) |x'(r)|. *)
Theorem C96_line_integral : forall s q xs elem (f : list R -> R), In s all_shapes -> sf_d s = 1%nat -> length elem = sf_n s -> rule_ok 1 q ->
  (forall e, In e elem -> (e < length xs)%nat /\ length (nth e xs []) = 1%nat) ->
  NumericIntegrationOnLine s q xs elem f =
  Ok (quad 1 q (fun r => f [field_value s r (nodal elem xs) 0] * Rabs (tangent s (nodal elem xs) r 0 0))).
Proof. exact C96_line_integral_pf. Qed.
Print Assumptions C96_line_integral.

Lemma gauss2_ok : rule_ok 1 Gauss2Line.
Proof. unfold rule_ok; cbn [q_n q_points q_weights Gauss2Line length]; split; [lia|split; [lia|]]; intros g Hg; destruct g as [|[|g]]; try lia; cbn; lia. Qed.
(** the integral of x^2 over [1, 3] with two points *)
Example C96_line_ex : NumericIntegrationOnLine sf_2Line Gauss2Line [[3]; [1]] [1; 0]%nat (fun x => nth 0 x 0 ^ 2) = Ok (26 / 3).
Proof.
  rewrite C96_line_integral; auto using gauss2_ok; [|cbn; auto|].
  - f_equal. unfold quad, Gauss2Line. cbn [q_n q_weights q_points bigsum nth]. unfold wprod. cbn [bigsum nth].
    unfold tangent, field_value, shp, dshp, nodal. cbn [sf_2Line sf_n sf_N sf_dN N_2Line dN_2Line bigsum nth].
    replace (Rabs _) with 1; [|unfold Rabs; destruct (Rcase_abs _); lra]. pose proof (sqrt_sqrt 3 ltac:(lra)) as S3. pose proof (sqrt_lt_R0 3 ltac:(lra)) as P3.
    replace (- 1 / sqrt 3) with (- (1 / sqrt 3)) by (field; lra). assert (T : (1 / sqrt 3) * (1 / sqrt 3) = 1 / 3).
    { apply (Rmult_eq_reg_r (sqrt 3 * sqrt 3)); [|rewrite S3; lra]. rewrite S3 at 2. field. lra. }
    set (t := 1 / sqrt 3) in *. cbn [length]. nra.
  - intros e He. cbn in He. decompose [or] He; subst; cbn; auto; try lia; contradiction.
Qed.

(** An edge of a plane or solid mesh cannot be integrated: the first node with
    a number of coordinates other than one violates the assertion of Vstack,
    whatever the integrand. *)
Theorem C96_curves_in_the_plane_refuted :
  (forall s q xs e elem f, (e < length xs)%nat -> length (nth e xs []) <> 1%nat ->
    NumericIntegrationOnLine s q xs (e :: elem) f = Fail AssertFail) /\
  exists xs elem, nodes_ok 2 elem xs /\ NumericIntegrationOnLine sf_2Line Gauss2Line xs elem (fun _ => 1) = Fail AssertFail.
Proof. exact C96_curves_in_the_plane_refuted_pf. Qed.
Print Assumptions C96_curves_in_the_plane_refuted.
