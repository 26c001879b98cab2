(** Properties C99-C100: the triangle mesher, the point location and the subdivision: the proofs. *)
From Coq Require Import List Arith ZArith Lia Bool Reals Lra.
From Verif Require Import Res DenseModel DenseR LUModel DelaunayModel DelaunaySpec.
Import ListNotations.
Local Open Scope R_scope.
From Verif Require Import DelaunayProof DelaunayProof2 DelaunayProof3 DelaunayProof4 DelaunayProof5 DelaunayProof6.

(** ** concrete meshes for the examples *)
(** the unit square of two elements *)
Definition sq_node (x y : R) : dnode := mkNode [x; y] true true.
Definition sq_nodes : list dnode := [sq_node 0 0; sq_node 1 0; sq_node 1 1; sq_node 0 1].
Definition sq_elems : list delem :=
  [mkElem (A3 0 1 2)%nat (A3 None (Some 1%nat) None) (A3 true false true) true true;
   mkElem (A3 0 2 3)%nat (A3 None None (Some 0%nat)) (A3 true true false) true true].
Lemma xy_cons0 n ns : xy (n :: ns) 0 = nxy n. Proof. reflexivity. Qed.
Lemma sq_ok : mesh_ok sq_nodes sq_elems.
Proof.
  constructor.
  - intros n Hn. repeat (destruct Hn as [<-|Hn]; [reflexivity|]). destruct Hn.
  - intros e He j Hj. repeat (destruct He as [<-|He]; [case3 j Hj; cbn; lia|]). destruct He.
  - intros e He. repeat (destruct He as [<-|He]; [unfold area2, tri2, xy, nxy; cbn; lra|]). destruct He.
  - intros e He. repeat (destruct He as [<-|He]; [reflexivity|]). destruct He.
  - intros a e j b He Hj Nb. destruct a as [|[|a]]; [| |destruct a; discriminate He]; inversion He; subst e; case3 j Hj; try discriminate Nb; inversion Nb; subst b.
    + exists (mkElem (A3 0 2 3)%nat (A3 None None (Some 0%nat)) (A3 true true false) true true), 2%nat. splits; auto.
    + exists (mkElem (A3 0 1 2)%nat (A3 None (Some 1%nat) None) (A3 true false true) true true), 1%nat. splits; auto.
Qed.
Lemma sq_border : border_ok sq_nodes sq_elems.
Proof.
  split.
  - intros e j He Hj. repeat (destruct He as [<-|He]; [case3 j Hj; cbn; congruence|]). destruct He.
  - intros e j n He Hj _ D. assert (G : In n sq_nodes) by (destruct D as [D|D]; eapply nth_error_In; eauto).
    repeat (destruct G as [<-|G]; [reflexivity|]). destruct G.
Qed.
Lemma sq_cover : cover_ok sq_nodes sq_elems.
Proof. intros i n Hn B. assert (G := nth_error_In _ _ Hn). repeat (destruct G as [<-|G]; [discriminate B|]). destruct G. Qed.

(** a quadrilateral of two elements that is not convex, and a point in the first one *)
Definition dart_nodes : list dnode := [sq_node 0 (-1); sq_node 1 0; sq_node 0 1; sq_node 3 (-1); sq_node (1 / 4) 0].
Definition dart_elems : list delem :=
  [mkElem (A3 0 1 2)%nat (A3 (Some 1%nat) None None) (A3 false false false) true false;
   mkElem (A3 3 2 1)%nat (A3 (Some 0%nat) None None) (A3 false false false) true false].
Lemma dart_flat : flat dart_nodes.
Proof. intros n Hn. repeat (destruct Hn as [<-|Hn]; [reflexivity|]). destruct Hn. Qed.
Lemma dart_ok : mesh_ok dart_nodes dart_elems.
Proof.
  constructor.
  - exact dart_flat.
  - intros e He j Hj. repeat (destruct He as [<-|He]; [case3 j Hj; cbn; lia|]). destruct He.
  - intros e He. repeat (destruct He as [<-|He]; [unfold area2, tri2, xy, nxy; cbn; lra|]). destruct He.
  - intros e He. repeat (destruct He as [<-|He]; [reflexivity|]). destruct He.
  - intros a e j b He Hj Nb. destruct a as [|[|a]]; [| |destruct a; discriminate He]; inversion He; subst e; case3 j Hj; try discriminate Nb; inversion Nb; subst b.
    + exists (mkElem (A3 3 2 1)%nat (A3 (Some 0%nat) None None) (A3 false false false) true false), 0%nat. splits; auto.
    + exists (mkElem (A3 0 1 2)%nat (A3 (Some 1%nat) None None) (A3 false false false) true false), 0%nat. splits; auto.
Qed.
(** the swap is made whatever the geometry when the opposite node is p1 *)
Lemma swap_forced ns es s t n p1 m1 S T : flat ns -> nth_error es s = Some S -> nth_error es t = Some T -> (n < 3)%nat ->
  ids_ok (length ns) S -> ids_ok (length ns) T -> Z.of_nat (at3 (en T) n) = p1 -> swap_cond ns es s t n p1 m1 = Ok true.
Proof.
  intros F HS HT Hn IS IT E. unfold swap_cond. rewrite (rd_nth_error _ _ _ HS), (rd_nth_error _ _ _ HT). cbn [bind].
  destruct (flat_rd ns _ F (IS 1%nat ltac:(lia))) as (b & -> & Lb & _).
  destruct (flat_rd ns _ F (IS 2%nat ltac:(lia))) as (c & -> & Lc & _).
  destruct (flat_rd ns _ F (IS 0%nat ltac:(lia))) as (p & -> & Lp & _).
  destruct (flat_rd ns _ F (IT n Hn)) as (q & -> & Lq & _). cbn [bind].
  rewrite !ndist_ok by assumption. cbn [bind].
  rewrite (inouton_ok ns S _ F IS (IT n Hn)), (inouton_ok ns T _ F IT (IS 0%nat ltac:(lia))). cbn [bind].
  rewrite E, Z.eqb_refl.
  destruct (Rltb _ _); cbn [bind]; [|reflexivity]. destruct (_ =? -1)%Z; cbn [bind]; [|reflexivity]. now rewrite orb_true_r.
Qed.


Lemma C99_inouton_pf : forall ns e k,
  flat ns -> ids_ok (length ns) e -> (k < length ns)%nat -> 0 < area2 ns e ->
  let a := xy ns (at3 (en e) 0) in let b := xy ns (at3 (en e) 1) in let c := xy ns (at3 (en e) 2) in
  let off i := tri2 (xy ns (fst (side e i))) (xy ns (snd (side e i))) (xy ns k) in
  exists r, inouton e k ns = Ok r /\ (-3 <= r <= 3)%Z /\
    ((0 <= r)%Z <-> in_triangle a b c (xy ns k)) /\
    (r = 0%Z <-> forall i, (i < 3)%nat -> / 10 ^ 10 < off i) /\
    (r = 0%Z -> inside_triangle a b c (xy ns k)) /\
    (forall i, (i < 3)%nat -> r = (Z.of_nat i + 1)%Z -> 0 <= off i <= / 10 ^ 10) /\
    (forall i, (i < 3)%nat -> r = (- (Z.of_nat i + 1))%Z -> off i <= / 10 ^ 10).
Proof.
  intros ns e k F Hi Hk Ha a b c off. rewrite (inouton_ok ns e k F Hi Hk). fold a b c.
  set (q := xy ns k) in *. unfold area2 in Ha. fold a b c in Ha.
  assert (Sum := tri2_sum a b c q).
  assert (Eps : / 10 ^ 10 = selfeps) by (unfold selfeps; f_equal; ring). rewrite Eps. assert (EP := selfeps_pos).
  assert (O0 : off 0%nat = tri2 b c q) by reflexivity. assert (O1 : off 1%nat = tri2 c a q) by reflexivity. assert (O2 : off 2%nat = tri2 a b q) by reflexivity.
  set (v0 := tri2 a b q) in *. set (v1 := tri2 b c q) in *. set (v2 := tri2 c a q) in *.
  assert (HS : 0 < v0 + v1 + v2) by lra.
  assert (GE := code_ge v0 v1 v2 HS). assert (Z0 := code_0 v0 v1 v2 HS). assert (ON := code_on v0 v1 v2).
  assert (M1 := code_m1 v0 v1 v2). assert (M2 := code_m2 v0 v1 v2). assert (M3 := code_m3 v0 v1 v2). assert (RG := code_range v0 v1 v2).
  exists (code v0 v1 v2). set (r := code v0 v1 v2) in *. clearbody r.
  assert (Ab : forall x, Rabs x <= selfeps -> x <= selfeps) by (intros x Hx; apply Rle_trans with (2 := Hx), Rle_abs).
  split; [reflexivity|]. split; [exact RG|]. split; [|split; [|split; [|split]]].
  - rewrite GE, (in_triangle_iff a b c q Ha). tauto.
  - rewrite Z0. split.
    + intros (A0 & A1 & A2) i Hi'. case3 i Hi'; rewrite ?O0, ?O1, ?O2; assumption.
    + intros H. splits; [rewrite <- O2|rewrite <- O0|rewrite <- O1]; apply H; lia.
  - intros E. apply Z0 in E. apply (inside_triangle_iff a b c q Ha). fold v0 v1 v2. splits; lra.
  - intros i Hi' E. assert (P : (0 <= r)%Z) by lia. apply GE in P. destruct ON as (N1 & N2 & N3).
    case3 i Hi'; rewrite ?O0, ?O1, ?O2; cbn in E; (split; [tauto|]); auto.
  - intros i Hi' E. case3 i Hi'; rewrite ?O0, ?O1, ?O2; cbn in E.
    + destruct (M1 E) as [_ [H|[H _]]]; [lra|auto].
    + destruct (M2 E) as [_ [H|[H _]]]; [lra|auto].
    + destruct (M3 E) as [_ [H|[H _]]]; [lra|auto].
Qed.

Lemma C99_minus_not_beyond_pf : exists ns e k,
  flat ns /\ ids_ok (length ns) e /\ (k < length ns)%nat /\ 0 < area2 ns e /\
  inouton e k ns = Ok (-3)%Z /\ tri2 (xy ns (fst (side e 2))) (xy ns (snd (side e 2))) (xy ns k) = 0.
Proof.
  set (ns := [sq_node 0 0; sq_node 1 0; sq_node 0 1; sq_node 2 0]).
  set (e := elem3 0 1 2).
  assert (F : flat ns). { intros n Hn. repeat (destruct Hn as [<-|Hn]; [reflexivity|]). destruct Hn. }
  assert (Hi : ids_ok (length ns) e). { intros j Hj. case3 j Hj; cbn; lia. }
  exists ns, e, 3%nat. splits; auto.
  - unfold area2, tri2, xy, nxy; cbn; lra.
  - rewrite inouton_ok by (auto; cbn; lia). f_equal. unfold code.
    replace (tri2 (xy ns (at3 (en e) 0)) (xy ns (at3 (en e) 1)) (xy ns 3)) with 0 by (unfold tri2, xy, nxy; cbn; lra).
    replace (tri2 (xy ns (at3 (en e) 1)) (xy ns (at3 (en e) 2)) (xy ns 3)) with (-1) by (unfold tri2, xy, nxy; cbn; lra).
    replace (tri2 (xy ns (at3 (en e) 2)) (xy ns (at3 (en e) 0)) (xy ns 3)) with 2 by (unfold tri2, xy, nxy; cbn; lra).
    rewrite abs0_eps. replace (Rltb 0 2) with true by (symmetry; apply Rltb_t; lra). replace (Rltb (-1) 0) with true by (symmetry; apply Rltb_t; lra).
    cbn [andb]. now rewrite orb_true_r.
  - unfold tri2, xy, nxy, side; cbn; lra.
Qed.

Lemma C100_refine_pf : forall ns es, mesh_ok ns es -> es <> [] ->
  exists d k j e N ns' es',
    nth_error es k = Some e /\ (j < 3)%nat /\ d = side_len ns e j /\
    (forall f i, In f es -> (i < 3)%nat -> side_len ns f i <= d) /\
    (forall fuel, (N <= fuel)%nat -> refine fuel (mkMesh ns es) = Ok (d, mkMesh ns' es')) /\
    mesh_ok ns' es' /\ total2 ns' es' = total2 ns es /\
    length es' = (length es + match at3 (enb e) j with Some _ => 2 | None => 1 end)%nat /\
    length ns' = (length ns + 1)%nat /\
    (forall i, (i < length ns)%nat -> xy ns' i = xy ns i /\ onb ns' i = onb ns i) /\
    xy ns' (length ns) = midpoint (xy ns (fst (side e j))) (xy ns (snd (side e j))) /\
    onb ns' (length ns) = at3 (esd e) j /\
    (border_ok ns es -> border_ok ns' es') /\
    (cover_ok ns es -> cover_ok ns' es') /\
    (forall i, corner es' i <-> i = length ns \/ corner es i) /\
    no_swap_at ns' es' (length ns).
Proof.
  intros ns es OK Ne. destruct (refine_ok ns es OK Ne) as (d & k & j & e & N & ns' & es' & Hk & Hj & Hd & Hm & HR & n & Xn & Ln & Sn & Bn & I & HT).
  destruct I as [I1 I2 I3 I4 I5 I6 I7 I8 I9].
  assert (L' : length ns' = (length ns + 1)%nat) by (rewrite (dx_length _ _ I1), app_length; reflexivity).
  assert (Onb : forall i, (i < length ns + 1)%nat -> onb ns' i = (if (i =? length ns)%nat then at3 (esd e) j else onb ns i)).
  { intros i Hi. unfold onb. destruct (nth_error (ns ++ [n]) i) as [x|] eqn:E.
    - destruct (I3 i x E) as (x' & E1 & E2). rewrite (nth_error_nth _ _ _ E1), E2. destruct (Nat.eqb_spec i (length ns)) as [->|Hne].
      + rewrite nth_error_app2, Nat.sub_diag in E by lia. inversion E; subst x. rewrite Bn. reflexivity.
      + rewrite andb_false_l, orb_false_r. rewrite nth_error_app1 in E by lia. now rewrite (nth_error_nth _ _ _ E).
    - apply nth_error_None in E. rewrite app_length in E. cbn in E. lia. }
  exists d, k, j, e, N, ns', es'. splits; auto.
  - intros i Hi. rewrite (xy_eq (ns ++ [n]) ns' i I1), xy_app by assumption. split; auto. rewrite Onb by lia. destruct (Nat.eqb_spec i (length ns)); auto; lia.
  - rewrite (xy_eq (ns ++ [n]) ns' _ I1), xy_last. exact Xn.
  - rewrite Onb by lia. now rewrite Nat.eqb_refl.
  - intros B. apply I7. now apply border_app.
  - intros C i x Hx Bx. apply I8. destruct (Nat.eq_dec i (length ns)) as [->|Ni]; auto. right.
    assert (Li := nth_error_lt _ _ _ Hx). assert (Hi : (i < length ns)%nat) by lia.
    destruct (nth_error ns i) as [y|] eqn:E; [|apply nth_error_None in E; lia].
    apply (C i y E). assert (Q := Onb i ltac:(lia)). destruct (Nat.eqb_spec i (length ns)); [lia|]. unfold onb in Q.
    rewrite (nth_error_nth _ _ _ Hx), (nth_error_nth _ _ _ E) in Q. congruence.
  - destruct I9 as (S1 & _ & S3). intros a b f g x y Hf Hg Hx Hy Ep Nf Ng Sf q G1 G2.
    assert (x = 0%nat) by (eapply S1; eauto; eapply nth_error_In; eauto). subst x.
    destruct (S3 a f Hf Ep) as [[]|HS]. unfold q in *. rewrite <- Ep in *.
    exact (HS f b g y Hf Nf Hg Hy Ng Sf G1 G2).
Qed.

Lemma C100_insert_inside_pf : forall ns es k p e p1 m1,
  mesh_ok ns es -> nth_error es k = Some e -> (p < length ns)%nat -> inouton e p ns = Ok 0%Z ->
  ~ corner es p -> (forall i, corner es i \/ i = p -> Z.of_nat i <> p1 /\ Z.of_nat i <> m1) ->
  exists N es', (forall fuel, (N <= fuel)%nat -> getelementin fuel (mkMesh ns es) k p1 p m1 = Ok (mkMesh ns es')) /\
    mesh_ok ns es' /\ total2 ns es' = total2 ns es /\ length es' = (length es + 2)%nat /\
    (border_ok ns es -> border_ok ns es') /\ (forall i, corner es' i <-> i = p \/ corner es i) /\ no_swap_at ns es' p.
Proof.
  intros ns es k p e p1 m1 OK Hk Hp IO NC NA. assert (He := nth_error_In _ _ Hk).
  rewrite (inouton_ok ns e p (ok_flat _ _ OK) (ok_ids _ _ OK e He) Hp) in IO. inversion IO as [C0].
  assert (Sum := tri2_sum (xy ns (at3 (en e) 0)) (xy ns (at3 (en e) 1)) (xy ns (at3 (en e) 2)) (xy ns p)).
  assert (P := ok_pos _ _ OK e He). unfold area2 in P.
  rewrite <- Sum in P. apply (code_0 _ _ _ P) in C0. assert (EP := selfeps_pos). destruct C0 as (C0 & C1 & C2).
  destruct (getelementin_ok ns es k p e p1 m1) as (N & es' & HG & I); auto; try lra.
  - intros f x Hf Hx. apply (NA (at3 (en f) x)). left. exists f, x. auto.
  - apply (NA p); auto.
  - apply (NA p); auto.
  - intros f x Hf Hx E. apply NC. exists f, x. auto.
  - destruct I as [_ _ _ I4 I5 I6 I7 I8 I9]. exists N, es'. splits; auto.
    destruct I9 as (S1 & _ & S3). intros a b f g x y Hf Hg Hx Hy Ep Nf Ng Sf q G1 G2.
    assert (x = 0%nat) by (eapply S1; eauto; eapply nth_error_In; eauto). subst x.
    destruct (S3 a f Hf Ep) as [[]|HS]. unfold q in *. rewrite <- Ep in *.
    exact (HS f b g y Hf Nf Hg Hy Ng Sf G1 G2).
Qed.

Lemma C100_forced_swap_turns_over_pf : exists ns es k p e p1 es' f,
  mesh_ok ns es /\ nth_error es k = Some e /\ (p < length ns)%nat /\ inouton e p ns = Ok 0%Z /\ ~ corner es p /\ Z.of_nat p <> p1 /\
  (forall fuel, (5 <= fuel)%nat -> getelementin fuel (mkMesh ns es) k p1 p (-2) = Ok (mkMesh ns es')) /\
  In f es' /\ area2 ns f < 0.
Proof.
  exists dart_nodes, dart_elems, 0%nat, 4%nat, (mkElem (A3 0 1 2)%nat (A3 (Some 1%nat) None None) (A3 false false false) true false), 3%Z.
  set (s := mkElem (A3 4 1 3)%nat (A3 None (Some 1%nat) (Some 3%nat)) (A3 false true false) true false).
  set (t := mkElem (A3 4 3 2)%nat (A3 None (Some 2%nat) (Some 0%nat)) (A3 false false true) true false).
  exists [s; t; elem_with (A3 4 2 0)%nat (A3 None (Some 3%nat) (Some 1%nat)) (A3 false false false);
          elem_with (A3 4 0 1)%nat (A3 None (Some 0%nat) (Some 2%nat)) (A3 false false false)], s.
  split; [exact dart_ok|]. split; [reflexivity|]. split; [cbn; lia|]. split; [|split; [|split; [|split; [|split]]]].
  - assert (He := nth_error_In dart_elems 0 eq_refl).
    rewrite (inouton_ok dart_nodes _ 4%nat dart_flat (ok_ids _ _ dart_ok _ He)) by (cbn; lia). f_equal. apply code_0; [|splits]; unfold selfeps, tri2, xy, nxy; cbn; lra.
  - intros (f & x & Hf & Hx & E). destruct Hf as [<-|[<-|[]]]; case3 x Hx; cbn in E; lia.
  - lia.
  - intros fuel Hf. destruct fuel as [|[|[|[|[|fuel]]]]]; try lia.
    unfold getelementin. cbn [mes mns].
    set (es1 := [elem_with (A3 4 1 2)%nat (A3 (Some 1%nat) (Some 2%nat) (Some 3%nat)) (A3 false false false);
                 mkElem (A3 3 2 1)%nat (A3 (Some 0%nat) None None) (A3 false false false) true false;
                 elem_with (A3 4 2 0)%nat (A3 None (Some 3%nat) (Some 0%nat)) (A3 false false false);
                 elem_with (A3 4 0 1)%nat (A3 None (Some 0%nat) (Some 2%nat)) (A3 false false false)]).
    change (split_in dart_elems 0 4 3 (-2)) with (Ok (es1, [3; 2; 0]%nat)). cbn [bind].
    cbn [swapping rd nth_error es1 bind elem_with enb at3 a30 a31 a32 eact oppositenode find eqo idx Nat.eqb].
    fold es1.
    rewrite (swap_forced dart_nodes es1 0 1 0 3 (-2) (elem_with (A3 4 1 2)%nat (A3 (Some 1%nat) (Some 2%nat) (Some 3%nat)) (A3 false false false)) (mkElem (A3 3 2 1)%nat (A3 (Some 0%nat) None None) (A3 false false false) true false));
      [|exact dart_flat|reflexivity|reflexivity|lia|intros j Hj; case3 j Hj; cbn; lia|intros j Hj; case3 j Hj; cbn; lia|reflexivity].
    cbn [bind].
    destruct fuel; reflexivity.
  - cbn. auto.
  - unfold area2, tri2, xy, nxy; cbn; lra.
Qed.
