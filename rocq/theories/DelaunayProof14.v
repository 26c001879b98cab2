(** A complete run on the triangle (1,0), (-2,0), (0,2), used in the examples. *)
From Coq Require Import List Arith ZArith Lia Bool Reals Lra Psatz.
From Verif Require Import Res DenseModel DenseR LUModel DelaunayModel DelaunaySpec DelaunaySpec2 DelaunaySpec3 DelaunayProof DelaunayProof2 DelaunayProof6.
Import ListNotations.
Local Open Scope R_scope.

Lemma swap_stop ns es s t n p1 m1 S T : flat ns -> nth_error es s = Some S -> nth_error es t = Some T -> (n < 3)%nat ->
  ids_ok (length ns) S -> ids_ok (length ns) T -> Z.of_nat (at3 (en T) n) <> p1 -> Z.of_nat (at3 (en T) n) <> m1 ->
  pdist (xy ns (at3 (en S) 1)) (xy ns (at3 (en S) 2)) <= pdist (xy ns (at3 (en S) 0)) (xy ns (at3 (en T) n)) ->
  swap_cond ns es s t n p1 m1 = Ok false.
Proof.
  intros F HS HT Hn IS IT E1 E2 D. unfold swap_cond. rewrite (rd_nth_error _ _ _ HS), (rd_nth_error _ _ _ HT). cbn [bind].
  destruct (flat_rd ns _ F (IS 1%nat ltac:(lia))) as (b & -> & Lb & Eb).
  destruct (flat_rd ns _ F (IS 2%nat ltac:(lia))) as (c & -> & Lc & Ec).
  destruct (flat_rd ns _ F (IS 0%nat ltac:(lia))) as (p & -> & Lp & Ep).
  destruct (flat_rd ns _ F (IT n Hn)) as (q & -> & Lq & Eq). cbn [bind].
  rewrite !ndist_ok by assumption. cbn [bind]. rewrite Eb, Ec, Ep, Eq.
  rewrite (proj2 (Rltb_f _ _)) by exact D. cbn [bind orb]. apply Z.eqb_neq in E1, E2. now rewrite E1, E2.
Qed.
Lemma pop_none fuel ns es s st p1 m1 S : nth_error es s = Some S -> at3 (enb S) 0 = None ->
  swapping (Datatypes.S fuel) ns es (s :: st) p1 m1 = swapping fuel ns es st p1 m1.
Proof. intros H E. cbn [swapping]. rewrite (rd_nth_error _ _ _ H). cbn [bind]. now rewrite E. Qed.
Lemma pop_stop fuel ns es s st p1 m1 S t T n : flat ns -> nth_error es s = Some S -> at3 (enb S) 0 = Some t -> nth_error es t = Some T ->
  eact T = true -> oppositenode T s = Some n ->
  ids_ok (length ns) S -> ids_ok (length ns) T -> Z.of_nat (at3 (en T) n) <> p1 -> Z.of_nat (at3 (en T) n) <> m1 ->
  pdist (xy ns (at3 (en S) 1)) (xy ns (at3 (en S) 2)) <= pdist (xy ns (at3 (en S) 0)) (xy ns (at3 (en T) n)) ->
  swapping (Datatypes.S fuel) ns es (s :: st) p1 m1 = swapping fuel ns es st p1 m1.
Proof.
  intros F H E HT A O IS IT E1 E2 D. cbn [swapping]. rewrite (rd_nth_error _ _ _ H). cbn [bind]. rewrite E, (rd_nth_error _ _ _ HT). cbn [bind].
  rewrite A, O. cbn [idx bind]. rewrite (swap_stop ns es s t n p1 m1 S T); auto.
  unfold oppositenode in O. apply find_some in O. destruct O as [O _]. cbn in O. lia.
Qed.

Definition big_nodes (b0 b1 b2 : bool) : list dnode :=
  [mkNode [1; 0] b0 b0; mkNode [-2; 0] b1 b1; mkNode [0; 2] b2 b2;
   node_xy 0 4; node_xy (-2 * sqrt 3) (-2); node_xy (2 * sqrt 3) (-2)].
Lemma big_flat b0 b1 b2 : flat (big_nodes b0 b1 b2).
Proof. intros n Hn. repeat (destruct Hn as [<-|Hn]; [reflexivity|]). destruct Hn. Qed.
Definition tri_x : list (list R) := [[1; 0]; [-2; 0]; [0; 2]].
Lemma sqrt3 : 0 < sqrt 3 /\ sqrt 3 * sqrt 3 = 3 /\ 1.7 < sqrt 3 < 1.8.
Proof.
  assert (P : 0 < sqrt 3) by (apply sqrt_lt_R0; lra). assert (Q : sqrt 3 * sqrt 3 = 3) by (apply sqrt_sqrt; lra). splits; auto; nra.
Qed.
Lemma pdist_le a b c d : (fst a - fst b) * (fst a - fst b) + (snd a - snd b) * (snd a - snd b) <= (fst c - fst d) * (fst c - fst d) + (snd c - snd d) * (snd c - snd d) -> pdist a b <= pdist c d.
Proof. intros H. unfold pdist. now apply sqrt_le_1_alt. Qed.
Lemma pdist_val a b z : 0 <= z -> (fst a - fst b) * (fst a - fst b) + (snd a - snd b) * (snd a - snd b) = z * z -> pdist a b = z.
Proof. intros Hz H. unfold pdist. rewrite H. now apply sqrt_square. Qed.
Lemma super_run : getsupertriangle (map node_of tri_x) = Ok (mkMesh (big_nodes false false false) [elem3 3 4 5]).
Proof.
  unfold getsupertriangle. cbn [map tri_x].
  rewrite foldM_cons, ndist_ok by reflexivity. cbn [bind]. rewrite (pdist_val _ _ 1) by (unfold nxy; cbn; lra).
  rewrite (proj2 (Rltb_t _ _)) by lra.
  rewrite foldM_cons, ndist_ok by reflexivity. cbn [bind]. rewrite (pdist_val _ _ 2) by (unfold nxy; cbn; lra).
  rewrite (proj2 (Rltb_t _ _)) by lra.
  rewrite foldM_cons, ndist_ok by reflexivity. cbn [bind]. rewrite (pdist_val _ _ 2) by (unfold nxy; cbn; lra).
  rewrite (proj2 (Rltb_f _ _)) by lra. cbn [foldM bind app length Nat.sub]. do 2 f_equal. unfold big_nodes, node_of, node_xy.
  assert (S0 : sin (2 * PI * INR 0 / 3) = 0) by (cbn [INR]; replace (2 * PI * 0 / 3) with 0 by field; apply sin_0).
  assert (C0 : cos (2 * PI * INR 0 / 3) = 1) by (cbn [INR]; replace (2 * PI * 0 / 3) with 0 by field; apply cos_0).
  assert (S1 : sin (2 * PI * INR 1 / 3) = sqrt 3 / 2) by (cbn [INR]; replace (2 * PI * 1 / 3) with (2 * (PI / 3)) by field; apply sin_2PI3).
  assert (C1 : cos (2 * PI * INR 1 / 3) = -1 / 2) by (cbn [INR]; replace (2 * PI * 1 / 3) with (2 * (PI / 3)) by field; apply cos_2PI3).
  assert (S2 : sin (2 * PI * INR 2 / 3) = - (sqrt 3 / 2)) by (cbn [INR]; replace (2 * PI * (1 + 1) / 3) with (PI / 3 + PI) by field; rewrite neg_sin; now rewrite sin_PI3).
  assert (C2 : cos (2 * PI * INR 2 / 3) = - (1 / 2)) by (cbn [INR]; replace (2 * PI * (1 + 1) / 3) with (PI / 3 + PI) by field; rewrite neg_cos; now rewrite cos_PI3).
  rewrite S0, C0, S1, C1, S2, C2. cbn [map].
  replace (-2 * 2 * 0) with 0 by lra. replace (2 * 2 * 1) with 4 by lra. replace (-2 * 2 * (sqrt 3 / 2)) with (-2 * sqrt 3) by field.
  replace (2 * 2 * (-1 / 2)) with (-2) by lra. replace (-2 * 2 * - (sqrt 3 / 2)) with (2 * sqrt 3) by field. now replace (2 * 2 * - (1 / 2)) with (-2) by lra.
Qed.
Definition els1 : list delem :=
  [elem_with (A3 0 4 5)%nat (A3 None (Some 1%nat) (Some 2%nat)) (A3 false false false);
   elem_with (A3 0 5 3)%nat (A3 None (Some 2%nat) (Some 0%nat)) (A3 false false false);
   elem_with (A3 0 3 4)%nat (A3 None (Some 0%nat) (Some 1%nat)) (A3 false false false)].
Definition els2 : list delem :=
  [elem_with (A3 0 4 5)%nat (A3 None (Some 1%nat) (Some 3%nat)) (A3 false false false);
   elem_with (A3 0 5 3)%nat (A3 None (Some 4%nat) (Some 0%nat)) (A3 false false false);
   elem_with (A3 1 3 4)%nat (A3 None (Some 3%nat) (Some 4%nat)) (A3 false false false);
   elem_with (A3 1 4 0)%nat (A3 (Some 0%nat) (Some 4%nat) (Some 2%nat)) (A3 false true false);
   elem_with (A3 1 0 3)%nat (A3 (Some 1%nat) (Some 2%nat) (Some 3%nat)) (A3 false false true)].
Definition els3 : list delem :=
  [elem_with (A3 0 4 5)%nat (A3 None (Some 1%nat) (Some 3%nat)) (A3 false false false);
   elem_with (A3 0 5 3)%nat (A3 None (Some 4%nat) (Some 0%nat)) (A3 false false false);
   elem_with (A3 1 3 4)%nat (A3 None (Some 3%nat) (Some 5%nat)) (A3 false false false);
   elem_with (A3 1 4 0)%nat (A3 (Some 0%nat) (Some 6%nat) (Some 2%nat)) (A3 false true false);
   elem_with (A3 2 0 3)%nat (A3 (Some 1%nat) (Some 5%nat) (Some 6%nat)) (A3 false false true);
   elem_with (A3 2 3 1)%nat (A3 (Some 2%nat) (Some 6%nat) (Some 4%nat)) (A3 false true false);
   elem_with (A3 2 1 0)%nat (A3 (Some 3%nat) (Some 4%nat) (Some 5%nat)) (A3 true true true)].
Ltac ids := intros ? Hj; let j := fresh in match type of Hj with (?j < 3)%nat => case3 j Hj; cbn; lia end.
Ltac place F := rewrite inouton_ok; [|exact F|ids|cbn; lia]; cbn [bind];
  rewrite (proj2 (code_0 _ _ _ _)); [|unfold selfeps, tri2, xy, nxy; cbn; destruct sqrt3 as (? & ? & ?); splits; nra].
Ltac area := unfold selfeps, tri2, xy, nxy; cbn; destruct sqrt3 as (? & ? & ?); splits; nra.
Lemma place_0 ns e k : flat ns -> ids_ok (length ns) e -> (k < length ns)%nat ->
  selfeps < tri2 (xy ns (at3 (en e) 0)) (xy ns (at3 (en e) 1)) (xy ns k) -> selfeps < tri2 (xy ns (at3 (en e) 1)) (xy ns (at3 (en e) 2)) (xy ns k) ->
  selfeps < tri2 (xy ns (at3 (en e) 2)) (xy ns (at3 (en e) 0)) (xy ns k) -> inouton e k ns = Ok 0%Z.
Proof.
  intros F I K A B C. rewrite inouton_ok by assumption. f_equal. assert (P := selfeps_pos). apply code_0; auto. lra.
Qed.
Ltac stop F S t T n := rewrite (pop_stop _ _ _ _ _ _ _ S t T n F); [|reflexivity|reflexivity|reflexivity|reflexivity|reflexivity|ids|ids|cbn; lia|cbn; lia|apply pdist_le; unfold xy, nxy; cbn; destruct sqrt3 as (? & ? & ?); nra].
Lemma step1 fuel : (3 <= fuel)%nat -> insert_search fuel 1 (mkMesh (big_nodes true false false) [elem3 3 4 5]) [0; 1; 2]%nat 0 0 0 = Ok (mkMesh (big_nodes true false false) els1).
Proof.
  intros Hf. destruct fuel as [|[|[|fuel]]]; try lia. cbn [insert_search mes mns rd nth_error bind].
  rewrite place_0; [|apply big_flat|ids|cbn; lia|area|area|area]. cbn [bind Z.ltb Z.compare elem3 eact negb orb Z.eqb adjnodes Nat.eqb rd nth_error].
  unfold getelementin. cbn [mes mns]. change (split_in [elem3 3 4 5] 0 0 (Z.of_nat 1) (-2)) with (Ok (els1, [2; 1; 0]%nat)). cbn [bind].
  rewrite (pop_none _ _ _ _ _ _ _ (elem_with (A3 0 3 4)%nat (A3 None (Some 0%nat) (Some 1%nat)) (A3 false false false))) by reflexivity.
  rewrite (pop_none _ _ _ _ _ _ _ (elem_with (A3 0 5 3)%nat (A3 None (Some 2%nat) (Some 0%nat)) (A3 false false false))) by reflexivity.
  rewrite (pop_none _ _ _ _ _ _ _ (elem_with (A3 0 4 5)%nat (A3 None (Some 1%nat) (Some 2%nat)) (A3 false false false))) by reflexivity.
  destruct fuel; reflexivity.
Qed.
Lemma step2 fuel : (3 <= fuel)%nat -> insert_search fuel 3 (mkMesh (big_nodes true true false) els1) [0; 1; 2]%nat 1 1 2 = Ok (mkMesh (big_nodes true true false) els2).
Proof.
  intros Hf. destruct fuel as [|[|[|fuel]]]; try lia. cbn [insert_search mes mns rd nth_error bind els1].
  rewrite place_0; [|apply big_flat|ids|cbn; lia|area|area|area]. cbn [bind Z.ltb Z.compare elem_with eact negb orb Z.eqb adjnodes Nat.eqb rd nth_error Nat.sub length Nat.add].
  unfold getelementin. cbn [mes mns]. fold els1. change (split_in _ 2 1 (Z.of_nat 2) (Z.of_nat 0)) with (Ok (els2, [4; 3; 2]%nat)). cbn [bind].
  stop (big_flat true true false) (elem_with (A3 1 0 3)%nat (A3 (Some 1%nat) (Some 2%nat) (Some 3%nat)) (A3 false false true)) 1%nat
    (elem_with (A3 0 5 3)%nat (A3 None (Some 4%nat) (Some 0%nat)) (A3 false false false)) 1%nat.
  stop (big_flat true true false) (elem_with (A3 1 4 0)%nat (A3 (Some 0%nat) (Some 4%nat) (Some 2%nat)) (A3 false true false)) 0%nat
    (elem_with (A3 0 4 5)%nat (A3 None (Some 1%nat) (Some 3%nat)) (A3 false false false)) 2%nat.
  rewrite (pop_none _ _ _ _ _ _ _ (elem_with (A3 1 3 4)%nat (A3 None (Some 3%nat) (Some 4%nat)) (A3 false false false))) by reflexivity.
  destruct fuel; reflexivity.
Qed.
Lemma step3 fuel : (3 <= fuel)%nat -> insert_search fuel 5 (mkMesh (big_nodes true true true) els2) [0; 1; 2]%nat 2 2 4 = Ok (mkMesh (big_nodes true true true) els3).
Proof.
  intros Hf. destruct fuel as [|[|[|fuel]]]; try lia. cbn [insert_search mes mns rd nth_error bind els2].
  rewrite place_0; [|apply big_flat|ids|cbn; lia|area|area|area]. cbn [bind Z.ltb Z.compare elem_with eact negb orb Z.eqb adjnodes Nat.eqb rd nth_error Nat.sub length Nat.add].
  unfold getelementin. cbn [mes mns]. fold els2. change (split_in _ 4 2 (Z.of_nat 0) (Z.of_nat 1)) with (Ok (els3, [6; 5; 4]%nat)). cbn [bind].
  stop (big_flat true true true) (elem_with (A3 2 1 0)%nat (A3 (Some 3%nat) (Some 4%nat) (Some 5%nat)) (A3 true true true)) 3%nat
    (elem_with (A3 1 4 0)%nat (A3 (Some 0%nat) (Some 6%nat) (Some 2%nat)) (A3 false true false)) 1%nat.
  stop (big_flat true true true) (elem_with (A3 2 3 1)%nat (A3 (Some 2%nat) (Some 6%nat) (Some 4%nat)) (A3 false true false)) 2%nat
    (elem_with (A3 1 3 4)%nat (A3 None (Some 3%nat) (Some 5%nat)) (A3 false false false)) 2%nat.
  stop (big_flat true true true) (elem_with (A3 2 0 3)%nat (A3 (Some 1%nat) (Some 5%nat) (Some 6%nat)) (A3 false false true)) 1%nat
    (elem_with (A3 0 5 3)%nat (A3 None (Some 4%nat) (Some 0%nat)) (A3 false false false)) 1%nat.
  destruct fuel; reflexivity.
Qed.
Definition tri_nodes : list dnode := [mkNode [1; 0] true true; mkNode [-2; 0] true true; mkNode [0; 2] true true].
Definition tri_elems : list delem := [mkElem (A3 2 1 0)%nat (A3 None None None) (A3 true true true) true true].
Lemma rough_run fuel : (3 <= fuel)%nat -> roughmesh fuel tri_x [[0; 1; 2]%nat] [] = Ok (mkMesh tri_nodes tri_elems).
Proof.
  intros Hf. unfold roughmesh. rewrite super_run. cbn [bind]. rewrite foldM_cons. unfold makeroughmesh. cbn [length seq].
  rewrite foldM_cons. change (rd [0; 1; 2]%nat 0) with (Ok 0%nat). cbn [bind mns mes]. change (rd (big_nodes false false false) 0) with (Ok (mkNode [1; 0] false false)). cbn [bind isset dx length Nat.sub].
  change (wr (big_nodes false false false) 0 (mkNode [1; 0] true true)) with (Ok (big_nodes true false false)). cbn [bind]. rewrite step1 by exact Hf. cbn [bind].
  rewrite foldM_cons. change (rd [0; 1; 2]%nat 1) with (Ok 1%nat). cbn [bind mns mes]. change (rd (big_nodes true false false) 1) with (Ok (mkNode [-2; 0] false false)). cbn [bind isset dx].
  change (wr (big_nodes true false false) 1 (mkNode [-2; 0] true true)) with (Ok (big_nodes true true false)). cbn [bind]. change (length els1) with 3%nat. cbn [Nat.sub]. rewrite step2 by exact Hf. cbn [bind].
  rewrite foldM_cons. change (rd [0; 1; 2]%nat 2) with (Ok 2%nat). cbn [bind mns mes]. change (rd (big_nodes true true false) 2) with (Ok (mkNode [0; 2] false false)). cbn [bind isset dx].
  change (wr (big_nodes true true false) 2 (mkNode [0; 2] true true)) with (Ok (big_nodes true true true)). cbn [bind]. change (length els2) with 5%nat. cbn [Nat.sub]. rewrite step3 by exact Hf. cbn [bind foldM].
  reflexivity.
Qed.
