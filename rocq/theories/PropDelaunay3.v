(** Property C102: the renumbering of the triangle mesher. *)
From Coq Require Import List Arith ZArith Lia Bool Reals Lra.
From Verif Require Import Res DenseModel DenseR LUModel DelaunayModel DelaunaySpec DelaunaySpec2 DelaunayMain DelaunayMain2 DelaunayMain3.
Import ListNotations.
Local Open Scope R_scope.

(** C102: [sortelement] keeps the nodes, the corners and the flags and makes
    element [b] the neighbor at a side exactly when [b] is the first other
    element that has the side in the opposite direction; a side has no
    neighbor exactly when there is none. *)
Theorem C102_sortelement : forall ns es, exists es', sortelement (mkMesh ns es) = mkMesh ns es' /\ length es' = length es /\
  forall a e, nth_error es a = Some e -> exists e', nth_error es' a = Some e' /\
    en e' = en e /\ esd e' = esd e /\ eact e' = eact e /\ echk e' = echk e /\
    forall j, (j < 3)%nat ->
      (forall b, at3 (enb e') j = Some b <-> (b <> a /\ has_rev es b (side e j) /\ forall c, (c < b)%nat -> c <> a -> ~ has_rev es c (side e j))) /\
      (at3 (enb e') j = None <-> forall b, b <> a -> ~ has_rev es b (side e j)).
Proof. exact C102_sortelement_pf. Qed.
Print Assumptions C102_sortelement.

Example C102_sortelement_ex : exists e f, mes (sortelement (mkMesh gap_nodes gap_elems)) = [e; f] /\
  enb e = A3 None (Some 1%nat) None /\ enb f = A3 None None (Some 0%nat).
Proof. eexists _, _. split; [reflexivity|]. split; reflexivity. Qed.

(** C102, the links after [sortelement]: if no side occurs twice in the same
    direction, the neighbors are mutual, which is what the subdivision and the
    smoothing need. *)
Theorem C102_mutual : forall ns es, unique_sides es -> mutual (mes (sortelement (mkMesh ns es))).
Proof. exact C102_mutual_pf. Qed.
Print Assumptions C102_mutual.

Example C102_mutual_ex : mutual (mes (sortelement (mkMesh gap_nodes gap_elems))) /\
  exists e, nth_error (mes (sortelement (mkMesh gap_nodes gap_elems))) 0 = Some e /\ at3 (enb e) 1 = Some 1%nat.
Proof. split; [apply C102_mutual, gap_unique|]. eexists. split; reflexivity. Qed.

(** C102: [sortnode] removes the nodes that are not set, in place, and gives
    every corner of every element the new number of the same node; different
    nodes keep different numbers.  Neighbors, boundary marks and flags are
    kept, and so are the areas. *)
Theorem C102_sortnode : forall ns es, corners_set ns es ->
  exists es', sortnode (mkMesh ns es) = mkMesh (filter isset ns) es' /\ length es' = length es /\
  (forall a e, nth_error es a = Some e -> exists e', nth_error es' a = Some e' /\
     enb e' = enb e /\ esd e' = esd e /\ eact e' = eact e /\ echk e' = echk e /\ area2 (filter isset ns) e' = area2 ns e /\
     (forall j, (j < 3)%nat -> nth_error (filter isset ns) (at3 (en e') j) = nth_error ns (at3 (en e) j)) /\
     forall b f f' j i, nth_error es b = Some f -> nth_error es' b = Some f' -> (j < 3)%nat -> (i < 3)%nat ->
       (at3 (en e') j = at3 (en f') i <-> at3 (en e) j = at3 (en f) i)).
Proof. exact C102_sortnode_pf. Qed.
Print Assumptions C102_sortnode.

Example C102_sortnode_ex : corners_set gap_nodes gap_elems /\
  map en (mes (sortnode (mkMesh gap_nodes gap_elems))) = [A3 0 1 2; A3 0 2 3]%nat /\
  length (mns (sortnode (mkMesh gap_nodes gap_elems))) = 4%nat.
Proof. split; [exact gap_set|]. split; reflexivity. Qed.
