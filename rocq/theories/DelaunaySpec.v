(** Notions used in the statements about the triangle mesher. *)
From Coq Require Import List Arith ZArith Lia Bool Reals.
From Verif Require Import Res DenseModel DenseR DelaunayModel.
Import ListNotations.
Local Open Scope R_scope.

Definition pt := (R * R)%type.

(** twice the signed area of the triangle a, b, c: positive when the corners
    run counterclockwise *)
Definition tri2 (a b c : pt) : R :=
  (fst b - fst a) * (snd c - snd a) - (snd b - snd a) * (fst c - fst a).

Definition pdist (a b : pt) : R :=
  sqrt ((fst a - fst b) * (fst a - fst b) + (snd a - snd b) * (snd a - snd b)).

(** the closed triangle a, b, c *)
Definition in_triangle (a b c p : pt) : Prop :=
  exists l m n, 0 <= l /\ 0 <= m /\ 0 <= n /\ l + m + n = 1 /\
    fst p = l * fst a + m * fst b + n * fst c /\
    snd p = l * snd a + m * snd b + n * snd c.
(** and its interior *)
Definition inside_triangle (a b c p : pt) : Prop :=
  exists l m n, 0 < l /\ 0 < m /\ 0 < n /\ l + m + n = 1 /\
    fst p = l * fst a + m * fst b + n * fst c /\
    snd p = l * snd a + m * snd b + n * snd c.

(** the coordinates of a node *)
Definition nxy (n : dnode) : pt := (nth 0 (dx n) 0, nth 1 (dx n) 0).
Definition xy (ns : list dnode) (i : nat) : pt := nxy (nth i ns (mkNode [] false false)).
(** every node has two coordinates *)
Definition flat (ns : list dnode) : Prop := forall n, In n ns -> length (dx n) = 2%nat.

(** twice the signed area of an element and of all elements *)
Definition area2 (ns : list dnode) (e : delem) : R :=
  tri2 (xy ns (at3 (en e) 0)) (xy ns (at3 (en e) 1)) (xy ns (at3 (en e) 2)).
Definition total2 (ns : list dnode) (es : list delem) : R :=
  fold_right (fun e s => area2 ns e + s) 0 es.

(** corner [k] of the elements, side [j] (opposite to corner [j]) from its
    first to its second node, the element beyond it and its mark *)
Definition side (e : delem) (j : nat) : nat * nat := (at3 (en e) (nx3 j), at3 (en e) (pv3 j)).
Definition rev_side (s : nat * nat) : nat * nat := (snd s, fst s).

Definition ids_ok (n : nat) (e : delem) : Prop := forall j, (j < 3)%nat -> (at3 (en e) j < n)%nat.

(** A triangulation: every element is counterclockwise; the element beyond a
    side has that side in the opposite direction, with the same mark, and
    names the first one as the element beyond it. *)
Record mesh_ok (ns : list dnode) (es : list delem) : Prop := mkOk {
  ok_flat : flat ns;
  ok_ids : forall e, In e es -> ids_ok (length ns) e;
  ok_pos : forall e, In e es -> 0 < area2 ns e;
  ok_act : forall e, In e es -> eact e = true;
  ok_link : forall a e j b, nth_error es a = Some e -> (j < 3)%nat -> at3 (enb e) j = Some b ->
    exists e' j', nth_error es b = Some e' /\ (j' < 3)%nat /\ at3 (enb e') j' = Some a /\
      side e' j' = rev_side (side e j) /\ at3 (esd e') j' = at3 (esd e) j
}.

(** the sides without an element beyond are marked, and the ends of a marked
    side are nodes on the boundary *)
Definition border_ok (ns : list dnode) (es : list delem) : Prop :=
  (forall e j, In e es -> (j < 3)%nat -> at3 (enb e) j = None -> at3 (esd e) j = true) /\
  (forall e j n, In e es -> (j < 3)%nat -> at3 (esd e) j = true ->
     (nth_error ns (fst (side e j)) = Some n \/ nth_error ns (snd (side e j)) = Some n) -> isonb n = true).
(** every node in the interior is a corner of an element *)
Definition cover_ok (ns : list dnode) (es : list delem) : Prop :=
  forall i n, nth_error ns i = Some n -> isonb n = false -> exists e j, In e es /\ (j < 3)%nat /\ at3 (en e) j = i.

(** the length of a side *)
Definition side_len (ns : list dnode) (e : delem) (j : nat) : R := pdist (xy ns (fst (side e j))) (xy ns (snd (side e j))).
Definition midpoint (a b : pt) : pt := ((fst a + fst b) / 2, (snd a + snd b) / 2).
(** node [i] is a corner of an element *)
Definition corner (es : list delem) (i : nat) : Prop := exists e j, In e es /\ (j < 3)%nat /\ at3 (en e) j = i.
(** No swap is left at node [p]: when the side opposite to [p] in an element
    is not marked and the quadrilateral of the two elements at that side is
    convex (by the margin of the code), the side is not longer than the other
    diagonal. *)
Definition no_swap_at (ns : list dnode) (es : list delem) (p : nat) : Prop :=
  forall a b e f j i, nth_error es a = Some e -> nth_error es b = Some f -> (j < 3)%nat -> (i < 3)%nat ->
    at3 (en e) j = p -> at3 (enb e) j = Some b -> at3 (enb f) i = Some a -> at3 (esd e) j = false ->
    let q := at3 (en f) i in
    selfeps < tri2 (xy ns p) (xy ns (fst (side e j))) (xy ns q) ->
    selfeps < tri2 (xy ns p) (xy ns q) (xy ns (snd (side e j))) ->
    side_len ns e j <= pdist (xy ns p) (xy ns q).
(** node [i] as a boundary node *)
Definition onb (ns : list dnode) (i : nat) : bool := isonb (nth i ns (mkNode [] false false)).
