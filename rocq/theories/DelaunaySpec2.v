(** Notions used in the statements about the smoothing and the sorting of the
    triangle mesher. *)
From Coq Require Import List Arith ZArith Lia Bool Reals.
From Verif Require Import Res DenseModel DenseR DelaunayModel DelaunaySpec.
Import ListNotations.
Local Open Scope R_scope.

(** the elements have three different corners *)
Definition proper (e : delem) : Prop :=
  at3 (en e) 0 <> at3 (en e) 1 /\ at3 (en e) 1 <> at3 (en e) 2 /\ at3 (en e) 2 <> at3 (en e) 0.
(** the element beyond a side has that side in the opposite direction and
    names the first one as the element beyond it *)
Definition mutual (es : list delem) : Prop :=
  forall a e j b, nth_error es a = Some e -> (j < 3)%nat -> at3 (enb e) j = Some b ->
    exists e' j', nth_error es b = Some e' /\ (j' < 3)%nat /\ at3 (enb e') j' = Some a /\
      side e' j' = rev_side (side e j).
(** a mesh whose elements may have any orientation *)
Record topo_ok (ns : list dnode) (es : list delem) : Prop := mkTopo {
  tp_flat : flat ns;
  tp_ids : forall e, In e es -> ids_ok (length ns) e;
  tp_proper : forall e, In e es -> proper e;
  tp_mutual : mutual es
}.

(** the elements around node [i]: each of them has corner [i], and the next
    one is the element beyond its side that ends in [i] *)
Definition ring (es : list delem) (i : nat) (l : list nat) : Prop :=
  l <> [] /\ NoDup l /\
  forall m a, nth_error l m = Some a ->
    exists e j, nth_error es a = Some e /\ (j < 3)%nat /\ at3 (en e) j = i /\
      side e (nx3 j) = (at3 (en e) (pv3 j), i) /\ at3 (enb e) (nx3 j) = Some (nth ((m + 1) mod length l) l 0%nat).
(** the corner after [i] *)
Definition after (e : delem) (i : nat) : nat :=
  if (at3 (en e) 0 =? i)%nat then at3 (en e) 1 else if (at3 (en e) 1 =? i)%nat then at3 (en e) 2 else at3 (en e) 0.
Definition afters (es : list delem) (i : nat) (l : list nat) : list nat :=
  map (fun a => after (nth a es (elem3 0 0 0)) i) l.
Definition mean (l : list pt) : pt :=
  (fold_right (fun p s => fst p + s) 0 l / INR (length l), fold_right (fun p s => snd p + s) 0 l / INR (length l)).
(** the half plane u x + v y <= w *)
Definition half_plane (u v w : R) (p : pt) : Prop := u * fst p + v * snd p <= w.
(** no side occurs twice in the same direction *)
Definition unique_sides (es : list delem) : Prop :=
  forall a b e f j i, nth_error es a = Some e -> nth_error es b = Some f -> (j < 3)%nat -> (i < 3)%nat -> side e j = side f i -> a = b /\ j = i.
(** element [b] has the side [s] in the opposite direction *)
Definition has_rev (es : list delem) (b : nat) (s : nat * nat) : Prop :=
  exists f i, nth_error es b = Some f /\ (i < 3)%nat /\ side f i = rev_side s.
(** all corners are nodes that are set *)
Definition corners_set (ns : list dnode) (es : list delem) : Prop :=
  forall e j, In e es -> (j < 3)%nat -> exists n, nth_error ns (at3 (en e) j) = Some n /\ isset n = true.
