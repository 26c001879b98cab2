(** What it means for quadrilaterals to form a mesh, and for a list of edges to
    be its boundary; independent of how the meshes are generated. *)
From Coq Require Import List Arith ZArith Lia Bool Reals.
Import ListNotations.

(** the directed sides of a quadrilateral, in the order of its corners *)
Definition sides (e : list nat) : list (nat * nat) :=
  match e with a :: b :: c :: d :: _ => [(a, b); (b, c); (c, d); (d, a)] | _ => [] end.
Definition all_sides (elements : list (list nat)) : list (nat * nat) := flat_map sides elements.
(** every element has four different existing nodes, and no side is used twice
    in the same direction: so a side belongs to at most two elements, which
    traverse it in opposite directions *)
Definition conforming (nodes : nat) (elements : list (list nat)) : Prop :=
  (forall e, In e elements -> length e = 4 /\ NoDup e /\ (forall k, In k e -> k < nodes)) /\ NoDup (all_sides elements).
(** the sides of the elements whose opposite is not a side of an element *)
Definition free_side (elements : list (list nat)) (a b : nat) : Prop :=
  In (a, b) (all_sides elements) /\ ~ In (b, a) (all_sides elements).
(** edges lists every free side exactly once, and nothing else *)
Definition boundary (elements edges : list (list nat)) : Prop :=
  NoDup edges /\ forall l, In l edges <-> exists a b, l = [a; b] /\ free_side elements a b.

(** eight node quadrilaterals: a side with its mid node *)
Definition sides2 (e : list nat) : list (nat * nat * nat) :=
  match e with a :: b :: c :: d :: ab :: bc :: cd :: da :: _ => [(a, b, ab); (b, c, bc); (c, d, cd); (d, a, da)] | _ => [] end.
Definition all_sides2 (elements : list (list nat)) := flat_map sides2 elements.
(** as before, and the mid node of a side depends on the side only, different sides having different mid nodes *)
Definition conforming2 (nodes : nat) (elements : list (list nat)) : Prop :=
  (forall e, In e elements -> length e = 8 /\ NoDup e /\ (forall k, In k e -> k < nodes)) /\
  NoDup (map fst (all_sides2 elements)) /\
  (forall a b m m', In (a, b, m) (all_sides2 elements) -> In (b, a, m') (all_sides2 elements) -> m = m') /\
  (forall a b a' b' m, In (a, b, m) (all_sides2 elements) -> In (a', b', m) (all_sides2 elements) -> (a, b) = (a', b') \/ (a, b) = (b', a')).
Definition boundary2 (elements edges : list (list nat)) : Prop :=
  NoDup edges /\ forall l, In l edges <-> exists a b m, l = [a; b; m] /\ In (a, b, m) (all_sides2 elements) /\ forall m', ~ In (b, a, m') (all_sides2 elements).

Local Open Scope R_scope.
Definition px (nodes : list (list R)) (k : nat) : R := nth 0 (nth k nodes []) 0.
Definition py (nodes : list (list R)) (k : nat) : R := nth 1 (nth k nodes []) 0.
(** twice the signed area of the polygon through the nodes of e (shoelace formula) *)
Definition area2 (nodes : list (list R)) (e : list nat) : R :=
  fold_right Rplus 0 (map (fun s : nat * nat => let (a, b) := s in px nodes a * py nodes b - px nodes b * py nodes a) (sides e)).
(** twice the area of all elements *)
Definition total_area2 (nodes : list (list R)) (elements : list (list nat)) : R := fold_right Rplus 0 (map (area2 nodes) elements).
(** the corners of e are those of the rectangle [x0,x1] x [y0,y1], counter-clockwise from the lower left *)
Definition rectangle (nodes : list (list R)) (e : list nat) (x0 y0 x1 y1 : R) : Prop :=
  map (fun k => nth k nodes []) (firstn 4 e) = [[x0; y0]; [x1; y0]; [x1; y1]; [x0; y1]] /\ x0 < x1 /\ y0 < y1.
(** a point of the half-open rectangle *)
Definition inside (x0 y0 x1 y1 p q : R) : Prop := x0 <= p < x1 /\ y0 <= q < y1.
(** every element is a rectangle, and they cut the region P into pieces: each of
    its points is in exactly one element, and no other point is in any element *)
Definition tiles (nodes : list (list R)) (elements : list (list nat)) (P : R -> R -> Prop) : Prop :=
  (forall e, In e elements -> exists x0 y0 x1 y1, rectangle nodes e x0 y0 x1 y1) /\
  (forall p q, P p q -> exists k e, nth_error elements k = Some e /\ (exists x0 y0 x1 y1, rectangle nodes e x0 y0 x1 y1 /\ inside x0 y0 x1 y1 p q) /\
     forall k' e', nth_error elements k' = Some e' -> (exists x0 y0 x1 y1, rectangle nodes e' x0 y0 x1 y1 /\ inside x0 y0 x1 y1 p q) -> k' = k) /\
  (forall p q e, In e elements -> (exists x0 y0 x1 y1, rectangle nodes e x0 y0 x1 y1 /\ inside x0 y0 x1 y1 p q) -> P p q).

(** the entries of a fixed list for the nodes satisfying pred, in the order of the nodes *)
Definition fixed_nodes (nodes : list (list R)) (ulist : list Z) (pred : list R -> bool) : list ((nat * Z) * R) :=
  flat_map (fun k => if pred (nth k nodes []) then map (fun u => ((k, u), 0)) ulist else []) (seq 0 (length nodes)).
