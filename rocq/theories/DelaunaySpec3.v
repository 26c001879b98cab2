(** Notions used in the statements about the constructor of the triangle
    mesher. *)
From Coq Require Import List Arith ZArith Lia Bool Reals.
From Verif Require Import Res DenseModel DenseR DelaunayModel DelaunaySpec DelaunaySpec2.
Import ListNotations.
Local Open Scope R_scope.

(** all elements are counterclockwise *)
Definition ccw (M : dmesh) : Prop := forall e, In e (mes M) -> 0 < area2 (mns M) e.
(** the elements are counterclockwise after the smoothing of every round of
    the subdivision, for the rounds that are made *)
Fixpoint ccw_rounds (rounds : nat) (M : dmesh) (maxside : R) : Prop :=
  match rounds with
  | O => True
  | S rounds => forall d M1 M2 N,
      (forall fuel, (N <= fuel)%nat -> refine fuel M = Ok (d, M1) /\ laplacesmoothing fuel M1 = Ok M2) ->
      ccw M2 /\ (maxside < d -> ccw_rounds rounds M2 maxside)
  end.
(** node [k] is on one of the boundary lists *)
Definition on_list (outer inner : list (list nat)) (k : nat) : Prop := exists l, In l (outer ++ inner) /\ In k l.
(** [k] is first met at position [i] of the list *)
Definition first_at (l : list nat) (i k : nat) : Prop := nth_error l i = Some k /\ forall i', (i' < i)%nat -> nth_error l i' <> Some k.
(** the nodes a, b, c are on the list and are met in this cyclic order *)
Definition runs_with (l : list nat) (a b c : nat) : Prop :=
  exists i j k, first_at l i a /\ first_at l j b /\ first_at l k c /\
    ((i < j /\ j < k) \/ (j < k /\ k < i) \/ (k < i /\ i < j))%nat.
(** what [r] rounds of the subdivision keep: [ns'], [es'] is a triangulation
    of the same total area with [r] more nodes and at least [r] more elements,
    the boundary nodes are where they were, the other nodes have not become
    boundary nodes, and no node leaves a half plane that contains all nodes *)
Record kept (ns : list dnode) (es : list delem) (r : nat) (ns' : list dnode) (es' : list delem) : Prop := mkKept {
  kp_ok : mesh_ok ns' es';
  kp_border : border_ok ns' es';
  kp_cover : cover_ok ns' es';
  kp_total : total2 ns' es' = total2 ns es;
  kp_len : length ns' = (length ns + r)%nat;
  kp_elems : (length es + r <= length es')%nat;
  kp_fix : forall i, (i < length ns)%nat -> onb ns' i = onb ns i /\ (onb ns i = true -> xy ns' i = xy ns i);
  kp_half : forall u v w, (forall i, (i < length ns)%nat -> half_plane u v w (xy ns i)) -> forall i, (i < length ns')%nat -> half_plane u v w (xy ns' i)
}.
(** the two elements at a side agree on whether it is marked *)
Definition marks_ok (es : list delem) : Prop :=
  forall a e j b e' j', nth_error es a = Some e -> (j < 3)%nat -> at3 (enb e) j = Some b ->
    nth_error es b = Some e' -> (j' < 3)%nat -> side e' j' = rev_side (side e j) -> at3 (esd e') j' = at3 (esd e) j.
(** the sum of [f] over a list *)
Definition rsum {A} (f : A -> R) (l : list A) : R := fold_right (fun a s => f a + s) 0 l.
