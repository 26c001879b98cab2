(** Vocabulary for the filter properties. *)
From Coq Require Import List Arith Lia Bool Reals.
From Verif Require Import Res SumR.
Import ListNotations.
Local Open Scope R_scope.

(** [In (k, v)]: element k is a neighbour of i with weight v *)
Definition links (neighbors : list (list nat)) (w : list (list R)) (i : nat) : list (nat * R) :=
  combine (nth i neighbors []) (nth i w []).
Definition total (l : list (nat * R)) (f : nat -> R) : R := sumlist (map (fun kv => snd kv * f (fst kv)) l).
(** the weighted mean of f over the neighbours of i *)
Definition mean (neighbors : list (list nat)) (w : list (list R)) (f : nat -> R) (i : nat) : R :=
  total (links neighbors w i) f / total (links neighbors w i) (fun _ => 1).
(** share of element k in the mean of element i *)
Definition share (neighbors : list (list nat)) (w : list (list R)) (i k : nat) : R :=
  mean neighbors w (fun k' => if (k' =? k)%nat then 1 else 0) i.

(** one list of existing neighbours and at least as many weights per variable,
    and no vanishing sum of weights *)
Definition filter_ok (n : nat) (neighbors : list (list nat)) (w : list (list R)) : Prop :=
  (n <= length neighbors)%nat /\ (n <= length w)%nat /\
  forall i, (i < n)%nat -> (length (nth i neighbors []) <= length (nth i w []))%nat /\
    (forall k, In k (nth i neighbors []) -> (k < n)%nat) /\ total (links neighbors w i) (fun _ => 1) <> 0.
Definition weights_nonneg (neighbors : list (list nat)) (w : list (list R)) : Prop :=
  forall i k v, In (k, v) (links neighbors w i) -> 0 <= v.

(** c is the gradient of F at r: the derivative of F along every differentiable
    curve of vectors through r *)
Definition gradient_at (n : nat) (F : list R -> R) (r c : list R) : Prop :=
  forall (curve : R -> list R) v, curve 0 = r ->
    (forall k, (k < n)%nat -> derivable_pt_lim (fun e => nth k (curve e) 0) 0 (v k)) ->
    (forall e, length (curve e) = n) ->
    derivable_pt_lim (fun e => F (curve e)) 0 (bigsum n (fun k => nth k c 0 * v k)).
Definition variables_of (r : res (list R)) : list R := match r with Ok v => v | Fail _ => [] end.
