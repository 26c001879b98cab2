(** Specification vocabulary for the weak spring (C42). *)
From Coq Require Import List Arith Reals.
From Verif Require Import Res SumR SparseModel SparseSpec DenseModel DenseSpec AssemblyModel AssemblySpec ElemModel.
Import ListNotations.
Local Open Scope R_scope.

(** the elements obtained by calling WeakSpring for each node list, with no load *)
Definition springs (dou : list nat) (alpha : R) (meshes : list (list nat)) (es : list elem) : Prop :=
  Forall2 (fun el e => e_nodes e = el /\ WeakSpring el dou alpha = Ok (e_K e, e_nte e) /\
    e_F e = repeat 0 (length dou * length el)) meshes es.
(** the listed dofs of the nodes of the elements exist, with numbers below n *)
Definition spring_dofs (n : nat) (t : table) (u : list (list R)) (dou : list nat) (meshes : list (list nat)) : Prop :=
  forall el i j, In el meshes -> In i el -> In j dou ->
    in_table t i j /\ in_table u i j /\ forall k, num t i j = Some k -> (k < n)%nat.
(** component of the vector at a dof, 0 if constrained *)
Definition at_node (t : table) (x : nat -> R) (i j : nat) : R := match num t i j with Some k => x k | None => 0 end.
Definition energy (n : nat) (K : lil R) (x : nat -> R) : R := bigsum n (fun i => bigsum n (fun j => x i * lil_entry 0 K i j * x j)).
