(** Load cases of the static samples. *)
From Coq Require Import List Arith Reals.
From Verif Require Import SumR AssemblySpec StaticModel StaticSpec.

(** the same data with other loads *)
Definition st_loaded (d : static) (P : list (nat * nat * R)) : static :=
  mkStatic (st_x d) (st_elements d) (st_fixed d) P (st_m d) (st_s d) (st_q d) (st_f d).
Definition st_fit (d : static) (P : list (nat * nat * R)) : Prop := forall i j v, In (i, j, v) P -> (i < length (st_x d))%nat /\ (j < st_m d)%nat.
(** energy of the elements with their matrices minus the work of the loads *)
Definition st_potential (d : static) (es : list elem) (z : nat -> nat -> R) : R :=
  (/ 2 * sum_over es (fun e => sum_over (e_dofs e) (fun a => sum_over (e_dofs e) (fun b => z (dnode a) (ddof a) * e_k e (dloc a) (dloc b) * z (dnode b) (ddof b))))
   - sum_over (st_loads d) (fun w => snd w * z (fst (fst w)) (snd (fst w))))%R.
