(** Property C42: the weak spring. *)
From Coq Require Import List Arith Lia Bool Reals Lra.
From Verif Require Import Res SumR SparseModel SparseSpec DenseModel DenseR DenseSpec AssemblyModel AssemblySpec ElemModel SpringSpec SpringMain.
Import ListNotations.
Local Open Scope R_scope.

(** C42: the energy added by the springs: alpha times the sum over the nodes of
    every element of the SQUARE OF THE SUM of the listed dofs *)
Theorem C42_energy : forall n t u dou alpha meshes es, dou <> [] ->
  spring_dofs n t u dou meshes -> springs dou alpha meshes es ->
  exists K F, asm_all u t es (lil_new n n, repeat 0 n) = Ok (K, F) /\
    forall x, energy n K x = sum_over meshes (fun el => sum_over el (fun i => alpha * Rsqr (sum_over dou (fun j => at_node t x i j)))).
Proof. exact C42_energy_pf. Qed.
Print Assumptions C42_energy.

(** C42 for one listed dof: positive on every vector with a nonzero component at a
    listed dof of a touched node *)
Theorem C42_single : forall n t u j alpha meshes es, 0 < alpha ->
  spring_dofs n t u [j] meshes -> springs [j] alpha meshes es ->
  exists K F, asm_all u t es (lil_new n n, repeat 0 n) = Ok (K, F) /\
    forall x el i k, In el meshes -> In i el -> num t i j = Some k -> x k <> 0 -> 0 < energy n K x.
Proof. exact C42_single_pf. Qed.
Print Assumptions C42_single.

(** C42 as stated is false: with two listed dofs the sum of the two components is
    penalised, not each of them.  Every mesh has a nonzero vector of zero energy,
    here the translation by (1, -1). *)
Theorem C42_two_dofs_refuted : forall alpha, 0 < alpha -> exists n t u dou meshes es K F x,
  spring_dofs n t u dou meshes /\ springs dou alpha meshes es /\ NoDup dou /\
  (forall k, (k < n)%nat -> exists el i j, In el meshes /\ In i el /\ In j dou /\ num t i j = Some k) /\
  asm_all u t es (lil_new n n, repeat 0 n) = Ok (K, F) /\
  (exists k, (k < n)%nat /\ x k <> 0) /\ energy n K x = 0.
Proof. exact C42_two_dofs_refuted_pf. Qed.
Print Assumptions C42_two_dofs_refuted.

Example C42_ex : exists es, springs [1]%nat 5 [[0; 1]; [1; 2]]%nat es /\ length es = 2%nat /\
  exists K F, asm_all [[0; 0]; [0; 0]; [0; 0]] [[None; Some 0]; [None; Some 1]; [None; Some 2]]%nat es (lil_new 3 3, repeat 0 3%nat) = Ok (K, F) /\
    energy 3 K (fun k => INR k) = 5 * (0 + 1 + (1 + 4)).
Proof.
  destruct (SpringMain.spring_ok [0; 1]%nat [1]%nat 5) as (K1 & E1 & _). destruct (SpringMain.spring_ok [1; 2]%nat [1]%nat 5) as (K2 & E2 & _).
  set (es := [mkElem [0; 1]%nat (map (SpringMain.spring_row [1]%nat) (seq 0 2)) K1 (repeat 0 2); mkElem [1; 2]%nat (map (SpringMain.spring_row [1]%nat) (seq 0 2)) K2 (repeat 0 2)]).
  assert (H : springs [1]%nat 5 [[0; 1]; [1; 2]]%nat es) by (repeat constructor; auto).
  exists es. split; [exact H|]. split; [reflexivity|].
  destruct (C42_energy 3 [[None; Some 0]; [None; Some 1]; [None; Some 2]]%nat [[0; 0]; [0; 0]; [0; 0]] [1]%nat 5 [[0; 1]; [1; 2]]%nat es) as (K & F & E & HQ); [discriminate| |exact H|].
  - intros el i j Hel Hi Hj. cbn in Hel, Hj. destruct Hj as [<-|[]]. unfold in_table, num.
    decompose [or] Hel; try contradiction; subst; cbn in Hi; decompose [or] Hi; try contradiction; subst; cbn; repeat split; try lia; intros k [= <-]; lia.
  - exists K, F. split; [exact E|]. rewrite HQ. unfold sum_over, at_node, num, Rsqr. cbn. lra.
Qed.
