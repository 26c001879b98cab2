(** Properties C09-C16: numbering, boundary conditions, assembly. *)
From Coq Require Import List Arith Lia Bool Reals Lra Permutation.
From Verif Require Import Res SumR SparseModel SparseSpec SparseProof SparseProof2 SparseMain DenseModel DenseSpec DenseProof DenseR DenseMain AssemblyModel AssemblySpec AssemblyProof AssemblyProof2 AssemblyProof3 AssemblyMain.
Import ListNotations.
Local Open Scope R_scope.

(** C09: Renumbering keeps the shape and every constrained entry, gives the free
    entries the numbers 0,...,n-1 in node order, each exactly once, and returns
    n, the number of free entries; doing it again changes nothing. *)
Theorem C09_renumbering : forall (t t' : table) (n : nat), renumber t = (t', n) ->
  same_pattern t t' /\ numbers t' = seq 0 n /\ n = length (numbers t) /\ numbering n t' /\ renumber t' = (t', n).
Proof. exact C09_renumbering_pf. Qed.
Print Assumptions C09_renumbering.

Example C09_ex : renumber [[Some 7; None]; []; [None; Some 7; Some 1]]%nat
  = ([[Some 0; None]; []; [None; Some 1; Some 2]], 3)%nat.
Proof. reflexivity. Qed.

(** C10: after SetDirichlet with any in-range list (repetitions allowed, any
    order) a listed dof is constrained and holds the last value listed for it,
    every other dof is untouched; and after Renumbering and Disassembling of any
    vector of n components the listed dofs still hold exactly those values. *)
Theorem C10_dirichlet : forall (u : list (list R)) (t : table) (fx : list (nat * nat * R)),
  (forall i j, in_table t i j -> in_table u i j) ->
  (forall i j v, In (i, j, v) fx -> in_table t i j) ->
  exists u1 t1, set_dirichlet (u, t) fx = Ok (u1, t1) /\ set_dirichlet_table t fx = Ok t1 /\
    (forall i j, uval u1 i j = match last_value fx i j with Some v => v | None => uval u i j end) /\
    (forall i j, num t1 i j = match last_value fx i j with Some _ => None | None => num t i j end) /\
    (forall i j, in_table t1 i j <-> in_table t i j) /\ (forall i j, in_table u1 i j <-> in_table u i j) /\
    let (t2, n) := renumber t1 in
    forall x, length x = n -> exists u2, disassemble u1 x t2 = Ok u2 /\
      forall i j v, last_value fx i j = Some v -> uval u2 i j = v.
Proof. exact C10_dirichlet_pf. Qed.
Print Assumptions C10_dirichlet.

Example C10_ex : set_dirichlet ([[1; 2]; [3; 4]], [[Some 0; Some 0]; [Some 0; Some 0]]%nat) [(1%nat, 0%nat, 5); (0%nat, 1%nat, 6); (1%nat, 0%nat, 7)]
  = Ok ([[1; 6]; [7; 4]], [[Some 0; None]; [None; Some 0]]%nat).
Proof. reflexivity. Qed.

(** C11: SetPeriodic for any list of (master, slave) pairs inside the table.
    Nodes that are never slaves keep their constrained entries; their free
    entries are numbered 0..n-1, each number exactly once; no number n or above
    appears anywhere.  A slave carries its master's numbers whenever neither of
    the two is a slave of a later pair; so in particular always when no master
    is a slave and no slave is listed twice. *)
Theorem C11_periodic : forall (t : table) (pairs : list (nat * nat)),
  (forall m s, In (m, s) pairs -> (s < length t /\ length (nth s t []) <= length (nth m t []))%nat) ->
  exists t' n, set_periodic t pairs = Ok (t', n) /\
    (forall i, length (nth i t' []) = length (nth i t [])) /\
    (forall i j, ~ In i (map snd pairs) -> (num t' i j = None <-> num t i j = None)) /\
    (forall i j k, num t' i j = Some k -> (k < n)%nat) /\
    (forall i j i' j' k, ~ In i (map snd pairs) -> ~ In i' (map snd pairs) ->
       num t' i j = Some k -> num t' i' j' = Some k -> i = i' /\ j = j') /\
    (forall k, (k < n)%nat -> exists i j, ~ In i (map snd pairs) /\ num t' i j = Some k) /\
    (forall l1 m s l2, pairs = l1 ++ (m, s) :: l2 -> ~ In s (map snd l2) -> ~ In m (map snd l2) ->
       forall j, (j < length (nth s t []))%nat -> num t' s j = num t' m j) /\
    (NoDup (map snd pairs) -> (forall m, In m (map fst pairs) -> ~ In m (map snd pairs)) ->
       forall m s j, In (m, s) pairs -> (j < length (nth s t []))%nat -> num t' s j = num t' m j).
Proof. exact C11_periodic_pf. Qed.
Print Assumptions C11_periodic.

Example C11_ex : set_periodic [[Some 0; Some 0]; [Some 0; None]; [Some 0; Some 0]]%nat [(0, 2)]%nat
  = Ok ([[Some 0; Some 1]; [Some 2; None]; [Some 0; Some 1]]%nat, 3%nat).
Proof. reflexivity. Qed.

(** C11: the claim is false when a master is itself a slave of a later pair:
    the slave is left with no equation at all although its master has one. *)
Theorem C11_chain_refuted : exists (t : table) (pairs : list (nat * nat)) t' n m s j,
  set_periodic t pairs = Ok (t', n) /\ In (m, s) pairs /\ NoDup (map snd pairs) /\
  num t s j <> None /\ num t' s j = None /\ num t' m j <> None.
Proof. exact C11_chain_refuted_pf. Qed.
Print Assumptions C11_chain_refuted.

(** C12: assembling any list of elements adds to entry (i,j) the sum over the
    elements of the Ke(a,b) whose local dofs have the numbers i and j, to the
    right-hand side the element loads minus Ke times the prescribed values; so
    every order of the elements gives the same matrix and right-hand side. *)
Theorem C12_assembly_sums : forall (n : nat) (t : table) (u : list (list R)) (es : list elem) K F G H,
  (forall e, In e es -> elem_ok n t u e) -> mat_is n K G -> vec_is n F H ->
  exists K' F', asm_all u t es (K, F) = Ok (K', F') /\
    mat_is n K' (fun i j => G i j + sum_over es (fun e => k_contrib t e i j)) /\
    vec_is n F' (fun i => H i + sum_over es (fun e => f_contrib t e i - d_contrib t u e i)) /\
    forall es', Permutation es es' -> exists K'', asm_all u t es' (K, F) = Ok (K'', F') /\
      forall i j, (i < n)%nat -> lil_get 0 K'' i j = lil_get 0 K' i j.
Proof. exact C12_assembly_sums_pf. Qed.
Print Assumptions C12_assembly_sums.

(** two bar elements sharing node 1, node 0 fixed at 3 *)
Definition bar (i j : nat) : elem := mkElem [i; j] [[(0, 0)]; [(0, 1)]]%nat (mkMat 2 2 [1; -1; -1; 1]) [0; 5].
Example C12_ex_ok : forall e, In e [bar 0 1; bar 1 2] -> elem_ok 2 [[None]; [Some 0]; [Some 1]]%nat [[3]; [0]; [0]] e.
Proof.
  intros e [<-|[<-|[]]]; unfold elem_ok, mat_wf; (split; [cbn; lia|split; [reflexivity|]]); intros a Ha; cbn in Ha;
  destruct Ha as [<-|[<-|[]]]; unfold in_table, dnum, num; cbn; splits; intros; try lia; try congruence;
  match goal with H : Some _ = Some _ |- _ => injection H; lia end.
Qed.
Example C12_ex : exists K F, asm_all [[3]; [0]; [0]] [[None]; [Some 0]; [Some 1]]%nat [bar 0 1; bar 1 2] (lil_new 2 2, [0; 0]) = Ok (K, F)
  /\ lil_get 0 K 0 0 = Ok (0 + 1 + 1) /\ lil_get 0 K 0 1 = Ok (0 + -1) /\ nth 0 F 0 = 8 /\ nth 1 F 0 = 5.
Proof. eexists _, _. split; [reflexivity|]. split; [reflexivity|]. split; [reflexivity|]. cbn. split; lra. Qed.

(** C12: the partial overloads do the corresponding parts: matrix and prescribed
    values, matrix only, element vector only, prescribed values only, nodal
    loads; so matrix-only followed by the vector overloads equals the full one. *)
Theorem C12_overloads : forall (n : nat) (t : table) (u : list (list R)) (e : elem) K F G H f,
  elem_ok n t u e -> mat_is n K G -> vec_is n F H ->
  (forall i j v, In (i, j, v) f -> in_table t i j /\ forall k, num t i j = Some k -> (k < n)%nat) ->
  exists K1 F1 K2 F2 K3 F4 F5 F6,
    assemble_KFe (K, F) u (e_K e) (e_F e) t (e_nte e) (e_nodes e) = Ok (K1, F1) /\
      mat_is n K1 (fun i j => G i j + k_contrib t e i j) /\
      vec_is n F1 (fun i => H i - d_contrib t u e i + f_contrib t e i) /\
    assemble_K_F (K, F) u (e_K e) t (e_nte e) (e_nodes e) = Ok (K2, F2) /\
      mat_is n K2 (fun i j => G i j + k_contrib t e i j) /\ vec_is n F2 (fun i => H i - d_contrib t u e i) /\
    assemble_K K (e_K e) t (e_nte e) (e_nodes e) = Ok K3 /\ mat_is n K3 (fun i j => G i j + k_contrib t e i j) /\
    assemble_F F (e_F e) t (e_nte e) (e_nodes e) = Ok F4 /\ vec_is n F4 (fun i => H i + f_contrib t e i) /\
    assemble_D F u (e_K e) t (e_nte e) (e_nodes e) = Ok F5 /\ vec_is n F5 (fun i => H i - d_contrib t u e i) /\
    assemble_N F f t = Ok F6 /\ vec_is n F6 (fun i => H i + n_contrib t f i) /\
    (F7 <- assemble_D F u (e_K e) t (e_nte e) (e_nodes e) ;; assemble_F F7 (e_F e) t (e_nte e) (e_nodes e)) = Ok F1.
Proof. exact C12_overloads_pf. Qed.
Print Assumptions C12_overloads.

(** C13: the whole pipeline.  Starting from any displacements, table, Dirichlet
    list, elements and nodal loads that fit, SetDirichlet, Renumbering, assembly
    of all elements and of the nodal loads, and conversion to CSR run without a
    fault.  For every x with K x = F (as computed by the CSR product),
    Disassembling gives displacements that hold the prescribed values and for
    which at every free dof the element forces sum_e Ke ue equal the element
    loads plus the nodal loads there.  No numbering occurs in the conclusion. *)
Theorem C13_equilibrium : forall (u0 : list (list R)) (t0 : table) (fx f : list (nat * nat * R)) (es : list elem),
  (forall i j, in_table t0 i j -> in_table u0 i j) ->
  (forall i j v, In (i, j, v) fx -> in_table t0 i j) ->
  (forall i j v, In (i, j, v) f -> in_table t0 i j) ->
  (forall e, In e es -> elem_fits t0 e) ->
  exists u1 t1 t2 n K F F' Kc K',
    set_dirichlet (u0, t0) fx = Ok (u1, t1) /\ renumber t1 = (t2, n) /\
    asm_all u1 t2 es (lil_new n n, repeat 0 n) = Ok (K, F) /\
    assemble_N F f t2 = Ok F' /\ csr_of_lil K = Ok (Kc, K') /\
    forall x, length x = n -> csr_mulvec 0 Rplus Rmult Kc x = Ok F' ->
    exists u2, disassemble u1 x t2 = Ok u2 /\
      (forall i j v, last_value fx i j = Some v -> uval u2 i j = v) /\
      (forall i j, last_value fx i j = None -> num t0 i j = None -> uval u2 i j = uval u0 i j) /\
      (forall i j, last_value fx i j = None -> num t0 i j <> None ->
         internal_force es u2 i j = element_load es i j + nodal_load f i j).
Proof. exact C13_equilibrium_pf. Qed.
Print Assumptions C13_equilibrium.

Example C13_ex : forall e, In e [bar 0 1; bar 1 2] -> elem_fits [[Some 0]; [Some 0]; [Some 0]]%nat e.
Proof.
  intros e [<-|[<-|[]]]; unfold elem_fits, mat_wf; (split; [cbn; lia|split; [reflexivity|]]); intros a Ha; cbn in Ha;
  destruct Ha as [<-|[<-|[]]]; unfold in_table; cbn; splits; lia.
Qed.

(** C14: for any numbering (also one shared by periodic nodes), if every element
    matrix is symmetric so is the assembled matrix, and its quadratic form is the
    sum of the element quadratic forms; hence if every element matrix is positive
    semi-definite so is the assembled one. *)
Theorem C14_symmetry_psd : forall (n : nat) (t : table) (u : list (list R)) (es : list elem),
  (forall e, In e es -> elem_ok n t u e) ->
  exists K F, asm_all u t es (lil_new n n, repeat 0 n) = Ok (K, F) /\
    ((forall e a b, In e es -> (a < mrow (e_K e))%nat -> (b < mrow (e_K e))%nat -> e_k e a b = e_k e b a) ->
       forall i j, (i < n)%nat -> (j < n)%nat -> lil_get 0 K i j = lil_get 0 K j i) /\
    (forall x : nat -> R,
       bigsum n (fun i => bigsum n (fun j => x i * lil_entry 0 K i j * x j)) =
       sum_over es (fun e => sum_over (e_dofs e) (fun a => sum_over (e_dofs e) (fun b =>
         xval t x a * e_k e (dloc a) (dloc b) * xval t x b)))) /\
    ((forall e z, In e es -> 0 <= bigsum (mrow (e_K e)) (fun a => bigsum (mrow (e_K e)) (fun b => z a * e_k e a b * z b))) ->
       forall x : nat -> R, 0 <= bigsum n (fun i => bigsum n (fun j => x i * lil_entry 0 K i j * x j))).
Proof. exact C14_symmetry_psd_pf. Qed.
Print Assumptions C14_symmetry_psd.

Example C14_ex : forall z : nat -> R, 0 <= bigsum 2 (fun a => bigsum 2 (fun b => z a * e_k (bar 0 1) a b * z b)).
Proof.
  intros z. match goal with |- 0 <= ?v => replace v with ((z 0%nat - z 1%nat) * (z 0%nat - z 1%nat)) end.
  - apply Rle_0_sqr. - unfold bigsum, e_k; cbn; ring.
Qed.

(** C15: Disassembling writes component k of the vector to the dof numbered k and
    leaves constrained dofs alone; reading any free dof back gives its component,
    and every component is found at some dof; ElementVector of the result gathers
    at each local index the component, or the prescribed value. *)
Theorem C15_round_trip : forall (u : list (list R)) (t : table) (n : nat) (x : list R),
  (forall i j, in_table t i j -> in_table u i j) -> numbering n t -> length x = n ->
  exists u', disassemble u x t = Ok u' /\
    (forall i j, in_table u' i j <-> in_table u i j) /\
    (forall i j k, num t i j = Some k -> uval u' i j = nth k x 0) /\
    (forall i j, num t i j = None -> uval u' i j = uval u i j) /\
    (forall k, (k < n)%nat -> exists i j, num t i j = Some k /\ uval u' i j = nth k x 0) /\
    forall element nte, (length nte <= length element)%nat ->
      (forall a, In a (dofs element nte) -> in_table u (dnode a) (ddof a) /\ (dloc a < length (concat nte))%nat) ->
      NoDup (map snd (concat nte)) ->
      exists v, element_vector u' nte element = Ok v /\ length v = length (concat nte) /\
        forall a, In a (dofs element nte) ->
          nth (dloc a) v 0 = match num t (dnode a) (ddof a) with Some k => nth k x 0 | None => uval u (dnode a) (ddof a) end.
Proof. exact C15_round_trip_pf. Qed.
Print Assumptions C15_round_trip.

Example C15_ex : element_vector [[1; 2]; [3; 4]] [[(0, 0); (1, 1)]; [(1, 2)]]%nat [1; 0]%nat = Ok [3; 4; 2].
Proof. reflexivity. Qed.

(** C16: assembling a coupled element given as several node groups equals
    assembling the one element with concatenated nodes and dof maps, including
    faults; the same holds for ElementVector. *)
Theorem C16_groups : forall (s : lil R * list R) (u : list (list R)) (Ke : mat R) (t : table)
  (ntes : list (list (list (nat * nat)))) (elements : list (list nat)),
  length elements = length ntes ->
  (forall k, length (nth k elements []) = length (nth k ntes [])) ->
  assemble_groups s u Ke t ntes elements = assemble_K_F s u Ke t (concat ntes) (concat elements) /\
  element_vector_groups u ntes elements = element_vector u (concat ntes) (concat elements).
Proof. exact C16_groups_pf. Qed.
Print Assumptions C16_groups.

Example C16_ex : element_vector_groups [[1; 2]; [3; 4]; [5; 6]] [[[(0, 0)]; [(1, 1)]]; [[(0, 2)]]]%nat [[1; 0]; [2]]%nat = Ok [3; 2; 5].
Proof. reflexivity. Qed.
