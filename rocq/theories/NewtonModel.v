(** The load stepping sample with Newton iterations:
    /repo/sample/solid/sample_totallagrange.cpp:19-94.  The mesh, the prescribed
    values, the loads, the element routine, the numbers of steps and of passes,
    the tolerance and the solver (the sample calls ScalingCG) are parameters.
    Import, console output and export are left out. *)
From Coq Require Import List Arith Lia Bool Reals.
From Verif Require Import Res DenseModel DenseR ShapeModel QuadModel ElemModel SparseModel AssemblyModel.
Import ListNotations.
Local Open Scope R_scope.

(** lines 20-28 and the constants of lines 44, 47, 55 and 69 *)
Record newton := mkNewton {
  nw_x : list (list R); nw_elements : list (list nat); nw_ufixed : list (nat * nat * R); nw_qfixed : list (nat * nat * R);
  nw_call : list nat -> list (list R) -> res (mat R * list R * list (list (nat * nat)));
  nw_steps : nat; nw_passes : nat; nw_tol : R }.

(** line 55: the element routine of the sample *)
Definition nw_total (s : shape) (q : rule) (x : list (list R)) (E V : R) (el : list nat) (u : list (list R)) :=
  SolidTotalLagrange s q el [0; 1; 2]%nat x u E V.

(** lines 30-34: the first displacements, the numbering and the number of equations *)
Definition nw_start (d : newton) : res (list (list R) * table * nat) :=
  let N := length (nw_x d) in
  ' (u, t) <- set_dirichlet (repeat (vnew R_ops 3) N, repeat (repeat (Some 0%nat) 3) N) (nw_ufixed d) ;;
  let (t, n) := renumber t in
  Ok (u, t, n).

(** lines 51-57: one element *)
Definition nw_add (d : newton) (u : list (list R)) (t : table) (acc : lil R * list R) (el : list nat) : res (lil R * list R) :=
  ' (Ke, Qe, ne) <- nw_call d el u ;;
  assemble_KFe acc u Ke Qe t ne el.

(** lines 59-64: the loads of one step and the sum of their squares *)
Definition nw_loads (d : newton) (finc : nat) : list (nat * nat * R) :=
  map (fun f => (fst f, snd f * (INR finc / INR (nw_steps d)))) (nw_qfixed d).
Definition nw_norm (f : list (nat * nat * R)) : R := fold_left (fun a w => a + snd w * snd w) f 0.

(** lines 79-81 *)
Definition nw_move (u du : list (list R)) : res (list (list R)) :=
  foldM (fun u i => a <- rd u i ;; b <- rd du i ;; c <- vadd R_ops a b ;; wr u i c) (seq 0 (length u)) u.

(** lines 48-82: one pass; the flag tells that the loop was left *)
Definition nw_pass (solve : csr R -> list R -> res (list R)) (d : newton) (t : table) (n finc : nat) (u : list (list R)) : res (list (list R) * bool) :=
  ' (K, F) <- foldM (nw_add d u t) (nw_elements d) (lil_new n n, repeat 0 n) ;;
  F <- assemble_N F (nw_loads d finc) t ;;
  let normR := fold_left (fun a r => a + r * r) F 0 in
  let normF := sqrt (nw_norm (nw_loads d finc)) in
  norm <- Rdiv_res normR normF ;;
  if Rlt_dec norm (nw_tol d) then Ok (u, true) else
  ' (A, _) <- csr_of_lil K ;;
  x <- solve A F ;;
  du <- disassemble (repeat (vnew R_ops 3) (length (nw_x d))) x t ;;
  u <- nw_move u du ;;
  Ok (u, false).

(** lines 47-82: at most k passes *)
Fixpoint nw_iterate (solve : csr R -> list R -> res (list R)) (d : newton) (t : table) (n finc k : nat) (u : list (list R)) : res (list (list R) * bool) :=
  match k with
  | O => Ok (u, false)
  | S k => ' (u, stop) <- nw_pass solve d t n finc u ;; if stop then Ok (u, true) else nw_iterate solve d t n finc k u
  end.

(** lines 44-91: the steps from [finc] on; what each of them exports *)
Fixpoint nw_from (solve : csr R -> list R -> res (list R)) (d : newton) (t : table) (n finc todo : nat) (u : list (list R)) : res (list (list (list R) * bool)) :=
  match todo with
  | O => Ok []
  | S m => ' (u, stop) <- nw_iterate solve d t n finc (nw_passes d) u ;; rest <- nw_from solve d t n (S finc) m u ;; Ok ((u, stop) :: rest)
  end.
Definition nw_run (solve : csr R -> list R -> res (list R)) (d : newton) : res (list (list (list R) * bool)) :=
  ' (u, t, n) <- nw_start d ;;
  nw_from solve d t n 1 (nw_steps d) u.
