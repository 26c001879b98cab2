(** The truss samples:
    /repo/sample/truss/sample_truss_sizeoptimization.cpp:21-169 and
    /repo/sample/truss/sample_truss_totalstressdesign.cpp:19-77.  Sizes,
    predicates and constants are parameters; so is the solver (ScalingCG in the
    first, CG in the second).  Printing and export are left out. *)
From Coq Require Import List Arith Lia Bool Reals ZArith.
From Verif Require Import Res DenseModel DenseR ElemModel SparseModel AssemblyModel MeshModel LUModel OCModel TopModel LoopModel.
Import ListNotations.
Local Open Scope R_scope.

(** nodes, bars, fixed and loaded dofs, Young's modulus *)
Record truss := mkTruss {
  tr_x : list (list R); tr_elements : list (list nat);
  tr_ufixed : list (nat * nat * R); tr_qfixed : list (nat * nat * R); tr_E : R }.

(** size lines 29-46, stress lines 25-42: the ground structure, the supports where
    [sup] holds, the load [load] on dof 1 where [at_load] holds *)
Definition tr_problem (lx ly : R) (nx ny : nat) (lmax : R) (sup at_load : list R -> bool) (load E : R) : res truss :=
  x <- gs_nodes lx ly nx ny ;;
  elements <- gs_elements lx ly nx ny lmax ;;
  ufixed <- gs_fixed lx ly nx ny [0; 1]%Z sup ;;
  qfixed <- gs_fixed lx ly nx ny [1]%Z at_load ;;
  Ok (mkTruss x elements (dof_list ufixed) (map (fun w => (fst w, load)) (dof_list qfixed)) E).

(** size lines 94, 113 and 128, stress line 57 *)
Definition tr_stiffness (d : truss) (A : R) (el : list nat) : res (mat R * list (list (nat * nat))) :=
  Truss2D el [0%nat; 1%nat] (tr_x d) (tr_E d) A.

(** size lines 91-95, stress lines 55-58: one bar of the system; [area i] is the
    area of bar [i] *)
Definition tr_add (d : truss) (area : nat -> res R) (u : list (list R)) (t : table) (acc : lil R * list R) (i : nat) : res (lil R * list R) :=
  A <- area i ;;
  el <- rd (tr_elements d) i ;;
  ' (Ke, ne) <- tr_stiffness d A el ;;
  assemble_K_F acc u Ke t ne el.

(** size lines 81-99, stress lines 43-63: the field with the prescribed values,
    the table, the matrix and the right-hand side *)
Definition tr_system (d : truss) (area : nat -> res R) : res (list (list R) * table * csr R * list R) :=
  let N := length (tr_x d) in
  ' (u, t) <- set_dirichlet (repeat (vnew R_ops 2) N, repeat (repeat (Some 0%nat) 2) N) (tr_ufixed d) ;;
  let (t, n) := renumber t in
  ' (K, F) <- foldM (tr_add d area u t) (seq 0 (length (tr_elements d))) (lil_new n n, repeat 0 n) ;;
  F <- assemble_N F (tr_qfixed d) t ;;
  ' (A, _) <- csr_of_lil K ;;
  Ok (u, t, A, F).

(** size lines 100-101, stress lines 64-65: the displacements *)
Definition tr_displacement (solve : csr R -> list R -> res (list R)) (d : truss) (area : nat -> res R) : res (list (list R) * table) :=
  ' (u, t, A, F) <- tr_system d area ;;
  x <- solve A F ;;
  u <- disassemble u x t ;;
  Ok (u, t).

(** size lines 110-115: one bar of the reaction forces *)
Definition tr_react (d : truss) (area : nat -> res R) (u : list (list R)) (t : table) (RF : list R) (i : nat) : res (list R) :=
  A <- area i ;;
  el <- rd (tr_elements d) i ;;
  ' (Ke, ne) <- tr_stiffness d A el ;;
  ue <- element_vector u ne el ;;
  Keue <- mmulv R_ops Ke ue ;;
  assemble_F RF Keue t ne el.

(** size lines 104-118: the reaction forces *)
Definition tr_reaction (d : truss) (area : nat -> res R) (u : list (list R)) (t : table) : res (list (list R)) :=
  let (t, n) := renumber (remove_bc t) in
  RF <- foldM (tr_react d area u t) (seq 0 (length (tr_elements d))) (repeat 0 n) ;;
  disassemble (repeat (vnew R_ops 2) (length (tr_x d))) RF t.

(** x[elements[i][1]] - x[elements[i][0]], size line 50, stress line 69, and the
    same with u, stress line 70 *)
Definition tr_difference (d : truss) (x : list (list R)) (i : nat) : res (list R) :=
  el <- rd (tr_elements d) i ;;
  b <- rd el 1 ;; xb <- rd x b ;;
  a <- rd el 0 ;; xa <- rd x a ;;
  vsub R_ops xb xa.

(** ** Size optimisation *)
(** lines 21-25: smallest and largest area, share of the weight, scale of the objective *)
Record sizing := mkSizing { sz_d : truss; sz_A0 : R; sz_A1 : R; sz_limit : R; sz_scale0 : R }.

(** lines 47-52: the lengths and their sum *)
Definition sz_lengths (z : sizing) : res (list R * R) :=
  let n := length (tr_elements (sz_d z)) in
  foldM (fun (s : list R * R) i => let '(l, lsum) := s in
    v <- tr_difference (sz_d z) (tr_x (sz_d z)) i ;; li <- vnorm v ;;
    l <- wr l i li ;; Ok (l, lsum + li)) (seq 0 n) (repeat 0 n, 0).

(** lines 91 and 110: the area of a bar *)
Definition sz_area (z : sizing) (s : list R) (i : nat) : res R :=
  si <- rd s i ;; Ok (sz_A0 z * (1 - si) + sz_A1 z * si).

Section Size.
Variables (solve : csr R -> list R -> res (list R)) (z : sizing) (l : list R) (lsum : R).
Let n := length (tr_elements (sz_d z)).

(** lines 67-73: the weight and its sensitivities *)
Definition sz_weight (s : list R) : res (R * list R) :=
  ' (g, dg) <- foldM (fun (c : R * list R) i => let '(g, dg) := c in
      si <- rd s i ;; li <- rd l i ;;
      a <- Rdiv_res (si * li) (sz_limit z * lsum) ;;
      b <- Rdiv_res li (sz_limit z * lsum) ;;
      dg <- wr dg i b ;; Ok (g + a, dg)) (seq 0 n) (0, repeat 0 (length s)) ;;
  Ok (g - 1, dg).

(** lines 161-167: the constraint given to the optimiser *)
Definition sz_constraint (s : list R) : res R :=
  g <- foldM (fun g i => si <- rd s i ;; li <- rd l i ;; a <- Rdiv_res (si * li) (sz_limit z * lsum) ;; Ok (g + a)) (seq 0 n) 0 ;;
  Ok (g - 1).
(** as a function of the design; the fault does not occur (see the theorems) *)
Definition sz_gkp1 (s : list R) : R := match sz_constraint s with Ok g => g | Fail _ => 0 end.

(** lines 125-130: the sensitivity of one bar; [-scale0*ue*(Ke*ue)] is the product
    of two vectors *)
Definition sz_sensitivity (u : list (list R)) (i : nat) : res R :=
  let dA := - sz_A0 z + sz_A1 z in
  el <- rd (tr_elements (sz_d z)) i ;;
  ' (Ke, ne) <- tr_stiffness (sz_d z) dA el ;;
  ue <- element_vector u ne el ;;
  Keue <- mmulv R_ops Ke ue ;;
  vdot R_ops (vscal R_ops (- sz_scale0 z) ue) Keue.

(** lines 80-131: displacements, reactions, objective and its sensitivities *)
Definition sz_analysis (s : list R) : res analysis :=
  ' (u, t) <- tr_displacement solve (sz_d z) (sz_area z s) ;;
  r <- tr_reaction (sz_d z) (sz_area z s) u t ;;
  ur <- field_product u r ;;
  df <- mapM (sz_sensitivity u) (seq 0 n) ;;
  Ok (mkAnalysis u r (sz_scale0 z * ur) df).

(** lines 61-169: one pass; true if the convergence test stops the loop *)
Definition sz_iteration (fuel : nat) (st : list R * oc) : res (bool * (list R * oc)) :=
  let '(s, o) := st in
  ' (_, dg) <- sz_weight s ;;
  a <- sz_analysis s ;;
  if oc_is_convergence o (an_f a) then Ok (true, (s, o))
  else
    ' (o, s) <- oc_update o fuel s (an_f a) (an_df a) dg sz_gkp1 ;;
    Ok (false, (s, o)).
(** line 61: at most [todo] passes *)
Fixpoint sz_run (fuel todo : nat) (st : list R * oc) : res (bool * (list R * oc)) :=
  match todo with
  | O => Ok (false, st)
  | S todo => ' (stop, st) <- sz_iteration fuel st ;; if stop then Ok (true, st) else sz_run fuel todo st
  end.
End Size.

(** lines 47-169: the loop from the first design; the sample starts from 0.5 and
    makes 50 passes *)
Definition sz_optimize (solve : csr R -> list R -> res (list R)) (z : sizing) (fuel passes : nat) (s0 : R) : res (bool * (list R * oc)) :=
  let n := length (tr_elements (sz_d z)) in
  ' (l, lsum) <- sz_lengths z ;;
  sz_run solve z l lsum fuel passes (repeat s0 n, oc_new n (5/10) 0 1000 (1/1000) (15/100) (repeat (1/100) n) (repeat 1 n)).

(** ** Total stress design *)
(** lines 69-76: the new area of one bar; pow(., 2.0) is the square *)
Definition ts_area (d : truss) (u : list (list R)) (sigmat sigmac Ai : R) (i : nat) : res R :=
  li <- tr_difference d (tr_x d) i ;;
  di <- tr_difference d u i ;;
  p <- vdot R_ops (vscal R_ops (tr_E d * Ai) di) li ;;
  nm <- vnorm li ;;
  fi <- Rdiv_res p (nm ^ 2) ;;
  if Rltb 0 fi then Rdiv_res fi sigmat else Rdiv_res (- fi) sigmac.

(** lines 45-77 from the areas [A]; the sample starts from equal areas *)
Definition ts_design (solve : csr R -> list R -> res (list R)) (d : truss) (sigmat sigmac : R) (A : list R) : res (list (list R) * list R) :=
  ' (u, _) <- tr_displacement solve d (rd A) ;;
  A <- foldM (fun A i => Ai <- rd A i ;; a <- ts_area d u sigmat sigmac Ai i ;; wr A i a) (seq 0 (length (tr_elements d))) A ;;
  Ok (u, A).
