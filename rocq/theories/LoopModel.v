(** The set-up and the optimisation loop of
    /repo/sample/optimize/sample_optimize_density_oc.cpp:24-62 and 79-226; the
    analysis inside is TopModel.v.  Sizes, predicates, filter radius and
    constants are parameters.  Printing and export are left out. *)
From Coq Require Import List Arith Lia Bool Reals ZArith.
From Verif Require Import Res DenseModel DenseR ShapeModel QuadModel ElemModel SparseModel AssemblyModel MeshModel FilterModel OCModel TopModel.
Import ListNotations.
Local Open Scope R_scope.

(** the entries { { node, dof }, value } as SetDirichlet and Assembling read them *)
Definition dof_list (f : fixed) : list (nat * nat * R) := map (fun w => (fst (fst w), Z.to_nat (snd (fst w)), snd w)) f.

(** lines 24-41 and 67-74: the mesh, the supports where [sup] holds, the load
    [load] on dof 1 where [at_load] holds *)
Definition ds_problem (lx ly : R) (nx ny : nat) (sup at_load : list R -> bool) (load E0 E1 p scale0 scale1 limit : R) : res top :=
  x <- sq_nodes lx ly nx ny ;;
  elements <- sq_elements nx ny ;;
  ufixed <- sq_fixed lx ly nx ny [0; 1]%Z sup ;;
  qfixed <- sq_fixed lx ly nx ny [1]%Z at_load ;;
  Ok (mkTop x elements (dof_list ufixed) (map (fun w => (fst w, load)) (dof_list qfixed)) sf_4Square Gauss4Square (3/10) 1 E0 E1 p scale0 scale1 limit).

(** lines 44-47 *)
Definition ds_centers (d : top) : res (list (list R)) := mapM (fun i => el <- rd (tp_elements d) i ;; CenterOfGravity (tp_x d) el) (seq 0 (length (tp_elements d))).

(** lines 52-57: the pass of the inner loop *)
Definition ds_near (cg : list (list R)) (rad : R) (i : nat) (s : list nat * list R) (j : nat) : res (list nat * list R) :=
  ci <- rd cg i ;; cj <- rd cg j ;; e <- vsub R_ops ci cj ;; l <- vnorm e ;;
  if Rle_dec l rad then
    e <- vsub R_ops ci cj ;; l <- vnorm e ;; q <- Rdiv_res (rad - l) rad ;; Ok (fst s ++ [j], snd s ++ [q])
  else Ok s.
(** lines 49-58: neighbours and weights *)
Definition ds_neighbors (cg : list (list R)) (rad : R) : res (list (list nat) * list (list R)) :=
  rows <- mapM (fun i => foldM (ds_near cg rad i) (seq 0 (length cg)) ([], [])) (seq 0 (length cg)) ;;
  Ok (map fst rows, map snd rows).

Section Loop.
Variables (solve : csr R -> list R -> res (list R)) (d : top) (nbs : list (list nat)) (w : list (list R)).
Let n := length (tp_elements d).

(** lines 92-172: filtered variables, weight, analysis, filtered sensitivities *)
Record pass := mkPass { ps_rho : list R; ps_g : R; ps_an : analysis; ps_dfds : list R; ps_dgds : list R }.
Definition ds_pass (beta : R) (s : list R) : res pass :=
  rho <- heaviside_variables n nbs w beta s ;;
  ' (g, dg) <- top_weight d rho ;;
  a <- top_analysis solve d rho ;;
  dfds <- heaviside_sensitivities n nbs w beta s (an_df a) ;;
  dgds <- heaviside_sensitivities n nbs w beta s dg ;;
  Ok (mkPass rho g a dfds dgds).

(** lines 215-222: the constraint given to the optimiser *)
Definition ds_constraint (beta : R) (s : list R) : res R :=
  rho <- heaviside_variables n nbs w beta s ;;
  g <- foldM (fun g i => ri <- rd rho i ;; a <- Rdiv_res (tp_scale1 d * ri) (tp_limit d * INR n) ;; Ok (g + a)) (seq 0 n) 0 ;;
  Ok (g - 1 * tp_scale1 d).
(** as a function of the design; the fault does not occur (see the theorems) *)
Definition ds_gkp1 (beta : R) (s : list R) : R := match ds_constraint beta s with Ok g => g | Fail _ => 0 end.

(** what one pass changes *)
Record dstate := mkDs { ds_beta : R; ds_s : list R; ds_oc : oc }.
(** lines 82-226: pass number [k]; true if the convergence test stops the loop *)
Definition ds_iteration (fuel k : nat) (st : dstate) : res (bool * dstate) :=
  let beta := if (k mod 40 =? 0)%nat then ds_beta st * 2 else ds_beta st in
  ps <- ds_pass beta (ds_s st) ;;
  if oc_is_convergence (ds_oc st) (an_f (ps_an ps)) then Ok (true, mkDs beta (ds_s st) (ds_oc st))
  else
    ' (o, s) <- oc_update (ds_oc st) fuel (ds_s st) (an_f (ps_an ps)) (ps_dfds ps) (ps_dgds ps) (ds_gkp1 beta) ;;
    Ok (false, mkDs beta s o).
(** line 79: at most [todo] further passes, beginning with number [k] *)
Fixpoint ds_run (fuel k todo : nat) (st : dstate) : res (bool * dstate) :=
  match todo with
  | O => Ok (false, st)
  | S todo => ' (stop, st) <- ds_iteration fuel k st ;; if stop then Ok (true, st) else ds_run fuel (S k) todo st
  end.
(** lines 64-77: the loop from the first design *)
Definition ds_optimize (fuel passes : nat) (s0 : R) : res (bool * dstate) :=
  ds_run fuel 0 passes (mkDs (5/10) (repeat s0 n) (oc_new n (5/10) 0 10000 (1/1000) (15/100) (repeat (1/100) n) (repeat 1 n))).
End Loop.
