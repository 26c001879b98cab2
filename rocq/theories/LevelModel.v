(** The level set sample: /repo/sample/optimize/sample_optimize_levelset.cpp:23-196.
    Sizes, predicates and constants are parameters, also the shape functions and
    the rule (the sample uses ShapeFunction4Square and Gauss4Square) and the
    solver (the sample calls ScalingCG).  Printing and export are left out. *)
From Coq Require Import List Arith Lia Bool Reals ZArith.
From Verif Require Import Res DenseModel DenseR ShapeModel QuadModel ElemModel SparseModel AssemblyModel MeshModel GenModel LoopModel.
Import ListNotations.
Local Open Scope R_scope.

(** lines 25-34 and 42-66: nodes, elements, fixed and loaded dofs, fixed values of
    the level set function, constants *)
Record level := mkLevel {
  lv_x : list (list R); lv_elements : list (list nat);
  lv_ufixed : list (nat * nat * R); lv_qfixed : list (nat * nat * R); lv_phifixed : list (nat * nat * R);
  lv_s : shape; lv_q : rule;
  lv_Vmax : R; lv_tau : R; lv_E0 : R; lv_Emin : R; lv_nu : R; lv_nvol : R; lv_dt : R; lv_d : R; lv_p : R }.

(** lines 42-66: the mesh, the supports where [sup] holds, the load [load] on dof 1
    where [at_load] holds, the fixed values where [edge] holds *)
Definition lv_problem (lx ly : R) (nx ny : nat) (sup at_load edge : list R -> bool) (load Vmax tau E0 Emin nu nvol dt d p : R) : res level :=
  x <- sq_nodes lx ly nx ny ;;
  elements <- sq_elements nx ny ;;
  ufixed <- sq_fixed lx ly nx ny [0; 1]%Z sup ;;
  qfixed <- sq_fixed lx ly nx ny [1]%Z at_load ;;
  phifixed <- sq_fixed lx ly nx ny [0]%Z edge ;;
  Ok (mkLevel x elements (dof_list ufixed) (map (fun w => (fst w, load)) (dof_list qfixed)) (dof_list phifixed) sf_4Square Gauss4Square
        Vmax tau E0 Emin nu nvol dt d p).

(** lines 36-38: A1, A2 and c; pow(nu, 2.0) is the square *)
Definition lv_constants (l : level) : res (R * R * R) :=
  let nu := lv_nu l in let E0 := lv_E0 l in
  A1 <- Rdiv_res (- (15/10) * (1 - nu) * (1 - 14 * nu + 15 * nu ^ 2) * E0) ((1 + nu) * (7 - 5 * nu) * (1 - 2 * nu) ^ 2) ;;
  A2 <- Rdiv_res (75/10 * (1 - nu) * E0) ((1 + nu) * (7 - 5 * nu)) ;;
  c <- Rdiv_res A1 (A1 + 2 * A2) ;;
  Ok (A1, A2, c).

(** lines 90, 116 and 119: the routine with the thickness 1 *)
Definition lv_stiffness (l : level) (E V : R) (el : list nat) : res (mat R * list (list (nat * nat))) :=
  PlaneStressStiffness (lv_s l) (lv_q l) el [0%nat; 1%nat] (lv_x l) E V 1.

(** lines 87-92: one element of the system *)
Definition lv_add (l : level) (str : list R) (u : list (list R)) (t : table) (acc : lil R * list R) (i : nat) : res (lil R * list R) :=
  el <- rd (lv_elements l) i ;;
  si <- rd str i ;;
  ' (Ke, ne) <- lv_stiffness l (lv_Emin l + si * (lv_E0 l - lv_Emin l)) (lv_nu l) el ;;
  assemble_K_F acc u Ke t ne el.

(** lines 77-98: the displacements *)
Definition lv_displacement (solve : csr R -> list R -> res (list R)) (l : level) (str : list R) : res (list (list R)) :=
  let N := length (lv_x l) in
  ' (u, t) <- set_dirichlet (repeat (vnew R_ops 2) N, repeat (repeat (Some 0%nat) 2) N) (lv_ufixed l) ;;
  let (t, n) := renumber t in
  ' (K, F) <- foldM (lv_add l str u t) (seq 0 (length (lv_elements l))) (lil_new n n, repeat 0 n) ;;
  F <- assemble_N F (lv_qfixed l) t ;;
  ' (A, _) <- csr_of_lil K ;;
  x <- solve A F ;;
  disassemble u x t.

(** lines 113-121: the share of one element in the objective and its topological
    derivative; [s*ue*(Ke*ue)] is the product of two vectors *)
Definition lv_element (l : level) (A1 A2 c : R) (str : list R) (u : list (list R)) (i : nat) : res (R * R) :=
  el <- rd (lv_elements l) i ;;
  si <- rd str i ;;
  ' (Ke, ne) <- lv_stiffness l (lv_Emin l + si * (lv_E0 l - lv_Emin l)) (lv_nu l) el ;;
  ue <- element_vector u ne el ;;
  y <- mmulv R_ops Ke ue ;;
  e <- vdot R_ops ue y ;;
  ' (Kd, _) <- lv_stiffness l ((A1 + 2 * A2) * (1 - c ^ 2)) c el ;;
  y <- mmulv R_ops Kd ue ;;
  td <- vdot R_ops (vscal R_ops (1/10000 + si * (1 - 1/10000)) ue) y ;;
  Ok (e, td).

(** lines 77-124: displacements, objective and the topological derivative at the nodes *)
Record lv_result := mkLv { lr_u : list (list R); lr_obj : R; lr_td : list (list R); lr_tdn : list (list R) }.
Definition lv_analysis (solve : csr R -> list R -> res (list R)) (l : level) (str : list R) : res lv_result :=
  ' (A1, A2, c) <- lv_constants l ;;
  u <- lv_displacement solve l str ;;
  let n := length (lv_elements l) in
  ' (obj, td) <- foldM (fun (s : R * list (list R)) i => let '(obj, td) := s in
      ' (e, d) <- lv_element l A1 A2 c str u i ;;
      td <- wr td i [d] ;; Ok (obj + e, td)) (seq 0 n) (0, repeat (vnew R_ops 1) n) ;;
  tdn <- InterpolateNodalFromElementalV (length (lv_x l)) (vnew R_ops 1) td (lv_elements l) ;;
  Ok (mkLv u obj td tdn).

(** lines 71 and 126: std::accumulate over the elements *)
Definition lv_volume (l : level) (str : list R) : res R := Rdiv_res (fold_left Rplus str 0) (INR (length (lv_elements l))).
(** line 127 *)
Definition lv_target (l : level) (volInit : R) (t : nat) : res R :=
  q <- Rdiv_res (INR t + 1) (lv_nvol l) ;;
  Ok (lv_Vmax l + (volInit - lv_Vmax l) * Rmax 0 (1 - q)).
(** line 128 *)
Definition lv_lambda (l : level) (tdn : list (list R)) (vol ex : R) : res R :=
  s <- foldM (fun s v => vadd R_ops s v) tdn (vnew R_ops 1) ;;
  s <- vget s 0 ;;
  m <- Rdiv_res s (INR (length (lv_x l))) ;;
  q <- Rdiv_res (vol - ex) ex ;;
  Ok (m * exp (lv_p l * (q + lv_d l))).

(** lines 133-137: objective[t - k] is read when the tests before have passed *)
Definition lv_near (hist : list R) (t k : nat) : res bool :=
  a <- rd hist t ;;
  b <- (if (t <? k)%nat then Fail OutOfBounds else rd hist (t - k)) ;;
  Ok (if Rlt_dec (Rabs (a - b)) (1/100 * Rabs a) then true else false).
(** lines 132-137 *)
Definition lv_converged (l : level) (hist : list R) (t : nat) (vol : R) : res bool :=
  if Rlt_dec (lv_nvol l) (INR t) then
    if Rlt_dec (Rabs (vol - lv_Vmax l)) (5/1000) then
      foldM (fun (b : bool) k => if b then lv_near hist t k else Ok false) [5; 4; 3; 2; 1]%nat true
    else Ok false
  else Ok false.

(** lines 147-151 *)
Definition lv_scale (l : level) (tdn : list (list R)) : res R :=
  C <- foldM (fun C i => v <- rd tdn i ;; x <- vget v 0 ;; Ok (C + Rabs x)) (seq 0 (length (lv_x l))) 0 ;;
  Rdiv_res (INR (length (lv_elements l))) C.

(** lines 160-173: one element of the diffusion step *)
Definition lv_diffuse_add (l : level) (tdn : list (list R)) (C lambda : R) (phi : list (list R)) (t : table) (acc : lil R * list R) (i : nat) : res (lil R * list R) :=
  el <- rd (lv_elements l) i ;;
  ' (Me, _) <- ReactionDiffusionConsistentMass (lv_s l) (lv_q l) el [0%nat] (lv_x l) ;;
  ' (Ke, _) <- ReactionDiffusionStiffness (lv_s l) (lv_q l) el [0%nat] (lv_x l) (lv_tau l * INR (length (lv_elements l))) ;;
  ' (Fe, ne) <- ReactionDiffusionReaction (lv_s l) (lv_q l) el [0%nat] (lv_x l) tdn (fun u _ => C * (u - lambda)) ;;
  phie <- element_vector phi ne el ;;
  Md <- mdivs R_ops Me (lv_dt l) ;;
  Te <- madd R_ops Md Ke ;;
  Md <- mdivs R_ops Me (lv_dt l) ;;
  y <- mmulv R_ops Md phie ;;
  Ye <- vadd R_ops y Fe ;;
  ' (T, Y) <- assemble_K_F acc phi Te t ne el ;;
  Y <- assemble_F Y Ye t ne el ;;
  Ok (T, Y).

(** lines 153-178: the diffusion step *)
Definition lv_diffuse (solve : csr R -> list R -> res (list R)) (l : level) (tdn : list (list R)) (C lambda : R) (phi : list (list R)) : res (list (list R)) :=
  ' (phi, t) <- set_dirichlet (phi, repeat (repeat (Some 0%nat) 1) (length (lv_x l))) (lv_phifixed l) ;;
  let (t, n) := renumber t in
  ' (T, Y) <- foldM (lv_diffuse_add l tdn C lambda phi t) (seq 0 (length (lv_elements l))) (lil_new n n, repeat 0 n) ;;
  ' (A, _) <- csr_of_lil T ;;
  x <- solve A Y ;;
  disassemble phi x t.

(** lines 180-182 *)
Definition lv_clamp (l : level) (phi : list (list R)) : res (list (list R)) :=
  foldM (fun phi i => v <- rd phi i ;; x <- vget v 0 ;; uset phi i 0 (Rmax (Rmin 1 x) (-1))) (seq 0 (length (lv_x l))) phi.

(** lines 184-191 *)
Definition lv_structure (l : level) (phi : list (list R)) (str : list R) : res (list R) :=
  phie <- InterpolateElementalFromNodalV (vnew R_ops 1) phi (lv_elements l) ;;
  foldM (fun str i => v <- rd phie i ;; x <- vget v 0 ;; wr str i (if Rlt_dec x 0 then 0 else 1)) (seq 0 (length (lv_elements l))) str.

(** what one pass changes: objective, phi, str *)
Record lv_state := mkLs { ls_obj : list R; ls_phi : list (list R); ls_str : list R }.
(** lines 75-192: pass number [t]; true if the convergence test stops the loop *)
Definition lv_pass (solve : csr R -> list R -> res (list R)) (l : level) (volInit : R) (t : nat) (st : lv_state) : res (bool * lv_state) :=
  a <- lv_analysis solve l (ls_str st) ;;
  o <- rd (ls_obj st) t ;;
  hist <- wr (ls_obj st) t (o + lr_obj a) ;;
  vol <- lv_volume l (ls_str st) ;;
  ex <- lv_target l volInit t ;;
  lambda <- lv_lambda l (lr_tdn a) vol ex ;;
  stop <- lv_converged l hist t vol ;;
  if stop then Ok (true, mkLs hist (ls_phi st) (ls_str st))
  else
    C <- lv_scale l (lr_tdn a) ;;
    phi <- lv_diffuse solve l (lr_tdn a) C lambda (ls_phi st) ;;
    phi <- lv_clamp l phi ;;
    str <- lv_structure l phi (ls_str st) ;;
    Ok (false, mkLs hist phi str).

(** line 75: [todo] further passes, beginning with number [t] *)
Fixpoint lv_run (solve : csr R -> list R -> res (list R)) (l : level) (volInit : R) (t todo : nat) (st : lv_state) : res (bool * lv_state) :=
  match todo with
  | O => Ok (false, st)
  | S todo => ' (stop, st) <- lv_pass solve l volInit t st ;; if stop then Ok (true, st) else lv_run solve l volInit (S t) todo st
  end.
(** lines 69-75 *)
Definition lv_optimize (solve : csr R -> list R -> res (list R)) (l : level) (tmax : nat) : res (bool * lv_state) :=
  let str := repeat 1 (length (lv_elements l)) in
  volInit <- lv_volume l str ;;
  lv_run solve l volInit 0 tmax (mkLs (repeat 0 tmax) (repeat [1] (length (lv_x l))) str).
