(** Model of the controller
      /repo/src/FEM/Controller/Assembling.h
      /repo/src/FEM/Controller/BoundaryCondition.h
    and of ElementVector in /repo/src/FEM/Equation/General.h.

    The table _nodetoglobal is a list of rows of [option nat]: [None] is the -1
    that marks a constrained degree of freedom, [Some k] the number k >= 0.
    (No other negative number is ever stored by the library or its samples.)
    Scalars are exact reals. *)
From Coq Require Import List Arith Lia Bool Reals.
From Verif Require Import Res SparseModel DenseModel DenseR.
Import ListNotations.

Definition table := list (list (option nat)).

(** _nodetoglobal[i][j], unchecked *)
Definition n2g (t : table) (i j : nat) : res (option nat) := row <- rd t i ;; rd row j.
(** _nodetoglobal[i][j] = x *)
Definition n2g_set (t : table) (i j : nat) (x : option nat) : res table :=
  row <- rd t i ;; row' <- wr row j x ;; wr t i row'.
(** _u[i](j): the outer index is unchecked, the inner one asserted *)
Definition uget (u : list (list R)) (i j : nat) : res R := row <- rd u i ;; vget row j.
Definition uset (u : list (list R)) (i j : nat) (x : R) : res (list (list R)) :=
  row <- rd u i ;; row' <- vset row j x ;; wr u i row'.
(** _F[k] += v *)
Definition fadd (F : list R) (k : nat) (v : R) : res (list R) := x <- rd F k ;; wr F k (x + v)%R.
Definition fsub (F : list R) (k : nat) (v : R) : res (list R) := x <- rd F k ;; wr F k (x - v)%R.

(** for(int i = 0; i < _element.size(); i++) for(auto dou : _nodetoelement[i])
    body(_element[i], dou.first, dou.second) *)
Definition for_dofs {S} (element : list nat) (nte : list (list (nat * nat)))
    (body : S -> nat -> nat -> nat -> res S) (s : S) : res S :=
  foldM (fun s i => nt <- rd nte i ;;
           foldM (fun s d => e <- rd element i ;; body s e (fst d) (snd d)) nt s)
    (seq 0 (length element)) s.

(** _K.set(gi, gj, _K.get(gi, gj) + v) *)
Definition kadd (K : lil R) (gi gj : nat) (v : R) : res (lil R) :=
  x <- lil_get 0%R K gi gj ;; '(_, K) <- lil_set K gi gj (x + v)%R ;; Ok K.

(** Assembling.h:28-33, 53-58, 77-82: one entry of a row, with the influence of
    constrained dofs on the right-hand side *)
Definition asm_entry (u : list (list R)) (Ke : mat R) (t : table) (gi la : nat)
    (s : lil R * list R) (eb db lb : nat) : res (lil R * list R) :=
  let '(K, F) := s in
  gb <- n2g t eb db ;;
  match gb with
  | Some gj => v <- mget Ke la lb ;; K <- kadd K gi gj v ;; Ok (K, F)
  | None => k <- mget Ke la lb ;; x <- uget u eb db ;; F <- fsub F gi (k * x)%R ;; Ok (K, F)
  end.

(** Assembling.h:21-42 *)
Definition assemble_KFe (s : lil R * list R) (u : list (list R)) (Ke : mat R) (Fe : list R)
    (t : table) (nte : list (list (nat * nat))) (element : list nat) : res (lil R * list R) :=
  for_dofs element nte (fun s ea da la =>
    ga <- n2g t ea da ;;
    match ga with
    | None => Ok s
    | Some gi =>
        '(K, F) <- for_dofs element nte (asm_entry u Ke t gi la) s ;;
        v <- vget Fe la ;; F <- fadd F gi v ;; Ok (K, F)
    end) s.

(** Assembling.h:46-66 *)
Definition assemble_K_F (s : lil R * list R) (u : list (list R)) (Ke : mat R)
    (t : table) (nte : list (list (nat * nat))) (element : list nat) : res (lil R * list R) :=
  for_dofs element nte (fun s ea da la =>
    ga <- n2g t ea da ;;
    match ga with
    | None => Ok s
    | Some gi => for_dofs element nte (asm_entry u Ke t gi la) s
    end) s.

(** Assembling.h:70-94: several groups of nodes *)
Definition for_groups {S} (elements : list (list nat)) (ntes : list (list (list (nat * nat))))
    (body : S -> nat -> nat -> nat -> res S) (s : S) : res S :=
  foldM (fun s i => el <- rd elements i ;;
    foldM (fun s j => nte <- rd ntes i ;; nt <- rd nte j ;;
        foldM (fun s d => el' <- rd elements i ;; e <- rd el' j ;; body s e (fst d) (snd d)) nt s)
      (seq 0 (length el)) s)
    (seq 0 (length elements)) s.

Definition assemble_groups (s : lil R * list R) (u : list (list R)) (Ke : mat R)
    (t : table) (ntes : list (list (list (nat * nat)))) (elements : list (list nat)) : res (lil R * list R) :=
  for_groups elements ntes (fun s ea da la =>
    ga <- n2g t ea da ;;
    match ga with
    | None => Ok s
    | Some gi => for_groups elements ntes (asm_entry u Ke t gi la) s
    end) s.

(** Assembling.h:98-114: matrix only *)
Definition assemble_K (K : lil R) (Ke : mat R)
    (t : table) (nte : list (list (nat * nat))) (element : list nat) : res (lil R) :=
  for_dofs element nte (fun K ea da la =>
    ga <- n2g t ea da ;;
    match ga with
    | None => Ok K
    | Some gi => for_dofs element nte (fun K eb db lb =>
        gb <- n2g t eb db ;;
        match gb with
        | Some gj => v <- mget Ke la lb ;; kadd K gi gj v
        | None => Ok K
        end) K
    end) K.

(** Assembling.h:118-127: element vector only *)
Definition assemble_F (F : list R) (Fe : list R)
    (t : table) (nte : list (list (nat * nat))) (element : list nat) : res (list R) :=
  for_dofs element nte (fun F ea da la =>
    ga <- n2g t ea da ;;
    match ga with
    | None => Ok F
    | Some gi => v <- vget Fe la ;; fadd F gi v
    end) F.

(** Assembling.h:131-147: influence of constrained dofs only *)
Definition assemble_D (F : list R) (u : list (list R)) (Ke : mat R)
    (t : table) (nte : list (list (nat * nat))) (element : list nat) : res (list R) :=
  for_dofs element nte (fun F ea da la =>
    ga <- n2g t ea da ;;
    match ga with
    | None => Ok F
    | Some gi => for_dofs element nte (fun F eb db lb =>
        gb <- n2g t eb db ;;
        match gb with
        | Some _ => Ok F
        | None => k <- mget Ke la lb ;; x <- uget u eb db ;; fsub F gi (k * x)%R
        end) F
    end) F.

(** Assembling.h:151-158: nodal loads *)
Definition assemble_N (F : list R) (f : list (nat * nat * R)) (t : table) : res (list R) :=
  foldM (fun F (w : nat * nat * R) => let '(i, j, v) := w in
    g <- n2g t i j ;; match g with None => Ok F | Some k => fadd F k v end) f F.

(** Assembling.h:162-171 *)
Definition disassemble (u : list (list R)) (x : list R) (t : table) : res (list (list R)) :=
  foldM (fun u i => row <- rd t i ;;
    foldM (fun u j => g <- n2g t i j ;;
      match g with None => Ok u | Some k => v <- rd x k ;; uset u i j v end)
      (seq 0 (length row)) u)
    (seq 0 (length t)) u.

(** Assembling.h:175-186 Renumbering; also BoundaryCondition.h:45-53.  The counter
    is threaded through the rows. *)
Fixpoint renum_row (k : nat) (row : list (option nat)) : list (option nat) * nat :=
  match row with
  | [] => ([], k)
  | None :: r => let (r', k') := renum_row k r in (None :: r', k')
  | Some _ :: r => let (r', k') := renum_row (S k) r in (Some k :: r', k')
  end.
Fixpoint renum_from (k : nat) (t : table) : table * nat :=
  match t with
  | [] => ([], k)
  | row :: r => let (row', k') := renum_row k row in
                let (r', k'') := renum_from k' r in (row' :: r', k'')
  end.
Definition renumber (t : table) : table * nat := renum_from 0 t.

(** BoundaryCondition.h:19-25 *)
Definition set_dirichlet (s : list (list R) * table) (fx : list (nat * nat * R)) : res (list (list R) * table) :=
  foldM (fun s (w : nat * nat * R) => let '(u, t) := s in let '(i, j, v) := w in
    u <- uset u i j v ;; t <- n2g_set t i j None ;; Ok (u, t)) fx s.

(** BoundaryCondition.h:29-34 *)
Definition set_dirichlet_table (t : table) (fx : list (nat * nat * R)) : res table :=
  foldM (fun t (w : nat * nat * R) => let '(i, j, _) := w in n2g_set t i j None) fx t.

(** BoundaryCondition.h:38-62; pairs are (master, slave) *)
Definition set_periodic (t : table) (pairs : list (nat * nat)) : res (table * nat) :=
  t <- foldM (fun t (p : nat * nat) => row <- rd t (snd p) ;;
                wr t (snd p) (repeat None (length row))) pairs t ;;
  let (t, n) := renumber t in
  t <- foldM (fun t (p : nat * nat) =>
         row <- rd t (snd p) ;;
         foldM (fun t i => x <- n2g t (fst p) i ;; n2g_set t (snd p) i x) (seq 0 (length row)) t) pairs t ;;
  Ok (t, n).

(** BoundaryCondition.h:66-72 *)
Definition remove_bc (t : table) : table := map (map (fun _ => Some 0)) t.

(** General.h:81-96 ElementVector *)
Definition element_vector (u : list (list R)) (nte : list (list (nat * nat))) (element : list nat) : res (list R) :=
  let size := fold_left (fun s nt => s + length nt) nte 0 in
  foldM (fun v i => nt <- rd nte i ;;
    foldM (fun v d => e <- rd element i ;; x <- uget u e (fst d) ;; vset v (snd d) x) nt v)
    (seq 0 (length nte)) (repeat 0%R size).

(** General.h:100-119 *)
Definition element_vector_groups (u : list (list R)) (ntes : list (list (list (nat * nat)))) (elements : list (list nat)) : res (list R) :=
  let size := fold_left (fun s nte => fold_left (fun s nt => s + length nt) nte s) ntes 0 in
  foldM (fun v i => nte <- rd ntes i ;;
    foldM (fun v j => nt <- rd nte j ;;
      foldM (fun v d => el <- rd elements i ;; e <- rd el j ;; x <- uget u e (fst d) ;; vset v (snd d) x) nt v)
      (seq 0 (length nte)) v)
    (seq 0 (length ntes)) (repeat 0%R size).
