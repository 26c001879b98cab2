(** The time loops of the transient samples:
    /repo/sample/heattransfer/sample_heattransfer_dynamic.cpp:49-79 and
    /repo/sample/reactiondiffusion/sample_reactiondiffusion.cpp:41-74.  Printing
    and the export of each step are left out.  The routine for the source term
    of the second sample is a parameter; the first sample has none. *)
From Coq Require Import List Arith Lia Bool Reals.
From Verif Require Import Res DenseModel DenseR ShapeModel QuadModel SparseModel AssemblyModel.
Import ListNotations.
Local Open Scope R_scope.

(** an element routine with its constants, dofs and node coordinates *)
Definition routine := shape -> rule -> list nat -> res (mat R * list (list (nat * nat))).
(** a source: the nodal values and the nodes of an element give its vector, if there is one *)
Definition source := list (list R) -> list nat -> res (option (list R)).

(** sample_heattransfer_dynamic.cpp:62-63, sample_reactiondiffusion.cpp:57-58:
    Ae = Ce/dt + Ke*theta, be = (Ce/dt - Ke*(1.0 - theta))*Te [+ Fe] *)
Definition theta_element (Ce Ke : mat R) (dt theta : R) (Te : list R) (Fe : option (list R)) : res (mat R * list R) :=
  C <- mdivs R_ops Ce dt ;;
  A <- madd R_ops C (mscal R_ops theta Ke) ;;
  B <- msub R_ops C (mscal R_ops (1 - theta) Ke) ;;
  b <- mmulv R_ops B Te ;;
  b <- match Fe with None => Ok b | Some f => vadd R_ops b f end ;;
  Ok (A, b).

(** sample_heattransfer_dynamic.cpp:55-66: one element *)
Definition theta_add (fC fK : routine) (load : source) (s : shape) (q : rule) (dt theta : R) (T : list (list R)) (t : table)
    (acc : lil R * list R) (el : list nat) : res (lil R * list R) :=
  ' (Ke, _) <- fK s q el ;;
  ' (Ce, ne) <- fC s q el ;;
  Fe <- load T el ;;
  Te <- element_vector T ne el ;;
  ' (Ae, be) <- theta_element Ce Ke dt theta Te Fe ;;
  ' (K, F) <- assemble_K_F acc T Ae t ne el ;;
  F <- assemble_F F be t ne el ;;
  Ok (K, F).

(** sample_heattransfer_dynamic.cpp:52-68: the system of one time step *)
Definition theta_system (fC fK : routine) (load : source) (s : shape) (q : rule) (elements : list (list nat)) (dt theta : R)
    (t : table) (n : nat) (T : list (list R)) : res (csr R * list R) :=
  ' (K, F) <- foldM (theta_add fC fK load s q dt theta T t) elements (lil_new n n, repeat 0 n) ;;
  ' (A, _) <- csr_of_lil K ;;
  Ok (A, F).

(** sample_heattransfer_dynamic.cpp:50-70: one time step with the given solver
    (the samples call ScalingCG) *)
Definition theta_step (solve : csr R -> list R -> res (list R)) (fC fK : routine) (load : source) (s : shape) (q : rule)
    (elements : list (list nat)) (dt theta : R) (t : table) (n : nat) (T : list (list R)) : res (list (list R)) :=
  ' (A, F) <- theta_system fC fK load s q elements dt theta t n T ;;
  x <- solve A F ;;
  disassemble T x t.

(** sample_heattransfer_dynamic.cpp:49-79: the loop *)
Definition theta_run (solve : csr R -> list R -> res (list R)) (fC fK : routine) (load : source) (s : shape) (q : rule)
    (elements : list (list nat)) (dt theta : R) (t : table) (n steps : nat) (T : list (list R)) : res (list (list R)) :=
  foldM (fun T _ => theta_step solve fC fK load s q elements dt theta t n T) (seq 0 steps) T.
