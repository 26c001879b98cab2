(** Notions used in the statements about the time loops of the samples. *)
From Coq Require Import List Arith Lia Bool Reals.
From Verif Require Import Res SumR DenseModel DenseSpec ShapeModel QuadModel QuadSpec ElemModel ElemSpec SparseModel SparseSpec AssemblyModel AssemblySpec PatchSpec StableSpec ThetaModel.
Import ListNotations.
Local Open Scope R_scope.

(** the pairs of routines of the samples: capacity and conduction *)
Inductive theta_pair (dou : list nat) (xs : list (list R)) : routine -> routine -> Prop :=
| tp_heat alpha rho c t : 0 < alpha -> 0 < rho -> 0 < c -> 0 < t ->
    theta_pair dou xs (fun s q el => HeatCapacity s q el dou xs rho c t) (fun s q el => HeatTransfer s q el dou xs alpha t)
| tp_reaction D : 0 < D ->
    theta_pair dou xs (fun s q el => ReactionDiffusionConsistentMass s q el dou xs) (fun s q el => ReactionDiffusionStiffness s q el dou xs D).

(** the element vector of [e] is the source of the element, zero without a source *)
Definition carries (load : source) (T : list (list R)) (el : list nat) (e : elem) : Prop :=
  match load T el with
  | Ok None => forall a, e_f e a = 0
  | Ok (Some Fe) => length Fe = length el /\ forall a, e_f e a = nth a Fe 0
  | Fail _ => False
  end.

(** the balance of one time step at dof (i, j): the heat stored during the step
    is the source minus the weighted mean of the conducted heat *)
Definition theta_balance (esC esK : list elem) (dt theta : R) (T0 T1 : list (list R)) (i j : nat) : Prop :=
  internal_force esC T1 i j - internal_force esC T0 i j =
  dt * (element_load esC i j - theta * internal_force esK T1 i j - (1 - theta) * internal_force esK T0 i j).

(** the square of the distance of two fields in the norm of the capacity *)
Definition cap_dist (esC : list elem) (T S : list (list R)) : R :=
  sum_over esC (fun e => sum_over (e_dofs e) (fun a => sum_over (e_dofs e) (fun b =>
    (duval T a - duval S a) * e_k e (dloc a) (dloc b) * (duval T b - duval S b)))).
(** the heat content *)
Definition heat (esC : list elem) (T : list (list R)) : R :=
  sum_over esC (fun e => sum_over (e_dofs e) (fun a => sum_over (e_dofs e) (fun b => e_k e (dloc a) (dloc b) * duval T b))).

(** a solver that returns solutions *)
Definition exact_solver (solve : csr R -> list R -> res (list R)) : Prop :=
  forall A b x, solve A b = Ok x -> length x = crows A /\ csr_mulvec 0 Rplus Rmult A x = Ok b.

(** the mesh and the tables of a time loop: admissible elements whose dofs
    are in the tables, and every equation belongs to a node of an element *)
Record theta_mesh (dou : list nat) (xs : list (list R)) (s : shape) (q : rule) (elements : list (list nat)) (t0 : table) : Prop := mkThetaMesh {
  tm_dou : length dou = 1%nat;
  tm_piece : forall el, In el elements -> stable_piece 2 xs (mkPiece s q el);
  tm_table : forall el k c, In el elements -> In k el -> In c dou -> in_table t0 k c;
  tm_free : forall i j, num t0 i j <> None -> In j dou /\ exists el, In el elements /\ In i el
}.

(** one triangle; the values at the first two nodes are fixed *)
Definition tri_xs : list (list R) := [[0; 0]; [1; 0]; [0; 1]].
Definition tri_table : table := [[None]; [None]; [Some 0%nat]].
(** no source *)
Definition no_source : source := fun _ _ => Ok None.
