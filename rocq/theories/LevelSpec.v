(** Notions used in the statements about the level set sample. *)
From Coq Require Import List Arith Lia Bool Reals.
From Verif Require Import Res SumR DenseModel DenseSpec ShapeModel QuadModel QuadSpec ElemModel ElemSpec SparseModel SparseSpec AssemblyModel AssemblySpec PatchSpec StableSpec GenSpec ThetaModel ThetaSpec TopSpec LevelModel.
Import ListNotations.
Local Open Scope R_scope.

(** an admissible problem: admissible elements that cover the nodes, the supports
    hold every free node, all prescribed values are zero, admissible constants *)
Record level_ok (l : level) : Prop := mkLevelOk {
  lk_piece : forall el, In el (lv_elements l) -> stable_piece 2 (lv_x l) (mkPiece (lv_s l) (lv_q l) el);
  lk_nodes : forall el k, In el (lv_elements l) -> In k el -> (k < length (lv_x l))%nat;
  lk_cover : forall k, (k < length (lv_x l))%nat -> exists el, In el (lv_elements l) /\ In k el;
  lk_some : (0 < length (lv_elements l))%nat;
  lk_fixed : forall i j v, In (i, j, v) (lv_ufixed l) -> (i < length (lv_x l))%nat /\ (j < 2)%nat /\ v = 0;
  lk_loads : forall i j v, In (i, j, v) (lv_qfixed l) -> (i < length (lv_x l))%nat /\ (j < 2)%nat;
  lk_phi : forall i j v, In (i, j, v) (lv_phifixed l) -> (i < length (lv_x l))%nat /\ j = O /\ v = 0;
  lk_held : forall i j, (i < length (lv_x l))%nat -> (j < 2)%nat -> (forall v, ~ In (i, j, v) (lv_ufixed l)) ->
    held (lv_x l) 2 (lv_elements l) (fun k => forall c, (c < 2)%nat -> exists v, In (k, c, v) (lv_ufixed l)) i;
  lk_modulus : 0 < lv_Emin l <= lv_E0 l;
  lk_poisson : -1 < lv_nu l < 1 / 2;
  lk_tau : 0 < lv_tau l; lk_dt : 0 < lv_dt l; lk_nvol : 0 < lv_nvol l; lk_Vmax : 0 < lv_Vmax l }.

(** a free dof of the displacements, a free node of the level set function *)
Definition free_dof (l : level) (i j : nat) : Prop := (i < length (lv_x l))%nat /\ (j < 2)%nat /\ forall v, ~ In (i, j, v) (lv_ufixed l).
Definition free_node (l : level) (i : nat) : Prop := (i < length (lv_x l))%nat /\ forall v, ~ In (i, O, v) (lv_phifixed l).
(** the structure: a value of every element between zero and one *)
Definition shares (l : level) (str : list R) : Prop :=
  length str = length (lv_elements l) /\ forall i, (i < length (lv_elements l))%nat -> 0 <= nth i str 0 <= 1.
(** one value per node *)
Definition nodal_field (l : level) (phi : list (list R)) : Prop :=
  length phi = length (lv_x l) /\ forall i, (i < length (lv_x l))%nat -> length (nth i phi []) = 1%nat.

(** element [i] for every [i], with the modulus [E i] and Poisson's ratio [V] *)
Definition stress_elems (l : level) (E : nat -> R) (V : R) (es : list elem) : Prop :=
  Forall2 (fun i e => made_by (fun s q el => PlaneStressStiffness s q el [0%nat; 1%nat] (lv_x l) (E i) V 1)
                        (mkPiece (lv_s l) (lv_q l) (nth i (lv_elements l) [])) e) (seq 0 (length (lv_elements l))) es.
Definition no_elem : elem := mkElem [] [] (mkMat 0 0 []) [].
(** twice the strain energy of an element *)
Definition energy2 (e : elem) (u : list (list R)) : R :=
  sum_over (e_dofs e) (fun a => sum_over (e_dofs e) (fun b => duval u a * e_k e (dloc a) (dloc b) * duval u b)).

(** the elements of the diffusion step: mass with the reaction, stiffness *)
Definition level_source (l : level) (tdn : list (list R)) (C lambda : R) : source :=
  fun _ el => ' (Fe, _) <- ReactionDiffusionReaction (lv_s l) (lv_q l) el [0%nat] (lv_x l) tdn (fun u _ => C * (u - lambda)) ;; Ok (Some Fe).
Definition diffusion_elems (l : level) (tdn : list (list R)) (C lambda : R) (esM esK : list elem) : Prop :=
  let P := map (mkPiece (lv_s l) (lv_q l)) (lv_elements l) in
  Forall2 (made_by (fun s q el => ReactionDiffusionConsistentMass s q el [0%nat] (lv_x l))) P esM /\
  Forall2 (made_by (fun s q el => ReactionDiffusionStiffness s q el [0%nat] (lv_x l) (lv_tau l * INR (length (lv_elements l))))) P esK /\
  Forall2 (carries (level_source l tdn C lambda) []) (lv_elements l) esM.
(** [phi0] is [phi] with the value zero at the fixed nodes *)
Definition zero_edge (l : level) (phi phi0 : list (list R)) : Prop :=
  nodal_field l phi0 /\ forall i, (i < length (lv_x l))%nat ->
    (free_node l i -> uval phi0 i 0 = uval phi i 0) /\ (~ free_node l i -> uval phi0 i 0 = 0).
(** the functional that a diffusion step from [phi0] minimises *)
Definition step_energy (esM esK : list elem) (dt : R) (phi0 phi : list (list R)) : R :=
  cap_dist esM phi phi0 / (2 * dt) + sum_over esK (fun e => energy2 e phi) / 2 -
  sum_over esM (fun e => sum_over (e_dofs e) (fun a => e_f e (dloc a) * duval phi a)).

(** the states of the loop *)
Record level_state (l : level) (tmax : nat) (st : lv_state) : Prop := mkLevelState {
  lz_obj : length (ls_obj st) = tmax;
  lz_phi : nodal_field l (ls_phi st);
  lz_range : forall i, (i < length (lv_x l))%nat -> -1 <= uval (ls_phi st) i 0 <= 1;
  lz_str : length (ls_str st) = length (lv_elements l);
  lz_bit : forall i, (i < length (lv_elements l))%nat -> nth i (ls_str st) 0 = 0 \/ nth i (ls_str st) 0 = 1 }.

(** the same problem with other loads *)
Definition with_loads (l : level) (f : list (nat * nat * R)) : level :=
  mkLevel (lv_x l) (lv_elements l) (lv_ufixed l) f (lv_phifixed l) (lv_s l) (lv_q l)
    (lv_Vmax l) (lv_tau l) (lv_E0 l) (lv_Emin l) (lv_nu l) (lv_nvol l) (lv_dt l) (lv_d l) (lv_p l).
Definition scale_loads (k : R) (f : list (nat * nat * R)) : list (nat * nat * R) := map (fun w => (fst w, k * snd w)) f.
