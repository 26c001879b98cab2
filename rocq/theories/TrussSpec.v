(** Notions used in the statements about the truss samples. *)
From Coq Require Import List Arith Lia Bool Reals.
From Verif Require Import Res SumR DenseModel SparseModel AssemblyModel AssemblySpec TopModel TrussModel.
Import ListNotations.
Local Open Scope R_scope.

(** the two ends of bar [i] *)
Definition bar_a (d : truss) (i : nat) : nat := nth 0 (nth i (tr_elements d) []) O.
Definition bar_b (d : truss) (i : nat) : nat := nth 1 (nth i (tr_elements d) []) O.
(** difference of the positions of its ends *)
Definition span (d : truss) (i j : nat) : R := nth j (nth (bar_b d i) (tr_x d) []) 0 - nth j (nth (bar_a d i) (tr_x d) []) 0.
Definition bar_length (d : truss) (i : nat) : R := sqrt (span d i 0 ^ 2 + span d i 1 ^ 2).
(** its elongation in a field of small displacements *)
Definition elongation (d : truss) (i : nat) (v : nat -> nat -> R) : R :=
  (span d i 0 * (v (bar_b d i) 0%nat - v (bar_a d i) 0%nat) + span d i 1 * (v (bar_b d i) 1%nat - v (bar_a d i) 1%nat)) / bar_length d i.
(** the stress in the bar, tension positive *)
Definition stress (d : truss) (i : nat) (v : nat -> nat -> R) : R := tr_E d * elongation d i v / bar_length d i.
(** the resistance of bars with axial forces [f] at node [k] in direction [j] *)
Definition bars_resist (d : truss) (f : nat -> R) (k j : nat) : R :=
  bigsum (length (tr_elements d)) (fun i => f i * (span d i j / bar_length d i) * ((if (bar_b d i =? k)%nat then 1 else 0) - (if (bar_a d i =? k)%nat then 1 else 0))).

(** [v] moves no support *)
Definition respects (d : truss) (v : nat -> nat -> R) : Prop := forall i j w, In (i, j, w) (tr_ufixed d) -> v i j = 0.
(** the dofs that are not supported *)
Definition free_dof (d : truss) (i j : nat) : Prop := (i < length (tr_x d))%nat /\ (j < 2)%nat /\ forall w, ~ In (i, j, w) (tr_ufixed d).
(** no motion without elongation: the truss is not a mechanism *)
Definition rigid_truss (d : truss) : Prop := forall v, respects d v -> (forall i, (i < length (tr_elements d))%nat -> elongation d i v = 0) ->
  forall i j, (i < length (tr_x d))%nat -> (j < 2)%nat -> v i j = 0.

(** bars of positive length between nodes of the plane, immovable supports *)
Record truss_ok (d : truss) : Prop := mkTrussOk {
  trk_plane : forall k, (k < length (tr_x d))%nat -> length (nth k (tr_x d) []) = 2%nat;
  trk_bars : forall el, In el (tr_elements d) -> length el = 2%nat /\ forall k, In k el -> (k < length (tr_x d))%nat;
  trk_length : forall i, (i < length (tr_elements d))%nat -> bar_length d i <> 0;
  trk_fixed : forall i j v, In (i, j, v) (tr_ufixed d) -> (i < length (tr_x d))%nat /\ (j < 2)%nat /\ v = 0;
  trk_loads : forall i j v, In (i, j, v) (tr_qfixed d) -> (i < length (tr_x d))%nat /\ (j < 2)%nat;
  trk_modulus : 0 < tr_E d }.
(** a positive area for every bar *)
Definition areas_ok (d : truss) (A : list R) : Prop := length A = length (tr_elements d) /\ forall i, (i < length A)%nat -> 0 < nth i A 0.
(** axial forces in bars with areas [A] *)
Definition bar_force (d : truss) (A : list R) (v : nat -> nat -> R) (i : nat) : R := stress d i v * nth i A 0.

(** the constants of the size optimisation *)
Definition sizing_ok (z : sizing) : Prop := truss_ok (sz_d z) /\ rigid_truss (sz_d z) /\ tr_elements (sz_d z) <> [] /\ 0 < sz_A0 z <= sz_A1 z /\ 0 < sz_limit z /\ 0 <= sz_scale0 z.
(** the areas of a design *)
Definition design_areas (z : sizing) (s : list R) : list R := map (fun r => sz_A0 z * (1 - r) + sz_A1 z * r) s.
(** entries in [0, 1] *)
Definition closed_design (n : nat) (s : list R) : Prop := length s = n /\ forall i, (i < n)%nat -> 0 <= nth i s 0 <= 1.
(** the weight relative to the allowed one *)
Definition weight_share (z : sizing) (s : list R) : R :=
  let n := length (tr_elements (sz_d z)) in
  bigsum n (fun i => nth i s 0 * bar_length (sz_d z) i) / (sz_limit z * bigsum n (bar_length (sz_d z))).
(** only vanishing forces need no loads: the truss is statically determinate *)
Definition determinate (d : truss) : Prop := forall f, (forall k j, free_dof d k j -> bars_resist d f k j = 0) -> forall i, (i < length (tr_elements d))%nat -> f i = 0.
