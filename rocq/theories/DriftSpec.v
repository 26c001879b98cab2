(** Notions used in the statements about the static advection-diffusion sample. *)
From Coq Require Import List Arith Lia Bool Reals.
From Verif Require Import Res SumR DenseModel DenseSpec ShapeModel QuadModel ElemSpec SupgSpec SparseModel SparseSpec AssemblyModel AssemblySpec KrylovSpec PatchSpec StaticModel StaticSpec FrameSpec DriftModel.
Import ListNotations.
Local Open Scope R_scope.

(** a solver that is right on positive definite matrices, symmetric or not *)
Definition pd_solver (solve : csr R -> list R -> res (list R)) : Prop :=
  forall n A b, square_csr n A -> length b = n -> pos_def n (entry A) ->
    exists x, solve A b = Ok x /\ length x = n /\ csr_mulvec 0 Rplus Rmult A x = Ok b.

(** coordinates of the nodes *)
Definition px (xs : list (list R)) (k : nat) : R := nth 0 (nth k xs []) 0.
Definition py (xs : list (list R)) (k : nat) : R := nth 1 (nth k xs []) 0.
(** twice the signed area of a triangle *)
Definition area2 (xs : list (list R)) (el : list nat) : R :=
  let k i := nth i el O in
  (px xs (k 0%nat) - px xs (k 2%nat)) * (py xs (k 1%nat) - py xs (k 2%nat)) - (py xs (k 0%nat) - py xs (k 2%nat)) * (px xs (k 1%nat) - px xs (k 2%nat)).
(** a triangle with its nodes counterclockwise *)
Definition ccw (xs : list (list R)) (el : list nat) : Prop := length el = 3%nat /\ nodes_ok 2 el xs /\ 0 < area2 xs el.
(** the gradient of the linear function with the values z at the corners *)
Definition slope2 (xs : list (list R)) (el : list nat) (z : nat -> R) (l : nat) : R :=
  let k i := nth i el O in
  match l with
  | O => ((z 0%nat - z 2%nat) * (py xs (k 1%nat) - py xs (k 2%nat)) - (z 1%nat - z 2%nat) * (py xs (k 0%nat) - py xs (k 2%nat))) / area2 xs el
  | _ => ((z 1%nat - z 2%nat) * (px xs (k 0%nat) - px xs (k 2%nat)) - (z 0%nat - z 2%nat) * (px xs (k 1%nat) - px xs (k 2%nat))) / area2 xs el
  end.
(** its derivative along the velocity *)
Definition along2 (d : drift) (el : list nat) (z : nat -> R) : R := dr_ax d * slope2 (dr_x d) el z 0 + dr_ay d * slope2 (dr_x d) el z 1.
Definition corner (i j : nat) : R := if (j =? i)%nat then 1 else 0.
(** the length of the triangle along the flow *)
Definition length2 (d : drift) (el : list nat) : R :=
  2 * vel (dr_ax d) (dr_ay d) / bigsum 3 (fun i => Rabs (along2 d el (corner i))).
(** advection, diffusion and streamline diffusion of a triangle: area times
    (mean of y) (a . grad z) + k grad y . grad z + tau (a . grad y) (a . grad z) *)
Definition drift_form (d : drift) (el : list nat) (y z : nat -> R) : R :=
  area2 (dr_x d) el / 2 *
  ((y 0%nat + y 1%nat + y 2%nat) / 3 * along2 d el z
   + dr_k d * (slope2 (dr_x d) el y 0 * slope2 (dr_x d) el z 0 + slope2 (dr_x d) el y 1 * slope2 (dr_x d) el z 1)
   + tau_supg (dr_ax d) (dr_ay d) (dr_k d) (length2 d el) * (along2 d el y * along2 d el z)).
(** the values at the corners *)
Definition corners (z : nat -> R) (el : list nat) (i : nat) : R := z (nth i el O).
(** the field has the prescribed values, and the form of all triangles vanishes for
    every test field that vanishes at the prescribed nodes *)
Definition weak_form (d : drift) (T : list (list R)) : Prop :=
  (forall i j v, last_value (dr_fixed d) i j = Some v -> uval T i j = v) /\
  forall y : nat -> R, (forall i, last_value (dr_fixed d) i 0 <> None -> y i = 0) ->
    sum_over (dr_elements d) (fun el => drift_form d el (corners y el) (corners (fun i => uval T i 0) el)) = 0.
(** the flow out through a side (the domain on its left) *)
Definition outflow (d : drift) (sd : list nat) : R :=
  match sd with [i; j] => dr_ax d * (py (dr_x d) j - py (dr_x d) i) - dr_ay d * (px (dr_x d) j - px (dr_x d) i) | _ => 0 end.
(** the flow of the gradient (gx, gy) out through a side *)
Definition through (d : drift) (gx gy : R) (sd : list nat) : R :=
  match sd with [i; j] => gx * (py (dr_x d) j - py (dr_x d) i) - gy * (px (dr_x d) j - px (dr_x d) i) | _ => 0 end.
(** admissible data: every side is shared by two triangles, or its values are
    prescribed, or the flow leaves through it *)
Record drift_ok (d : drift) : Prop := mkDriftOk {
  dk_k : 0 < dr_k d; dk_a : dr_a d <> 0;
  dk_tri : forall el, In el (dr_elements d) -> ccw (dr_x d) el;
  dk_fixed : forall i j v, In (i, j, v) (dr_fixed d) -> (i < length (dr_x d))%nat /\ (j < 1)%nat;
  dk_sides : forall sd, In sd (flat_map sides (dr_elements d)) ->
    count_occ (list_eq_dec Nat.eq_dec) (flat_map sides (dr_elements d)) sd = count_occ (list_eq_dec Nat.eq_dec) (flat_map sides (dr_elements d)) (rev sd) \/
    (forall k, In k sd -> last_value (dr_fixed d) k 0 <> None) \/ 0 <= outflow d sd;
  dk_tied : forall i, (i < length (dr_x d))%nat -> tied (dr_elements d) (fun k => last_value (dr_fixed d) k 0 <> None) i }.
(** the same data with the values g at the prescribed nodes *)
Definition prescribe (d : drift) (g : nat -> R) : drift :=
  mkDrift (dr_x d) (dr_elements d) (map (fun w => (fst w, g (fst (fst w)))) (dr_fixed d)) (dr_a d) (dr_theta d) (dr_k d).
(** the mesh and the flow turned by phi degrees *)
Definition turn2 (phi : R) (v : list R) : list R :=
  [cos (phi * PI / 180) * nth 0 v 0 - sin (phi * PI / 180) * nth 1 v 0; sin (phi * PI / 180) * nth 0 v 0 + cos (phi * PI / 180) * nth 1 v 0].
Definition turned (d : drift) (phi : R) : drift := mkDrift (map (turn2 phi) (dr_x d)) (dr_elements d) (dr_fixed d) (dr_a d) (dr_theta d + phi) (dr_k d).
(** lengths times l, speed times m, diffusion times l m: the same Peclet number *)
Definition grow2 (l : R) (v : list R) : list R := [l * nth 0 v 0; l * nth 1 v 0].
Definition similar (d : drift) (l m : R) : drift := mkDrift (map (grow2 l) (dr_x d)) (dr_elements d) (dr_fixed d) (m * dr_a d) (dr_theta d) (l * m * dr_k d).
