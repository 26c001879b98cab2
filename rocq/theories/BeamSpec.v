(** Specification vocabulary for the beam and the shells: a solid swept out by
    directors attached to the nodes of a line or of a surface, its tangent vectors,
    the gradient of a displacement by the chain rule, and the energy densities. *)
From Coq Require Import List Arith Reals.
From Verif Require Import Res SumR DenseModel DenseSpec ShapeModel QuadModel QuadSpec ElemSpec.
Import ListNotations.
Local Open Scope R_scope.

(** vectors of the space *)
Definition dot3 (a b : nat -> R) : R := bigsum 3 (fun c => a c * b c).
Definition cross3 (a b : nat -> R) (c : nat) : R :=
  match c with
  | O => a 1%nat * b 2%nat - a 2%nat * b 1%nat
  | 1%nat => a 2%nat * b 0%nat - a 0%nat * b 2%nat
  | _ => a 0%nat * b 1%nat - a 1%nat * b 0%nat
  end.
Definition unit3 (a : nat -> R) (c : nat) : R := a c / sqrt (dot3 a a).
Definition nonzero3 (a : nat -> R) : Prop := exists c, (c < 3)%nat /\ a c <> 0.

(** the point (r, xi) of the solid is sum_i N_i(r) (x_i + sum_(j < m) w_j xi_j V_j,i):
    component l of its derivative in direction k, the first directions being those
    of the line or surface and the others those of the m directors *)
Definition layer_tangent (s : shape) (m : nat) (w : nat -> R) (x : nat -> nat -> R) (V : nat -> nat -> nat -> R)
  (r xi : nat -> R) (k l : nat) : R :=
  if (k <? sf_d s)%nat
  then bigsum (sf_n s) (fun i => dshp s r k i * (x i l + bigsum m (fun j => w j * xi j * V j i l)))
  else bigsum (sf_n s) (fun i => shp s r i * (w (k - sf_d s)%nat * V (k - sf_d s)%nat i l)).
(** [H l c] is the derivative in direction x_l of component c of the displacement
    which moves node i by u i and changes its directors by U j i *)
Definition layer_gradient (s : shape) (m : nat) (w : nat -> R) (x : nat -> nat -> R) (V : nat -> nat -> nat -> R)
  (u : nat -> nat -> R) (U : nat -> nat -> nat -> R) (r xi : nat -> R) (H : nat -> nat -> R) : Prop :=
  forall k c, (k < 3)%nat -> (c < 3)%nat ->
    bigsum 3 (fun l => layer_tangent s m w x V r xi k l * H l c) = layer_tangent s m w u U r xi k c.

(** the change of the directors under the rotation vector made of the components
    3, 4, 5 of the nodal field *)
Definition rotated (V : nat -> nat -> nat -> R) (z : nat -> nat -> R) (j i c : nat) : R :=
  cross3 (fun l => z i (3 + l)%nat) (V j i) c.

(** component of a tensor in the directions p and r *)
Definition along (e : nat -> nat -> R) (p r : nat -> R) : R := bigsum 3 (fun l => bigsum 3 (fun c => p l * e l c * r c)).

(** strain energy of a beam with axis P0 (section P1, P2): axial strain with
    Young's modulus, transverse shear with 5/6 of the shear modulus *)
Definition beam_energy (E V : R) (P0 P1 P2 : nat -> R) (e f : nat -> nat -> R) : R :=
  E * along e P0 P0 * along f P0 P0
  + 5 / 6 * lame_mu E V * ((2 * along e P0 P1) * (2 * along f P0 P1) + (2 * along e P0 P2) * (2 * along f P0 P2)).
(** strain energy of a shell with tangent plane P0, P1 and normal P2: plane stress
    in the tangent plane, transverse shear with 5/6 of the shear modulus *)
Definition shell_energy (E V : R) (P0 P1 P2 : nat -> R) (e f : nat -> nat -> R) : R :=
  E / (1 - V * V) * (along e P0 P0 * along f P0 P0 + along e P1 P1 * along f P1 P1
                     + V * (along e P0 P0 * along f P1 P1 + along e P1 P1 * along f P0 P0))
  + lame_mu E V * ((2 * along e P0 P1) * (2 * along f P0 P1))
  + 5 / 6 * lame_mu E V * ((2 * along e P0 P2) * (2 * along f P0 P2) + (2 * along e P1 P2) * (2 * along f P1 P2)).

(** every listed node exists and has exactly three components *)
Definition nodes3 (elem : list nat) (xs : list (list R)) : Prop :=
  forall e, In e elem -> (e < length xs)%nat /\ length (nth e xs []) = 3%nat.

(** H is the gradient of the displacement at all points of the two rules *)
Definition layer_gradients (s : shape) (q0 q1 : rule) (m : nat) (w : nat -> R) (x : nat -> nat -> R) (V : nat -> nat -> nat -> R)
  (u : nat -> nat -> R) (U : nat -> nat -> nat -> R) (H : (nat -> R) -> (nat -> R) -> nat -> nat -> R) : Prop :=
  forall g h, (g < q_n q0)%nat -> (h < q_n q1)%nat -> layer_gradient s m w x V u U (pt q0 g) (pt q1 h) (H (pt q0 g) (pt q1 h)).
(** a call that returns the stiffness matrix of a solid with m directors per node
    and nd components per node: the form is the quadrature, over the line or surface
    and over the section or thickness, of the volume element times W of the strains.
    [U] says how a nodal field changes the directors. *)
Definition layer_stiffness_of (nd m : nat) (s : shape) (q0 q1 : rule) (w : nat -> R) (V : nat -> nat -> nat -> R)
  (U : (nat -> nat -> R) -> nat -> nat -> nat -> R) (W : (nat -> R) -> (nat -> R) -> (nat -> nat -> R) -> (nat -> nat -> R) -> R)
  (elem dou : list nat) (xs : list (list R)) (r : res (mat R * list (list (nat * nat)))) : Prop :=
  exists K ne k, r = Ok (K, ne) /\ is_mat K (nd * length elem) (nd * length elem) k /\ numbered nd (length elem) dou ne /\
    forall y z Hy Hz, layer_gradients s q0 q1 m w (nodal elem xs) V y (U y) Hy ->
      layer_gradients s q0 q1 m w (nodal elem xs) V z (U z) Hz ->
      form nd (length elem) k y z =
        quad (sf_d s) q0 (fun p => quad m q1 (fun xi =>
          det3 (layer_tangent s m w (nodal elem xs) V p xi) * W p xi (strain (Hy p xi)) (strain (Hz p xi)))).

(** ** The beam *)
(** half the side lengths of the section *)
Definition half_sides (a b : R) (j : nat) : R := match j with O => a / 2 | _ => b / 2 end.
(** the unit directors of node i *)
Definition beam_dirs (elem : list nat) (v1s v2s : list (list R)) (j i c : nat) : R :=
  match j with O => unit3 (nodal elem v1s i) c | _ => unit3 (nodal elem v2s i) c end.
(** the directions of the section and of the axis at a point *)
Definition beam_side (s : shape) (V : nat -> nat -> nat -> R) (j : nat) (r : nat -> R) : nat -> R :=
  unit3 (fun c => bigsum (sf_n s) (fun i => shp s r i * V j i c)).
Definition beam_axis (s : shape) (V : nat -> nat -> nat -> R) (r : nat -> R) : nat -> R :=
  unit3 (cross3 (beam_side s V 0 r) (beam_side s V 1 r)).
Definition beam_W (s : shape) (V : nat -> nat -> nat -> R) (E v : R) (p xi : nat -> R) : (nat -> nat -> R) -> (nat -> nat -> R) -> R :=
  beam_energy E v (beam_axis s V p) (beam_side s V 0 p) (beam_side s V 1 p).
(** an admissible beam *)
Definition beam_ok (s : shape) (q0 q1 : rule) (elem : list nat) (xs v1s v2s : list (list R)) (a b : R) : Prop :=
  In s all_shapes /\ sf_d s = 1%nat /\ length elem = sf_n s /\ nodes_ok 3 elem xs /\ rule_ok 1 q0 /\ rule_ok 2 q1 /\
  nodes3 elem v1s /\ nodes3 elem v2s /\
  (forall i, (i < length elem)%nat -> nonzero3 (nodal elem v1s i) /\ nonzero3 (nodal elem v2s i)) /\
  forall g h, (g < q_n q0)%nat -> (h < q_n q1)%nat ->
    det3 (layer_tangent s 2 (half_sides a b) (nodal elem xs) (beam_dirs elem v1s v2s) (pt q0 g) (pt q1 h)) <> 0.

(** ** The shells *)
(** the first side of the element *)
Definition first_side (elem : list nat) (xs : list (list R)) (c : nat) : R := nodal elem xs 1 c - nodal elem xs 0 c.
Definition ref_point (s : shape) (i : nat) : nat -> R := fun k => nth k (nth i (sf_points s) []) 0.
(** unit normal and tangents of the surface at node i *)
Definition surface_normal (s : shape) (x : nat -> nat -> R) (i : nat) : nat -> R :=
  cross3 (tangent s x (ref_point s i) 0) (tangent s x (ref_point s i) 1).
Definition shell_v3 (s : shape) (x : nat -> nat -> R) (i : nat) : nat -> R := unit3 (surface_normal s x i).
Definition shell_v1 (s : shape) (x : nat -> nat -> R) (l : nat -> R) (i : nat) : nat -> R := unit3 (cross3 l (shell_v3 s x i)).
Definition shell_v2 (s : shape) (x : nat -> nat -> R) (l : nat -> R) (i : nat) : nat -> R := cross3 (shell_v3 s x i) (shell_v1 s x l i).
Definition shell_dirs (s : shape) (x : nat -> nat -> R) (j i c : nat) : R := shell_v3 s x i c.
(** five components per node: rotations about v1 and v2 *)
Definition tilted (s : shape) (x : nat -> nat -> R) (l : nat -> R) (z : nat -> nat -> R) (j i c : nat) : R :=
  z i 4%nat * shell_v1 s x l i c - z i 3%nat * shell_v2 s x l i c.
(** the normal and the tangents of the layer at a point *)
Definition layer_normal (T : nat -> nat -> R) : nat -> R := unit3 (cross3 (T 0%nat) (T 1%nat)).
Definition layer_P0 (l : nat -> R) (T : nat -> nat -> R) : nat -> R := unit3 (cross3 l (layer_normal T)).
Definition layer_P1 (l : nat -> R) (T : nat -> nat -> R) : nat -> R := cross3 (layer_normal T) (layer_P0 l T).
Definition shell_T (s : shape) (t : R) (x : nat -> nat -> R) : (nat -> R) -> (nat -> R) -> nat -> nat -> R :=
  layer_tangent s 1 (fun _ => t / 2) x (shell_dirs s x).
Definition shell_W (s : shape) (x : nat -> nat -> R) (l : nat -> R) (E v t : R) (p xi : nat -> R) : (nat -> nat -> R) -> (nat -> nat -> R) -> R :=
  shell_energy E v (layer_P0 l (shell_T s t x p xi)) (layer_P1 l (shell_T s t x p xi)) (layer_normal (shell_T s t x p xi)).
(** an admissible shell: the surface is regular at the nodes, the solid at the points
    of the rules, and the first side is not parallel to a normal *)
Definition shell_ok (s : shape) (q0 q1 : rule) (elem : list nat) (xs : list (list R)) (t : R) : Prop :=
  In s all_shapes /\ sf_d s = 2%nat /\ length elem = sf_n s /\ nodes3 elem xs /\ rule_ok 2 q0 /\ rule_ok 1 q1 /\
  (forall i, (i < length elem)%nat -> nonzero3 (surface_normal s (nodal elem xs) i) /\
     nonzero3 (cross3 (first_side elem xs) (shell_v3 s (nodal elem xs) i))) /\
  forall g h, (g < q_n q0)%nat -> (h < q_n q1)%nat ->
    det3 (shell_T s t (nodal elem xs) (pt q0 g) (pt q1 h)) <> 0 /\
    nonzero3 (cross3 (first_side elem xs) (layer_normal (shell_T s t (nodal elem xs) (pt q0 g) (pt q1 h)))).

(** the directions of the layer form a right-handed frame at all points of the two rules, and their weights are positive *)
Definition positive_layer (s : shape) (q0 q1 : rule) (m : nat) (T : (nat -> R) -> (nat -> R) -> nat -> nat -> R) : Prop :=
  (forall g h, (g < q_n q0)%nat -> (h < q_n q1)%nat -> 0 < det3 (T (pt q0 g) (pt q1 h))) /\
  (forall g, (g < q_n q0)%nat -> 0 < wprod (sf_d s) (nth g (q_weights q0) [])) /\
  (forall h, (h < q_n q1)%nat -> 0 < wprod m (nth h (q_weights q1) [])).

(** the five components of the six-component nodal vector y: the rotations about the two tangents of the nodal frame *)
Definition projected (s : shape) (x : nat -> nat -> R) (l : nat -> R) (y : nat -> nat -> R) (i c : nat) : R :=
  match c with
  | 3%nat => dot3 (fun k => y i (3 + k)%nat) (shell_v1 s x l i)
  | 4%nat => dot3 (fun k => y i (3 + k)%nat) (shell_v2 s x l i)
  | _ => y i c
  end.

(** ** The straight prismatic beam with two nodes *)
(** component in direction p of the difference of the displacements and of the
    rotations of the two nodes, and of the mean rotation *)
Definition stretch (y : nat -> nat -> R) (p : nat -> R) : R := dot3 (fun c => y 1%nat c - y 0%nat c) p.
Definition turn (y : nat -> nat -> R) (p : nat -> R) : R := dot3 (fun c => y 1%nat (3 + c)%nat - y 0%nat (3 + c)%nat) p.
Definition mean_turn (y : nat -> nat -> R) (p : nat -> R) : R := dot3 (fun c => (y 0%nat (3 + c)%nat + y 1%nat (3 + c)%nat) / 2) p.
(** a rule over the square that is exact for the moments of a section up to order 2 *)
Definition section_rule (q : rule) : Prop :=
  quad 2 q (fun _ => 1) = 4 /\ quad 2 q (fun xi => xi 0%nat) = 0 /\ quad 2 q (fun xi => xi 1%nat) = 0 /\
  quad 2 q (fun xi => xi 0%nat * xi 0%nat) = 4 / 3 /\ quad 2 q (fun xi => xi 1%nat * xi 1%nat) = 4 / 3 /\ quad 2 q (fun xi => xi 0%nat * xi 1%nat) = 0.
(** a rule over the thickness exact for the moments up to order 2 *)
Definition thickness_rule (q : rule) : Prop :=
  quad 1 q (fun _ => 1) = 2 /\ quad 1 q (fun xi => xi 0%nat) = 0 /\ quad 1 q (fun xi => xi 0%nat * xi 0%nat) = 2 / 3.
(** two nodes at distance l along d1 x d2, the nodal directors being multiples of
    the orthonormal vectors d1 and d2 *)
Definition straight (elem : list nat) (xs v1s v2s : list (list R)) (l : R) (d1 d2 : nat -> R) : Prop :=
  dot3 d1 d1 = 1 /\ dot3 d2 d2 = 1 /\ dot3 d1 d2 = 0 /\
  (forall c, (c < 3)%nat -> nodal elem xs 1 c - nodal elem xs 0 c = l * cross3 d1 d2 c) /\
  forall i, (i < 2)%nat -> exists r1 r2, 0 < r1 /\ 0 < r2 /\
    forall c, (c < 3)%nat -> nodal elem v1s i c = r1 * d1 c /\ nodal elem v2s i c = r2 * d2 c.
(** strain energy of a Timoshenko beam of length l with one integration point and
    rectangular section a x b (5/6 shear correction, also on the torsion): axial
    force, the two bending moments, the two shear forces, torsion *)
Definition timoshenko (E G l a b : R) (d1 d2 : nat -> R) (y z : nat -> nat -> R) : R :=
  let t := cross3 d1 d2 in
  let A := a * b in let I1 := a * b ^ 3 / 12 in let I2 := b * a ^ 3 / 12 in
  E * A / l * (stretch y t * stretch z t)
  + E * I1 / l * (turn y d1 * turn z d1) + E * I2 / l * (turn y d2 * turn z d2)
  + 5 / 6 * G * A / l * ((stretch y d1 - l * mean_turn y d2) * (stretch z d1 - l * mean_turn z d2)
                         + (stretch y d2 + l * mean_turn y d1) * (stretch z d2 + l * mean_turn z d1))
  + 5 / 6 * G * (I1 + I2) / l * (turn y t * turn z t).

(** ** The flat shell *)
(** nodal values of the displacement of the director of a flat shell, by which the
    in-plane displacement varies over the thickness: (theta_y, - theta_x) *)
Definition tilt (y : nat -> nat -> R) (i c : nat) : R := match c with O => y i 4%nat | _ => - y i 3%nat end.
(** the nodes lie in the plane z = 0, counterclockwise, and the first side is not degenerate *)
Definition flat (s : shape) (q0 : rule) (elem : list nat) (xs : list (list R)) : Prop :=
  In s all_shapes /\ sf_d s = 2%nat /\ length elem = sf_n s /\ nodes3 elem xs /\ rule_ok 2 q0 /\
  (forall i, (i < length elem)%nat -> nodal elem xs i 2 = 0 /\ 0 < jac s (nodal elem xs) (ref_point s i)) /\
  (forall g, (g < q_n q0)%nat -> 0 < jac s (nodal elem xs) (pt q0 g)) /\
  (first_side elem xs 0 <> 0 \/ first_side elem xs 1 <> 0).
(** strain energy of a Reissner-Mindlin plate with membrane stiffness: h is the
    gradient of the displacement, k the gradient and v the value of the tilt *)
Definition plate_energy (E v t : R) (hy ky : nat -> nat -> R) (vy : nat -> R) (hz kz : nat -> nat -> R) (vz : nat -> R) : R :=
  let lambda := E * v / ((1 - v) * (1 + v)) in
  t * hooke 2 lambda (lame_mu E v) (strain hy) (strain hz)
  + t ^ 3 / 12 * hooke 2 lambda (lame_mu E v) (strain ky) (strain kz)
  + 5 / 6 * lame_mu E v * t * bigsum 2 (fun l => (hy l 2%nat + vy l) * (hz l 2%nat + vz l)).
