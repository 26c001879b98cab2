(** Specification vocabulary for the load vectors: line elements in the plane,
    virtual work, resultants.  Nothing here depends on the modelled routines. *)
From Coq Require Import List Arith Reals.
From Verif Require Import Res SumR DenseModel DenseSpec ShapeModel QuadModel QuadSpec ElemSpec ElemSpec2.
Import ListNotations.
Local Open Scope R_scope.

(** an admissible call on a line element in the plane *)
Definition line_ok (s : shape) (q : rule) (elem : list nat) (xs : list (list R)) : Prop :=
  In s all_shapes /\ sf_d s = 1%nat /\ length elem = sf_n s /\ nodes_ok 2 elem xs /\ rule_ok 1 q.
(** length of the tangent vector: arc length per unit of the parent coordinate *)
Definition arc (s : shape) (x : nat -> nat -> R) (r : nat -> R) : R :=
  sqrt (tangent s x r 0 0 * tangent s x r 0 0 + tangent s x r 0 1 * tangent s x r 0 1).
(** the point of the plane with parent coordinate r *)
Definition at_point (s : shape) (x : nat -> nat -> R) (r : nat -> R) : list R :=
  [field_value s r x 0; field_value s r x 1].

(** a call that returns a load vector whose virtual work in every nodal field y
    with m components is W y *)
Definition works_as (m n : nat) (dou : list nat) (r : res (list R * list (list (nat * nat)))) (W : (nat -> nat -> R) -> R) : Prop :=
  exists F ne f, r = Ok (F, ne) /\ is_vec F (m * n) f /\ numbered m n dou ne /\
    forall y, bigsum (m * n) (fun a => f a * y (a / m)%nat (a mod m)%nat) = W y.

(** sum of the nodal forces in direction c, and their moment about the origin *)
Definition total_force (n : nat) (f : nat -> R) (c : nat) : R := bigsum n (fun i => f (2 * i + c)%nat).
Definition total_moment (n : nat) (x : nat -> nat -> R) (f : nat -> R) : R :=
  bigsum n (fun i => x i 0%nat * f (2 * i + 1)%nat - x i 1%nat * f (2 * i)%nat).
(** the nodal forces returned have the resultant force and moment of the density
    g (direction c at the parent point p), the moment being taken at the points
    of the element with nodes x *)
Definition has_resultants (d : nat) (s : shape) (q : rule) (x : nat -> nat -> R)
  (r : res (list R * list (list (nat * nat)))) (g : (nat -> R) -> nat -> R) : Prop :=
  exists F ne f, r = Ok (F, ne) /\ is_vec F (2 * sf_n s) f /\
    (forall c, (c < 2)%nat -> total_force (sf_n s) f c = quad d q (fun p => g p c)) /\
    total_moment (sf_n s) x f = quad d q (fun p => field_value s p x 0 * g p 1%nat - field_value s p x 1 * g p 0%nat).

(** *** Follower pressure *)
(** current position of the nodes *)
Definition current (elem : list nat) (xs us : list (list R)) (i c : nat) : R := nodal elem xs i c + nodal elem us i c.
(** virtual work, per unit of the parent coordinate, of the pressure P on the
    curve with nodes x: the force per unit length is P times the unit normal
    (-dx1, dx0)/|dx| *)
Definition pressure_work (s : shape) (x y : nat -> nat -> R) (p : nat -> R) : R :=
  field_value s p y 1 * tangent s x p 0 0 - field_value s p y 0 * tangent s x p 0 1.
(** y x z at node i *)
Definition cross (y z : nat -> nat -> R) (i : nat) : R := y i 1%nat * z i 0%nat - y i 0%nat * z i 1%nat.
(** distance of nodes i and j *)
Definition distance (x : nat -> nat -> R) (i j : nat) : R :=
  sqrt ((x j 0%nat - x i 0%nat) * (x j 0%nat - x i 0%nat) + (x j 1%nat - x i 1%nat) * (x j 1%nat - x i 1%nat)).
