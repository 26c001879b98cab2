(** Model of src/FEM/Controller/GaussIntegration.h and NewtonCotesIntegration.h.
    The tables are transcribed literally (T() is 0, sqrt and cbrt are the exact
    real roots). *)
From Coq Require Import List Arith Reals.
Import ListNotations.
Local Open Scope R_scope.

(** real cube root of a positive number *)
Definition cbrt (x : R) : R := Rpower x (1 / 3).

Record rule := mkRule {
  q_n : nat;                    (** static const int N *)
  q_points : list (list R);     (** Points *)
  q_weights : list (list R)     (** Weights: one factor per direction *)
}.

(** GaussIntegration.h:18-35 (Points 27-29, Weights 33-35) *)
Definition Gauss1Line : rule := mkRule 1
    [[0]]
    [[2]].

(** GaussIntegration.h:40-59 (Points 49-52, Weights 56-59) *)
Definition Gauss2Line : rule := mkRule 2
    [[- 1 / sqrt 3];
     [1/sqrt 3]]
    [[1];
     [1]].

(** GaussIntegration.h:64-81 (Points 73-75, Weights 79-81) *)
Definition Gauss1Triangle : rule := mkRule 1
    [[1 / 3; 1 / 3]]
    [[1 / sqrt 2; 1 / sqrt 2]].

(** GaussIntegration.h:86-107 (Points 95-99, Weights 103-107) *)
Definition Gauss3Triangle : rule := mkRule 3
    [[1 / 6; 1 / 6];
     [2 / 3; 1 / 6];
     [1 / 6; 2 / 3]]
    [[1 / sqrt 6; 1 / sqrt 6];
     [1 / sqrt 6; 1 / sqrt 6];
     [1 / sqrt 6; 1 / sqrt 6]].

(** GaussIntegration.h:112-129 (Points 121-123, Weights 127-129) *)
Definition Gauss1Square : rule := mkRule 1
    [[0; 0]]
    [[2; 2]].

(** GaussIntegration.h:134-157 (Points 143-148, Weights 152-157) *)
Definition Gauss4Square : rule := mkRule 4
    [[- 1 / sqrt 3; - 1 / sqrt 3];
     [1 / sqrt 3; - 1 / sqrt 3];
     [- 1 / sqrt 3; 1 / sqrt 3];
     [1 / sqrt 3; 1 / sqrt 3]]
    [[1; 1];
     [1; 1];
     [1; 1];
     [1; 1]].

(** GaussIntegration.h:162-195 (Points 171-181, Weights 185-195) *)
Definition Gauss9Square : rule := mkRule 9
    [[-sqrt (3 / 5); -sqrt (3 / 5)];
     [0; -sqrt (3 / 5)];
     [sqrt (3 / 5); -sqrt (3 / 5)];
     [-sqrt (3 / 5); 0];
     [0; 0];
     [sqrt (3 / 5); 0];
     [-sqrt (3 / 5); sqrt (3 / 5)];
     [0; sqrt (3 / 5)];
     [sqrt (3 / 5); sqrt (3 / 5)]]
    [[5 / 9; 5 / 9];
     [8 / 9; 5 / 9];
     [5 / 9; 5 / 9];
     [5 / 9; 8 / 9];
     [8 / 9; 8 / 9];
     [5 / 9; 8 / 9];
     [5 / 9; 5 / 9];
     [8 / 9; 5 / 9];
     [5 / 9; 5 / 9]].

(** GaussIntegration.h:200-217 (Points 209-211, Weights 215-217) *)
Definition Gauss1Tetrahedron : rule := mkRule 1
    [[1 / 4; 1 / 4; 1 / 4]]
    [[1 / cbrt 6; 1 / cbrt 6; 1 / cbrt 6]].

(** GaussIntegration.h:222-253 (Points 231-240, Weights 244-253) *)
Definition Gauss8Cubic : rule := mkRule 8
    [[- 1 / sqrt 3; - 1 / sqrt 3; - 1 / sqrt 3];
     [1 / sqrt 3; - 1 / sqrt 3; - 1 / sqrt 3];
     [1 / sqrt 3; 1 / sqrt 3; - 1 / sqrt 3];
     [- 1 / sqrt 3; 1 / sqrt 3; - 1 / sqrt 3];
     [- 1 / sqrt 3; - 1 / sqrt 3; 1 / sqrt 3];
     [1 / sqrt 3; - 1 / sqrt 3; 1 / sqrt 3];
     [1 / sqrt 3; 1 / sqrt 3; 1 / sqrt 3];
     [- 1 / sqrt 3; 1 / sqrt 3; 1 / sqrt 3]]
    [[1; 1; 1];
     [1; 1; 1];
     [1; 1; 1];
     [1; 1; 1];
     [1; 1; 1];
     [1; 1; 1];
     [1; 1; 1];
     [1; 1; 1]].

(** GaussIntegration.h:258-327 (Points 267-295, Weights 299-327) *)
Definition Gauss27Cubic : rule := mkRule 27
    [[-sqrt (3 / 5); -sqrt (3 / 5); -sqrt (3 / 5)];
     [0; -sqrt (3 / 5); -sqrt (3 / 5)];
     [sqrt (3 / 5); -sqrt (3 / 5); -sqrt (3 / 5)];
     [-sqrt (3 / 5); 0; -sqrt (3 / 5)];
     [0; 0; -sqrt (3 / 5)];
     [sqrt (3 / 5); 0; -sqrt (3 / 5)];
     [-sqrt (3 / 5); sqrt (3 / 5); -sqrt (3 / 5)];
     [0; sqrt (3 / 5); -sqrt (3 / 5)];
     [sqrt (3 / 5); sqrt (3 / 5); -sqrt (3 / 5)];
     [-sqrt (3 / 5); -sqrt (3 / 5); 0];
     [0; -sqrt (3 / 5); 0];
     [sqrt (3 / 5); -sqrt (3 / 5); 0];
     [-sqrt (3 / 5); 0; 0];
     [0; 0; 0];
     [sqrt (3 / 5); 0; 0];
     [-sqrt (3 / 5); sqrt (3 / 5); 0];
     [0; sqrt (3 / 5); 0];
     [sqrt (3 / 5); sqrt (3 / 5); 0];
     [-sqrt (3 / 5); -sqrt (3 / 5); sqrt (3 / 5)];
     [0; -sqrt (3 / 5); sqrt (3 / 5)];
     [sqrt (3 / 5); -sqrt (3 / 5); sqrt (3 / 5)];
     [-sqrt (3 / 5); 0; sqrt (3 / 5)];
     [0; 0; sqrt (3 / 5)];
     [sqrt (3 / 5); 0; sqrt (3 / 5)];
     [-sqrt (3 / 5); sqrt (3 / 5); sqrt (3 / 5)];
     [0; sqrt (3 / 5); sqrt (3 / 5)];
     [sqrt (3 / 5); sqrt (3 / 5); sqrt (3 / 5)]]
    [[5 / 9; 5 / 9; 5 / 9];
     [8 / 9; 5 / 9; 5 / 9];
     [5 / 9; 5 / 9; 5 / 9];
     [5 / 9; 8 / 9; 5 / 9];
     [8 / 9; 8 / 9; 5 / 9];
     [5 / 9; 8 / 9; 5 / 9];
     [5 / 9; 5 / 9; 5 / 9];
     [8 / 9; 5 / 9; 5 / 9];
     [5 / 9; 5 / 9; 5 / 9];
     [5 / 9; 5 / 9; 8 / 9];
     [8 / 9; 5 / 9; 8 / 9];
     [5 / 9; 5 / 9; 8 / 9];
     [5 / 9; 8 / 9; 8 / 9];
     [8 / 9; 8 / 9; 8 / 9];
     [5 / 9; 8 / 9; 8 / 9];
     [5 / 9; 5 / 9; 8 / 9];
     [8 / 9; 5 / 9; 8 / 9];
     [5 / 9; 5 / 9; 8 / 9];
     [5 / 9; 5 / 9; 5 / 9];
     [8 / 9; 5 / 9; 5 / 9];
     [5 / 9; 5 / 9; 5 / 9];
     [5 / 9; 8 / 9; 5 / 9];
     [8 / 9; 8 / 9; 5 / 9];
     [5 / 9; 8 / 9; 5 / 9];
     [5 / 9; 5 / 9; 5 / 9];
     [8 / 9; 5 / 9; 5 / 9];
     [5 / 9; 5 / 9; 5 / 9]].

(** NewtonCotesIntegration.h:18-35 (Points 27-29, Weights 33-35) *)
Definition NewtonCotes1Line : rule := mkRule 1
    [[0]]
    [[2]].

(** NewtonCotesIntegration.h:40-61 (Points 49-53, Weights 57-61) *)
Definition NewtonCotes3Line : rule := mkRule 3
    [[-1];
     [0];
     [1]]
    [[2/6];
     [8/6];
     [2/6]].

(** NewtonCotesIntegration.h:66-91 (Points 75-81, Weights 85-91) *)
Definition NewtonCotes5Line : rule := mkRule 5
    [[-1];
     [- (1 / 2)];
     [0];
     [1/2];
     [1]]
    [[14/90];
     [64/90];
     [24/90];
     [64/90];
     [14/90]].

(** NewtonCotesIntegration.h:96-125 (Points 105-113, Weights 117-125) *)
Definition NewtonCotes7Line : rule := mkRule 7
    [[-1];
     [- (2 / 3)];
     [- (1 / 3)];
     [0];
     [1/3];
     [2/3];
     [1]]
    [[82/840];
     [432/840];
     [54/840];
     [544/840];
     [54/840];
     [432/840];
     [82/840]].
