(** Model of src/Optimize/Filter: DensityFilter.h, HeavisideFilter.h and
    SensitivityFilter.h over exact reals.

    The members n, neighbors and w of the classes are parameters.  Indices are
    natural numbers (the C++ converts the int to an unsigned index).  A loop
    [for i in 0..n-1] that only writes entry i of a fresh vector is mapM. *)
From Coq Require Import List Arith Lia Bool Reals.
From Verif Require Import Res DenseModel DenseR.
Import ListNotations.
Local Open Scope R_scope.

(** _v[i][j] *)
Definition rd2 {A} (v : list (list A)) (i j : nat) : res A := row <- rd v i ;; rd row j.

(** the loop over the neighbours of i: two sums *)
Definition sums (neighbors : list (list nat)) (i : nat) (num den : nat -> res R) : res (R * R) :=
  nb <- rd neighbors i ;;
  foldM (fun '(a, b) j => x <- num j ;; y <- den j ;; Ok (a + x, b + y)) (seq 0 (length nb)) (0, 0).

(** _s[neighbors[i][j]] *)
Definition at_nb (neighbors : list (list nat)) (v : list R) (i j : nat) : res R :=
  k <- rd2 neighbors i j ;; rd v k.

Section Filter.
Variables (n : nat) (neighbors : list (list nat)) (w : list (list R)).

(** DensityFilter.h:44-56 DensityFilter::GetFilteredVariables *)
Definition density_variables (s : list R) : res (list R) :=
  mapM (fun i =>
    '(a, wsum) <- sums neighbors i
      (fun j => wij <- rd2 w i j ;; sj <- at_nb neighbors s i j ;; Ok (wij * sj)) (fun j => rd2 w i j) ;;
    Rdiv_res a wsum) (seq 0 n).

(** DensityFilter.h:59-71 DensityFilter::GetFilteredSensitivitis (s is not used) *)
Definition density_sensitivities (s dfdrho : list R) : res (list R) :=
  mapM (fun i =>
    '(a, wsum) <- sums neighbors i
      (fun j => dj <- at_nb neighbors dfdrho i j ;; wij <- rd2 w i j ;; Ok (dj * wij)) (fun j => rd2 w i j) ;;
    Rdiv_res a wsum) (seq 0 n).

(** HeavisideFilter.h:60-73 HeavisideFilter::GetFilteredVariables *)
Definition heaviside_variables (beta : R) (s : list R) : res (list R) :=
  mapM (fun i =>
    '(wssum, wsum) <- sums neighbors i
      (fun j => wij <- rd2 w i j ;; sj <- at_nb neighbors s i j ;; Ok (wij * sj)) (fun j => rd2 w i j) ;;
    q <- Rdiv_res wssum wsum ;;
    Rdiv_res (5/10 * (tanh (5/10 * beta) + tanh (beta * (q - 5/10)))) (tanh (5/10 * beta))) (seq 0 n).

(** HeavisideFilter.h:77-86, the first loop of GetFilteredSensitivitis *)
Definition heaviside_slopes (beta : R) (s : list R) : res (list R) :=
  mapM (fun i =>
    '(wssum, wsum) <- sums neighbors i
      (fun j => wij <- rd2 w i j ;; sj <- at_nb neighbors s i j ;; Ok (wij * sj)) (fun j => rd2 w i j) ;;
    q <- Rdiv_res wssum wsum ;;
    Rdiv_res (5/10 * beta * (1 - tanh (beta * (q - 5/10)) * tanh (beta * (q - 5/10)))) (tanh (5/10 * beta))) (seq 0 n).

(** HeavisideFilter.h:76-99 HeavisideFilter::GetFilteredSensitivitis *)
Definition heaviside_sensitivities (beta : R) (s dfdrho : list R) : res (list R) :=
  drho <- heaviside_slopes beta s ;;
  mapM (fun i =>
    '(a, wsum) <- sums neighbors i
      (fun j => dj <- at_nb neighbors dfdrho i j ;; ej <- at_nb neighbors drho i j ;; wij <- rd2 w i j ;; Ok (dj * ej * wij))
      (fun j => rd2 w i j) ;;
    Rdiv_res a wsum) (seq 0 n).

(** SensitivityFilter.h:43-55 SensitivityFilter::GetFilteredSensitivitis *)
Definition sigmund_sensitivities (s dfds : list R) : res (list R) :=
  mapM (fun i =>
    '(a, wsum) <- sums neighbors i
      (fun j => wij <- rd2 w i j ;; sj <- at_nb neighbors s i j ;; dj <- at_nb neighbors dfds i j ;; Ok (wij * sj * dj))
      (fun j => rd2 w i j) ;;
    si <- rd s i ;; Rdiv_res a (wsum * si)) (seq 0 n).

(** SensitivityFilter.h:87-99 SensitivityFilter2::GetFilteredSensitivitis *)
Definition borrvall_sensitivities (s dfds : list R) : res (list R) :=
  mapM (fun i =>
    '(a, wsum) <- sums neighbors i
      (fun j => wij <- rd2 w i j ;; sj <- at_nb neighbors s i j ;; dj <- at_nb neighbors dfds i j ;; Ok (wij * sj * dj))
      (fun j => wij <- rd2 w i j ;; sj <- at_nb neighbors s i j ;; Ok (wij * sj)) ;;
    Rdiv_res a wsum) (seq 0 n).
End Filter.
