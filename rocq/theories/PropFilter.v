(** Properties C44-C46 and C68: filters. *)
From Coq Require Import List Arith Lia Bool Reals Lra.
From Verif Require Import Res SumR DenseR FilterModel FilterSpec FilterMain.
Import ListNotations.
Local Open Scope R_scope.

(** C44: the filtered density is the weighted mean over the neighbours, stays between their extremes and preserves constants *)
Theorem C44_average : forall n nbs w s, filter_ok n nbs w -> length s = n ->
  exists rho, density_variables n nbs w s = Ok rho /\ length rho = n /\
    (forall i, (i < n)%nat -> nth i rho 0 = mean nbs w (fun k => nth k s 0) i) /\
    (weights_nonneg nbs w -> forall i lo hi, (i < n)%nat -> (forall k, In k (nth i nbs []) -> lo <= nth k s 0 <= hi) -> lo <= nth i rho 0 <= hi) /\
    (forall c, (forall k, (k < n)%nat -> nth k s 0 = c) -> forall i, (i < n)%nat -> nth i rho 0 = c).
Proof. exact C44_average_pf. Qed.
Print Assumptions C44_average.

(** C44: the density filter is linear *)
Theorem C44_linear : forall n nbs w s t a b, filter_ok n nbs w -> length s = n -> length t = n ->
  exists rs rt r, density_variables n nbs w s = Ok rs /\ density_variables n nbs w t = Ok rt /\
    density_variables n nbs w (map (fun k => a * nth k s 0 + b * nth k t 0) (seq 0 n)) = Ok r /\
    forall i, (i < n)%nat -> nth i r 0 = a * nth i rs 0 + b * nth i rt 0.
Proof. exact C44_linear_pf. Qed.
Print Assumptions C44_linear.

(** three elements in a row with densities 0, 1, 0 *)
Example C44_ex : density_variables 3 row_nbs row_w [0; 1; 0] = Ok [1/3; 1/2; 1/3].
Proof. cbn. unfold Rdiv_res. repeat (match goal with |- context [Req_EM_T ?a 0] => destruct (Req_EM_T a 0); [lra|] end; cbn [bind]). do 2 f_equal; [lra|f_equal; [lra|f_equal; lra]]. Qed.

(** C45: the gradient of a function of the filtered densities is the transposed filter applied to its gradient *)
Theorem C45_gradient : forall n nbs w s F c, filter_ok n nbs w -> length s = n ->
  gradient_at n F (variables_of (density_variables n nbs w s)) c ->
  gradient_at n (fun v => F (variables_of (density_variables n nbs w v))) s (map (fun i => bigsum n (fun k => share nbs w k i * nth k c 0)) (seq 0 n)).
Proof. exact C45_gradient_pf. Qed.
Print Assumptions C45_gradient.

(** C45: if the normalised weights are symmetric, GetFilteredSensitivitis of the density filter returns the gradient *)
Theorem C45_density_partial : forall n nbs w s F c, filter_ok n nbs w -> length s = n -> length c = n ->
  (forall i k, (i < n)%nat -> (k < n)%nat -> share nbs w i k = share nbs w k i) ->
  gradient_at n F (variables_of (density_variables n nbs w s)) c ->
  exists g, density_sensitivities n nbs w s c = Ok g /\ gradient_at n (fun v => F (variables_of (density_variables n nbs w v))) s g.
Proof. exact C45_density_partial_pf. Qed.
Print Assumptions C45_density_partial.

(** C45 as stated is false: three elements in a row with symmetric weights, F the first filtered density *)
Theorem C45_density_refuted : exists n nbs w s F c g, filter_ok n nbs w /\ weights_nonneg nbs w /\ length s = n /\
  gradient_at n F (variables_of (density_variables n nbs w s)) c /\ density_sensitivities n nbs w s c = Ok g /\
  ~ gradient_at n (fun v => F (variables_of (density_variables n nbs w v))) s g.
Proof. exact C45_density_refuted_pf. Qed.
Print Assumptions C45_density_refuted.

(** C45: the gradient of a function of the projected densities *)
Theorem C45_heaviside_gradient : forall n nbs w beta s F c, filter_ok n nbs w -> length s = n -> beta <> 0 ->
  gradient_at n F (variables_of (heaviside_variables n nbs w beta s)) c ->
  gradient_at n (fun v => F (variables_of (heaviside_variables n nbs w beta v))) s
    (map (fun i => bigsum n (fun k => share nbs w k i * (nth k c 0 *
       (beta * (1 - tanh (beta * (mean nbs w (fun j => nth j s 0) k - 1/2)) ^ 2) / (2 * tanh (beta / 2)))))) (seq 0 n)).
Proof. exact C45_heaviside_gradient_pf. Qed.
Print Assumptions C45_heaviside_gradient.

(** C45: if the normalised weights are symmetric, GetFilteredSensitivitis of the Heaviside filter returns the gradient *)
Theorem C45_heaviside_partial : forall n nbs w beta s F c, filter_ok n nbs w -> length s = n -> length c = n -> beta <> 0 ->
  (forall i k, (i < n)%nat -> (k < n)%nat -> share nbs w i k = share nbs w k i) ->
  gradient_at n F (variables_of (heaviside_variables n nbs w beta s)) c ->
  exists g, heaviside_sensitivities n nbs w beta s c = Ok g /\ gradient_at n (fun v => F (variables_of (heaviside_variables n nbs w beta v))) s g.
Proof. exact C45_heaviside_partial_pf. Qed.
Print Assumptions C45_heaviside_partial.

(** C45 is also false for the Heaviside filter: the same three elements at density 1/2 *)
Theorem C45_heaviside_refuted : exists n nbs w beta s F c g, filter_ok n nbs w /\ weights_nonneg nbs w /\ length s = n /\ 0 < beta /\
  gradient_at n F (variables_of (heaviside_variables n nbs w beta s)) c /\ heaviside_sensitivities n nbs w beta s c = Ok g /\
  ~ gradient_at n (fun v => F (variables_of (heaviside_variables n nbs w beta v))) s g.
Proof. exact C45_heaviside_refuted_pf. Qed.
Print Assumptions C45_heaviside_refuted.

(** C46: the projection maps [0,1] into [0,1], is monotone and fixes the fields 0, 1/2 and 1 *)
Theorem C46_heaviside : forall n nbs w beta s, filter_ok n nbs w -> weights_nonneg nbs w -> 0 < beta -> length s = n ->
  exists rho, heaviside_variables n nbs w beta s = Ok rho /\ length rho = n /\
    ((forall k, (k < n)%nat -> 0 <= nth k s 0 <= 1) -> forall i, (i < n)%nat -> 0 <= nth i rho 0 <= 1) /\
    (forall t r, length t = n -> heaviside_variables n nbs w beta t = Ok r -> (forall k, (k < n)%nat -> nth k s 0 <= nth k t 0) ->
       forall i, (i < n)%nat -> nth i rho 0 <= nth i r 0) /\
    (forall c, c = 0 \/ c = 1/2 \/ c = 1 -> (forall k, (k < n)%nat -> nth k s 0 = c) -> forall i, (i < n)%nat -> nth i rho 0 = c).
Proof. exact C46_heaviside_pf. Qed.
Print Assumptions C46_heaviside.

(** the fields 0, 1/2, 1 are fixed for beta = 2 on the row of three elements *)
Example C46_ex : exists rho, heaviside_variables 3 row_nbs row_w 2 [1/2; 1/2; 1/2] = Ok rho /\ nth 0 rho 0 = 1/2 /\ nth 2 rho 0 = 1/2.
Proof.
  destruct (C46_heaviside 3 row_nbs row_w 2 [1/2; 1/2; 1/2] row_ok row_nonneg ltac:(lra) eq_refl) as (rho & E & _ & _ & _ & H).
  exists rho. split; [exact E|]. split; apply (H (1/2)); auto; try lia; intros [|[|[|k]]] Hk; cbn; auto; lia.
Qed.

(** C68: Sigmund's filter averages the weighted sensitivities s dfds, keeps their sign and is a plain average where the density is uniform *)
Theorem C68_sigmund : forall n nbs w s c, filter_ok n nbs w -> weights_nonneg nbs w -> length s = n -> length c = n -> (forall k, (k < n)%nat -> 0 < nth k s 0) ->
  exists g, sigmund_sensitivities n nbs w s c = Ok g /\ length g = n /\
    (forall i, (i < n)%nat -> nth i g 0 * nth i s 0 = mean nbs w (fun k => nth k s 0 * nth k c 0) i) /\
    (forall i, (i < n)%nat -> (forall k, In k (nth i nbs []) -> nth k c 0 <= 0) -> nth i g 0 <= 0) /\
    (forall i lo hi, (i < n)%nat -> (forall k, In k (nth i nbs []) -> nth k s 0 = nth i s 0 /\ lo <= nth k c 0 <= hi) -> lo <= nth i g 0 <= hi).
Proof. exact C68_sigmund_pf. Qed.
Print Assumptions C68_sigmund.

(** C68: Borrvall's filter is the average of the sensitivities weighted with w s; it stays between their extremes *)
Theorem C68_borrvall : forall n nbs w s c, filter_ok n nbs w -> weights_nonneg nbs w -> length s = n -> length c = n -> (forall k, (k < n)%nat -> 0 < nth k s 0) ->
  exists g, borrvall_sensitivities n nbs w s c = Ok g /\ length g = n /\
    (forall i, (i < n)%nat -> nth i g 0 * mean nbs w (fun k => nth k s 0) i = mean nbs w (fun k => nth k s 0 * nth k c 0) i) /\
    (forall i lo hi, (i < n)%nat -> (forall k, In k (nth i nbs []) -> lo <= nth k c 0 <= hi) -> lo <= nth i g 0 <= hi).
Proof. exact C68_borrvall_pf. Qed.
Print Assumptions C68_borrvall.

(** the row of three elements: sensitivities -1, -2, -3, densities 1, 1/2, 1 *)
Example C68_ex : borrvall_sensitivities 3 row_nbs row_w [1; 1/2; 1] [-1; -2; -3] = Ok [-6/5; -2; -14/5].
Proof. cbn. unfold Rdiv_res. repeat (match goal with |- context [Req_EM_T ?a 0] => destruct (Req_EM_T a 0); [lra|] end; cbn [bind]). do 2 f_equal; [lra|f_equal; [lra|f_equal; lra]]. Qed.
