(** Property C119: the beam sample: the proofs. *)
From Coq Require Import List Arith Lia Bool Reals Lra.
From Verif Require Import Res SumR DenseModel DenseR DenseSpec ShapeModel QuadModel ElemModel ElemSpec BeamModel BeamSpec SparseModel SparseSpec AssemblyModel AssemblySpec PatchSpec TopSpec TopMain StaticModel StaticSpec FrameModel FrameSpec.
Import ListNotations.
Local Open Scope R_scope.
From Verif Require Import BeamMain FrameProof FrameProof2 FrameProof3 FrameProof4 FrameProof5 FrameProof6.

(** the sample with its files *)
Definition steel : frame := fr_sample 3 5 (-10) 210000 (3 / 10) 1 1.
Lemma steel_ok : frame_ok steel.
Proof. apply sample_ok; lra. Qed.
Definition steel_work : list nat -> (nat -> nat -> R) -> (nat -> nat -> R) -> R := fun _ => timoshenko 210000 (lame_mu 210000 (3 / 10)) 5 1 1 axis_y axis_z.
Lemma steel_bars el : In el (fr_elements steel) -> bar_work steel el (steel_work el).
Proof. intros Hin. destruct (sample_el 3 5 (-10) 210000 (3 / 10) 1 1 el Hin) as (p & Hp & ->). exists 5, axis_y, axis_z. split; [lra|]. split; [now apply sample_straight|reflexivity]. Qed.
Lemma steel_zero i j v : last_value (fr_fixed steel) i j = Some v -> v = 0.
Proof. intros H. pose proof (TopProof4.last_value_in (fr_fixed steel) i j) as Q. rewrite H in Q. now destruct (sample_fixed 3 5 (-10) 210000 (3 / 10) 1 1 i j v Q) as (_ & _ & ->). Qed.
Lemma steel_values i j v : In (i, j, v) (fr_fixed steel) -> v = 0.
Proof. intros H. now destruct (sample_fixed 3 5 (-10) 210000 (3 / 10) 1 1 i j v H) as (_ & _ & ->). Qed.

Lemma C119_run_pf : forall solve d, spd_solver solve -> frame_ok d ->
  exists ur u, fr_run solve d = Ok (ur, u) /\ sshape (fr_static d) ur /\ virtual_work d ur /\
    (forall u', sshape (fr_static d) u' -> virtual_work d u' -> forall i j, uval u' i j = uval ur i j) /\ first_three d ur u.
Proof. exact frame_run. Qed.

Lemma C119_least_pf : forall solve d ur u W z, spd_solver solve -> frame_ok d -> fr_run solve d = Ok (ur, u) ->
  (forall el, In el (fr_elements d) -> bar_work d el (W el)) -> (forall i j v, last_value (fr_fixed d) i j = Some v -> z i j = v) ->
  potential d W (uval ur) <= potential d W z.
Proof.
  intros solve d ur u W z HS HD E HW Hz. destruct (frame_run solve d HS HD) as (ur' & u' & E' & _ & V & _). rewrite E in E'. injection E' as <- <-. now apply least.
Qed.

Lemma C119_cantilever_pf : forall solve n l P E V a b, spd_solver solve -> 0 < l -> 0 < E -> 0 < 1 + V -> 0 < a -> 0 < b ->
  exists ur u, fr_run solve (fr_sample n l P E V a b) = Ok (ur, u) /\
    forall i, (i <= n)%nat -> nth i ur [] = [0; 0; deflection n l P E V a b i; 0; - slope n l P E a b i; 0] /\ nth i u [] = [0; 0; deflection n l P E V a b i].
Proof. intros solve n l P E V a b HS Hl HE HV Ha Hb. exact (cant_run n l P E V a b Hl HE HV Ha Hb solve HS). Qed.

Lemma C119_tip_pf : forall solve n l P E V a b, spd_solver solve -> (0 < n)%nat -> 0 < l -> 0 < E -> 0 < 1 + V -> 0 < a -> 0 < b ->
  let L := INR n * l in
  exists ur u, fr_run solve (fr_sample n l P E V a b) = Ok (ur, u) /\
    uval u n 2 = P * L / (5 / 6 * (E / (2 * (1 + V))) * (a * b)) + P * L ^ 3 / (3 * (E * (a * b ^ 3 / 12))) * (1 - 1 / (4 * INR n ^ 2)).
Proof.
  intros solve n l P E V a b HS Hn Hl HE HV Ha Hb L. destruct (cant_run n l P E V a b Hl HE HV Ha Hb solve HS) as (ur & u & Er & Q). exists ur, u. split; [exact Er|].
  unfold uval. rewrite (proj2 (Q n (le_n n))). cbn [nth]. exact (tip_value n l P E V a b HE HV Ha Hb Hn).
Qed.

Lemma C119_reciprocal_pf : forall solve d P Q, spd_solver solve -> frame_ok d -> loads_fit d P -> loads_fit d Q -> (forall i j v, In (i, j, v) (fr_fixed d) -> v = 0) ->
  exists ur u vr v, fr_run solve (loaded d P) = Ok (ur, u) /\ fr_run solve (loaded d Q) = Ok (vr, v) /\
    sum_over P (fun w => snd w * uval vr (fst (fst w)) (snd (fst w))) = sum_over Q (fun w => snd w * uval ur (fst (fst w)) (snd (fst w))).
Proof. exact frame_reciprocal. Qed.
