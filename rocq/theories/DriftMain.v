(** Property C120: the static advection-diffusion sample: the proofs. *)
From Coq Require Import List Arith Lia Bool Reals Lra.
From Verif Require Import Res SumR DenseModel DenseR DenseSpec ShapeModel QuadModel ElemModel ElemSpec SupgSpec SparseModel SparseSpec AssemblyModel AssemblySpec PatchSpec StaticModel StaticSpec FrameSpec DriftModel DriftSpec.
Import ListNotations.
Local Open Scope R_scope.
From Verif Require Import DriftProof DriftProof2 DriftProof3 DriftProof4 DriftProof5 DriftProof6.

(** a solver that is right on positive definite matrices *)
Definition exact_solve := full_solve.
Lemma exact_pd : pd_solver exact_solve.
Proof. exact full_pd. Qed.
(** a unit square of two triangles; the flow enters on the left and leaves on the right *)
Definition duct (a t0 t3 : R) : drift := mkDrift [[0; 0]; [1; 0]; [1; 1]; [0; 1]] [[0%nat; 1%nat; 2%nat]; [0%nat; 2%nat; 3%nat]] [(0%nat, 0%nat, t0); (3%nat, 0%nat, t3)] a 0 (1 / 10).
Lemma duct_ax a t0 t3 : dr_ax (duct a t0 t3) = a /\ dr_ay (duct a t0 t3) = 0.
Proof. unfold dr_ax, dr_ay, duct. cbn [dr_a dr_theta]. replace (0 * PI / 180) with 0 by lra. rewrite cos_0, sin_0. lra. Qed.
Lemma duct_tri a t0 t3 el : In el (dr_elements (duct a t0 t3)) -> ccw (dr_x (duct a t0 t3)) el.
Proof.
  cbn [dr_elements duct In]. intros [<-|[<-|[]]]; (split; [reflexivity|]); (split; [intros e; cbn [In]; intros [<-|[<-|[<-|[]]]]; cbn; lia|]); unfold area2, px, py; cbn; lra.
Qed.
Lemma duct_ok t0 t3 : drift_ok (duct 1 t0 t3).
Proof.
  destruct (duct_ax 1 t0 t3) as [EX EY]. constructor.
  - cbn. lra.
  - cbn. lra.
  - apply duct_tri.
  - cbn [dr_fixed duct In]. intros i j v [Q|[Q|[]]]; injection Q as <- <- _; cbn; lia.
  - intros sd. cbn [dr_elements duct flat_map sides app In]. intros [<-|[<-|[<-|[<-|[<-|[<-|[]]]]]]].
    + right. right. unfold outflow. rewrite EX, EY. unfold px, py. cbn. lra.
    + right. right. unfold outflow. rewrite EX, EY. unfold px, py. cbn. lra.
    + left. reflexivity.
    + left. reflexivity.
    + right. right. unfold outflow. rewrite EX, EY. unfold px, py. cbn. lra.
    + right. left. cbn [In]. intros k [<-|[<-|[]]]; discriminate.
  - assert (B : forall k, In k [0; 3]%nat -> tied (dr_elements (duct 1 t0 t3)) (fun k => last_value (dr_fixed (duct 1 t0 t3)) k 0 <> None) k).
    { intros k [<-|[<-|[]]]; apply tied_base; discriminate. }
    intros [|[|[|[|i]]]] Hi; [apply B; cbn; auto| | |apply B; cbn; auto|cbn in Hi; lia]; (apply (tied_elem _ _ [0%nat; 1%nat; 2%nat] 0%nat); [cbn; auto|cbn; auto|cbn; auto|apply B; cbn; auto]).
Qed.
(** four triangles around the centre of a square, the corners with the value of y *)
Definition plate : drift := mkDrift [[0; 0]; [1; 0]; [1; 1]; [0; 1]; [1 / 4; 1 / 3]] [[0%nat; 1%nat; 4%nat]; [1%nat; 2%nat; 4%nat]; [2%nat; 3%nat; 4%nat]; [3%nat; 0%nat; 4%nat]]
  [(0%nat, 0%nat, 0); (1%nat, 0%nat, 0); (2%nat, 0%nat, 1); (3%nat, 0%nat, 1)] 1 0 (1 / 1000000).
Lemma plate_ax : dr_ax plate = 1 /\ dr_ay plate = 0.
Proof. unfold dr_ax, dr_ay, plate. cbn [dr_a dr_theta]. replace (0 * PI / 180) with 0 by lra. rewrite cos_0, sin_0. lra. Qed.
Lemma plate_sides sd : In sd (flat_map sides (dr_elements plate)) ->
    count_occ (list_eq_dec Nat.eq_dec) (flat_map sides (dr_elements plate)) sd = count_occ (list_eq_dec Nat.eq_dec) (flat_map sides (dr_elements plate)) (rev sd) \/
    (forall k, In k sd -> last_value (dr_fixed plate) k 0 <> None).
Proof.
  cbn [dr_elements plate flat_map sides app In]. intros [<-|[<-|[<-|[<-|[<-|[<-|[<-|[<-|[<-|[<-|[<-|[<-|[]]]]]]]]]]]]]; try (left; reflexivity); right; cbn [In]; intros k [<-|[<-|[]]]; discriminate.
Qed.
Lemma plate_ok : drift_ok plate.
Proof.
  constructor.
  - cbn. lra.
  - cbn. lra.
  - cbn [dr_elements plate In]. intros el [<-|[<-|[<-|[<-|[]]]]]; (split; [reflexivity|]); (split; [intros e; cbn [In]; intros [<-|[<-|[<-|[]]]]; cbn; lia|]); unfold area2, px, py; cbn; lra.
  - cbn [dr_fixed plate In]. intros i j v [Q|[Q|[Q|[Q|[]]]]]; injection Q as <- <- _; cbn; lia.
  - intros sd Hin. destruct (plate_sides sd Hin) as [Q|Q]; auto.
  - assert (B : forall k, In k [0; 1; 2; 3]%nat -> tied (dr_elements plate) (fun k => last_value (dr_fixed plate) k 0 <> None) k).
    { intros k [<-|[<-|[<-|[<-|[]]]]]; apply tied_base; discriminate. }
    intros [|[|[|[|[|i]]]]] Hi; try (apply B; cbn; auto; fail); [|cbn in Hi; lia]. apply (tied_elem _ _ [0%nat; 1%nat; 4%nat] 0%nat); [cbn; auto|cbn; auto|cbn; auto|apply B; cbn; auto].
Qed.

Lemma C120_run_pf : forall solve d, pd_solver solve -> drift_ok d ->
  exists T, dr_run solve d = Ok T /\ sshape (dr_static d) T /\ weak_form d T /\
    forall T', sshape (dr_static d) T' -> weak_form d T' -> forall i j, uval T' i j = uval T i j.
Proof. exact drift_run. Qed.

Lemma C120_crosswind_pf : forall solve d g0 gx gy, pd_solver solve -> drift_ok d -> dr_ax d * gx + dr_ay d * gy = 0 ->
  (forall i j v, In (i, j, v) (dr_fixed d) -> v = g0 + gx * px (dr_x d) i + gy * py (dr_x d) i) ->
  (forall sd, In sd (flat_map sides (dr_elements d)) ->
    count_occ (list_eq_dec Nat.eq_dec) (flat_map sides (dr_elements d)) sd = count_occ (list_eq_dec Nat.eq_dec) (flat_map sides (dr_elements d)) (rev sd) \/
    (forall k, In k sd -> last_value (dr_fixed d) k 0 <> None) \/ through d gx gy sd = 0) ->
  exists T, dr_run solve d = Ok T /\ forall i, (i < length (dr_x d))%nat -> uval T i 0 = g0 + gx * px (dr_x d) i + gy * py (dr_x d) i.
Proof. exact drift_crosswind. Qed.

Lemma C120_constant_pf : forall solve d c, pd_solver solve -> drift_ok d -> (forall i j v, In (i, j, v) (dr_fixed d) -> v = c) ->
  exists T, dr_run solve d = Ok T /\ forall i, (i < length (dr_x d))%nat -> uval T i 0 = c.
Proof.
  intros solve d c HS HD HC. destruct (drift_crosswind solve d c 0 0 HS HD) as (T & E & Q).
  - lra.
  - intros i j v Hin. rewrite (HC i j v Hin). lra.
  - intros sd _. right. right. unfold through. destruct sd as [|a [|b [|? ?]]]; lra.
  - exists T. split; [exact E|]. intros i Hi. rewrite Q by exact Hi. lra.
Qed.

Lemma C120_superpose_pf : forall solve d g h a b, pd_solver solve -> drift_ok d ->
  exists T T' T'', dr_run solve (prescribe d g) = Ok T /\ dr_run solve (prescribe d h) = Ok T' /\
    dr_run solve (prescribe d (fun i => a * g i + b * h i)) = Ok T'' /\
    forall i j, (i < length (dr_x d))%nat -> (j < 1)%nat -> uval T'' i j = a * uval T i j + b * uval T' i j.
Proof. exact drift_superpose. Qed.

Lemma C120_turned_pf : forall d phi solve, pd_solver solve -> drift_ok d ->
  exists T T', dr_run solve d = Ok T /\ dr_run solve (turned d phi) = Ok T' /\ forall i j, uval T' i j = uval T i j.
Proof. exact drift_turned. Qed.

Lemma C120_similar_pf : forall d l m, 0 < l -> 0 < m -> forall solve, pd_solver solve -> drift_ok d ->
  exists T T', dr_run solve d = Ok T /\ dr_run solve (similar d l m) = Ok T' /\ forall i j, uval T' i j = uval T i j.
Proof. exact drift_similar. Qed.

Lemma C120_still_air_pf : forall solve d el els, dr_a d = 0 -> dr_elements d = el :: els -> ccw (dr_x d) el ->
  (forall i j v, In (i, j, v) (dr_fixed d) -> (i < length (dr_x d))%nat /\ (j < 1)%nat) ->
  dr_run solve d = Fail DivByZero.
Proof. exact drift_still. Qed.
