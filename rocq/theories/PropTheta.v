(** Property C107: the time loops of the transient samples. *)
From Coq Require Import List Arith Lia Bool Reals Lra.
From Verif Require Import Res SumR DenseModel DenseR DenseSpec ShapeModel QuadModel QuadSpec ElemModel ElemSpec SparseModel SparseSpec KrylovModel KrylovSpec AssemblyModel AssemblySpec PatchSpec StableSpec ThetaModel ThetaSpec PatchMain StableMain ThetaMain.
Import ListNotations.
Local Open Scope R_scope.

(** C107, the elements: the routines and the source give matrices and vectors
    for every element of the mesh. *)
Theorem C107_elements : forall dou xs fC fK load s q elements t0 T,
  theta_pair dou xs fC fK -> theta_mesh dou xs s q elements t0 -> (forall i j, in_table t0 i j -> in_table T i j) ->
  (forall el, In el elements -> exists Fe, load T el = Ok Fe /\ match Fe with Some v => length v = length el | None => True end) ->
  exists esC esK, Forall2 (made_by fC) (map (mkPiece s q) elements) esC /\ Forall2 (made_by fK) (map (mkPiece s q) elements) esK /\ Forall2 (carries load T) elements esC.
Proof. exact C107_elements_pf. Qed.
Print Assumptions C107_elements.

(** the triangle, with the capacity and the conduction of the heat sample *)
Definition ex_C (s : shape) (q : rule) (el : list nat) := HeatCapacity s q el [0]%nat tri_xs 1 1 1.
Definition ex_K (s : shape) (q : rule) (el : list nat) := HeatTransfer s q el [0]%nat tri_xs 1 1.
Definition ex_source : source := fun _ _ => Ok (Some [1; 2; 3]).
Lemma ex_pair : theta_pair [0]%nat tri_xs ex_C ex_K.
Proof. constructor; lra. Qed.
Lemma ex_free : forall (a b c : R) i j, in_table (repeat [Some 0%nat] 3) i j -> in_table [[a]; [b]; [c]] i j.
Proof. intros a b c. apply tri_fits; [reflexivity|]. intros i Hi. destruct i as [|[|[|i]]]; [reflexivity|reflexivity|reflexivity|lia]. Qed.
Lemma ex_fixed : forall (a b c : R) i j, in_table tri_table i j -> in_table [[a]; [b]; [c]] i j.
Proof. intros a b c. apply tri_fits; [reflexivity|]. intros i Hi. destruct i as [|[|[|i]]]; [reflexivity|reflexivity|reflexivity|lia]. Qed.
Example C107_elements_ex : exists eC eK, made_by ex_C (mkPiece sf_3Triangle Gauss1Triangle [0; 1; 2]%nat) eC /\ made_by ex_K (mkPiece sf_3Triangle Gauss1Triangle [0; 1; 2]%nat) eK /\
  e_f eC 0 = 1 /\ e_f eC 1 = 2 /\ e_f eC 2 = 3.
Proof.
  destruct (C107_elements [0]%nat tri_xs ex_C ex_K ex_source sf_3Triangle Gauss1Triangle [[0; 1; 2]]%nat (repeat [Some 0%nat] 3) [[7]; [0]; [0]] ex_pair tri_free_mesh (ex_free 7 0 0)) as (esC & esK & F1 & F2 & F3).
  - intros el [<-|[]]. exists (Some [1; 2; 3]). split; reflexivity.
  - inversion F1 as [|? eC ? ? C1 C2]; subst. inversion F2 as [|? eK ? ? K1 K2]; subst. inversion F3 as [|? ? ? ? L1 L2]; subst. exists eC, eK. split; [exact C1|]. split; [exact K1|]. destruct L1 as [_ L1]. rewrite !L1. repeat split; reflexivity.
Qed.

(** C107, one step: the assembled matrix of every time step is symmetric and
    positive definite, even when no dof is fixed; the system has exactly one
    solution; Disassembling makes of it the only field that keeps the values of
    the fixed dofs and satisfies the balance of the theta scheme at every free
    dof. *)
Theorem C107_step : forall dou xs fC fK load s q elements dt theta t0 t n T esC esK,
  theta_pair dou xs fC fK -> theta_mesh dou xs s q elements t0 -> 0 < dt -> 0 < theta -> renumber t0 = (t, n) ->
  (forall i j, in_table t0 i j -> in_table T i j) ->
  Forall2 (made_by fC) (map (mkPiece s q) elements) esC -> Forall2 (made_by fK) (map (mkPiece s q) elements) esK -> Forall2 (carries load T) elements esC ->
  exists A F x T1, theta_system fC fK load s q elements dt theta t n T = Ok (A, F) /\ square_csr n A /\ symmetric n (entry A) /\ pos_def n (entry A) /\
    length x = n /\ csr_mulvec 0 Rplus Rmult A x = Ok F /\ (forall x', length x' = n -> csr_mulvec 0 Rplus Rmult A x' = Ok F -> x' = x) /\
    disassemble T x t = Ok T1 /\
    (forall i j, num t0 i j = None -> uval T1 i j = uval T i j) /\
    (forall i j, num t0 i j <> None -> theta_balance esC esK dt theta T T1 i j) /\
    forall T', (forall i j, num t0 i j = None -> uval T' i j = uval T i j) -> (forall i j, num t0 i j <> None -> theta_balance esC esK dt theta T T' i j) ->
      forall i j, uval T' i j = uval T1 i j.
Proof. exact C107_step_pf. Qed.
Print Assumptions C107_step.

(** one step on the triangle without fixed dofs *)
Lemma ex_elements : forall t0 T, theta_mesh [0]%nat tri_xs sf_3Triangle Gauss1Triangle [[0; 1; 2]]%nat t0 -> (forall i j, in_table t0 i j -> in_table T i j) ->
  exists esC esK, Forall2 (made_by ex_C) (map (mkPiece sf_3Triangle Gauss1Triangle) [[0; 1; 2]]%nat) esC /\ Forall2 (made_by ex_K) (map (mkPiece sf_3Triangle Gauss1Triangle) [[0; 1; 2]]%nat) esK /\ Forall2 (carries no_source T) [[0; 1; 2]]%nat esC.
Proof. intros t0 T HM HT. apply (C107_elements [0]%nat tri_xs ex_C ex_K no_source sf_3Triangle Gauss1Triangle [[0; 1; 2]]%nat t0 T ex_pair HM HT). intros el _. exists None. auto. Qed.
Example C107_step_ex : exists esC esK A F x T1, theta_system ex_C ex_K no_source sf_3Triangle Gauss1Triangle [[0; 1; 2]]%nat (1 / 10) (1 / 2) [[Some 0]; [Some 1]; [Some 2]]%nat 3 [[1]; [0]; [0]] = Ok (A, F) /\
  pos_def 3 (entry A) /\ csr_mulvec 0 Rplus Rmult A x = Ok F /\ disassemble [[1]; [0]; [0]] x [[Some 0]; [Some 1]; [Some 2]]%nat = Ok T1 /\
  theta_balance esC esK (1 / 10) (1 / 2) [[1]; [0]; [0]] T1 2 0.
Proof.
  destruct (ex_elements _ _ tri_free_mesh (ex_free 1 0 0)) as (esC & esK & F1 & F2 & F3). exists esC, esK.
  destruct (C107_step [0]%nat tri_xs ex_C ex_K no_source sf_3Triangle Gauss1Triangle [[0; 1; 2]]%nat (1 / 10) (1 / 2) _ [[Some 0]; [Some 1]; [Some 2]]%nat 3 [[1]; [0]; [0]] esC esK
    ex_pair tri_free_mesh ltac:(lra) ltac:(lra) eq_refl (ex_free 1 0 0) F1 F2 F3) as (A & F & x & T1 & E1 & _ & _ & PD & _ & E2 & _ & E3 & _ & B & _).
  exists A, F, x, T1. repeat (split; [assumption|]). apply B. discriminate.
Qed.

(** C107, the solvers: if the right side is not zero, CG and ScalingCG with at
    least as many iterations as there are equations report convergence, and the
    field they give keeps the values of the fixed dofs and satisfies the
    balance at every free dof within the tolerance. *)
Theorem C107_solvers : forall dou xs fC fK load s q elements dt theta t0 t n T esC esK,
  theta_pair dou xs fC fK -> theta_mesh dou xs s q elements t0 -> 0 < dt -> 0 < theta -> renumber t0 = (t, n) ->
  (forall i j, in_table t0 i j -> in_table T i j) ->
  Forall2 (made_by fC) (map (mkPiece s q) elements) esC -> Forall2 (made_by fK) (map (mkPiece s q) elements) esK -> Forall2 (carries load T) elements esC ->
  exists A F, theta_system fC fK load s q elements dt theta t n T = Ok (A, F) /\
    forall solver itrmax eps, In solver [cg; scaling_cg] -> (n <= itrmax)%nat -> 0 < eps -> nonzero n (ix F) ->
      exists x T1, solver A F itrmax eps = Ok (true, x) /\
        theta_step (fun A b => ' (_, x) <- solver A b itrmax eps ;; Ok x) fC fK load s q elements dt theta t n T = Ok T1 /\
        (forall i j, num t0 i j = None -> uval T1 i j = uval T i j) /\
        (forall i j, num t0 i j <> None ->
           Rabs ((internal_force esC T1 i j - internal_force esC T i j) / dt - (element_load esC i j - theta * internal_force esK T1 i j - (1 - theta) * internal_force esK T i j)) < eps * norm2 n (ix F)).
Proof. exact C107_solvers_pf. Qed.
Print Assumptions C107_solvers.

(** ScalingCG on the triangle with one free dof *)
Example C107_solvers_ex : exists T1, theta_step (fun A b => ' (_, x) <- scaling_cg A b 5 (1 / 1000) ;; Ok x) ex_C ex_K no_source sf_3Triangle Gauss1Triangle [[0; 1; 2]]%nat (1 / 10) (1 / 2) tri_table 1 [[0]; [0]; [1]] = Ok T1 /\ uval T1 0 0 = 0.
Proof.
  destruct (ex_elements _ _ tri_mesh (ex_fixed 0 0 1)) as (esC & esK & F1 & F2 & F3).
  destruct (C107_solvers [0]%nat tri_xs ex_C ex_K no_source sf_3Triangle Gauss1Triangle [[0; 1; 2]]%nat (1 / 10) (1 / 2) tri_table tri_table 1 [[0]; [0]; [1]] esC esK
    ex_pair tri_mesh ltac:(lra) ltac:(lra) eq_refl (ex_fixed 0 0 1) F1 F2 F3) as (A & F & E1 & H).
  destruct (H scaling_cg 5%nat (1 / 1000)) as (x & T1 & _ & E2 & V & _); [right; now left|lia|lra|exact (tri_nonzero A F E1)|]. exists T1. split; [exact E2|]. now rewrite V.
Qed.

(** C107, the runs: there are solvers that return solutions with which the
    loop runs to the end from all given fields. *)
Theorem C107_runs : forall dou xs fC fK load s q elements dt theta t0 t n steps Ts,
  theta_pair dou xs fC fK -> theta_mesh dou xs s q elements t0 -> 0 < dt -> 0 < theta -> renumber t0 = (t, n) ->
  (forall T el, (forall i j, in_table t0 i j -> in_table T i j) -> In el elements -> exists Fe, load T el = Ok Fe /\ match Fe with Some v => length v = length el | None => True end) ->
  (forall T, In T Ts -> forall i j, in_table t0 i j -> in_table T i j) ->
  exists solve, exact_solver solve /\ forall T, In T Ts -> exists Tm, theta_run solve fC fK load s q elements dt theta t n steps T = Ok Tm.
Proof. exact C107_runs_pf. Qed.
Print Assumptions C107_runs.

(** a hundred steps from two fields *)
Example C107_runs_ex : exists solve, exact_solver solve /\ exists T1 T2,
  theta_run solve ex_C ex_K no_source sf_3Triangle Gauss1Triangle [[0; 1; 2]]%nat (1 / 10) (1 / 2) tri_table 1 100 [[1]; [0]; [0]] = Ok T1 /\
  theta_run solve ex_C ex_K no_source sf_3Triangle Gauss1Triangle [[0; 1; 2]]%nat (1 / 10) (1 / 2) tri_table 1 100 [[1]; [0]; [9]] = Ok T2.
Proof.
  destruct (C107_runs [0]%nat tri_xs ex_C ex_K no_source sf_3Triangle Gauss1Triangle [[0; 1; 2]]%nat (1 / 10) (1 / 2) tri_table tri_table 1 100 [[[1]; [0]; [0]]; [[1]; [0]; [9]]]
    ex_pair tri_mesh ltac:(lra) ltac:(lra) eq_refl) as (solve & HE & HR).
  - intros T el _ _. exists None. auto.
  - intros T [<-|[<-|[]]]; apply ex_fixed.
  - exists solve. split; [exact HE|]. destruct (HR [[1]; [0]; [0]]) as (T1 & E1); [now left|]. destruct (HR [[1]; [0]; [9]]) as (T2 & E2); [right; now left|]. eauto.
Qed.

(** C107, stationary fields: a step returns the same field exactly when the
    field is in the static equilibrium of the conduction with the source. *)
Theorem C107_steady : forall solve dou xs fC fK load s q elements dt theta t0 t n T T1 esC esK,
  exact_solver solve -> theta_pair dou xs fC fK -> theta_mesh dou xs s q elements t0 -> 0 < dt -> 0 < theta -> renumber t0 = (t, n) ->
  (forall i j, in_table t0 i j -> in_table T i j) ->
  Forall2 (made_by fC) (map (mkPiece s q) elements) esC -> Forall2 (made_by fK) (map (mkPiece s q) elements) esK -> Forall2 (carries load T) elements esC ->
  theta_step solve fC fK load s q elements dt theta t n T = Ok T1 ->
  ((forall i j, uval T1 i j = uval T i j) <-> forall i j, num t0 i j <> None -> internal_force esK T i j = element_load esC i j).
Proof. exact C107_steady_pf. Qed.
Print Assumptions C107_steady.

(** the constant field stays *)
Example C107_steady_ex : exists solve T1, exact_solver solve /\ theta_step solve ex_C ex_K no_source sf_3Triangle Gauss1Triangle [[0; 1; 2]]%nat (1 / 10) 1 tri_table 1 [[0]; [0]; [0]] = Ok T1 /\ forall i j, uval T1 i j = uval [[0]; [0]; [0]] i j.
Proof.
  destruct (ex_elements _ _ tri_mesh (ex_fixed 0 0 0)) as (esC & esK & F1 & F2 & F3).
  destruct (C107_runs [0]%nat tri_xs ex_C ex_K no_source sf_3Triangle Gauss1Triangle [[0; 1; 2]]%nat (1 / 10) 1 tri_table tri_table 1 1 [[[0]; [0]; [0]]]
    ex_pair tri_mesh ltac:(lra) ltac:(lra) eq_refl) as (solve & HE & HR).
  - intros T el _ _. exists None. auto.
  - intros T [<-|[]]; apply ex_fixed.
  - destruct (HR [[0]; [0]; [0]]) as (T1 & E1); [now left|]. exists solve, T1. split; [exact HE|].
    assert (E2 : theta_step solve ex_C ex_K no_source sf_3Triangle Gauss1Triangle [[0; 1; 2]]%nat (1 / 10) 1 tri_table 1 [[0]; [0]; [0]] = Ok T1).
    { unfold theta_run in E1. cbn [seq foldM] in E1. destruct (theta_step _ _ _ _ _ _ _ _ _ _ _ _); cbn [bind] in E1; [exact E1|discriminate E1]. }
    split; [exact E2|]. apply (C107_steady solve [0]%nat tri_xs ex_C ex_K no_source sf_3Triangle Gauss1Triangle [[0; 1; 2]]%nat (1 / 10) 1 tri_table tri_table 1 [[0]; [0]; [0]] T1 esC esK HE ex_pair tri_mesh ltac:(lra) ltac:(lra) eq_refl (ex_fixed 0 0 0) F1 F2 F3 E2).
    intros i j _. rewrite no_motion; [|intros k c; unfold uval; destruct k as [|[|[|k]]]; destruct c as [|[|c]]; try reflexivity; destruct k; reflexivity].
    symmetry. apply no_load. intros e He. inversion F3 as [|? e' ? ? L1 L2]; subst. inversion L2; subst. destruct He as [<-|[]]. exact L1.
Qed.

(** C107, stability: for theta at least 1/2 and a source that does not depend
    on the field, the distance of two runs that agree at the fixed dofs does
    not grow in the norm of the capacity, for every time step size and every
    number of steps. *)
Theorem C107_contract : forall solve dou xs fC fK load s q elements dt theta t0 t n esC esK steps T S Tm Sm,
  exact_solver solve -> theta_pair dou xs fC fK -> theta_mesh dou xs s q elements t0 -> 0 < dt -> 1 / 2 <= theta -> renumber t0 = (t, n) ->
  (forall T S el, load T el = load S el) ->
  (forall i j, in_table t0 i j -> in_table T i j) -> (forall i j, in_table t0 i j -> in_table S i j) -> (forall i j, num t0 i j = None -> uval T i j = uval S i j) ->
  Forall2 (made_by fC) (map (mkPiece s q) elements) esC -> Forall2 (made_by fK) (map (mkPiece s q) elements) esK -> Forall2 (carries load T) elements esC ->
  theta_run solve fC fK load s q elements dt theta t n steps T = Ok Tm -> theta_run solve fC fK load s q elements dt theta t n steps S = Ok Sm ->
  0 <= cap_dist esC Tm Sm <= cap_dist esC T S.
Proof. exact C107_contract_pf. Qed.
Print Assumptions C107_contract.

(** a hundred steps of Crank-Nicolson *)
Example C107_contract_ex : exists solve esC T1 T2,
  theta_run solve ex_C ex_K no_source sf_3Triangle Gauss1Triangle [[0; 1; 2]]%nat 1000 (1 / 2) tri_table 1 100 [[1]; [0]; [0]] = Ok T1 /\
  theta_run solve ex_C ex_K no_source sf_3Triangle Gauss1Triangle [[0; 1; 2]]%nat 1000 (1 / 2) tri_table 1 100 [[1]; [0]; [9]] = Ok T2 /\
  cap_dist esC T1 T2 <= cap_dist esC [[1]; [0]; [0]] [[1]; [0]; [9]].
Proof.
  destruct (ex_elements _ _ tri_mesh (ex_fixed 1 0 0)) as (esC & esK & F1 & F2 & F3).
  destruct (C107_runs [0]%nat tri_xs ex_C ex_K no_source sf_3Triangle Gauss1Triangle [[0; 1; 2]]%nat 1000 (1 / 2) tri_table tri_table 1 100 [[[1]; [0]; [0]]; [[1]; [0]; [9]]]
    ex_pair tri_mesh ltac:(lra) ltac:(lra) eq_refl) as (solve & HE & HR).
  - intros T el _ _. exists None. auto.
  - intros T [<-|[<-|[]]]; apply ex_fixed.
  - destruct (HR [[1]; [0]; [0]]) as (T1 & E1); [now left|]. destruct (HR [[1]; [0]; [9]]) as (T2 & E2); [right; now left|]. exists solve, esC, T1, T2. split; [exact E1|]. split; [exact E2|].
    apply (C107_contract solve [0]%nat tri_xs ex_C ex_K no_source sf_3Triangle Gauss1Triangle [[0; 1; 2]]%nat 1000 (1 / 2) tri_table tri_table 1 esC esK 100 [[1]; [0]; [0]] [[1]; [0]; [9]] T1 T2 HE ex_pair tri_mesh ltac:(lra) ltac:(lra) eq_refl
      (fun _ _ _ => eq_refl) (ex_fixed 1 0 0) (ex_fixed 1 0 9)); auto.
    intros i j H. unfold num, tri_table in H. destruct i as [|[|[|i]]]; destruct j as [|[|j]]; cbn in H; try discriminate H; reflexivity.
Qed.

(** C107, conservation: when no dof of the mesh is fixed and the source does
    not depend on the field, every step adds dt times the total source to the
    heat content; without a source it stays the same. *)
Theorem C107_heat : forall solve dou xs fC fK load s q elements dt theta t0 t n esC esK steps T Tm,
  exact_solver solve -> theta_pair dou xs fC fK -> theta_mesh dou xs s q elements t0 -> 0 < dt -> 0 < theta -> renumber t0 = (t, n) ->
  (forall T S el, load T el = load S el) ->
  (forall el k c, In el elements -> In k el -> In c dou -> num t0 k c <> None) ->
  (forall i j, in_table t0 i j -> in_table T i j) ->
  Forall2 (made_by fC) (map (mkPiece s q) elements) esC -> Forall2 (made_by fK) (map (mkPiece s q) elements) esK -> Forall2 (carries load T) elements esC ->
  theta_run solve fC fK load s q elements dt theta t n steps T = Ok Tm ->
  heat esC Tm = heat esC T + INR steps * dt * sum_over esC (fun e => sum_over (e_dofs e) (fun a => e_f e (dloc a))).
Proof. exact C107_heat_pf. Qed.
Print Assumptions C107_heat.

(** seven steps with a source of total strength 6 *)
Example C107_heat_ex : exists solve esC T1,
  theta_run solve ex_C ex_K ex_source sf_3Triangle Gauss1Triangle [[0; 1; 2]]%nat (1 / 10) (1 / 2) [[Some 0]; [Some 1]; [Some 2]]%nat 3 7 [[1]; [0]; [0]] = Ok T1 /\
  heat esC T1 = heat esC [[1]; [0]; [0]] + 42 / 10.
Proof.
  assert (HLD : forall (T : list (list R)) el, (forall i j, in_table (repeat [Some 0%nat] 3) i j -> in_table T i j) -> In el [[0; 1; 2]]%nat -> exists Fe, ex_source T el = Ok Fe /\ match Fe with Some v => length v = length el | None => True end).
  { intros T el _ [<-|[]]. exists (Some [1; 2; 3]). split; reflexivity. }
  destruct (C107_elements [0]%nat tri_xs ex_C ex_K ex_source sf_3Triangle Gauss1Triangle [[0; 1; 2]]%nat _ [[1]; [0]; [0]] ex_pair tri_free_mesh (ex_free 1 0 0) (fun el => HLD _ el (ex_free 1 0 0))) as (esC & esK & F1 & F2 & F3).
  destruct (C107_runs [0]%nat tri_xs ex_C ex_K ex_source sf_3Triangle Gauss1Triangle [[0; 1; 2]]%nat (1 / 10) (1 / 2) _ [[Some 0]; [Some 1]; [Some 2]]%nat 3 7 [[[1]; [0]; [0]]]
    ex_pair tri_free_mesh ltac:(lra) ltac:(lra) eq_refl HLD) as (solve & HE & HR).
  - intros T [<-|[]]; apply ex_free.
  - destruct (HR [[1]; [0]; [0]]) as (T1 & E1); [now left|]. exists solve, esC, T1. split; [exact E1|].
    rewrite (C107_heat solve [0]%nat tri_xs ex_C ex_K ex_source sf_3Triangle Gauss1Triangle [[0; 1; 2]]%nat (1 / 10) (1 / 2) _ [[Some 0]; [Some 1]; [Some 2]]%nat 3 esC esK 7 [[1]; [0]; [0]] T1 HE ex_pair tri_free_mesh ltac:(lra) ltac:(lra) eq_refl
      (fun _ _ _ => eq_refl)); auto using ex_free.
    + inversion F1 as [|? eC ? ? C1 C2]; subst. inversion C2; subst. inversion F3 as [|? ? ? ? L1 L2]; subst. destruct L1 as [_ L1].
      assert (E : map dloc (e_dofs eC) = [0; 1; 2]%nat).
      { unfold e_dofs. rewrite (proj1 C1). exact (tri_locs eC C1). }
      unfold sum_over at 1. unfold sumlist. cbn [map fold_right]. assert (sum_over (e_dofs eC) (fun a => e_f eC (dloc a)) = 6) as ->.
      { unfold sum_over. rewrite <- (map_map dloc (e_f eC)), E. cbn [map]. rewrite !L1. unfold sumlist. cbn. lra. }
      cbn [INR]. lra.
    + intros el k c [<-|[]] Hk [<-|[]]. destruct Hk as [<-|[<-|[<-|[]]]]; discriminate.
Qed.

(** C107, 1/2 is needed: for every theta below 1/2 there are a time step size,
    and two runs on one triangle that agree at the fixed dofs, whose distance
    grows. *)
Theorem C107_half : forall theta, 0 < theta < 1 / 2 ->
  exists dt solve t n esC T S T1 S1, 0 < dt /\ exact_solver solve /\
    theta_mesh [0]%nat tri_xs sf_3Triangle Gauss1Triangle [[0; 1; 2]]%nat tri_table /\ renumber tri_table = (t, n) /\
    (forall i j, in_table tri_table i j -> in_table T i j /\ in_table S i j) /\ (forall i j, num tri_table i j = None -> uval T i j = uval S i j) /\
    Forall2 (made_by (fun s q el => HeatCapacity s q el [0]%nat tri_xs 1 1 1)) (map (mkPiece sf_3Triangle Gauss1Triangle) [[0; 1; 2]]%nat) esC /\
    theta_run solve (fun s q el => HeatCapacity s q el [0]%nat tri_xs 1 1 1) (fun s q el => HeatTransfer s q el [0]%nat tri_xs 1 1) no_source
      sf_3Triangle Gauss1Triangle [[0; 1; 2]]%nat dt theta t n 1 T = Ok T1 /\
    theta_run solve (fun s q el => HeatCapacity s q el [0]%nat tri_xs 1 1 1) (fun s q el => HeatTransfer s q el [0]%nat tri_xs 1 1) no_source
      sf_3Triangle Gauss1Triangle [[0; 1; 2]]%nat dt theta t n 1 S = Ok S1 /\
    cap_dist esC T S < cap_dist esC T1 S1.
Proof. exact C107_half_pf. Qed.
Print Assumptions C107_half.

(** with theta = 1/4 *)
Example C107_half_ex : exists dt esC T S T1 S1, 0 < dt /\ Forall2 (made_by ex_C) (map (mkPiece sf_3Triangle Gauss1Triangle) [[0; 1; 2]]%nat) esC /\ cap_dist esC T S < cap_dist esC T1 S1.
Proof. destruct (C107_half (1 / 4) ltac:(lra)) as (dt & solve & t & n & esC & T & S & T1 & S1 & H1 & _ & _ & _ & _ & _ & H2 & _ & _ & H3). exists dt, esC, T, S, T1, S1. auto. Qed.
