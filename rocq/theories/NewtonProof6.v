(** Examples for the load stepping sample. *)
From Coq Require Import List Arith Lia Bool Reals Lra.
From Verif Require Import Res SumR DenseModel DenseR DenseSpec ShapeModel QuadModel QuadSpec ElemModel ElemSpec ElemSpec2 SparseModel SparseSpec AssemblyModel AssemblySpec KrylovSpec NewtonModel NewtonSpec.
From Verif Require Import DenseProof DenseMain SparseMain AssemblyProof AssemblyProof2 AssemblyProof3 AssemblyMain KrylovProof PatchProof2 StableProof3 StableProof4 TopProof4 ElemProof NewtonProof NewtonProof2 NewtonProof3 NewtonProof4 NewtonProof5.
Import ListNotations.
Local Open Scope R_scope.

(** a node on three springs *)
Definition spring : newton := mkNewton [[0;0;0]] [[0%nat]] [] [(0%nat,0%nat,2)]
  (fun _ u => Ok (mkMat 3 3 [1;0;0; 0;1;0; 0;0;1], map Ropp (nth 0 u []), [[(0,0); (1,1); (2,2)]%nat])) 1 5 (1 / 100).
Lemma spring_ok : newton_ok spring.
Proof.
  split; cbn [spring nw_elements nw_ufixed nw_qfixed nw_x nw_call In length].
  - intros el u [<-|[]] (L & H). do 3 eexists. exists (fun i j => nth (i * 3 + j) [1;0;0; 0;1;0; 0;0;1] 0). split; [reflexivity|]. split; [apply is_mat_of_list; reflexivity|]. split; [rewrite map_length; apply (H O); cbn; lia|].
    split; [reflexivity|]. intros i Hi. cbn in Hi. assert (i = O) as -> by lia. split; [reflexivity|]. intros j Hj. destruct j as [|[|[|j]]]; [reflexivity..|lia].
  - intros el k [<-|[]] [<-|[]]. lia.
  - intros i j v [].
  - intros i j v [E|[]]. injection E as <- <- _. lia.
Qed.
Lemma spring_norm : load_norm spring = 2.
Proof. unfold load_norm, sum_over. cbn [spring nw_qfixed map sumlist snd]. cbn. replace (2 * 2 + 0) with (Rsqr 2) by (unfold Rsqr; ring). apply sqrt_Rsqr. lra. Qed.
(** it returns the right hand side when that is the solution *)
Definition self (A : csr R) (b : list R) : res (list R) :=
  match csr_mulvec 0 Rplus Rmult A b with Ok c => if list_eq_dec Req_EM_T c b then Ok b else Fail AssertFail | Fail e => Fail e end.
Lemma self_exact : exact_solver self.
Proof. intros A b x. unfold self. destruct (csr_mulvec 0 Rplus Rmult A b) as [c|] eqn:M; [|discriminate]. destruct (list_eq_dec Req_EM_T c b) as [->|]; [|discriminate]. intros E. injection E as <-. auto. Qed.
Lemma spring_start : nw_start spring = Ok ([[0;0;0]], [[Some 0; Some 1; Some 2]]%nat, 3%nat).
Proof. reflexivity. Qed.
Lemma spring_entry i j : (i < 3)%nat -> (j < 3)%nat -> sum_over (nels spring [[0;0;0]]) (fun e => k_contrib [[Some 0; Some 1; Some 2]]%nat e i j) = if (i =? j)%nat then 1 else 0.
Proof.
  intros Hi Hj. unfold sum_over, k_contrib, sum_over. destruct i as [|[|[|i]]]; try lia; destruct j as [|[|[|j]]]; try lia; cbn; ring.
Qed.
Lemma spring_pass : exists u, nw_pass self spring [[Some 0; Some 1; Some 2]]%nat 3 1 [[0;0;0]] = Ok (u, false).
Proof.
  destruct (start_ok spring spring_ok) as (u & t & n & E & TB & HK & _). rewrite spring_start in E. injection E as <- <- <-.
  destruct (pass_ok self spring _ 3 1 _ spring_ok TB (proj1 HK) ltac:(lia) ltac:(cbn; lia)) as (A & b & SQ & Lb & ROW & EN & _ & EP). rewrite EP by (rewrite spring_norm; lra). clear EP.
  assert (O1 : forall i j, (i < 1)%nat -> (j < 3)%nat -> out spring (INR 1 / INR (nw_steps spring)) [[0;0;0]] i j - held_share spring [[0;0;0]] i j = if (j =? 0)%nat then 2 else 0).
  { intros i j Hi Hj. assert (i = O) as -> by lia. rewrite (no_share spring _ 3 [[0;0;0]] 0 j spring_ok TB HK ltac:(intros ? ? ? [])). unfold out, nodal_load, element_load, sum_over. destruct j as [|[|[|j]]]; try lia; cbn; field. }
  destruct (Rlt_dec _ _) as [C|C].
  - exfalso. rewrite spring_norm in C. pose proof (square_bound spring _ 0 0 _ ltac:(cbn; lia) ltac:(lia) eq_refl C) as Q. cbv beta in Q. rewrite O1 in Q by lia. cbn in Q. lra.
  - clear C. assert (S : self A b = Ok b).
    { unfold self. assert (M : csr_mulvec 0 Rplus Rmult A b = Ok b).
      { apply (mulvec_rows 3); auto. intros i Hi. unfold matvec. rewrite (bigsum_ext 3 _ (fun j => (if (i =? j)%nat then 1 else 0) * ix b j)) by (intros j Hj; rewrite EN, spring_entry by lia; reflexivity).
        destruct i as [|[|[|i]]]; try lia; cbn [bigsum Nat.eqb]; ring. }
      rewrite M. destruct (list_eq_dec Req_EM_T b b); [reflexivity|congruence]. }
    rewrite S. cbn [bind]. destruct (after_ok spring _ 3 [[0;0;0]] b TB (proj1 HK) Lb) as (v & Ea & _). exists v. exact Ea.
Qed.

(** a tetrahedron with three fixed nodes and a small force on the fourth *)
Definition light : newton := mkNewton [[1;0;0]; [0;1;0]; [0;0;1]; [0;0;0]] [[0;1;2;3]%nat]
  [(1%nat,0%nat,0); (1%nat,1%nat,0); (1%nat,2%nat,0); (2%nat,0%nat,0); (2%nat,1%nat,0); (2%nat,2%nat,0); (3%nat,0%nat,0); (3%nat,1%nat,0); (3%nat,2%nat,0)] [(0%nat,0%nat,1 / 1000)]
  (nw_total sf_4Tetrahedron Gauss1Tetrahedron [[1;0;0]; [0;1;0]; [0;0;1]; [0;0;0]] 1 0) 10 100 (1 / 100).
Lemma light_total : total_lagrange light sf_4Tetrahedron Gauss1Tetrahedron 1 0.
Proof.
  split; [reflexivity|]. split; [intros el [<-|[]]; exact tet_elem|]. split; [lra|]. split; intros i j v H; cbn [light nw_ufixed nw_qfixed nw_x length In] in *; decompose [or] H; try contradiction; try (injection H0; intros; subst; lia); try (injection H1; intros; subst; lia); inversion H; subst; lia.
Qed.
Lemma light_held : zero_held light.
Proof. intros i j v H. cbn [light nw_ufixed In] in H. decompose [or] H; try contradiction; match goal with E : _ = (i, j, v) |- _ => injection E; intros; subst; reflexivity end. Qed.
Lemma light_norm : load_norm light = 1 / 1000.
Proof. unfold load_norm, sum_over. cbn [light nw_qfixed map sumlist snd]. cbn. replace (1 / 1000 * (1 / 1000) + 0) with (Rsqr (1/1000)) by (unfold Rsqr; ring). apply sqrt_Rsqr. lra. Qed.
