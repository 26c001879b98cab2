(** The elements and the edges of the plane strain sample. *)
From Coq Require Import List Arith Lia Bool Reals Lra.
From Verif Require Import Res SumR DenseModel DenseR DenseSpec ShapeModel QuadModel QuadSpec ElemModel ElemSpec LoadSpec SparseModel SparseSpec AssemblyModel AssemblySpec KrylovSpec PatchSpec StableSpec TopModel TopSpec PlaneModel PlaneSpec.
From Verif Require Import DenseProof DenseMain SparseMain AssemblyProof AssemblyProof2 AssemblyProof3 AssemblyMain ElemProof ElemProof2 ElemProof3 ElemMain LoadMain HomMain KrylovProof PatchProof PatchProof2 StableProof StableProof2 StableProof3 StableProof4 ThetaProof ThetaProof3 ThetaProof4 ThetaProof5 TopProof2 TopProof3 TopProof4 PlaneProof.
Import ListNotations.
Local Open Scope R_scope.

Definition no_elem : elem := mkElem [] [] (mnew R_ops 0 0) [].
Definition pel (d : plane) (el : list nat) : elem :=
  match pl_stiffness d el, PlaneBodyForce (pl_s d) (pl_q d) el [0%nat; 1%nat] (pl_x d) (pl_body d) (pl_t d) with
  | Ok (K, ne), Ok (F, _) => mkElem el ne K F
  | _, _ => no_elem
  end.
Definition ped (d : plane) (el : list nat) : elem :=
  match PlaneSurfaceForce (pl_es d) (pl_eq d) el [0%nat; 1%nat] (pl_x d) (pl_surface d) (pl_t d) with
  | Ok (F, ne) => mkElem el ne (mnew R_ops (2 * length el) (2 * length el)) F
  | _ => no_elem
  end.
Definition dens (d : plane) (G H : nat -> nat -> R) : R := pl_t d * hooke 2 (lame_lambda (pl_E d) (pl_V d)) (lame_mu (pl_E d) (pl_V d)) (strain G) (strain H).
Definition body_el (d : plane) (y : nat -> nat -> R) (el : list nat) : R :=
  quad 2 (pl_q d) (fun p => jac (pl_s d) (nodal el (pl_x d)) p * pl_t d *
    bigsum 2 (fun c => field_value (pl_s d) p y c * nth c (pl_body d (at_point (pl_s d) (nodal el (pl_x d)) p)) 0)).
Definition edge_el (d : plane) (y : nat -> nat -> R) (el : list nat) : R :=
  quad 1 (pl_eq d) (fun p => arc (pl_es d) (nodal el (pl_x d)) p * pl_t d *
    bigsum 2 (fun c => field_value (pl_es d) p y c * nth c (pl_surface d (at_point (pl_es d) (nodal el (pl_x d)) p)) 0)).

Record pel_ok (d : plane) (el : list nat) (e : elem) : Prop := mkPel {
  pe_nodes : e_nodes e = el;
  pe_call : pl_stiffness d el = Ok (e_K e, e_nte e);
  pe_body : PlaneBodyForce (pl_s d) (pl_q d) el [0%nat; 1%nat] (pl_x d) (pl_body d) (pl_t d) = Ok (e_F e, e_nte e);
  pe_num : numbered 2 (length el) [0%nat; 1%nat] (e_nte e);
  pe_mat : exists k, is_mat (e_K e) (2 * length el) (2 * length el) k /\
    forall y z Hy Hz, gradients (pl_s d) (pl_q d) (nodal el (pl_x d)) 2 y Hy -> gradients (pl_s d) (pl_q d) (nodal el (pl_x d)) 2 z Hz ->
      form 2 (length el) k y z = quad 2 (pl_q d) (fun p => jac (pl_s d) (nodal el (pl_x d)) p * dens d (Hy p) (Hz p));
  pe_vec : exists f, is_vec (e_F e) (2 * length el) f /\ forall y, bigsum (2 * length el) (fun a => f a * y (a / 2)%nat (a mod 2)%nat) = body_el d y el }.
Lemma pel_good d el : plane_ok d -> In el (pl_elements d) -> pel_ok d el (pel d el).
Proof.
  intros HP Hel. destruct (pk_piece d HP el Hel) as (_ & He & _). cbn [p_shape p_rule p_nodes] in He. pose proof (pk_poisson d HP) as PV.
  destruct (proj1 (C59_plane_pf (pl_s d) (pl_q d) el [0%nat; 1%nat] (pl_x d) (pl_E d) (pl_V d) (pl_t d) He eq_refl) ltac:(nra)) as (K & ne & k & E1 & HK & HN & HF).
  destruct (proj1 (C82_body_force_pf (pl_s d) (pl_q d) el [0%nat; 1%nat] (pl_x d) (pl_body d) (pl_t d) He eq_refl (pk_body d HP))) as (F & ne' & f & E2 & Hf & HN' & HW).
  assert (ne' = ne) as -> by (eapply numbered_eq; eauto). fold (pl_stiffness d el) in E1. unfold pel. rewrite E1, E2.
  split; cbn [e_nodes e_K e_nte e_F]; auto; [exists k; split; auto|exists f; split; auto].
Qed.
Record ped_ok (d : plane) (el : list nat) (e : elem) : Prop := mkPed {
  ed_nodes : e_nodes e = el;
  ed_call : PlaneSurfaceForce (pl_es d) (pl_eq d) el [0%nat; 1%nat] (pl_x d) (pl_surface d) (pl_t d) = Ok (e_F e, e_nte e);
  ed_num : numbered 2 (length el) [0%nat; 1%nat] (e_nte e);
  ed_mat : e_K e = mnew R_ops (2 * length el) (2 * length el);
  ed_vec : exists f, is_vec (e_F e) (2 * length el) f /\ forall y, bigsum (2 * length el) (fun a => f a * y (a / 2)%nat (a mod 2)%nat) = edge_el d y el }.
Lemma ped_good d el : plane_ok d -> In el (pl_edges d) -> ped_ok d el (ped d el).
Proof.
  intros HP Hel. pose proof (pk_edge d HP el Hel) as He.
  destruct (proj1 (C82_surface_force_pf (pl_es d) (pl_eq d) el [0%nat; 1%nat] (pl_x d) (pl_surface d) (pl_t d) He eq_refl (pk_surface d HP))) as (F & ne' & f & E2 & Hf & HN' & HW).
  unfold ped. rewrite E2. split; cbn [e_nodes e_K e_nte e_F]; auto. exists f; split; auto.
Qed.

(** ** Work of the loads *)
Lemma blocks_sum m n f : (m <> 0)%nat -> bigsum (m * n) f = bigsum n (fun i => bigsum m (fun j => f (m * i + j)%nat)).
Proof.
  intros Hm. induction n as [|n IH]; [rewrite Nat.mul_0_r; reflexivity|]. cbn [bigsum]. rewrite <- IH. replace (m * S n)%nat with (m * n + m)%nat by lia.
  clear IH. induction m as [|m' _] using nat_ind; [lia|]. generalize (S m' * n)%nat. intros a. generalize (S m'). intros b. clear Hm m'. induction b as [|b IH]; [rewrite Nat.add_0_r; cbn; lra|].
  rewrite Nat.add_succ_r. cbn [bigsum]. rewrite IH. ring.
Qed.
Lemma load_sum el ne F f y w : numbered 2 (length el) [0%nat; 1%nat] ne -> is_vec F (2 * length el) f -> (forall i c, y i c = w (nth i el O) c) ->
  sum_over (dofs el ne) (fun a => w (dnode a) (ddof a) * nth (dloc a) F 0) = bigsum (2 * length el) (fun a => f a * y (a / 2)%nat (a mod 2)%nat).
Proof.
  intros HN HF HY. rewrite (numbered_sum 2 _ _ _ _ HN), blocks_sum by lia. apply bigsum_ext. intros i Hi. apply bigsum_ext. intros j Hj. cbn [dnode ddof dloc].
  destruct (DenseMain.is_vec_nth F _ _ 0 HF) as [_ V]. rewrite V by lia. replace ((2 * i + j) / 2)%nat with i by (rewrite Nat.mul_comm, Nat.div_add_l, (Nat.div_small j) by lia; lia).
  replace ((2 * i + j) mod 2)%nat with j by (rewrite Nat.add_comm, Nat.mul_comm, Nat.mod_add, Nat.mod_small by lia; lia). rewrite HY. destruct j as [|[|j]]; [apply Rmult_comm|apply Rmult_comm|lia].
Qed.
Lemma body_sum d el e w : pel_ok d el e -> sum_over (e_dofs e) (fun a => w (dnode a) (ddof a) * e_f e (dloc a)) = body_el d (on el w) el.
Proof. intros P. destruct (pe_vec d el e P) as (f & Hf & HW). rewrite <- HW. unfold e_dofs, e_f. rewrite (pe_nodes d el e P). apply load_sum; auto. apply (pe_num d el e P). Qed.
Lemma edge_sum d el e w : ped_ok d el e -> sum_over (e_dofs e) (fun a => w (dnode a) (ddof a) * e_f e (dloc a)) = edge_el d (on el w) el.
Proof. intros P. destruct (ed_vec d el e P) as (f & Hf & HW). rewrite <- HW. unfold e_dofs, e_f. rewrite (ed_nodes d el e P). apply load_sum; auto. apply (ed_num d el e P). Qed.

(** ** Work of the stresses *)
Lemma bil_form d el e k v w : pel_ok d el e -> is_mat (e_K e) (2 * length el) (2 * length el) k -> bil e (e_dofs e) v w = form 2 (length el) k (on el v) (on el w).
Proof.
  intros P HK. unfold bil, e_dofs. rewrite (pe_nodes d el e P). pose proof (pe_num d el e P) as HN. rewrite (numbered_sum 2 _ _ _ _ HN), form_blocks by lia. apply bigsum_ext. intros i Hi. apply bigsum_ext. intros c Hc.
  rewrite (numbered_sum 2 _ _ _ _ HN), <- bigsum_scal. apply bigsum_ext. intros i' Hi'. rewrite <- bigsum_scal. apply bigsum_ext. intros c' Hc'. cbn [dnode ddof dloc]. unfold e_k. rewrite (mat_entry _ _ _ _ _ _ HK) by lia.
  unfold on. destruct c as [|[|c]]; [| |lia]; (destruct c' as [|[|c']]; [| |lia]); cbn [nth]; ring.
Qed.
Definition gr (d : plane) (w : nat -> nat -> R) (el : list nat) (p : nat -> R) : nat -> nat -> R := gradU (pl_s d) (nodal el (pl_x d)) p (on el w).
Lemma pk_elem d el : plane_ok d -> In el (pl_elements d) -> element_ok 2 (pl_s d) (pl_q d) el (pl_x d).
Proof. intros HP Hel. exact (proj1 (proj2 (pk_piece d HP el Hel))). Qed.
Lemma gr_slopes d w : plane_ok d -> slopes d w (gr d w).
Proof. intros HP el Hel. apply (gradients_gradU (pl_s d) (pl_q d) el (pl_x d) 2 2 (on el w)); [now apply pk_elem|lia]. Qed.
Lemma bil_work d el w v Hw Hv : plane_ok d -> In el (pl_elements d) -> gradients (pl_s d) (pl_q d) (nodal el (pl_x d)) 2 (on el w) Hw -> gradients (pl_s d) (pl_q d) (nodal el (pl_x d)) 2 (on el v) Hv ->
  bil (pel d el) (e_dofs (pel d el)) w v = quad 2 (pl_q d) (fun p => jac (pl_s d) (nodal el (pl_x d)) p * dens d (Hw p) (Hv p)).
Proof. intros HP Hel A B. pose proof (pel_good d el HP Hel) as P. destruct (pe_mat d el _ P) as (k & HK & HF). rewrite (bil_form d el _ k w v P HK). now apply HF. Qed.
Lemma hooke_sym a b e f : hooke 2 a b e f = hooke 2 a b f e.
Proof. unfold hooke, ddot. rewrite (bigsum_ext 2 _ (fun i => bigsum 2 (fun j => f i j * e i j))); [ring|]. intros i _. apply bigsum_ext. intros; ring. Qed.
Lemma dens_sym d G H : dens d G H = dens d H G.
Proof. unfold dens. now rewrite hooke_sym. Qed.
Definition els (d : plane) : list elem := map (pel d) (pl_elements d).
Definition eds (d : plane) : list elem := map (ped d) (pl_edges d).
Lemma stress_bil d w v Gw Gv : plane_ok d -> slopes d w Gw -> slopes d v Gv -> sum_over (els d) (fun e => bil e (e_dofs e) w v) = stress_work d Gv Gw.
Proof.
  intros HP A B. unfold els, stress_work. rewrite sum_map. apply sum_ext. intros el Hel. rewrite (bil_work d el w v (Gw el) (Gv el)); auto.
  apply quad_ext. intros g Hg. f_equal. rewrite dens_sym. reflexivity.
Qed.
Lemma body_all d w : plane_ok d -> sum_over (els d) (fun e => sum_over (e_dofs e) (fun a => w (dnode a) (ddof a) * e_f e (dloc a))) = body_work d w.
Proof. intros HP. unfold els, body_work. rewrite sum_map. apply sum_ext. intros el Hel. rewrite (body_sum d el); [reflexivity|]. now apply pel_good. Qed.
Lemma edge_all d w : plane_ok d -> sum_over (eds d) (fun e => sum_over (e_dofs e) (fun a => w (dnode a) (ddof a) * e_f e (dloc a))) = traction_work d w.
Proof. intros HP. unfold eds, traction_work. rewrite sum_map. apply sum_ext. intros el Hel. rewrite (edge_sum d el); [reflexivity|]. now apply ped_good. Qed.
