(** The runs of the static samples. *)
From Coq Require Import List Arith Lia Bool Reals Lra Permutation.
From Verif Require Import Res SumR DenseModel DenseR DenseSpec ShapeModel QuadModel QuadSpec ElemModel ElemSpec SparseModel SparseSpec AssemblyModel AssemblySpec KrylovSpec PatchSpec StableSpec TopSpec StaticModel StaticSpec.
From Verif Require Import DenseProof AssemblyProof AssemblyProof2 AssemblyProof3 AssemblyMain PatchProof PatchProof2 PatchProof3 StableProof3 StableProof4 StableMain HomMain ElemMain TopProof3 TopProof4 StaticPiece.
Import ListNotations.
Local Open Scope R_scope.

Lemma nth_rep {A} (x d : A) N i : nth i (repeat x N) d = if (i <? N)%nat then x else d.
Proof. revert i. induction N as [|N IH]; intros [|i]; cbn; auto. rewrite IH. reflexivity. Qed.
Lemma in_rep {A} (x : A) m N i j : in_table (repeat (repeat x m) N) i j <-> (i < N)%nat /\ (j < m)%nat.
Proof. unfold in_table. rewrite nth_rep. destruct (Nat.ltb_spec i N); [rewrite repeat_length|cbn [length]]; lia. Qed.
Lemma num_rep N m i j : num (repeat (repeat (Some 0%nat) m) N) i j = if (i <? N)%nat && (j <? m)%nat then Some 0%nat else None.
Proof. unfold num. rewrite nth_rep. destruct (i <? N)%nat; cbn [andb]; [apply nth_rep|destruct j; auto]. Qed.
Lemma dirichlet_concat L : forall s, foldM set_dirichlet L s = set_dirichlet s (concat L).
Proof.
  induction L as [|fx L IH]; intros s; [reflexivity|]. cbn [foldM concat].
  replace (set_dirichlet s (fx ++ concat L)) with (bind (set_dirichlet s fx) (fun s' => set_dirichlet s' (concat L))) by (unfold set_dirichlet; now rewrite foldM_app).
  destruct (set_dirichlet s fx) as [s'|]; cbn [bind]; [apply IH|reflexivity].
Qed.
Lemma made_force f P : forall es es' u i j, Forall2 (made_by f) P es -> Forall2 (made_by f) P es' -> internal_force es u i j = internal_force es' u i j.
Proof.
  unfold internal_force. induction P as [|p P IH]; intros es es' u i j H H'; inversion H as [|? e ? es1 [A B] HA]; inversion H' as [|? e' ? es2 [A' B'] HB]; subst; [reflexivity|].
  rewrite !sum_over_cons, (IH es1 es2 u i j HA HB). f_equal. unfold e_dofs, e_k. rewrite A, A'. rewrite B in B'. injection B' as -> ->. reflexivity.
Qed.
Lemma add_made d u t : forall els es acc, Forall2 (made_by (st_f d)) (map (mkPiece (st_s d) (st_q d)) els) es -> foldM (st_add d u t) els acc = foldM (add_KF u t) es acc.
Proof.
  induction els as [|el els IH]; intros es acc H; inversion H as [|? e ? es1 [A B] H1]; subst; [reflexivity|]. cbn [foldM]. cbn [p_nodes p_shape p_rule] in A, B.
  unfold st_add at 1, add_KF at 1. rewrite B. cbn [bind]. rewrite A. destruct (assemble_K_F acc u (e_K e) t (e_nte e) el); cbn [bind]; [now apply IH|reflexivity].
Qed.
Lemma routine_m dou xs d m f : stiff_routine dou xs d m f -> (0 < m)%nat.
Proof. intros H; destruct H; lia. Qed.
Lemma static_run solve d dim : spd_solver solve -> static_ok d dim ->
  exists es u, Forall2 (made_by (st_f d)) (st_pieces d) es /\ st_run solve d = Ok u /\ sshape d u /\ balanced d es u /\
    forall u', sshape d u' -> balanced d es u' -> forall i j, uval u' i j = uval u i j.
Proof.
  intros HS [HR HP HN HX HL HH]. set (N := length (st_x d)) in *. set (m := st_m d) in *.
  destruct (sound_runs (seq 0 m) (st_x d) dim m (st_f d) (st_pieces d) HR (seq_length _ _) HP) as (es & HF & HE).
  set (u0 := repeat (vnew R_ops m) N). set (t0 := repeat (repeat (Some 0%nat) m) N).
  assert (U0 : forall i j, in_table u0 i j <-> (i < N)%nat /\ (j < m)%nat) by (intros; apply in_rep).
  assert (T0 : forall i j, in_table t0 i j <-> (i < N)%nat /\ (j < m)%nat) by (intros; apply in_rep).
  destruct (set_dirichlet_ok (st_fx d) u0 t0) as (u1 & t1 & E1 & SU & ST & VU & VT).
  { intros i j v Hin. rewrite U0, T0. split; exact (HX i j v Hin). }
  destruct (renumber t1) as [t2 n] eqn:E2. destruct (renumber_ok _ _ _ E2) as ((L2 & S2 & N2) & _ & _ & NU & _).
  assert (T2 : forall i j, in_table t2 i j <-> (i < N)%nat /\ (j < m)%nat). { intros i j. rewrite <- T0. unfold in_table. rewrite <- S2, (proj2 ST). tauto. }
  assert (U1 : forall i j, in_table u1 i j <-> (i < N)%nat /\ (j < m)%nat). { intros i j. rewrite <- U0. unfold in_table. rewrite (proj2 SU). tauto. }
  assert (Z : forall i j, num t2 i j = None <-> last_value (st_fx d) i j <> None \/ ~ ((i < N)%nat /\ (j < m)%nat)).
  { intros i j. rewrite <- N2, VT. unfold t0. rewrite num_rep. destruct (last_value (st_fx d) i j); [split; intros; auto; left; discriminate|].
    destruct (Nat.ltb_spec i N), (Nat.ltb_spec j m); cbn [andb]; split; intros Q; try discriminate; auto; try (right; lia); destruct Q as [Q|Q]; [congruence|exfalso; apply Q; auto]. }
  destruct (kf_system n t2 u1 es (st_loads d) NU) as (K & F & F' & Kc & K' & E3 & E4 & E5 & SQ & LF & EN & OK & X).
  { intros i j. rewrite T2, U1. auto. }
  { intros e He. apply (proj2 (HE e He)). intros p k c Hp Hk Hc. apply T2. unfold st_pieces in Hp. apply in_map_iff in Hp. destruct Hp as (el & <- & Hel). split; [now apply (HN el)|]. apply in_seq in Hc. lia. }
  { intros i j v Hin. apply T2. exact (HL i j v Hin). }
  destruct (sound_definite (seq 0 m) (st_x d) dim m (st_f d) (st_pieces d) es n t2 u1 (entry Kc)) as [SY PD]; auto.
  { apply seq_length. }
  { intros i j Hn. assert (A : last_value (st_fx d) i j = None /\ (i < N)%nat /\ (j < m)%nat).
    { rewrite Z in Hn. destruct (last_value (st_fx d) i j); [exfalso; apply Hn; left; discriminate|]. split; auto. destruct (lt_dec i N), (lt_dec j m); auto; exfalso; apply Hn; right; lia. }
    destruct A as (A1 & A2 & A3). split; [apply in_seq; lia|].
    unfold st_pieces. rewrite map_map. cbn [p_nodes]. rewrite map_id. pose proof (HH i A2) as Hh. clear - Hh Z. induction Hh as [k Hb|el ks k Hel HSu Hks _ IH Hin]; [|now apply (held_elem _ _ _ _ el ks k)].
    apply held_base. intros c Hc. apply in_seq in Hc. apply Z. left. apply Hb. lia. }
  destruct (HS n Kc F' SQ LF SY PD) as (x & Ex & Lx & Sx). destruct (X x Lx) as (u & E6 & IU & LU & VV & EQ).
  exists es, u. split; [exact HF|]. split; [|split; [|split]].
  - unfold st_run. fold N m u0 t0. rewrite dirichlet_concat. fold (st_fx d). rewrite E1. cbn [bind]. rewrite E2, (add_made d u1 t2 _ es _ HF), E3. cbn [bind]. rewrite E4. cbn [bind]. rewrite E5. cbn [bind]. rewrite Ex. exact E6.
  - intros i j. rewrite IU. apply U1.
  - split.
    + intros i j v Hv. rewrite VV. assert (num t2 i j = None) as -> by (apply Z; left; congruence). rewrite VU, Hv. reflexivity.
    + intros i j Hi Hj Hv. destruct (num t2 i j) as [k|] eqn:Ek; [|apply Z in Ek; destruct Ek as [Ek|Ek]; [congruence|exfalso; apply Ek; auto]].
      pose proof (EQ i j k Ek) as Q. assert (residual n Kc F' x k = 0); [|lra]. unfold residual. pose proof (proj1 (mulvec_rows n Kc x F' SQ Lx LF) Sx k (proj1 NU _ _ _ Ek)). lra.
  - intros u' SH [B1 B2]. destruct NU as (N1 & I2 & O2).
    destruct (PatchProof3.finite_choice (fun k w => forall i j, num t2 i j = Some k -> w = uval u' i j) n) as (x' & Lx' & Hx').
    { intros k Hk. destruct (O2 k Hk) as (i & j & Eij). exists (uval u' i j). intros i' j' E'. destruct (I2 _ _ _ _ _ Eij E') as [-> ->]. reflexivity. }
    destruct (X x' Lx') as (u2 & _ & _ & _ & V2 & EQ2).
    assert (SM : forall i j, uval u2 i j = uval u' i j).
    { intros i j. rewrite V2. destruct (num t2 i j) as [k|] eqn:Ek; [apply Hx'; eauto|]. rewrite VU. destruct (last_value (st_fx d) i j) as [v|] eqn:Ev; [symmetry; auto|].
      apply Z in Ek. destruct Ek as [Ek|Ek]; [congruence|]. assert (~ in_table u' i j) as Hu by (rewrite (SH i j); exact Ek). assert (~ in_table u0 i j) as H0 by (rewrite U0; exact Ek).
      unfold in_table in Hu, H0. unfold uval. rewrite !nth_overflow by lia. reflexivity. }
    assert (Sx' : csr_mulvec 0 Rplus Rmult Kc x' = Ok F').
    { apply (mulvec_rows n Kc x' F' SQ Lx' LF). intros k Hk. destruct (O2 k Hk) as (i & j & Eij). pose proof (EQ2 i j k Eij) as Q.
      assert (P : ~ (last_value (st_fx d) i j <> None \/ ~ ((i < N)%nat /\ (j < m)%nat))) by (rewrite <- Z; congruence).
      assert (A1 : last_value (st_fx d) i j = None) by (destruct (last_value (st_fx d) i j); auto; exfalso; apply P; left; discriminate).
      assert (A2 : (i < N)%nat /\ (j < m)%nat) by (destruct (lt_dec i N), (lt_dec j m); auto; exfalso; apply P; right; lia).
      rewrite (internal_force_ext es u2 u' i j SM), (B2 i j (proj1 A2) (proj2 A2) A1) in Q. unfold residual in Q. lra. }
    destruct (definite_solution n Kc F' SQ LF SY PD) as (y & _ & _ & UY).
    assert (x' = x) as EXX by (rewrite (UY x Lx Sx); apply UY; auto). intros i j. rewrite <- SM, V2, VV, EXX. reflexivity.
Qed.

(** ** The profile *)
Definition levelb (xs : list (list R)) (sd : list nat) : bool :=
  forallb (fun k => forallb (fun k' => if Req_EM_T (nth 1 (nth k xs []) 0) (nth 1 (nth k' xs []) 0) then true else false) sd) sd.
Lemma levelb_iff xs sd : levelb xs sd = true <-> level xs sd.
Proof.
  unfold levelb, level. rewrite forallb_forall. split.
  - intros H k k' Hk Hk'. specialize (H k Hk). rewrite forallb_forall in H. specialize (H k' Hk'). destruct (Req_EM_T _ _); [auto|discriminate].
  - intros H k Hk. rewrite forallb_forall. intros k' Hk'. destruct (Req_EM_T _ _) as [|E]; [reflexivity|]. exfalso. apply E. now apply H.
Qed.
Lemma levelb_rev xs sd : levelb xs (rev sd) = levelb xs sd.
Proof.
  apply eq_true_iff_eq. rewrite !levelb_iff. unfold level. split; intros H k k' Hk Hk'; apply H.
  - now rewrite <- in_rev.
  - now rewrite <- in_rev.
  - now rewrite in_rev.
  - now rewrite in_rev.
Qed.
Lemma phi_level X sd i : (forall k k', In k sd -> In k' sd -> X k = X k') -> phi X sd i = 0.
Proof.
  intros H. unfold phi. destruct sd as [|a [|b [|c [|? ?]]]]; auto.
  - rewrite (H b a) by (cbn; auto). destruct (a =? i)%nat, (b =? i)%nat; cbn [ind]; lra.
  - rewrite (H b a), (H c a) by (cbn; auto). destruct (a =? i)%nat, (b =? i)%nat, (c =? i)%nat; cbn [ind]; lra.
Qed.
Lemma count_filterb fl (L : list (list nat)) sd : count_occ dec (filter fl L) sd = if fl sd then count_occ dec L sd else O.
Proof.
  induction L as [|a L IH]; cbn [filter count_occ]; [now destruct (fl sd)|].
  destruct (fl a) eqn:Ea; cbn [count_occ]; rewrite IH; destruct (dec a sd) as [->|Hne]; rewrite ?Ea; auto; destruct (fl sd); auto.
Qed.
Lemma enclosed_zero xs els i : enclosed xs els i -> sum_over (flat_map sides els) (fun sd => phi (fun v => nth 1 (nth v xs []) 0) sd i) = 0.
Proof.
  intros H. unfold enclosed in H. set (L := flat_map sides els) in *. set (Y := fun v => nth 1 (nth v xs []) 0).
  set (fl := fun sd => at_node i sd && negb (levelb xs sd)).
  assert (E : forall l, sum_over l (fun sd => phi Y sd i) = sum_over (filter fl l) (fun sd => phi Y sd i)).
  { induction l as [|a l IH]; [reflexivity|]. rewrite sum_over_cons, IH. cbn [filter]. destruct (fl a) eqn:Ea; [reflexivity|]. unfold fl in Ea.
    apply andb_false_iff in Ea. destruct Ea as [Ea|Ea].
    - rewrite phi_out; [lra|]. unfold at_node in Ea. destruct (in_dec Nat.eq_dec i a); [discriminate|auto].
    - rewrite phi_level; [lra|]. apply negb_false_iff, levelb_iff in Ea. exact Ea. }
  assert (P : Permutation (filter fl L) (map (@rev nat) (filter fl L))).
  { apply (Permutation_count_occ dec). intros sd. rewrite count_rev, !count_filterb. unfold fl. rewrite at_node_rev, levelb_rev.
    destruct (at_node i sd) eqn:Ea; cbn [andb]; auto. destruct (levelb xs sd) eqn:El; cbn [negb]; auto.
    assert (Hin : In i sd) by (unfold at_node in Ea; destruct (in_dec Nat.eq_dec i sd); [auto|discriminate]).
    destruct (H sd Hin) as [Q|Q]; [apply levelb_iff in Q; congruence|exact Q]. }
  rewrite E. pose proof (sum_over_perm _ _ (fun sd => phi Y sd i) P) as Q.
  unfold sum_over at 2 in Q. rewrite map_map in Q. fold (sum_over (filter fl L) (fun sd => phi Y (rev sd) i)) in Q.
  rewrite (sum_ext _ (fun sd => phi Y (rev sd) i) (fun sd => -1 * phi Y sd i)) in Q by (intros; rewrite phi_rev; lra).
  rewrite sum_over_scal in Q. lra.
Qed.
Lemma heat_force xs alpha t P es u a A i j : (forall p, In p P -> piece_ok xs p) ->
  Forall2 (made_by (fun s q el => HeatTransfer s q el [0%nat] xs alpha t)) P es -> (forall p, In p P -> affine_on 1 [0%nat] xs u a A (p_nodes p)) -> A 1%nat 0%nat = 0 ->
  enclosed xs (map p_nodes P) i -> internal_force es u i j = 0.
Proof.
  intros HP HF HA A1 HI. set (W := fun H Z : nat -> nat -> R => alpha * t * bigsum 2 (fun l => H l 0%nat * Z l 0%nat)). set (S := fun l (c : nat) => alpha * t * A l 0%nat).
  assert (HS : forall s q el, element_ok 2 s q el xs -> stiffness_of 2 1 s q el [0%nat] xs (HeatTransfer s q el [0%nat] xs alpha t) W) by (intros s q el He; apply (C59_scalar_pf s q el [0%nat] xs alpha t 0 0 0 He eq_refl)).
  assert (HW : forall H, W H A = bigsum 1 (fun c => H 0%nat c * S 0%nat c + H 1%nat c * S 1%nat c)) by (intros H; unfold W, S; cbn [bigsum]; ring).
  assert (E : internal_force es u i j = bigsum 1 (fun c => ind (nth c [0%nat] O =? j)%nat
    (S 0%nat c * sum_over (flat_map sides (map p_nodes P)) (fun sd => phi (fun v => nth 1 (nth v xs []) 0) sd i)
     - S 1%nat c * sum_over (flat_map sides (map p_nodes P)) (fun sd => phi (fun v => nth 0 (nth v xs []) 0) sd i)))).
  { clear HI. unfold internal_force. induction HF as [|p e P es [Hn Hk] HF IH].
    - cbn [map flat_map]. rewrite sum_over_nil. symmetry. apply bigsum_zero. intros c _. rewrite !sum_over_nil. destruct (nth c [0%nat] O =? j)%nat; cbn [ind]; lra.
    - rewrite sum_over_cons, IH by (intros; auto with datatypes). cbn [map flat_map]. destruct (HP p (or_introl eq_refl)) as [Hq He].
      unfold e_dofs, e_k. rewrite Hn.
      rewrite (element_force _ _ _ [0%nat] xs 1 _ W a A u (e_K e) (e_nte e) S j Hq He (Nat.neq_succ_0 0) (HS _ _ _ He) HW Hk (HA p (or_introl eq_refl)) i).
      rewrite <- bigsum_plus. apply bigsum_ext. intros c _. rewrite !(sum_over_app (sides (p_nodes p))). destruct (nth c [0%nat] O =? j)%nat; cbn [ind]; ring. }
  rewrite E. cbn [bigsum]. unfold S. rewrite (enclosed_zero xs (map p_nodes P) i HI), A1. destruct (nth 0 [0%nat] O =? j)%nat; cbn [ind]; ring.
Qed.
