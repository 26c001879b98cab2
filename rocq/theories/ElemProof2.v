(** Element routines: matrices as bilinear forms on nodal fields. *)
From Coq Require Import List Arith Lia Bool Reals Lra.
From Verif Require Import Res SumR DenseModel DenseR DenseSpec DenseProof DenseMain ShapeModel ShapeMain QuadModel QuadSpec ElemModel ElemSpec ElemProof.
Import ListNotations.
Local Open Scope R_scope.

Notation field := (nat -> nat -> R).

(** entry a of the dof vector of a field *)
Definition dofv (m : nat) (z : field) (a : nat) : R := z (a / m)%nat (a mod m)%nat.

(** the (m n) x (m n) matrix K represents the bilinear form F *)
Definition has_form (m n : nat) (K : mat R) (F : field -> field -> R) : Prop :=
  exists k, is_mat K (m * n) (m * n) k /\ forall y z, form m n k y z = F y z.
(** the p x (m n) matrix B maps a field to the p numbers V *)
Definition has_action (m n p : nat) (B : mat R) (V : nat -> field -> R) : Prop :=
  exists b, is_mat B p (m * n) b /\
    forall i z, (i < p)%nat -> bigsum (m * n) (fun a => b i a * dofv m z a) = V i z.
(** the vector represents a linear functional *)
Definition has_lin (m n : nat) (v : list R) (F : field -> R) : Prop :=
  exists f, is_vec v (m * n) f /\ forall y, bigsum (m * n) (fun a => f a * dofv m y a) = F y.

Lemma has_form_eq m n K F F' : (forall y z, F y z = F' y z) -> has_form m n K F -> has_form m n K F'.
Proof. intros H (k & Hk & E). exists k. split; auto. intros. now rewrite E. Qed.
Lemma has_lin_eq m n K F F' : (forall y, F y = F' y) -> has_lin m n K F -> has_lin m n K F'.
Proof. intros H (k & Hk & E). exists k. split; auto. intros. now rewrite E. Qed.
Lemma has_action_eq m n p K F F' : (forall i z, (i < p)%nat -> F i z = F' i z) -> has_action m n p K F -> has_action m n p K F'.
Proof. intros H (k & Hk & E). exists k. split; auto. intros. now rewrite E, H. Qed.

Lemma hf_new m n : has_form m n (mnew R_ops (m * n) (m * n)) (fun _ _ => 0).
Proof.
  exists (fun _ _ => 0). split; [apply Rmnew|]. intros. unfold form. apply bigsum_zero; intros. apply bigsum_zero; intros. ring.
Qed.
Lemma hf_scal m n K F s : has_form m n K F -> has_form m n (mscal R_ops s K) (fun y z => F y z * s).
Proof.
  intros (k & Hk & E). exists (fun a b => k a b * s). split; [now apply Rmscal|]. intros. now rewrite form_scal, E.
Qed.
Lemma hf_add m n K F K' F' : has_form m n K F -> has_form m n K' F' ->
  exists K2, madd R_ops K K' = Ok K2 /\ has_form m n K2 (fun y z => F y z + F' y z).
Proof.
  intros (k & Hk & E) (k' & Hk' & E'). destruct (Rmadd _ _ _ _ _ _ Hk Hk') as (K2 & EK & HK). exists K2. split; auto.
  exists (fun a b => k a b + k' a b). split; auto. intros. now rewrite form_plus, E, E'.
Qed.
Lemma hf_sub m n K F K' F' : has_form m n K F -> has_form m n K' F' ->
  exists K2, msub R_ops K K' = Ok K2 /\ has_form m n K2 (fun y z => F y z - F' y z).
Proof.
  intros (k & Hk & E) (k' & Hk' & E'). destruct (Rmsub _ _ _ _ _ _ Hk Hk') as (K2 & EK & HK). exists K2. split; auto.
  exists (fun a b => k a b - k' a b). split; auto. intros.
  rewrite (form_ext m n _ (fun a b => k a b + k' a b * (-1))) by (intros; ring).
  rewrite form_plus, form_scal, E, E'. ring.
Qed.
Lemma hf_weigh w d m n q g K F : (w <= d)%nat -> rule_ok d q -> (g < q_n q)%nat -> has_form m n K F ->
  exists K2, weigh w q g K = Ok K2 /\ has_form m n K2 (fun y z => F y z * wgt w q g).
Proof.
  intros Hw Hq Hg (k & Hk & E). destruct (weigh_ok w d q g K _ _ k Hw Hq Hg Hk) as (K2 & EK & HK).
  exists K2. split; auto. exists (fun a b => k a b * wgt w q g). split; auto. intros. now rewrite form_scal, E.
Qed.
Lemma hf_gauss m n q body K F0 F : has_form m n K F0 ->
  (forall g, (g < q_n q)%nat -> exists k, body g = Ok k /\ has_form m n k (F g)) ->
  exists K', gauss q body K = Ok K' /\ has_form m n K' (fun y z => F0 y z + bigsum (q_n q) (fun g => F g y z)).
Proof.
  intros HK Hb. unfold gauss.
  apply (loop_inv (fun K g => k <- body g ;; madd R_ops K k)
    (fun j K => has_form m n K (fun y z => F0 y z + bigsum j (fun g => F g y z))) (q_n q) K).
  - eapply has_form_eq; [|exact HK]. intros. cbn. ring.
  - intros g K1 Hg H1. destruct (Hb g Hg) as (k & Ek & Hk). rewrite Ek. cbn [bind].
    destruct (hf_add _ _ _ _ _ _ H1 Hk) as (K2 & E2 & H2). exists K2. split; auto.
    eapply has_form_eq; [|exact H2]. intros. cbn [bigsum]. ring.
Qed.
Lemma hf_gauss0 m n q body F :
  (forall g, (g < q_n q)%nat -> exists k, body g = Ok k /\ has_form m n k (F g)) ->
  exists K', gauss q body (mnew R_ops (m * n) (m * n)) = Ok K' /\ has_form m n K' (fun y z => bigsum (q_n q) (fun g => F g y z)).
Proof.
  intros Hb. destruct (hf_gauss m n q body _ _ F (hf_new m n) Hb) as (K & E & H). exists K. split; auto.
  eapply has_form_eq; [|exact H]. intros. cbn. ring.
Qed.
Lemma hf_atdb m n p1 p2 A D B Df V W : has_action m n p1 A V -> is_mat D p1 p2 Df -> has_action m n p2 B W ->
  exists K, atdb A D B = Ok K /\
    has_form m n K (fun y z => bigsum p1 (fun i => bigsum p2 (fun j => V i y * Df i j * W j z))).
Proof.
  intros (a & Ha & Ea) HD (b & Hb & Eb). unfold atdb.
  destruct (Rmtrans _ _ _ _ Ha) as (At & E1 & H1). rewrite E1. cbn [bind].
  destruct (Rmmul _ _ _ _ _ _ _ H1 HD) as (M & E2 & H2). rewrite E2. cbn [bind].
  destruct (Rmmul _ _ _ _ _ _ _ H2 Hb) as (K & E3 & H3). rewrite E3. exists K. split; auto.
  eexists. split; [exact H3|]. intros y z. unfold form.
  eapply eq_trans; [exact (form_atdb (m * n) p1 p2 a Df b (dofv m y) (dofv m z))|].
  apply bigsum_ext; intros i Hi. apply bigsum_ext; intros j Hj. now rewrite Ea, Eb.
Qed.
Lemma hf_atb m n p A B V W : has_action m n p A V -> has_action m n p B W ->
  exists K, atb A B = Ok K /\ has_form m n K (fun y z => bigsum p (fun i => V i y * W i z)).
Proof.
  intros (a & Ha & Ea) (b & Hb & Eb). unfold atb.
  destruct (Rmtrans _ _ _ _ Ha) as (At & E1 & H1). rewrite E1. cbn [bind].
  destruct (Rmmul _ _ _ _ _ _ _ H1 Hb) as (K & E3 & H3). rewrite E3. exists K. split; auto.
  eexists. split; [exact H3|]. intros y z. unfold form. cbv beta.
  rewrite (bigsum_ext (m * n) _ (fun a0 => bigsum (m * n) (fun b0 =>
     dofv m y a0 * bigsum p (fun j => bigsum p (fun i => a i a0 * (if (i =? j)%nat then 1 else 0)) * b j b0) * dofv m z b0))).
  - eapply eq_trans; [exact (form_atdb (m * n) p p a (fun i j => if (i =? j)%nat then 1 else 0) b (dofv m y) (dofv m z))|].
    apply bigsum_ext; intros i Hi.
    rewrite (bigsum_ext p _ (fun j => (if (i =? j)%nat then 1 else 0) * (V i y * W j z))).
    + now rewrite (bigsum_ite p i (fun j => V i y * W j z)).
    + intros j Hj. rewrite Ea, Eb by auto. ring.
  - intros a0 _. apply bigsum_ext; intros b0 _. unfold dofv. f_equal. f_equal.
    apply bigsum_ext; intros j Hj. f_equal.
    rewrite (bigsum_ext p _ (fun i => a i a0 * delta i j)) by reflexivity. now rewrite bigsum_delta_r.
Qed.

(** vectors *)
Lemma hl_new m n : has_lin m n (vnew R_ops (m * n)) (fun _ => 0).
Proof. exists (fun _ => 0). split; [apply Rvnew|]. intros. apply bigsum_zero; intros. ring. Qed.
Lemma hl_scal m n v F s : has_lin m n v F -> has_lin m n (vscal R_ops s v) (fun y => F y * s).
Proof.
  intros (f & Hf & E). exists (fun a => f a * s). split; [now apply Rvscal|]. intros. rewrite <- E, <- bigsum_scal_r.
  apply bigsum_ext; intros; ring.
Qed.
Lemma hl_add m n v F v' F' : has_lin m n v F -> has_lin m n v' F' ->
  exists v2, vadd R_ops v v' = Ok v2 /\ has_lin m n v2 (fun y => F y + F' y).
Proof.
  intros (f & Hf & E) (f' & Hf' & E'). destruct (Rvadd _ _ _ _ _ Hf Hf') as (v2 & Ev & Hv). exists v2. split; auto.
  eexists. split; [exact Hv|]. intros. rewrite <- E, <- E', <- bigsum_plus. apply bigsum_ext; intros; ring.
Qed.
Lemma hl_sub m n v F v' F' : has_lin m n v F -> has_lin m n v' F' ->
  exists v2, vsub R_ops v v' = Ok v2 /\ has_lin m n v2 (fun y => F y - F' y).
Proof.
  intros (f & Hf & E) (f' & Hf' & E'). destruct (Rvsub _ _ _ _ _ Hf Hf') as (v2 & Ev & Hv). exists v2. split; auto.
  eexists. split; [exact Hv|]. intros. rewrite <- E, <- E', <- bigsum_minus. apply bigsum_ext; intros; ring.
Qed.
Lemma hl_weigh w d m n q g v F : (w <= d)%nat -> rule_ok d q -> (g < q_n q)%nat -> has_lin m n v F ->
  exists v2, weighv w q g v = Ok v2 /\ has_lin m n v2 (fun y => F y * wgt w q g).
Proof.
  intros Hw Hq Hg (f & Hf & E). destruct (weighv_ok w d q g v _ f Hw Hq Hg Hf) as (v2 & Ev & Hv).
  exists v2. split; auto. eexists. split; [exact Hv|]. intros. rewrite <- E, <- bigsum_scal_r. apply bigsum_ext; intros; ring.
Qed.
Lemma hl_gauss0 m n q body F :
  (forall g, (g < q_n q)%nat -> exists k, body g = Ok k /\ has_lin m n k (F g)) ->
  exists v, gaussv q body (vnew R_ops (m * n)) = Ok v /\ has_lin m n v (fun y => bigsum (q_n q) (fun g => F g y)).
Proof.
  intros Hb. unfold gaussv.
  apply (loop_inv (fun K g => k <- body g ;; vadd R_ops K k)
    (fun j K => has_lin m n K (fun y => bigsum j (fun g => F g y))) (q_n q) (vnew R_ops (m * n))).
  - apply hl_new.
  - intros g K1 Hg H1. destruct (Hb g Hg) as (k & Ek & Hk). rewrite Ek. cbn [bind].
    destruct (hl_add _ _ _ _ _ _ H1 Hk) as (K2 & E2 & H2). exists K2. split; auto.
Qed.
(** B.Transpose()*v *)
Lemma hl_atv m n p A V v f : has_action m n p A V -> is_vec v p f ->
  exists At w, mtrans R_ops A = Ok At /\ mmulv R_ops At v = Ok w /\ has_lin m n w (fun y => bigsum p (fun i => V i y * f i)).
Proof.
  intros (a & Ha & Ea) Hv. destruct (Rmtrans _ _ _ _ Ha) as (At & E1 & H1).
  destruct (Rmmulv _ _ _ _ _ _ H1 Hv) as (w & E2 & H2). exists At, w. splits; auto.
  eexists. split; [exact H2|]. intros y. cbv beta.
  rewrite (bigsum_ext (m * n) _ (fun b => bigsum p (fun k => a k b * dofv m y b * f k))).
  - rewrite bigsum_swap. apply bigsum_ext; intros k Hk. rewrite bigsum_scal_r. now rewrite Ea.
  - intros b _. rewrite <- bigsum_scal_r. apply bigsum_ext; intros; ring.
Qed.

(** ** Actions of the tables *)
Lemma lt2 j : (j mod 2 < 2)%nat. Proof. apply Nat.mod_upper_bound. lia. Qed.
Lemma lt3 j : (j mod 3 < 3)%nat. Proof. apply Nat.mod_upper_bound. lia. Qed.
Lemma divlt m n j : (m <> 0)%nat -> (j < m * n)%nat -> (j / m < n)%nat.
Proof. intros. now apply Nat.div_lt_upper_bound. Qed.

(** reading a table of known entries *)
Lemma ent2_ok (t : list (list R)) (t' : list (list (res R))) i j r c :
  t' = map (map (fun x => Ok x)) t -> length t = r -> (forall x, In x t -> length x = c) -> (i < r)%nat -> (j < c)%nat ->
  ent2 t' i j = Ok (nth j (nth i t []) 0).
Proof.
  intros -> Hr Hc Hi Hj. unfold ent2.
  change (@nil (res R)) with (map (fun x : R => Ok x) []). rewrite map_nth.
  assert (L : length (nth i t []) = c) by (apply Hc, nth_In; lia).
  rewrite nth_indep with (d' := Ok 0) by (rewrite map_length; lia).
  now rewrite (map_nth (fun x : R => Ok x)).
Qed.

Ltac rows := cbn [In]; intros ? HH; repeat (destruct HH as [<-|HH]; [reflexivity|]); destruct HH.

(** a table with two columns per node *)
Lemma tab2_ok n p (t : nat -> list (list R)) (t' : nat -> list (list (res R))) :
  (forall k, (k < n)%nat -> t' k = map (map (fun x => Ok x)) (t k)) ->
  (forall k, length (t k) = p) -> (forall k x, In x (t k) -> length x = 2%nat) ->
  exists B, mbuild R_ops p (2 * n) (fun i j => ent2 (t' (j / 2)%nat) i (j mod 2)) = Ok B /\
    has_action 2 n p B (fun i z => bigsum n (fun k => nth 0 (nth i (t k) []) 0 * z k 0%nat + nth 1 (nth i (t k) []) 0 * z k 1%nat)).
Proof.
  intros Ht Hp Hc.
  destruct (Rmbuild p (2 * n) (fun i j => ent2 (t' (j / 2)%nat) i (j mod 2)) (fun i j => nth (j mod 2) (nth i (t (j / 2)%nat) []) 0)) as (B & E & H).
  - intros i j Hi Hj. apply (ent2_ok (t (j / 2)%nat) _ i (j mod 2) p 2); auto; [|apply Hc|apply lt2].
    apply Ht, divlt; auto.
  - exists B. split; auto. eexists. split; [exact H|]. intros i z Hi. rewrite bigsum_block2. apply bigsum_ext; intros k _.
    unfold dofv. destruct (dm 2 k 0 ltac:(lia)) as [D0 M0]. destruct (dm 2 k 1 ltac:(lia)) as [D1 M1].
    rewrite Nat.add_0_r in D0, M0. now rewrite D0, M0, D1, M1.
Qed.
(** a table with three columns per node *)
Lemma tab3_ok n p (t : nat -> list (list R)) (t' : nat -> list (list (res R))) :
  (forall k, (k < n)%nat -> t' k = map (map (fun x => Ok x)) (t k)) ->
  (forall k, length (t k) = p) -> (forall k x, In x (t k) -> length x = 3%nat) ->
  exists B, mbuild R_ops p (3 * n) (fun i j => ent2 (t' (j / 3)%nat) i (j mod 3)) = Ok B /\
    has_action 3 n p B (fun i z => bigsum n (fun k =>
      nth 0 (nth i (t k) []) 0 * z k 0%nat + nth 1 (nth i (t k) []) 0 * z k 1%nat + nth 2 (nth i (t k) []) 0 * z k 2%nat)).
Proof.
  intros Ht Hp Hc.
  destruct (Rmbuild p (3 * n) (fun i j => ent2 (t' (j / 3)%nat) i (j mod 3)) (fun i j => nth (j mod 3) (nth i (t (j / 3)%nat) []) 0)) as (B & E & H).
  - intros i j Hi Hj. apply (ent2_ok (t (j / 3)%nat) _ i (j mod 3) p 3); auto; [|apply Hc|apply lt3].
    apply Ht, divlt; auto.
  - exists B. split; auto. eexists. split; [exact H|]. intros i z Hi. rewrite bigsum_block3. apply bigsum_ext; intros k _.
    unfold dofv. destruct (dm 3 k 0 ltac:(lia)) as [D0 M0]. destruct (dm 3 k 1 ltac:(lia)) as [D1 M1]. destruct (dm 3 k 2 ltac:(lia)) as [D2 M2].
    rewrite Nat.add_0_r in D0, M0. now rewrite D0, M0, D1, M1, D2, M2.
Qed.

(** gradient of a field from the matrix G *)
Definition grd (n : nat) (G : nat -> nat -> R) (z : field) (l c : nat) : R := bigsum n (fun k => G l k * z k c).

(** engineering components *)
Definition voigt2 (H : field) (i : nat) : R :=
  match i with O => H 0%nat 0%nat | 1%nat => H 1%nat 1%nat | _ => H 1%nat 0%nat + H 0%nat 1%nat end.
Definition voigt3 (H : field) (i : nat) : R :=
  match i with O => H 0%nat 0%nat | 1%nat => H 1%nat 1%nat | 2%nat => H 2%nat 2%nat
  | 3%nat => H 1%nat 0%nat + H 0%nat 1%nat | 4%nat => H 2%nat 1%nat + H 1%nat 2%nat | _ => H 2%nat 0%nat + H 0%nat 2%nat end.

Ltac byrows := cbn [nth]; unfold grd; repeat first [rewrite <- bigsum_plus | rewrite <- bigsum_minus | rewrite <- bigsum_scal_r | rewrite <- bigsum_scal]; apply bigsum_ext; intros; ring.

Section Tables.
Variables (n : nat) (dN : mat R) (G : nat -> nat -> R).

Lemma plane_B_ok : is_mat dN 2 n G -> exists B, plane_B n dN = Ok B /\ has_action 2 n 3 B (fun i z => voigt2 (grd n G z) i).
Proof.
  intros HG. unfold plane_B.
  destruct (tab2_ok n 3 (fun k => [[G 0%nat k; 0]; [0; G 1%nat k]; [G 1%nat k; G 0%nat k]])
    (fun k => [ [mget dN 0 k; Ok 0]; [Ok 0; mget dN 1 k]; [mget dN 1 k; mget dN 0 k] ])) as (B & E & H); auto.
  - intros k Hk. now rewrite !(Rget dN 2 n G) by (auto; lia).
  - intros k. rows.
  - exists B. split; auto. eapply has_action_eq; [|exact H]. intros i z Hi.
    destruct i as [|[|[|i]]]; try lia; cbn [voigt2]; byrows.
Qed.
Lemma plane_Bvol_ok : is_mat dN 2 n G -> exists B, plane_Bvol n dN = Ok B /\
  has_action 2 n 3 B (fun i z => match i with 2%nat => 0 | _ => (grd n G z 0%nat 0%nat + grd n G z 1%nat 1%nat) * (1 / 2) end).
Proof.
  intros HG. unfold plane_Bvol.
  destruct (tab2_ok n 3 (fun k => [[1/2 * G 0%nat k; 1/2 * G 1%nat k]; [1/2 * G 0%nat k; 1/2 * G 1%nat k]; [0; 0]])
    (fun k => [ [half (mget dN 0 k); half (mget dN 1 k)]; [half (mget dN 0 k); half (mget dN 1 k)]; [Ok 0; Ok 0] ])) as (B & E & H); auto.
  - intros k Hk. now rewrite !(Rget dN 2 n G) by (auto; lia).
  - intros k. rows.
  - exists B. split; auto. eapply has_action_eq; [|exact H]. intros i z Hi.
    destruct i as [|[|[|i]]]; try lia; [byrows|byrows|]. cbn [nth]. apply bigsum_zero. intros. ring.
Qed.
Lemma plane_Bdev_ok : is_mat dN 2 n G -> exists B, plane_Bdev n dN = Ok B /\
  has_action 2 n 3 B (fun i z => match i with 2%nat => grd n G z 1%nat 0%nat + grd n G z 0%nat 1%nat
     | O => (grd n G z 0%nat 0%nat - grd n G z 1%nat 1%nat) * (1 / 2) | _ => (grd n G z 1%nat 1%nat - grd n G z 0%nat 0%nat) * (1 / 2) end).
Proof.
  intros HG. unfold plane_Bdev.
  destruct (tab2_ok n 3 (fun k => [[1/2 * G 0%nat k; -(1/2) * G 1%nat k]; [-(1/2) * G 0%nat k; 1/2 * G 1%nat k]; [G 1%nat k; G 0%nat k]])
    (fun k => [ [half (mget dN 0 k); mhalf (mget dN 1 k)]; [mhalf (mget dN 0 k); half (mget dN 1 k)]; [mget dN 1 k; mget dN 0 k] ])) as (B & E & H); auto.
  - intros k Hk. now rewrite !(Rget dN 2 n G) by (auto; lia).
  - intros k. rows.
  - exists B. split; auto. eapply has_action_eq; [|exact H]. intros i z Hi.
    destruct i as [|[|[|i]]]; try lia; byrows.
Qed.
Lemma plane_BNL_ok : is_mat dN 2 n G -> exists B, plane_BNL n dN = Ok B /\
  has_action 2 n 4 B (fun i z => grd n G z (i / 2)%nat (i mod 2)%nat).
Proof.
  intros HG. unfold plane_BNL.
  destruct (tab2_ok n 4 (fun k => [[G 0%nat k; 0]; [0; G 0%nat k]; [G 1%nat k; 0]; [0; G 1%nat k]])
    (fun k => [ [mget dN 0 k; Ok 0]; [Ok 0; mget dN 0 k]; [mget dN 1 k; Ok 0]; [Ok 0; mget dN 1 k] ])) as (B & E & H); auto.
  - intros k Hk. now rewrite !(Rget dN 2 n G) by (auto; lia).
  - intros k. rows.
  - exists B. split; auto. eapply has_action_eq; [|exact H]. intros i z Hi.
    destruct i as [|[|[|[|i]]]]; try lia; cbn [Nat.div Nat.modulo Nat.divmod fst snd Nat.sub]; byrows.
Qed.
Lemma plane_N_ok (N : list R) Nf : is_vec N n Nf -> exists B, plane_N n N = Ok B /\
  has_action 2 n 2 B (fun i z => bigsum n (fun k => Nf k * z k i)).
Proof.
  intros HN. unfold plane_N.
  destruct (tab2_ok n 2 (fun k => [[Nf k; 0]; [0; Nf k]]) (fun k => [ [vget N k; Ok 0]; [Ok 0; vget N k] ])) as (B & E & H); auto.
  - intros k Hk. now rewrite !(Rvget N n Nf) by (auto; lia).
  - intros k. rows.
  - exists B. split; auto. eapply has_action_eq; [|exact H]. intros i z Hi.
    destruct i as [|[|i]]; try lia; cbn [nth]; apply bigsum_ext; intros; ring.
Qed.
(** with the deformation gradient F: symmetric part of F^T H *)
Definition voigt2F (F H : field) (i : nat) : R :=
  match i with
  | O => F 0%nat 0%nat * H 0%nat 0%nat + F 1%nat 0%nat * H 0%nat 1%nat
  | 1%nat => F 0%nat 1%nat * H 1%nat 0%nat + F 1%nat 1%nat * H 1%nat 1%nat
  | _ => F 0%nat 1%nat * H 0%nat 0%nat + F 1%nat 1%nat * H 0%nat 1%nat + F 0%nat 0%nat * H 1%nat 0%nat + F 1%nat 0%nat * H 1%nat 1%nat end.
Lemma plane_BL_ok Fm F : is_mat dN 2 n G -> is_mat Fm 2 2 F -> exists B, plane_BL n Fm dN = Ok B /\
  has_action 2 n 3 B (fun i z => voigt2F F (grd n G z) i).
Proof.
  intros HG HF. unfold plane_BL, fd2, fd.
  destruct (tab2_ok n 3 (fun k => [[F 0%nat 0%nat * G 0%nat k; F 1%nat 0%nat * G 0%nat k]; [F 0%nat 1%nat * G 1%nat k; F 1%nat 1%nat * G 1%nat k];
      [F 0%nat 1%nat * G 0%nat k + F 0%nat 0%nat * G 1%nat k; F 1%nat 1%nat * G 0%nat k + F 1%nat 0%nat * G 1%nat k]])
    (fun k => [ [fd Fm dN 0 0 0 k; fd Fm dN 1 0 0 k]; [fd Fm dN 0 1 1 k; fd Fm dN 1 1 1 k];
      [fd2 Fm dN 0 1 0 0 0 1 k;     fd2 Fm dN 1 1 0 1 0 1 k] ])) as (B & E & H); auto.
  - intros k Hk. unfold fd2, fd. rewrite !(Rget dN 2 n G), !(Rget Fm 2 2 F) by (auto; lia). reflexivity.
  - intros k. rows.
  - exists B. split; auto. eapply has_action_eq; [|exact H]. intros i z Hi.
    destruct i as [|[|[|i]]]; try lia; cbn [voigt2F]; byrows.
Qed.

Lemma solid_B_ok : is_mat dN 3 n G -> exists B, solid_B n dN = Ok B /\ has_action 3 n 6 B (fun i z => voigt3 (grd n G z) i).
Proof.
  intros HG. unfold solid_B.
  destruct (tab3_ok n 6 (fun k => [ [G 0%nat k; 0; 0]; [0; G 1%nat k; 0]; [0; 0; G 2%nat k];
      [G 1%nat k; G 0%nat k; 0]; [0; G 2%nat k; G 1%nat k]; [G 2%nat k; 0; G 0%nat k] ])
    (fun k => [ [mget dN 0 k; Ok 0;        Ok 0];
      [Ok 0;        mget dN 1 k; Ok 0];
      [Ok 0;        Ok 0;        mget dN 2 k];
      [mget dN 1 k; mget dN 0 k; Ok 0];
      [Ok 0;        mget dN 2 k; mget dN 1 k];
      [mget dN 2 k; Ok 0;        mget dN 0 k] ])) as (B & E & H); auto.
  - intros k Hk. now rewrite !(Rget dN 3 n G) by (auto; lia).
  - intros k. rows.
  - exists B. split; auto. eapply has_action_eq; [|exact H]. intros i z Hi.
    destruct i as [|[|[|[|[|[|i]]]]]]; try lia; cbn [voigt3]; byrows.
Qed.
Definition voigt3' (H : field) (i : nat) : R :=
  match i with 4%nat => voigt3 H 5 | 5%nat => voigt3 H 4 | _ => voigt3 H i end.
Lemma solid_B2_ok : is_mat dN 3 n G -> exists B, solid_B2 n dN = Ok B /\ has_action 3 n 6 B (fun i z => voigt3' (grd n G z) i).
Proof.
  intros HG. unfold solid_B2.
  destruct (tab3_ok n 6 (fun k => [ [G 0%nat k; 0; 0]; [0; G 1%nat k; 0]; [0; 0; G 2%nat k];
      [G 1%nat k; G 0%nat k; 0]; [G 2%nat k; 0; G 0%nat k]; [0; G 2%nat k; G 1%nat k] ])
    (fun k => [ [mget dN 0 k; Ok 0;        Ok 0];
      [Ok 0;        mget dN 1 k; Ok 0];
      [Ok 0;        Ok 0;        mget dN 2 k];
      [mget dN 1 k; mget dN 0 k; Ok 0];
      [mget dN 2 k; Ok 0;        mget dN 0 k];
      [Ok 0;        mget dN 2 k; mget dN 1 k] ])) as (B & E & H); auto.
  - intros k Hk. now rewrite !(Rget dN 3 n G) by (auto; lia).
  - intros k. rows.
  - exists B. split; auto. eapply has_action_eq; [|exact H]. intros i z Hi.
    destruct i as [|[|[|[|[|[|i]]]]]]; try lia; cbn [voigt3 voigt3']; byrows.
Qed.
Lemma solid_BNL_ok : is_mat dN 3 n G -> exists B, solid_BNL n dN = Ok B /\
  has_action 3 n 9 B (fun i z => grd n G z (i / 3)%nat (i mod 3)%nat).
Proof.
  intros HG. unfold solid_BNL.
  destruct (Rmbuild 9 (3 * n) (fun i j => if (i mod 3 =? j mod 3)%nat then mget dN (i / 3) (j / 3) else Ok 0)
    (fun i j => if (i mod 3 =? j mod 3)%nat then G (i / 3)%nat (j / 3)%nat else 0)) as (B & E & H).
  - intros i j Hi Hj. destruct (Nat.eqb_spec (i mod 3) (j mod 3)); auto. apply (Rget dN 3 n G); auto; apply divlt; lia.
  - exists B. split; auto. eexists. split; [exact H|]. intros i z Hi. rewrite bigsum_block3. unfold grd. apply bigsum_ext; intros k _.
    unfold dofv. destruct (dm 3 k 0 ltac:(lia)) as [D0 M0]. destruct (dm 3 k 1 ltac:(lia)) as [D1 M1]. destruct (dm 3 k 2 ltac:(lia)) as [D2 M2].
    rewrite Nat.add_0_r in D0, M0. rewrite D0, M0, D1, M1, D2, M2.
    pose proof (lt3 i). destruct (i mod 3)%nat as [|[|[|]]]; try lia; cbn [Nat.eqb]; ring.
Qed.
Definition voigt3F (F H : field) (i : nat) : R :=
  let s a b := F 0%nat a * H b 0%nat + F 1%nat a * H b 1%nat + F 2%nat a * H b 2%nat in
  match i with O => s 0%nat 0%nat | 1%nat => s 1%nat 1%nat | 2%nat => s 2%nat 2%nat
  | 3%nat => s 1%nat 0%nat + s 0%nat 1%nat | 4%nat => s 2%nat 1%nat + s 1%nat 2%nat | _ => s 0%nat 2%nat + s 2%nat 0%nat end.
Lemma solid_BL_ok Fm F : is_mat dN 3 n G -> is_mat Fm 3 3 F -> exists B, solid_BL n Fm dN = Ok B /\
  has_action 3 n 6 B (fun i z => voigt3F F (grd n G z) i).
Proof.
  intros HG HF. unfold solid_BL.
  destruct (tab3_ok n 6 (fun k => [
      [F 0%nat 0%nat * G 0%nat k; F 1%nat 0%nat * G 0%nat k; F 2%nat 0%nat * G 0%nat k];
      [F 0%nat 1%nat * G 1%nat k; F 1%nat 1%nat * G 1%nat k; F 2%nat 1%nat * G 1%nat k];
      [F 0%nat 2%nat * G 2%nat k; F 1%nat 2%nat * G 2%nat k; F 2%nat 2%nat * G 2%nat k];
      [F 0%nat 1%nat * G 0%nat k + F 0%nat 0%nat * G 1%nat k; F 1%nat 1%nat * G 0%nat k + F 1%nat 0%nat * G 1%nat k; F 2%nat 1%nat * G 0%nat k + F 2%nat 0%nat * G 1%nat k];
      [F 0%nat 2%nat * G 1%nat k + F 0%nat 1%nat * G 2%nat k; F 1%nat 2%nat * G 1%nat k + F 1%nat 1%nat * G 2%nat k; F 2%nat 2%nat * G 1%nat k + F 2%nat 1%nat * G 2%nat k];
      [F 0%nat 0%nat * G 2%nat k + F 0%nat 2%nat * G 0%nat k; F 1%nat 0%nat * G 2%nat k + F 1%nat 2%nat * G 0%nat k; F 2%nat 0%nat * G 2%nat k + F 2%nat 2%nat * G 0%nat k] ])
    (fun k => [ [fd Fm dN 0 0 0 k;        fd Fm dN 1 0 0 k;        fd Fm dN 2 0 0 k];
      [fd Fm dN 0 1 1 k;        fd Fm dN 1 1 1 k;        fd Fm dN 2 1 1 k];
      [fd Fm dN 0 2 2 k;        fd Fm dN 1 2 2 k;        fd Fm dN 2 2 2 k];
      [fd2 Fm dN 0 1 0 0 0 1 k; fd2 Fm dN 1 1 0 1 0 1 k; fd2 Fm dN 2 1 0 2 0 1 k];
      [fd2 Fm dN 0 2 1 0 1 2 k; fd2 Fm dN 1 2 1 1 1 2 k; fd2 Fm dN 2 2 1 2 1 2 k];
      [fd2 Fm dN 0 0 2 0 2 0 k; fd2 Fm dN 1 0 2 1 2 0 k; fd2 Fm dN 2 0 2 2 2 0 k] ])) as (B & E & H); auto.
  - intros k Hk. unfold fd2, fd. rewrite !(Rget dN 3 n G), !(Rget Fm 3 3 F) by (auto; lia). reflexivity.
  - intros k. rows.
  - exists B. split; auto. eapply has_action_eq; [|exact H]. intros i z Hi.
    destruct i as [|[|[|[|[|[|i]]]]]]; try lia; cbn [voigt3F]; byrows.
Qed.
End Tables.
