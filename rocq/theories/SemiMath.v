(** The alternative for linear systems: a system has a solution, or a combination
    of its equations reads 0 = c with c nonzero. *)
From Coq Require Import List Arith Lia Bool Reals Lra.
From Verif Require Import Res SumR SparseSpec KrylovSpec CGMath.
Local Open Scope R_scope.

Lemma find_nonzero m (f : nat -> R) : (exists p, (p < m)%nat /\ f p <> 0) \/ forall p, (p < m)%nat -> f p = 0.
Proof.
  induction m as [|m IH]; [right; intros; lia|]. destruct IH as [(p & Hp & H)|H]; [left; exists p; split; auto; lia|].
  destruct (Req_dec (f m) 0) as [E|E]; [right|left; exists m; split; auto].
  intros p Hp. destruct (Nat.eq_dec p m) as [->|]; auto. apply H. lia.
Qed.

(** [m] equations in [n] unknowns *)
Lemma alternative m : forall n (A : nat -> nat -> R) (b : nat -> R),
  (exists x, forall i, (i < m)%nat -> bigsum n (fun j => A i j * x j) = b i) \/
  (exists y, (forall j, (j < n)%nat -> bigsum m (fun i => y i * A i j) = 0) /\ bigsum m (fun i => y i * b i) <> 0).
Proof.
  induction n as [|n IH]; intros A b.
  - destruct (find_nonzero m b) as [(p & Hp & H)|H].
    + right. exists (fun i => delta i p). split; [intros; lia|]. rewrite bigsum_delta by auto. exact H.
    + left. exists (fun _ => 0). intros i Hi. cbn. now rewrite H.
  - destruct (find_nonzero m (fun p => A p n)) as [(p & Hp & H)|H].
    + destruct (IH (fun i j => A i j - A i n / A p n * A p j) (fun i => b i - A i n / A p n * b p)) as [(x & Hx)|(y & Hy & Hn)].
      * left. set (xn := (b p - bigsum n (fun j => A p j * x j)) / A p n). exists (fun j => if (j <? n)%nat then x j else xn).
        intros i Hi. cbn [bigsum]. rewrite Nat.ltb_irrefl. rewrite (bigsum_ext n _ (fun j => A i j * x j)) by (intros j Hj; now rewrite (proj2 (Nat.ltb_lt _ _) Hj)).
        specialize (Hx i Hi). rewrite (bigsum_ext n _ (fun j => A i j * x j + - (A i n / A p n) * (A p j * x j))) in Hx by (intros; ring).
        rewrite bigsum_plus, bigsum_scal in Hx. unfold xn.
        set (s1 := bigsum n (fun j => A i j * x j)) in *. set (s2 := bigsum n (fun j => A p j * x j)) in *. clearbody s1 s2.
        assert (E : b i = s1 + - (A i n / A p n) * s2 + A i n / A p n * b p) by lra. rewrite E. field. auto.
      * right. set (c := bigsum m (fun i => y i * (A i n / A p n))). exists (fun i => y i + - c * delta i p).
        assert (S : forall f : nat -> R, bigsum m (fun i => (y i + - c * delta i p) * f i) = bigsum m (fun i => y i * (f i - A i n / A p n * f p))).
        { intros f. rewrite (bigsum_ext m _ (fun i => y i * f i + - c * (delta i p * f i))) by (intros; ring). rewrite bigsum_plus, bigsum_scal, bigsum_delta by auto.
          rewrite (bigsum_ext m (fun i => y i * (f i - _)) (fun i => y i * f i + - f p * (y i * (A i n / A p n)))) by (intros; ring). rewrite bigsum_plus, bigsum_scal. fold c. ring. }
        split; [|now rewrite S]. intros j Hj. rewrite S. destruct (Nat.eq_dec j n) as [->|]; [|apply Hy; lia].
        apply bigsum_zero. intros i Hi. field. auto.
    + destruct (IH A b) as [(x & Hx)|(y & Hy & Hn)].
      * left. exists x. intros i Hi. cbn [bigsum]. rewrite Hx, H by auto. ring.
      * right. exists y. split; auto. intros j Hj. destruct (Nat.eq_dec j n) as [->|]; [|apply Hy; lia]. apply bigsum_zero. intros i Hi. rewrite H by auto. ring.
Qed.

Lemma symmetric_solvable n (A : nat -> nat -> R) b : symmetric n A ->
  (forall z, (forall i, (i < n)%nat -> matvec n A z i = 0) -> dot n z b = 0) ->
  exists x, forall i, (i < n)%nat -> matvec n A x i = b i.
Proof.
  intros Hs Hz. destruct (alternative n n A b) as [(x & Hx)|(y & Hy & Hn)].
  - exists x. exact Hx.
  - exfalso. apply Hn. apply Hz. intros i Hi. unfold matvec. rewrite <- (Hy i Hi). apply bigsum_ext. intros j Hj. rewrite (Hs i j) by auto. ring.
Qed.
