(** Properties C01-C08: sparse containers. *)
From Coq Require Import List Arith Lia Bool Permutation Reals Lra.
From Verif Require Import Res SumR SparseModel SparseSpec SparseProof SparseProof2 ParModel ParProof SparseMain.
Import ListNotations.

(** C01: after any sequence of [set] calls on a fresh LILCSR, [get] returns the
    value written last (zero if none), for every position of the matrix; the
    flags returned by the calls tell exactly whether the position had been
    written before; each row keeps one slot per column.  The column is not
    checked by the code and is unrestricted here. *)
Theorem C01_lil_is_map : forall (T : Type) (zero : T) (r c : nat) (h : list (nat * nat * T)),
  (forall i j v, In (i, j, v) h -> i < r) ->
  exists m, run_lil h (lil_new r c) = Ok (flags h, m) /\
    lrows m = r /\ lcols m = c /\ lil_wf m /\
    (forall i j, i < r -> lil_get zero m i j = Ok (value_or zero (last_write h i j))) /\
    (forall i j, r <= i -> lil_get zero m i j = Fail OutOfBounds).
Proof. exact C01_lil_is_map_pf. Qed.
Print Assumptions C01_lil_is_map.

Example C01_ex :
  let h := [(1, 2, 10); (0, 0, 3); (1, 2, 7); (1, 0, 4)] in
  flags h = [false; false; true; false] /\ last_write h 1 2 = Some 7 /\ last_write h 0 2 = None /\
  forall i j v, In (i, j, v) h -> i < 2.
Proof. cbn. splits; auto. intros i j v H; repeat destruct H as [H|H]; inversion H; lia. Qed.

(** C02: the same for CSR, whose [set] keeps [indptr]/[indices]/[data] a
    well-formed compressed row structure with strictly increasing columns. *)
Theorem C02_csr_is_map : forall (T : Type) (zero : T) (r c : nat) (h : list (nat * nat * T)),
  (forall i j v, In (i, j, v) h -> i < r) ->
  exists m, run_csr h (csr_new r c) = Ok (flags h, m) /\
    crows m = r /\ ccols m = c /\ csr_wf m /\
    (forall i j, i < r -> csr_get zero m i j = Ok (value_or zero (last_write h i j))).
Proof. exact C02_csr_is_map_pf. Qed.
Print Assumptions C02_csr_is_map.

Example C02_ex :
  run_csr [(1, 2, 10); (0, 1, 3); (1, 2, 7); (1, 0, 4)] (csr_new 2 3)
  = Ok ([false; false; true; false], mkCsr 2 3 [0; 1; 3] [1; 0; 2] [3; 4; 7]).
Proof. reflexivity. Qed.

(** C02, one call on an arbitrary well-formed CSR: [set] cannot fault on a valid
    row, keeps the structure well formed, changes exactly one entry, and stores
    one more entry exactly when the position was not stored. *)
Theorem C02_csr_set_step : forall (T : Type) (zero : T) (m : csr T) (i j : nat) (v : T),
  csr_wf m -> i < crows m ->
  exists b m', csr_set m i j v = Ok (b, m') /\ csr_wf m' /\
    crows m' = crows m /\ ccols m' = ccols m /\
    length (indices m') = (if b then length (indices m) else S (length (indices m))) /\
    csr_get zero m' i j = Ok v /\
    (forall i' j', i' < crows m -> (i', j') <> (i, j) -> csr_get zero m' i' j' = csr_get zero m i' j').
Proof. exact C02_csr_set_step_pf. Qed.
Print Assumptions C02_csr_set_step.

Example C02_step_ex : csr_wf (mkCsr 2 3 [0; 1; 3] [1; 0; 2] [3; 4; 7]) /\ 1 < 2.
Proof.
  split; [|lia]. unfold csr_wf; cbn. splits; auto.
  - intros [|[|[|i]]] lo hi H1 H2; inversion H1; inversion H2; subst; try lia; destruct i; discriminate.
  - intros [|[|[|i]]] lo hi k a b H1 H2 Hk Hk2 Ha Hb; inversion H1; inversion H2; subst; try lia.
    all: try (destruct i; discriminate).
    assert (k = 1) by lia; subst; cbn in *; inversion Ha; inversion Hb; lia.
Qed.

(** C03: building a CSR from a LILCSR succeeds, keeps every entry, produces a
    well-formed structure storing the same number of entries, and leaves the
    source (which is sorted in place) denoting the same matrix. *)
Theorem C03_lil_to_csr : forall (T : Type) (zero : T) (a : lil T),
  lil_wf a ->
  exists m a', csr_of_lil a = Ok (m, a') /\ csr_wf m /\
    crows m = lrows a /\ ccols m = lcols a /\
    length (indices m) = length (concat (ldata a)) /\
    (forall i j, i < lrows a -> csr_get zero m i j = lil_get zero a i j) /\
    lil_wf a' /\ lrows a' = lrows a /\ lcols a' = lcols a /\
    (forall i j, lil_get zero a' i j = lil_get zero a i j).
Proof. exact C03_lil_to_csr_pf. Qed.
Print Assumptions C03_lil_to_csr.

Example C03_ex :
  let a := mkLil 2 3 [[(2, 5); (0, 1)]; [(1, 8)]] in
  lil_wf a /\ csr_of_lil a = Ok (mkCsr 2 3 [0; 2; 3] [0; 2; 1] [1; 5; 8],
                                 mkLil 2 3 [[(0, 1); (2, 5)]; [(1, 8)]]).
Proof.
  cbn. split; [|reflexivity]. split; [reflexivity|].
  cbn. intros row [<-|[<-|[]]]; repeat constructor; cbn; lia.
Qed.

(** C04: CSR -> LILCSR -> CSR gives back the very same arrays. *)
Theorem C04_csr_lil_csr_identity : forall (T : Type) (zero : T) (m : csr T),
  csr_wf m ->
  exists a, lil_of_csr m = Ok a /\ lil_wf a /\ csr_of_lil a = Ok (m, a) /\
    (forall i j, i < crows m -> lil_get zero a i j = csr_get zero m i j).
Proof. exact C04_csr_lil_csr_identity_pf. Qed.
Print Assumptions C04_csr_lil_csr_identity.

Example C04_ex : lil_of_csr (mkCsr 2 3 [0; 2; 3] [0; 2; 1] [1; 5; 8])
  = Ok (mkLil 2 3 [[(0, 1); (2, 5)]; [(1, 8)]]).
Proof. reflexivity. Qed.

(** C05: the two formats are interchangeable.  The same sequence of [set] calls
    gives the same flags, the same [get] results and, when the columns are in
    range, the same matrix-vector products (over the reals). *)
Theorem C05_formats_agree : forall (r c : nat) (h : list (nat * nat * R)),
  (forall i j v, In (i, j, v) h -> i < r) ->
  exists a m, run_lil h (lil_new r c) = Ok (flags h, a) /\ run_csr h (csr_new r c) = Ok (flags h, m) /\
    (forall i j, i < r -> lil_get 0%R a i j = csr_get 0%R m i j) /\
    ((forall i j v, In (i, j, v) h -> j < c) ->
     forall x, length x = c ->
       exists y, lil_mulvec 0%R Rplus Rmult a x = Ok y /\ csr_mulvec 0%R Rplus Rmult m x = Ok y).
Proof. exact C05_formats_agree_pf. Qed.
Print Assumptions C05_formats_agree.

Example C05_ex :
  let h := [(1, 2, 10%R); (0, 0, 3%R); (1, 0, 7%R)] in
  (forall i j v, In (i, j, v) h -> i < 2) /\ (forall i j v, In (i, j, v) h -> j < 3) /\
  run_csr h (csr_new 2 3) = Ok ([false; false; false], mkCsr 2 3 [0; 1; 3] [0; 0; 2] [3%R; 7%R; 10%R]).
Proof.
  cbn. splits; [intros i j v H; repeat destruct H as [H|H]; inversion H; lia..|reflexivity].
Qed.

(** C06: the matrix-vector product of both formats is the textbook product with
    the matrix reported by [get] (exact arithmetic). *)
Theorem C06_spmv_csr : forall (m : csr R) (x : list R),
  csr_wf m -> csr_cols_ok m -> length x = ccols m ->
  exists y, csr_mulvec 0%R Rplus Rmult m x = Ok y /\ length y = crows m /\
    forall i, i < crows m ->
      nth i y 0%R = matvec (ccols m) (csr_entry 0%R m) (fun j => nth j x 0%R) i.
Proof. exact C06_spmv_csr_pf. Qed.
Print Assumptions C06_spmv_csr.

Example C06_ex : csr_mulvec 0 Nat.add Nat.mul (mkCsr 2 3 [0; 2; 3] [0; 2; 1] [1; 5; 8]) [1; 2; 3]
  = Ok [16; 16].
Proof. reflexivity. Qed.

Theorem C06_spmv_lil : forall (a : lil R) (x : list R),
  lil_wf a -> lil_cols_ok a -> length x = lcols a ->
  exists y, lil_mulvec 0%R Rplus Rmult a x = Ok y /\ length y = lrows a /\
    forall i, i < lrows a ->
      nth i y 0%R = matvec (lcols a) (lil_entry 0%R a) (fun j => nth j x 0%R) i.
Proof. exact C06_spmv_lil_pf. Qed.
Print Assumptions C06_spmv_lil.

Example C06_lil_ex : lil_mulvec 0 Nat.add Nat.mul (mkLil 2 3 [[(2, 5); (0, 1)]; [(1, 8)]]) [1; 2; 3]
  = Ok [16; 16].
Proof. reflexivity. Qed.

(** C07: the parallel product.  For every distribution of the rows over any
    number of threads and every interleaving, with arbitrary (also
    non-associative, e.g. floating-point) addition and multiplication:
    no thread faults, no two threads ever access the same result location,
    every run ends, no run gets stuck before all rows are done, and the final
    vector equals that of the sequential loop. *)
Theorem C07_parallel_spmv : forall (T : Type) (zero : T) (add mul : T -> T -> T)
  (m : csr T) (x : list T) (asg : list (list nat)),
  csr_wf m -> csr_cols_ok m -> length x = ccols m -> distribution m asg ->
  (forall s, psteps add mul m x (pinit zero m asg) s ->
     (finished s -> csr_mulvec zero add mul m x = Ok (fst s)) /\
     (finished s \/ exists s', pstep add mul m x s s') /\
     (forall k t f, nth_error (snd s) k = Some t -> tstep add mul m x (fst s) t <> Some (Fail f)) /\
     (forall k1 k2 t1 t2 i1 i2 w1 w2, k1 <> k2 ->
        nth_error (snd s) k1 = Some t1 -> nth_error (snd s) k2 = Some t2 ->
        access t1 = Some (i1, w1) -> access t2 = Some (i2, w2) -> i1 <> i2)) /\
  ~ (exists f : nat -> pstate, f 0 = pinit zero m asg /\
       forall n, pstep add mul m x (f n) (f (S n))).
Proof. exact C07_parallel_spmv_pf. Qed.
Print Assumptions C07_parallel_spmv.

Example C07_ex : let m := mkCsr 3 3 [0; 2; 2; 3] [0; 2; 1] [1; 5; 8] in
  distribution m [[2; 0]; [1]] /\ length [1; 2; 3] = ccols m /\ csr_cols_ok m /\
  csr_mulvec 0 Nat.add Nat.mul m [1; 2; 3] = Ok [16; 0; 16].
Proof.
  cbn. splits; auto.
  - unfold distribution; cbn. apply (perm_trans (l' := [0; 2; 1])); [constructor|].
    apply perm_skip. constructor.
  - intros c H; cbn in H |- *. lia.
Qed.

(** C08: [+] and [-] of two matrices of the same dimensions are entrywise, for
    both formats, whatever the two sparsity patterns; different dimensions
    abort. *)
Theorem C08_csr_add_sub : forall (op : R -> R -> R) (a b : csr R),
  op = Rplus \/ op = Rminus ->
  csr_wf a -> csr_wf b ->
  (crows a = crows b /\ ccols a = ccols b ->
   exists m, csr_zip 0%R op a b = Ok m /\ csr_wf m /\ crows m = crows a /\ ccols m = ccols a /\
    forall i j, i < crows a -> csr_entry 0%R m i j = op (csr_entry 0%R a i j) (csr_entry 0%R b i j)) /\
  (~ (crows a = crows b /\ ccols a = ccols b) -> csr_zip 0%R op a b = Fail AssertFail).
Proof. exact C08_csr_add_sub_pf. Qed.
Print Assumptions C08_csr_add_sub.

Example C08_ex :
  csr_zip 0 Nat.add (mkCsr 2 3 [0; 2; 3] [0; 2; 1] [1; 5; 8]) (mkCsr 2 3 [0; 1; 3] [1; 0; 1] [4; 2; 9])
  = Ok (mkCsr 2 3 [0; 3; 5] [0; 1; 2; 0; 1] [1; 4; 5; 2; 17]).
Proof. reflexivity. Qed.

Theorem C08_lil_add_sub : forall (op : R -> R -> R) (a b : lil R),
  op = Rplus \/ op = Rminus ->
  lil_wf a -> lil_wf b ->
  (lrows a = lrows b /\ lcols a = lcols b ->
   exists m, lil_zip 0%R op a b = Ok m /\ lil_wf m /\ lrows m = lrows a /\ lcols m = lcols a /\
    forall i j, i < lrows a -> lil_entry 0%R m i j = op (lil_entry 0%R a i j) (lil_entry 0%R b i j)) /\
  (~ (lrows a = lrows b /\ lcols a = lcols b) -> lil_zip 0%R op a b = Fail AssertFail).
Proof. exact C08_lil_add_sub_pf. Qed.
Print Assumptions C08_lil_add_sub.

Example C08_lil_ex :
  lil_zip 0 Nat.add (mkLil 1 3 [[(2, 5); (0, 1)]]) (mkLil 1 3 [[(1, 4); (2, 2)]])
  = Ok (mkLil 1 3 [[(2, 7); (0, 1); (1, 4)]]).
Proof. reflexivity. Qed.

(** C08, scalars: multiplication and division by a scalar are entrywise and
    keep the sparsity structure. *)
Theorem C08_scalars : forall (s : R) (a : lil R) (m : csr R),
  csr_wf m -> s <> 0%R ->
  let mulR := (fun x => x * s)%R in let divR := (fun x => x / s)%R in
  (forall i j, i < crows m -> csr_entry 0%R (csr_map mulR m) i j = (csr_entry 0%R m i j * s)%R) /\
  (forall i j, i < crows m -> csr_entry 0%R (csr_map divR m) i j = (csr_entry 0%R m i j / s)%R) /\
  (forall i j, lil_entry 0%R (lil_map mulR a) i j = (lil_entry 0%R a i j * s)%R) /\
  (forall i j, lil_entry 0%R (lil_map divR a) i j = (lil_entry 0%R a i j / s)%R) /\
  csr_wf (csr_map mulR m) /\ csr_wf (csr_map divR m) /\
  indices (csr_map mulR m) = indices m /\ indices (csr_map divR m) = indices m.
Proof. exact C08_scalars_pf. Qed.
Print Assumptions C08_scalars.

Example C08_scalar_ex :
  csr_map (fun x => x * 3) (mkCsr 1 3 [0; 2] [0; 2] [1; 5]) = mkCsr 1 3 [0; 2] [0; 2] [3; 15].
Proof. reflexivity. Qed.
