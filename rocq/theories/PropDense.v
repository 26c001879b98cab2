(** Properties C19 and C21: dense matrices and vectors. *)
From Coq Require Import List Arith Lia Bool Reals Lra Psatz.
From Verif Require Import Res SumR DenseModel DenseSpec DenseProof DenseR DenseMain.
Import ListNotations.

(** C19, reading and writing one entry: inside the matrix the write changes that
    entry and nothing else; outside it aborts. *)
Theorem C19_write : forall T (a : mat T) r c f i j x, is_mat a r c f ->
  (i < r -> j < c -> exists m, mset a i j x = Ok m /\
     is_mat m r c (fun i' j' => if (i' =? i) && (j' =? j) then x else f i' j')) /\
  (~ (i < r /\ j < c) -> mset a i j x = Fail AssertFail).
Proof. exact C19_write_pf. Qed.
Print Assumptions C19_write.

(** C19, entry-wise sum and difference *)
Theorem C19_add_sub : forall T (O : ops T) a b r c f g, is_mat a r c f -> is_mat b r c g ->
  (exists m, madd O a b = Ok m /\ is_mat m r c (fun i j => oadd O (f i j) (g i j))) /\
  (exists m, msub O a b = Ok m /\ is_mat m r c (fun i j => osub O (f i j) (g i j))).
Proof. exact C19_add_sub_pf. Qed.
Print Assumptions C19_add_sub.

Example C19_add_ex : exists f g, is_mat (mkMat 1 2 [1; 2]) 1 2 f /\ is_mat (mkMat 1 2 [3; 4]) 1 2 g /\
  f 0 1 = 2 /\ g 0 0 = 3.
Proof.
  exists (fun i j => S j), (fun i j => 3 + j). unfold is_mat, mat_wf, mget. cbn [mrow mcol mval length]. splits; auto.
  1, 3: intros [|[|i]] [|[|j]] ? ?; try lia; reflexivity.
  all: intros i j H; destruct (Nat.ltb_spec i 1), (Nat.ltb_spec j 2); auto; lia.
Qed.

(** C19, negation, product and quotient with a scalar *)
Theorem C19_scalar : forall T (O : ops T) a r c f s, is_mat a r c f ->
  is_mat (mneg O a) r c (fun i j => omul O (f i j) (oopp O (o1 O))) /\
  is_mat (mscal O s a) r c (fun i j => omul O (f i j) s) /\
  ((forall x, exists y, odiv O x s = Ok y) ->
   exists m g, mdivs O a s = Ok m /\ is_mat m r c g /\
     forall i j, i < r -> j < c -> odiv O (f i j) s = Ok (g i j)).
Proof. exact C19_scalar_pf. Qed.
Print Assumptions C19_scalar.

(** C19, matrix product and matrix times vector *)
Theorem C19_product : forall T (O : ops T) a b x r n c f g h,
  is_mat a r n f -> is_mat b n c g -> is_vec x n h ->
  (exists m, mmul O a b = Ok m /\ is_mat m r c (fun i j => gsum O n (fun k => omul O (f i k) (g k j)))) /\
  (exists y, mmulv O a x = Ok y /\ is_vec y r (fun i => gsum O n (fun k => omul O (f i k) (h k)))).
Proof. exact C19_product_pf. Qed.
Print Assumptions C19_product.

Example C19_product_ex : mmul R_ops (mkMat 2 1 [1; 2]%R) (mkMat 1 2 [3; 4]%R) =
  Ok (mkMat 2 2 [0 + 1 * 3; 0 + 1 * 4; 0 + 2 * 3; 0 + 2 * 4]%R).
Proof. reflexivity. Qed.

(** C19, transpose, stacking, block extraction and deletion of a row and column *)
Theorem C19_reshape : forall T (O : ops T) a r c f, is_mat a r c f ->
  (exists m, mtrans O a = Ok m /\ is_mat m c r (fun i j => f j i)) /\
  (forall b r' g, is_mat b r' c g ->
     exists m, mvstack O a b = Ok m /\ is_mat m (r + r') c (fun i j => if i <? r then f i j else g (i - r) j)) /\
  (forall b c' g, is_mat b r c' g ->
     exists m, mhstack O a b = Ok m /\ is_mat m r (c + c') (fun i j => if j <? c then f i j else g i (j - c))) /\
  (forall i0 j0 h w, 0 < h -> 0 < w -> i0 + h <= r -> j0 + w <= c ->
     exists m, mblock O a i0 j0 h w = Ok m /\ is_mat m h w (fun i j => f (i0 + i) (j0 + j))) /\
  (forall i0 j0, i0 < r -> j0 < c ->
     exists m, mminor O a i0 j0 = Ok m /\
       is_mat m (r - 1) (c - 1) (fun i j => f (if i <? i0 then i else S i) (if j <? j0 then j else S j))).
Proof. exact C19_reshape_pf. Qed.
Print Assumptions C19_reshape.

Example C19_reshape_ex :
  mvstack R_ops (mkMat 1 2 [1; 2]%R) (mkMat 1 2 [3; 4]%R) = Ok (mkMat 2 2 [1; 2; 3; 4]%R) /\
  mhstack R_ops (mkMat 1 2 [1; 2]%R) (mkMat 1 1 [5]%R) = Ok (mkMat 1 3 [1; 2; 5]%R) /\
  mblock R_ops (mkMat 2 2 [1; 2; 3; 4]%R) 1 0 1 2 = Ok (mkMat 1 2 [3; 4]%R).
Proof. splits; reflexivity. Qed.

(** C19, fresh, identity, diagonal and outer-product matrices *)
Theorem C19_constructors : forall T (O : ops T),
  (forall r c, is_mat (mnew O r c) r c (fun _ _ => o0 O)) /\
  (forall n, exists m, midentity O n = Ok m /\ is_mat m n n (fun i j => if i =? j then o1 O else o0 O)) /\
  (forall x n f, is_vec x n f ->
     (exists m, mdiagonal O x = Ok m /\ is_mat m n n (fun i j => if i =? j then f i else o0 O)) /\
     (exists m, vtrans O x = Ok m /\ is_mat m 1 n (fun _ j => f j)) /\
     is_mat (mat_of_vec x) n 1 (fun i _ => f i) /\
     vec_of_mat O (mat_of_vec x) = Ok x /\
     (forall b c g, is_mat b 1 c g ->
        exists m, vouter O x b = Ok m /\ is_mat m n c (fun i j => omul O (f i) (g 0 j)))).
Proof. exact C19_constructors_pf. Qed.
Print Assumptions C19_constructors.

Example C19_constructors_ex : midentity R_ops 2 = Ok (mkMat 2 2 [1; 0; 0; 1]%R) /\
  mdiagonal R_ops [5; 7]%R = Ok (mkMat 2 2 [5; 0; 0; 7]%R).
Proof. split; reflexivity. Qed.

(** C19, operands of the wrong shape abort *)
Theorem C19_mismatch : forall T (O : ops T) (a b : mat T) (x y : list T),
  (mrow a <> mrow b \/ mcol a <> mcol b -> madd O a b = Fail AssertFail /\ msub O a b = Fail AssertFail) /\
  (mcol a <> mrow b -> mmul O a b = Fail AssertFail) /\
  (mcol a <> length x -> mmulv O a x = Fail AssertFail) /\
  (mcol a <> mcol b -> mvstack O a b = Fail AssertFail) /\
  (mrow a <> mrow b -> mhstack O a b = Fail AssertFail) /\
  (forall i0 j0 h w, ~ (0 < h /\ 0 < w /\ i0 + h <= mrow a /\ j0 + w <= mcol a) ->
     mblock O a i0 j0 h w = Fail AssertFail) /\
  (mrow a <> mcol a -> mdet O a = Fail AssertFail /\ minv O a = Fail AssertFail) /\
  (mcol a <> 1 -> vec_of_mat O a = Fail AssertFail) /\
  (mrow a <> 1 -> vouter O x a = Fail AssertFail) /\
  (length x <> length y -> vadd O x y = Fail AssertFail /\ vsub O x y = Fail AssertFail /\
     vdot O x y = Fail AssertFail).
Proof. exact C19_mismatch_pf. Qed.
Print Assumptions C19_mismatch.

(** C19, vectors: sum, difference, scalar multiples, stacking and segments *)
Theorem C19_vectors : forall T (O : ops T) x n f, is_vec x n f ->
  (forall y g, is_vec y n g ->
     (exists z, vadd O x y = Ok z /\ is_vec z n (fun i => oadd O (f i) (g i))) /\
     (exists z, vsub O x y = Ok z /\ is_vec z n (fun i => osub O (f i) (g i)))) /\
  (forall s, is_vec (vscal O s x) n (fun i => omul O (f i) s)) /\
  is_vec (vneg O x) n (fun i => omul O (f i) (oopp O (o1 O))) /\
  (forall y m g, is_vec y m g ->
     exists z, vvstack O x y = Ok z /\ is_vec z (n + m) (fun i => if i <? n then f i else g (i - n))) /\
  (forall h t, h < t -> t <= n -> exists z, vsegment O x h t = Ok z /\ is_vec z (t - h) (fun i => f (h + i))) /\
  (forall h t, ~ (h < t /\ t <= n) -> vsegment O x h t = Fail AssertFail).
Proof. exact C19_vectors_pf. Qed.
Print Assumptions C19_vectors.

Example C19_vectors_ex : vvstack R_ops [1; 2]%R [3]%R = Ok [1; 2; 3]%R /\
  vsegment R_ops [1; 2; 3]%R 1 3 = Ok [2; 3]%R.
Proof. split; reflexivity. Qed.

(** C21, dot product: symmetric, bilinear, positive, and the square of Norm *)
Theorem C21_dot : forall (x y z : list R) (s : R), length x = length y -> length y = length z ->
  exists xy xz yz xx sxy n,
    vdot R_ops x y = Ok xy /\ vdot R_ops y x = Ok xy /\
    vdot R_ops x z = Ok xz /\ vdot R_ops y z = Ok yz /\
    (forall w, vadd R_ops x y = Ok w -> vdot R_ops w z = Ok sxy /\ sxy = (xz + yz)%R) /\
    vdot R_ops (vscal R_ops s x) y = Ok (s * xy)%R /\
    vdot R_ops x x = Ok xx /\ vnorm x = Ok n /\ (n * n = xx)%R /\ (0 <= n)%R /\
    (n = 0%R <-> forall i, i < length x -> nth i x 0%R = 0%R).
Proof. exact C21_dot_pf. Qed.
Print Assumptions C21_dot.

Example C21_dot_ex : length [1; 2]%R = length [3; 4]%R /\ length [3; 4]%R = length [5; 6]%R /\
  vdot R_ops [1; 2]%R [3; 4]%R = Ok (0 + 1 * 3 + 2 * 4)%R.
Proof. splits; reflexivity. Qed.

(** C21, VectorProduct: orthogonal to both arguments, antisymmetric, with the
    Lagrange identity |a x b|^2 = |a|^2 |b|^2 - (a.b)^2; other sizes abort. *)
Theorem C21_vector_product : forall a b : list R,
  (length a = 3 -> length b = 3 ->
   exists c d ab aa bb cc,
     vprod R_ops a b = Ok c /\ vprod R_ops b a = Ok d /\ d = vneg R_ops c /\ length c = 3 /\
     vdot R_ops a c = Ok 0%R /\ vdot R_ops b c = Ok 0%R /\
     vdot R_ops a b = Ok ab /\ vdot R_ops a a = Ok aa /\ vdot R_ops b b = Ok bb /\ vdot R_ops c c = Ok cc /\
     (cc = aa * bb - ab * ab)%R) /\
  (~ (length a = 3 /\ length b = 3) -> vprod R_ops a b = Fail AssertFail).
Proof. exact C21_vector_product_pf. Qed.
Print Assumptions C21_vector_product.

Example C21_vector_product_ex : vprod R_ops [1; 0; 0]%R [0; 1; 0]%R =
  Ok [0 * 0 - 0 * 1; 0 * 0 - 1 * 0; 1 * 1 - 0 * 0]%R.
Proof. reflexivity. Qed.

(** C21, Normal: a unit vector with the direction of the argument; the zero
    vector makes it divide by zero. *)
Theorem C21_normal : forall v : list R,
  ((exists i, i < length v /\ nth i v 0%R <> 0%R) ->
   exists u n, vnormal v = Ok u /\ vnorm v = Ok n /\ (0 < n)%R /\ vnorm u = Ok 1%R /\
     length u = length v /\ forall i, i < length v -> (nth i v 0 = n * nth i u 0)%R) /\
  (0 < length v -> (forall i, i < length v -> nth i v 0%R = 0%R) -> vnormal v = Fail DivByZero).
Proof. exact C21_normal_pf. Qed.
Print Assumptions C21_normal.

Example C21_normal_ex : exists i, i < length [0; 3; 4]%R /\ nth i [0; 3; 4]%R 0%R <> 0%R.
Proof. exists 1. cbn. split; [lia|lra]. Qed.
