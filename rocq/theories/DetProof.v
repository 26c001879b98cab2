(** Determinant and Inverse against the library determinant and inverse of
    mathcomp. *)
From Coq Require Import List Arith Lia Bool.
From mathcomp Require Import all_ssreflect all_algebra.
From Verif Require Import Res DenseModel DenseSpec DenseProof.
Set Implicit Arguments. Unset Strict Implicit. Unset Printing Implicit Defensive.
Import GRing.Theory.
Local Open Scope ring_scope.

(** exact arithmetic in a commutative ring / a field *)
Definition ring_ops (R : comRingType) (div : R -> R -> res R) : ops R :=
  mkOps 0 1 (fun x y => x + y) (fun x y => x - y) (fun x y => x * y) (fun x => - x) div.
Definition field_div (F : fieldType) (x y : F) : res F :=
  if y == 0 then Fail DivByZero else Ok (x / y).
Definition field_ops (F : fieldType) : ops F := ring_ops (@field_div F).

Section Det.
Variable R : comRingType.
Variable div : R -> R -> res R.
Notation O := (ring_ops div).

Definition radd (x y : R) : R := x + y.
Definition rmul (x y : R) : R := x * y.
Definition rsub (x y : R) : R := x - y.
Definition ropp (x : R) : R := - x.
Definition r0 : R := 0.
Definition r1 : R := 1.
Lemma R_ring_theory : @ring_theory R r0 r1 radd rmul rsub ropp (@eq R).
Proof.
  rewrite /radd /rmul /rsub /ropp /r0 /r1.
  constructor.
  - exact: add0r. - exact: addrC. - exact: addrA. - exact: mul1r. - exact: mulrC.
  - exact: mulrA. - exact: mulrDl. - by []. - exact: addrN.
Qed.
Add Ring Rr : R_ring_theory.

Lemma ring2 (a b c d : R) : a * d + c * (-1 * b) = a * d - b * c.
Proof.
  change (radd (rmul a d) (rmul c (rmul (ropp r1) b)) = rsub (rmul a d) (rmul b c)). ring.
Qed.

Lemma ring3 (a b c d e f g h i : R) :
  - i * b * d - h * f * a - c * e * g + g * b * f + h * d * c + a * e * i =
  a * (1 * (e * i - f * h)) + (d * (-1 * (b * i - c * h)) + g * (-1 * -1 * (b * f - c * e))).
Proof.
  change (radd (radd (radd (rsub (rsub (rmul (rmul (ropp i) b) d) (rmul (rmul h f) a)) (rmul (rmul c e) g))
    (rmul (rmul g b) f)) (rmul (rmul h d) c)) (rmul (rmul a e) i) =
    radd (rmul a (rmul r1 (rsub (rmul e i) (rmul f h))))
      (radd (rmul d (rmul (ropp r1) (rsub (rmul b i) (rmul c h))))
         (rmul g (rmul (rmul (ropp r1) (ropp r1)) (rsub (rmul b f) (rmul c e)))))). ring.
Qed.

Definition mx (n : nat) (a : mat R) : 'M[R]_n := \matrix_(i < n, j < n) ent O a i j.

Lemma gsum_big n (f : nat -> R) : gsum O n f = \sum_(i < n) f i.
Proof. by elim: n => [|n IH] /=; rewrite ?big_ord0 // big_ord_recr /= IH. Qed.

Lemma osign_exp k : osign O k = (-1) ^+ k.
Proof.
  rewrite /osign /=. elim: k => [|k IH]; first by rewrite expr0.
  rewrite exprS -IH Nat.even_succ -Nat.negb_even. by case: (Nat.even k) => /=; rewrite ?mulN1r ?opprK.
Qed.

Lemma skip_lift n (k : 'I_n.+1) (i : 'I_n) : skip k i = lift k i :> nat.
Proof.
  rewrite /skip /= /bump. case: Nat.ltb_spec => H.
  - have: ((i < k)%N) by apply/ltP. by rewrite ltnNge => /negbTE ->.
  - have: ((k <= i)%N) by apply/leP. by move => ->.
Qed.

Lemma mx_minor n a m i0 j0 (Hi : (i0 < n.+1)%N) (Hj : (j0 < n.+1)%N) :
  is_mat m n n (fun i j => ent O a (skip i0 i) (skip j0 j)) ->
  mx n m = row' (Ordinal Hi) (col' (Ordinal Hj) (mx n.+1 a)).
Proof.
  case/(is_mat_ent O) => _ [Hr [Hc He]]. apply/matrixP => i j. rewrite !mxE.
  rewrite He; try (by apply/ltP). by rewrite -!skip_lift.
Qed.

Lemma det2 (A : 'M[R]_2) : \det A = A 0 0 * A 1 1 - A 0 1 * A 1 0.
Proof.
  rewrite (expand_det_col _ 0) !big_ord_recl big_ord0 addr0 /cofactor !det_mx11 !mxE /=.
  rewrite addn0 expr0 expr1 mul1r.
  have -> : lift 0 0 = 1 :> 'I_2 by apply: val_inj.
  have -> : lift 1 0 = 0 :> 'I_2 by apply: val_inj.
  exact: ring2.
Qed.

Lemma mx_ent n a (i j : 'I_n) : mx n a i j = ent O a i j.
Proof. by rewrite mxE. Qed.

Lemma mdet_ok : forall fuel n a, (n.+1 <= fuel)%N -> mat_wf a -> mrow a = n.+1 -> mcol a = n.+1 ->
  mdet_fuel O fuel a = Ok (\det (mx n.+1 a)).
Proof.
  have rdv : forall (v : list R) k, (k < length v)%N -> rd v k = Ok (List.nth k v (o0 O)).
  { move=> v k /ltP H. exact: rd_nth. }
  elim => [//|fuel IH] n a Hf Hw Hr Hc.
  have Hlen : length (mval a) = (n.+1 * n.+1)%N by rewrite Hw Hr Hc.
  rewrite /= Hr Hc /= Nat.eqb_refl /=.
  case: n Hf Hr Hc Hlen => [|[|[|n]]] Hf Hr Hc Hlen.
  - rewrite /= rdv ?Hlen //. by rewrite det_mx11 mx_ent /ent Hc.
  - rewrite [Nat.eqb _ _]/= /= !rdv ?Hlen //= (det2 (mx 2 a)) !mx_ent /ent Hc //.
  - rewrite [Nat.eqb _ _]/= /= !rdv ?Hlen //=.
    rewrite (expand_det_col _ 0). rewrite !big_ord_recl big_ord0 addr0 /cofactor !det2 !mxE /=.
    rewrite /ent Hc /= /bump /=. rewrite !addn0 expr0 expr1 expr2. congr Ok. exact: ring3.
  - rewrite [Nat.eqb _ _]/= [Nat.eqb _ 1]/= [Nat.eqb _ 2]/=.
    rewrite (@accum_ok _ O _ _ (fun i : nat => (-1) ^+ i * ent O a i 0 *
       (if insub i is Some k then \det (row' k (col' (0 : 'I_n.+4) (mx n.+4 a))) else 0))).
    + rewrite gsum_big (expand_det_col _ 0). congr Ok. apply: eq_bigr => i _.
      rewrite valK /cofactor addn0 mx_ent. rewrite mulrCA mulrA. by congr (_ * _); rewrite mulrC.
    + move=> k Hk. rewrite (mraw_ok O) ?Hr ?Hc //; last by lia.
      rewrite [bind _ _]/=. 
      case: (@mminor_ok _ O a k 0 Hw); rewrite ?Hr ?Hc //; first by lia.
      move=> m [-> Hm]. rewrite [bind _ _]/=.
      have Hk' : (k < n.+4)%N by apply/ltP.
      have [Wm [Rm [Cm _]]] := Hm.
      rewrite /= in Rm Cm Hm. 
      rewrite (IH n.+2 m) //. rewrite insubT /=. rewrite osign_exp.
      by rewrite (@mx_minor _ a m k 0 Hk' isT Hm).
Qed.

Lemma mdet_correct n a : mat_wf a -> mrow a = n.+1 -> mcol a = n.+1 ->
  mdet O a = Ok (\det (mx n.+1 a)).
Proof. move=> Hw Hr Hc. rewrite /mdet Hr. exact: mdet_ok. Qed.
End Det.

Section Inv.
Variable F : fieldType.
Notation O := (field_ops F).
Let Odef : O = ring_ops (@field_div F) := erefl.

Lemma mapM_div (l : list F) s : s != 0 ->
  mapM (fun x => field_div x s) l = Ok (List.map (fun x => x / s) l).
Proof.
  move=> Hs. elim: l => //= x l ->. by rewrite {1}/field_div (negbTE Hs).
Qed.

Lemma minv_ok n a : mat_wf a -> mrow a = n.+1 -> mcol a = n.+1 ->
  \det (mx (@field_div F) n.+1 a) != 0 ->
  exists m, minv O a = Ok m /\ mat_wf m /\ mrow m = n.+1 /\ mcol m = n.+1 /\
    mx (@field_div F) n.+1 m = invmx (mx (@field_div F) n.+1 a).
Proof.
  move=> Hw Hr Hc Hd. have Hlen : length (mval a) = (n.+1 * n.+1)%N by rewrite Hw Hr Hc.
  rewrite /minv Hr Hc Nat.eqb_refl [bind _ _]/=.
  have Hu : mx (@field_div F) n.+1 a \in unitmx by rewrite unitmxE unitfE.
  case: n Hr Hc Hd Hlen Hu => [|n] Hr Hc Hd Hlen Hu.
  - rewrite [Nat.eqb _ _]/=. rewrite det_mx11 mx_ent in Hd.
    have Ha : rd (mval a) 0 = Ok (ent O a 0 0).
    { rewrite /ent Hc /=. apply: rd_nth. rewrite Hlen. by apply/ltP. }
    rewrite Ha [bind _ _]/=. rewrite /= in Hd. rewrite /field_div (negbTE Hd) [bind _ _]/=.
    eexists; split; first by reflexivity. split; first by []. split; first by []. split; first by [].
    rewrite /invmx Hu. apply/matrixP => i j. rewrite !mxE !ord1 /=.
    rewrite det_mx11 mx_ent /= mul1r. rewrite /cofactor det_mx00 /= expr0 !mulr1. by [].
  - rewrite [Nat.eqb _ _]/=.
    have Hb := (@mbuild_ok _ O n.+2 n.+2
       (fun i j => bind (mminor O a j i) (fun c => bind (mdet O c) (fun d =>
           Ok (omul O (osign O (Nat.add i j)) d)))) (fun i j => (-1) ^+ (i + j) *
       (if insub i is Some k then if insub j is Some l then
          \det (row' l (col' (k : 'I_n.+2) (mx (@field_div F) n.+2 a))) else 0 else 0))). case: Hb; last first.
    + move=> m [-> Hm]. rewrite [bind _ _]/=.
      have -> : mdet O a = Ok (\det (mx (@field_div F) n.+2 a)) by apply: mdet_correct.
      rewrite [bind _ _]/= /mdivs /= mapM_div //=.
      case/(is_mat_ent O): Hm => Wm [Rm [Cm Em]].
      eexists; split; first by reflexivity. split.
      { rewrite /mat_wf /= List.map_length. exact: Wm. }
      split; first by []. split; first by [].
      apply/matrixP => i j. rewrite /invmx Hu !mxE /=.
      have Hin : (i * n.+2 + j < length (mval m))%coq_nat.
      { rewrite Wm Rm Cm. apply/ltP. rewrite ?multE ?plusE. have := ltn_ord i; have := ltn_ord j => Hj Hi.
        apply: (@leq_trans (i * n.+2 + n.+2)); first by rewrite ltn_add2l.
        by rewrite addnC -mulSn leq_mul2r Hi orbT. }
      have Ei := Em i j (elimT ltP (ltn_ord i)) (elimT ltP (ltn_ord j)).
      rewrite !valK /ent Cm /= in Ei. rewrite /= in Cm. rewrite /ent /= Cm.
      rewrite (List.nth_indep _ _ (0 / \det (mx (@field_div F) n.+2 a))); last by rewrite List.map_length.
      rewrite (List.map_nth (fun x => x / \det (mx (@field_div F) n.+2 a))). rewrite mulrC. congr (_ * _).
      rewrite Ei /cofactor. by rewrite addnC.
    + move=> i j Hi Hj.
      case: (@mminor_ok _ O a j i Hw); rewrite ?Hr ?Hc //.
      move=> c [-> Hm]. rewrite [bind _ _]/=.
      have [Wm [Rm [Cm _]]] := Hm. rewrite /= in Rm Cm Hm.
      have -> : mdet O c = Ok (\det (mx (@field_div F) n.+1 c)) by apply: mdet_correct.
      rewrite [bind _ _]/=. have Hi' : (i < n.+2)%N by apply/ltP. have Hj' : (j < n.+2)%N by apply/ltP.
      rewrite (@insubT nat (fun k => k < n.+2)%N [subType of 'I_n.+2] i Hi') (@insubT nat (fun k => k < n.+2)%N [subType of 'I_n.+2] j Hj').
      rewrite (osign_exp (@field_div F)). congr (Ok (_ * \det _)).
      by rewrite (@mx_minor _ _ _ a c j i Hj' Hi' Hm).
Qed.

Lemma minv_singular n a : mat_wf a -> mrow a = n.+1 -> mcol a = n.+1 ->
  \det (mx (@field_div F) n.+1 a) = 0 -> minv O a = Fail DivByZero.
Proof.
  move=> Hw Hr Hc Hd. have Hlen : length (mval a) = (n.+1 * n.+1)%N by rewrite Hw Hr Hc.
  rewrite /minv Hr Hc Nat.eqb_refl [bind _ _]/=.
  case: n Hr Hc Hd Hlen => [|n] Hr Hc Hd Hlen.
  - rewrite [Nat.eqb _ _]/=. rewrite det_mx11 mx_ent in Hd.
    have Ha : rd (mval a) 0 = Ok (ent O a 0 0).
    { rewrite /ent Hc /=. apply: rd_nth. rewrite Hlen. by apply/ltP. }
    rewrite Ha [bind _ _]/=. rewrite /= in Hd. by rewrite Hd /field_div eqxx.
  - rewrite [Nat.eqb _ _]/=.
    have Hb := (@mbuild_ok _ O n.+2 n.+2
       (fun i j => bind (mminor O a j i) (fun c => bind (mdet O c) (fun d =>
           Ok (omul O (osign O (Nat.add i j)) d)))) (fun i j => (-1) ^+ (i + j) *
       (if insub i is Some k then if insub j is Some l then
          \det (row' l (col' (k : 'I_n.+2) (mx (@field_div F) n.+2 a))) else 0 else 0))). case: Hb; last first.
    + move=> m [-> Hm]. rewrite [bind _ _]/=.
      have -> : mdet O a = Ok (\det (mx (@field_div F) n.+2 a)) by apply: mdet_correct.
      rewrite Hd [bind _ _]/= /mdivs.
      case/(is_mat_ent O): Hm => Wm [Rm [Cm Em]].
      have : length (mval m) = (n.+2 * n.+2)%N by rewrite Wm Rm Cm.
      case: (mval m) => [|x l] //= _. by rewrite /field_div eqxx.
    + move=> i j Hi Hj.
      case: (@mminor_ok _ O a j i Hw); rewrite ?Hr ?Hc //.
      move=> c [-> Hm]. rewrite [bind _ _]/=.
      have [Wm [Rm [Cm _]]] := Hm. rewrite /= in Rm Cm Hm.
      have -> : mdet O c = Ok (\det (mx (@field_div F) n.+1 c)) by apply: mdet_correct.
      rewrite [bind _ _]/=. have Hi' : (i < n.+2)%N by apply/ltP. have Hj' : (j < n.+2)%N by apply/ltP.
      rewrite (@insubT nat (fun k => k < n.+2)%N [subType of 'I_n.+2] i Hi') (@insubT nat (fun k => k < n.+2)%N [subType of 'I_n.+2] j Hj').
      rewrite (osign_exp (@field_div F)). congr (Ok (_ * \det _)).
      by rewrite (@mx_minor _ _ _ a c j i Hj' Hi' Hm).
Qed.

Lemma mmul_mx n a b : mat_wf a -> mat_wf b -> mrow a = n -> mcol a = n -> mrow b = n -> mcol b = n ->
  exists m, mmul O a b = Ok m /\ mat_wf m /\ mrow m = n /\ mcol m = n /\
    mx (@field_div F) n m = mx (@field_div F) n a *m mx (@field_div F) n b.
Proof.
  move=> Ha Hb Ra Ca Rb Cb. case: (@mmul_ok _ O a b Ha Hb); first by rewrite Ca Rb.
  move=> m [E Hm]. exists m; split => //. case/(is_mat_ent O): Hm => Wm [Rm [Cm Em]].
  rewrite Ra in Rm. rewrite Cb in Cm. do 3 (split; first by []).
  apply/matrixP => i j. rewrite !mxE Em; [|rewrite Ra|rewrite Cb]; try by apply/ltP.
  rewrite (gsum_big (@field_div F)) Ca. apply: eq_bigr => k _. by rewrite !mxE.
Qed.
End Inv.
