(** Model of /repo/src/PrePost/Mesher/Delaunay.h, the triangle mesher.

    Coordinates are exact reals, a coordinate vector is the value array of the
    class Vector.  Node and element numbers are [nat]; where the C++ uses -1
    for "none" the model uses [None], and an access with index -1 is
    [OutOfBounds].  The arguments [_nodenump1] and [_nodenumm1], for which the
    callers also pass -2, are [Z].  The node numbers of the boundary lists are
    [nat] (a negative one indexes outside of [nodes]).

    The array [angles] of an element is written by [getangle] and read
    nowhere; it is left out of the state and [getangle] (lines 183-188) with
    it.  The messages on [std::cout] are left out.  The loops whose length is
    not fixed in advance take a bound [fuel]. *)
From Coq Require Import List Arith ZArith Lia Bool Reals.
From Verif Require Import Res DenseModel DenseR LUModel.
Import ListNotations.
Local Open Scope R_scope.

(** std::array<A, 3> *)
Record arr3 (A : Type) := A3 { a30 : A; a31 : A; a32 : A }.
Arguments A3 {A}. Arguments a30 {A}. Arguments a31 {A}. Arguments a32 {A}.
Definition at3 {A} (t : arr3 A) (i : nat) : A :=
  match i with O => a30 t | S O => a31 t | _ => a32 t end.
Definition set3 {A} (t : arr3 A) (i : nat) (x : A) : arr3 A :=
  match i with
  | O => A3 x (a31 t) (a32 t)
  | S O => A3 (a30 t) x (a32 t)
  | _ => A3 (a30 t) (a31 t) x
  end.
(** (i + 1)%3 and (i + 2)%3 *)
Definition nx3 (i : nat) : nat := ((i + 1) mod 3)%nat.
Definition pv3 (i : nat) : nat := ((i + 2) mod 3)%nat.

(** Delaunay.h:28-41 class Node *)
Record dnode := mkNode { dx : list R; isset : bool; isonb : bool }.

(** Delaunay.h:44-57 the constructors *)
Definition node_of (x : list R) : dnode := mkNode x false false.
Definition node_xy (x y : R) : dnode := node_of [x; y].

(** Delaunay.h:60-63 distance *)
Definition ndist (a b : dnode) : res R := d <- vsub R_ops (dx a) (dx b) ;; vnorm d.

(** Delaunay.h:66-69 vecpro: [this] is [a] *)
Definition vecpro (a b c : dnode) : res R :=
  b0 <- vget (dx b) 0 ;; a0 <- vget (dx a) 0 ;;
  c1 <- vget (dx c) 1 ;; a1 <- vget (dx a) 1 ;;
  b1 <- vget (dx b) 1 ;; c0 <- vget (dx c) 0 ;;
  Ok ((b0 - a0) * (c1 - a1) - (b1 - a1) * (c0 - a0)).

(** Delaunay.h:80-99 class Element, without the array angles *)
Record delem := mkElem {
  en : arr3 nat;             (* nodes *)
  enb : arr3 (option nat);   (* neighbors *)
  esd : arr3 bool;           (* sides *)
  eact : bool;               (* active *)
  echk : bool                (* check *)
}.

(** Delaunay.h:121-137 the constructor from three nodes; the default
    constructor 102-118 differs in the node numbers only, which every use
    overwrites *)
Definition elem3 (a b c : nat) : delem :=
  mkElem (A3 a b c) (A3 None None None) (A3 false false false) true false.
Definition elem_with (n : arr3 nat) (nb : arr3 (option nat)) (sd : arr3 bool) : delem :=
  mkElem n nb sd true false.

(** Delaunay.h:21-22 *)
Definition selfeps : R := / 10000000000.
Definition Rleb (x y : R) : bool := if Rle_dec x y then true else false.

(** Delaunay.h:145-169 inouton *)
Definition inouton (e : delem) (k : nat) (ns : list dnode) : res Z :=
  n0 <- rd ns (at3 (en e) 0) ;; n1 <- rd ns (at3 (en e) 1) ;; n2 <- rd ns (at3 (en e) 2) ;;
  p <- rd ns k ;;
  v0 <- vecpro n0 n1 p ;; v1 <- vecpro n1 n2 p ;; v2 <- vecpro n2 n0 p ;;
  v3 <- vecpro n0 n2 p ;; v4 <- vecpro n1 n0 p ;; v5 <- vecpro n2 n1 p ;;
  Ok (if Rltb 0 v2 && (Rltb v0 0 || (Rleb (Rabs v0) selfeps && Rltb 0 v5)) then (-3)%Z
      else if Rltb 0 v0 && (Rltb v1 0 || (Rleb (Rabs v1) selfeps && Rltb 0 v3)) then (-1)%Z
      else if Rltb 0 v1 && (Rltb v2 0 || (Rleb (Rabs v2) selfeps && Rltb 0 v4)) then (-2)%Z
      else if Rleb (Rabs v0) selfeps then 3%Z
      else if Rleb (Rabs v1) selfeps then 1%Z
      else if Rleb (Rabs v2) selfeps then 2%Z
      else 0%Z).

(** Delaunay.h:172-180 oppositenode *)
Definition eqo (o : option nat) (k : nat) : bool :=
  match o with Some i => i =? k | None => false end%nat.
Definition oppositenode (e : delem) (k : nat) : option nat :=
  find (fun i => eqo (at3 (enb e) i) k) [0; 1; 2]%nat.

(** Delaunay.h:191-199 nodeorder *)
Definition nodeorder (e : delem) (k : nat) : option nat :=
  find (fun i => at3 (en e) i =? k)%nat [0; 1; 2]%nat.

(** Delaunay.h:215-216 *)
Record dmesh := mkMesh { mns : list dnode; mes : list delem }.

(** an index that may be -1 *)
Definition idx (o : option nat) : res nat :=
  match o with Some i => Ok i | None => Fail OutOfBounds end.

(** elements[k].neighbors[elements[k].oppositenode(old)] = new, skipped for
    k = -1: 483-485, 528-530, 533-535, 591-593, 648-650, 653-655 *)
Definition relink (es : list delem) (k : option nat) (old new : nat) : res (list delem) :=
  match k with
  | None => Ok es
  | Some k =>
      e <- rd es k ;; j <- idx (oppositenode e old) ;;
      wr es k (mkElem (en e) (set3 (enb e) j (Some new)) (esd e) (eact e) (echk e))
  end.

(** node == _nodenumm1 || node == _nodenump1 *)
Definition isadj (k : nat) (p1 m1 : Z) : bool := (Z.of_nat k =? m1)%Z || (Z.of_nat k =? p1)%Z.

(** Delaunay.h:638-643 the condition of a swap; the operands of && and || are
    evaluated from the left and only as far as needed *)
Definition swap_cond (ns : list dnode) (es : list delem) (s t n : nat) (p1 m1 : Z) : res bool :=
  S <- rd es s ;; T <- rd es t ;;
  b <- rd ns (at3 (en S) 1) ;; c <- rd ns (at3 (en S) 2) ;; r0 <- ndist b c ;;
  p <- rd ns (at3 (en S) 0) ;; q <- rd ns (at3 (en T) n) ;; r1 <- ndist p q ;;
  c1 <- (if Rltb r1 r0 then
           i <- inouton S (at3 (en T) n) ns ;;
           if (i =? -1)%Z then
             i' <- inouton T (at3 (en S) 0) ns ;;
             Ok ((i' =? - (Z.of_nat n + 1))%Z && negb (at3 (esd S) 0))
           else Ok false
         else Ok false) ;;
  Ok (c1 || ((Z.of_nat (at3 (en T) n) =? p1)%Z || (Z.of_nat (at3 (en T) n) =? m1)%Z)).

(** Delaunay.h:645-671 the swap of the common side of [s] and [t]; [n] is the
    corner of [t] opposite to it *)
Definition swap_do (es : list delem) (s t n : nat) (p1 m1 : Z) : res (list delem) :=
  tmp <- rd es t ;;
  es <- relink es (at3 (enb tmp) (nx3 n)) t s ;;
  S1 <- rd es s ;;
  es <- relink es (at3 (enb S1) 1) s t ;;
  S2 <- rd es s ;; T2 <- rd es t ;;
  es <- wr es t (mkElem (A3 (at3 (en S2) 0) (at3 (en tmp) n) (at3 (en S2) 2))
                        (A3 (at3 (enb tmp) (pv3 n)) (at3 (enb S2) 1) (Some s))
                        (A3 (at3 (esd tmp) (pv3 n)) (at3 (esd S2) 1) false) (eact T2) (echk T2)) ;;
  S3 <- rd es s ;;
  es <- wr es s (mkElem (A3 (at3 (en S3) 0) (at3 (en S3) 1) (at3 (en tmp) n))
                        (A3 (at3 (enb tmp) (nx3 n)) (Some t) (at3 (enb S3) 2))
                        (A3 (at3 (esd tmp) (nx3 n)) false (at3 (esd S3) 2)) (eact S3) (echk S3)) ;;
  S4 <- rd es s ;;
  if isadj (at3 (en S4) 2) p1 m1 then
    es <- wr es s (mkElem (en S4) (enb S4) (set3 (esd S4) 1 true) (eact S4) (echk S4)) ;;
    T4 <- rd es t ;;
    wr es t (mkElem (en T4) (enb T4) (set3 (esd T4) 2 true) (eact T4) (echk T4))
  else Ok es.

(** Delaunay.h:626-678 swapping; the head of the list is the top of the stack *)
Fixpoint swapping (fuel : nat) (ns : list dnode) (es : list delem) (stack : list nat) (p1 m1 : Z) : res (list delem) :=
  match stack with
  | [] => Ok es
  | s :: st =>
      match fuel with
      | O => Fail OutOfFuel
      | S fuel =>
          S <- rd es s ;;
          match at3 (enb S) 0 with
          | None => swapping fuel ns es st p1 m1
          | Some t =>
              T <- rd es t ;;
              if eact T then
                n <- idx (oppositenode T s) ;;
                c <- swap_cond ns es s t n p1 m1 ;;
                if c then
                  es <- swap_do es s t n p1 m1 ;;
                  swapping fuel ns es (t :: s :: st) p1 m1
                else swapping fuel ns es st p1 m1
              else swapping fuel ns es st p1 m1
          end
      end
  end.

(** Delaunay.h:463-494 getelementin up to the call of swapping: the elements
    and the stack *)
Definition split_in (es : list delem) (k p : nat) (p1 m1 : Z) : res (list delem * list nat) :=
  e <- rd es k ;;
  let m := length es in
  let n := at3 (en e) in
  let f i := isadj (n i) p1 m1 in
  let t0 := elem_with (A3 p (n 1%nat) (n 2%nat)) (A3 (at3 (enb e) 0) (Some m) (Some (m + 1)%nat)) (A3 (at3 (esd e) 0) (f 2%nat) (f 1%nat)) in
  let t1 := elem_with (A3 p (n 2%nat) (n 0%nat)) (A3 (at3 (enb e) 1) (Some (m + 1)%nat) (Some k)) (A3 (at3 (esd e) 1) (f 0%nat) (f 2%nat)) in
  let t2 := elem_with (A3 p (n 0%nat) (n 1%nat)) (A3 (at3 (enb e) 2) (Some k) (Some m)) (A3 (at3 (esd e) 2) (f 1%nat) (f 0%nat)) in
  es <- relink es (at3 (enb e) 1) k m ;;
  e1 <- rd es k ;;
  es <- relink es (at3 (enb e1) 2) k (m + 1) ;;
  es <- wr es k t0 ;;
  Ok (es ++ [t1; t2], [m + 1; m; k]%nat).

(** Delaunay.h:463-497 getelementin *)
Definition getelementin (fuel : nat) (M : dmesh) (k : nat) (p1 : Z) (p : nat) (m1 : Z) : res dmesh :=
  ' (es, st) <- split_in (mes M) k p p1 m1 ;;
  es <- swapping fuel (mns M) es st p1 m1 ;;
  Ok (mkMesh (mns M) es).

(** nodes[k].isonboundary = true *)
Definition set_onb (ns : list dnode) (k : nat) : res (list dnode) :=
  n <- rd ns k ;; wr ns k (mkNode (dx n) (isset n) true).

(** Delaunay.h:507-576 getelementon with a neighbor [t] *)
Definition split_on2 (ns : list dnode) (es : list delem) (k t j p : nat) (p1 m1 : Z) : res (list dnode * list delem * list nat) :=
  e <- rd es k ;; e' <- rd es t ;;
  i <- idx (oppositenode e' k) ;;
  let m := length es in
  let a := at3 (en e) j in let b := at3 (en e) (nx3 j) in let c := at3 (en e) (pv3 j) in
  let q := at3 (en e') i in
  let fl := at3 (esd e) j in
  let t0 := elem_with (A3 p a b) (A3 (at3 (enb e) (pv3 j)) (Some t) (Some m))
              (A3 (at3 (esd e) (pv3 j)) (isadj b p1 m1 || fl) (isadj a p1 m1)) in
  let t1 := elem_with (A3 p b q) (A3 (at3 (enb e') (nx3 i)) (Some (m + 1)%nat) (Some k))
              (A3 (at3 (esd e') (nx3 i)) (isadj q p1 m1) (isadj b p1 m1 || fl)) in
  let t2 := elem_with (A3 p c a) (A3 (at3 (enb e) (nx3 j)) (Some k) (Some (m + 1)%nat))
              (A3 (at3 (esd e) (nx3 j)) (isadj a p1 m1) (isadj c p1 m1 || fl)) in
  let t3 := elem_with (A3 p q c) (A3 (at3 (enb e') (pv3 i)) (Some m) (Some t))
              (A3 (at3 (esd e') (pv3 i)) (isadj c p1 m1 || fl) (isadj q p1 m1)) in
  es <- relink es (at3 (enb e) (nx3 j)) k m ;;
  e1 <- rd es t ;;
  es <- relink es (at3 (enb e1) (pv3 i)) t (m + 1) ;;
  (* 554: sides of elements[_nowtri], which relink does not change *)
  ns <- (if fl then set_onb ns p else Ok ns) ;;
  es <- wr es k t0 ;; es <- wr es t t1 ;;
  Ok (ns, es ++ [t2; t3], [m + 1; m; t; k]%nat).

(** Delaunay.h:579-620 getelementon without a neighbor *)
Definition split_on1 (ns : list dnode) (es : list delem) (k j p : nat) (p1 m1 : Z) : res (list dnode * list delem * list nat) :=
  e <- rd es k ;;
  let m := length es in
  let a := at3 (en e) j in let b := at3 (en e) (nx3 j) in let c := at3 (en e) (pv3 j) in
  let fl := at3 (esd e) j in
  let t0 := elem_with (A3 p a b) (A3 (at3 (enb e) (pv3 j)) None (Some m))
              (A3 (at3 (esd e) (pv3 j)) (isadj b p1 m1 || fl) (isadj a p1 m1)) in
  let t1 := elem_with (A3 p c a) (A3 (at3 (enb e) (nx3 j)) (Some k) None)
              (A3 (at3 (esd e) (nx3 j)) (isadj a p1 m1) (isadj c p1 m1 || fl)) in
  es <- relink es (at3 (enb e) (nx3 j)) k m ;;
  ns <- (if fl then set_onb ns p else Ok ns) ;;
  es <- wr es k t0 ;;
  Ok (ns, es ++ [t1], [m; k]%nat).

(** Delaunay.h:500-620 getelementon up to the call of swapping *)
Definition split_on (ns : list dnode) (es : list delem) (k j p : nat) (p1 m1 : Z) : res (list dnode * list delem * list nat) :=
  e <- rd es k ;;
  match at3 (enb e) j with
  | None => split_on1 ns es k j p p1 m1
  | Some t =>
      e' <- rd es t ;;
      if eact e' then split_on2 ns es k t j p p1 m1 else split_on1 ns es k j p p1 m1
  end.

(** Delaunay.h:500-623 getelementon *)
Definition getelementon (fuel : nat) (M : dmesh) (k j : nat) (p1 : Z) (p : nat) (m1 : Z) : res dmesh :=
  ' (ns, es, st) <- split_on (mns M) (mes M) k j p p1 m1 ;;
  es <- swapping fuel ns es st p1 m1 ;;
  Ok (mkMesh ns es).

(** Delaunay.h:276-293 getsupertriangle *)
Definition getsupertriangle (ns : list dnode) : res dmesh :=
  rmax <- foldM (fun rmax n => r <- ndist n (node_xy 0 0) ;; Ok (if Rltb rmax r then r else rmax)) ns 0 ;;
  let ns := ns ++ map (fun i => node_xy (-2 * rmax * sin (2 * PI * INR i / 3)) (2 * rmax * cos (2 * PI * INR i / 3))) [0; 1; 2]%nat in
  Ok (mkMesh ns [elem3 (length ns - 3) (length ns - 2) (length ns - 1)]).

(** Delaunay.h:321-327 and 332-338: the nodes after and before position [i] *)
Definition adjnodes (l : list nat) (i : nat) : res (Z * Z) :=
  if (i =? 0)%nat then a <- rd l 1 ;; Ok (Z.of_nat a, (-2)%Z)
  else b <- rd l (i - 1) ;;
       a <- (if (i =? length l - 1)%nat then rd l 0 else rd l (i + 1)) ;;
       Ok (Z.of_nat a, Z.of_nat b).

(** Delaunay.h:309-341 the search and the insertion; the list is not
    inserted when no element is found within [steps] steps *)
Fixpoint insert_search (fuel steps : nat) (M : dmesh) (l : list nat) (i p now : nat) : res dmesh :=
  match steps with
  | O => Ok M
  | S steps =>
      e <- rd (mes M) now ;;
      pos <- inouton e p (mns M) ;;
      if (pos <? 0)%Z || negb (eact e) then
        j <- (if (pos =? 0)%Z then Fail OutOfBounds else Ok (Z.abs_nat pos - 1)%nat) ;;
        match at3 (enb e) j with
        | Some t => insert_search fuel steps M l i p t
        | None => insert_search fuel steps M l i p now
        end
      else
        ' (p1, m1) <- adjnodes l i ;;
        if (pos =? 0)%Z then getelementin fuel M now p1 p m1
        else getelementon fuel M now (Z.to_nat pos - 1) p1 p m1
  end.

(** Delaunay.h:296-344 makeroughmesh *)
Definition makeroughmesh (fuel : nat) (M : dmesh) (l : list nat) : res dmesh :=
  foldM (fun M i =>
    p <- rd l i ;; n <- rd (mns M) p ;;
    if isset n then Ok M
    else
      ns <- wr (mns M) p (mkNode (dx n) true true) ;;
      insert_search fuel (length (mes M)) (mkMesh ns (mes M)) l i p (length (mes M) - 1))
    (seq 0 (length l)) M.

(** Delaunay.h:352-358 order *)
Fixpoint order (l : list nat) (k : nat) : option nat :=
  match l with
  | [] => None
  | x :: l => if (x =? k)%nat then Some O else match order l k with Some i => Some (S i) | None => None end
  end.
(** Delaunay.h:365-367, 384-386 *)
Definition cyc (a b c : nat) : bool :=
  ((a <? b) && (b <? c) || (b <? c) && (c <? a) || (c <? a) && (a <? b))%nat.

(** Delaunay.h:347-393 deactivateelements, one element *)
Definition deactivate1 (l : list nat) (outer : bool) (e : delem) : delem :=
  if echk e then e else
  match order l (at3 (en e) 0), order l (at3 (en e) 1), order l (at3 (en e) 2) with
  | Some a, Some b, Some c =>
      mkElem (en e) (enb e) (esd e) (if cyc a b c then false else eact e) true
  | None, None, None => e
  | _, _, _ => if outer then e else mkElem (en e) (enb e) (esd e) (eact e) true
  end.
Definition deactivateelements (M : dmesh) (l : list nat) (outer : bool) : dmesh :=
  mkMesh (mns M) (map (deactivate1 l outer) (mes M)).

(** Delaunay.h:396-406 deactivatesupertriangle *)
Definition deactivatesupertriangle (M : dmesh) : dmesh :=
  let n := length (mns M) in
  let hit k := ((k =? n - 1) || (k =? n - 2) || (k =? n - 3))%nat in
  mkMesh (mns M) (map (fun e =>
    if hit (at3 (en e) 0) || hit (at3 (en e) 1) || hit (at3 (en e) 2)
    then mkElem (en e) (enb e) (esd e) false (echk e) else e) (mes M)).

(** Delaunay.h:409-416 deleteelement *)
Definition deleteelement (M : dmesh) : dmesh :=
  mkMesh (mns M) (filter (fun e => negb (negb (eact e) || negb (echk e))) (mes M)).

(** Delaunay.h:425-427 *)
Definition share (e e' : delem) (j : nat) : bool :=
  let u := at3 (en e) (nx3 j) in let v := at3 (en e) (pv3 j) in
  ((u =? at3 (en e') 0) && (v =? at3 (en e') 2)
   || (u =? at3 (en e') 1) && (v =? at3 (en e') 0)
   || (u =? at3 (en e') 2) && (v =? at3 (en e') 1))%nat.

(** Delaunay.h:419-434 sortelement: the node numbers, the only thing read, do
    not change during the loops *)
Definition sortelement (M : dmesh) : dmesh :=
  let es := mes M in
  let nb i e j := option_map fst (find (fun q => negb (i =? fst q)%nat && share e (snd q) j) (combine (seq 0 (length es)) es)) in
  mkMesh (mns M) (map (fun q => let e := snd q in
    mkElem (en e) (A3 (nb (fst q) e 0%nat) (nb (fst q) e 1%nat) (nb (fst q) e 2%nat)) (esd e) (eact e) (echk e))
    (combine (seq 0 (length es)) es)).

(** Delaunay.h:437-460 sortnode *)
Definition dec_above (i k : nat) : nat := if (i <? k)%nat then (k - 1)%nat else k.
Definition map3 {A B} (f : A -> B) (t : arr3 A) : arr3 B := A3 (f (a30 t)) (f (a31 t)) (f (a32 t)).
Definition sortnode (M : dmesh) : dmesh :=
  let es := fold_left (fun es q =>
      if isset (snd q) then es
      else map (fun e => mkElem (map3 (dec_above (fst q)) (en e)) (enb e) (esd e) (eact e) (echk e)) es)
    (rev (combine (seq 0 (length (mns M))) (mns M))) (mes M) in
  mkMesh (filter isset (mns M)) es.

(** Delaunay.h:686-696 the longest side of the active elements *)
Definition longest (M : dmesh) : res (R * nat * nat) :=
  foldM (fun acc q =>
    let j := fst q in let e := snd q in
    foldM (fun acc k =>
      a <- rd (mns M) (at3 (en e) (nx3 k)) ;; b <- rd (mns M) (at3 (en e) (pv3 k)) ;;
      d <- ndist a b ;;
      Ok (if Rltb (fst (fst acc)) d && eact e then (d, j, k) else acc)) [0; 1; 2]%nat acc)
    (combine (seq 0 (length (mes M))) (mes M)) (0, 0%nat, 0%nat).

(** Delaunay.h:711-716 *)
Definition has_node (e : delem) (i : nat) : bool :=
  ((at3 (en e) 0 =? i) || (at3 (en e) 1 =? i) || (at3 (en e) 2 =? i))%nat.
Definition start_elem (es : list delem) (i : nat) : nat :=
  match find (fun q => has_node (snd q) i) (combine (seq 0 (length es)) es) with
  | Some q => fst q
  | None => O
  end.
(** (nodeorder(i) + 1)%3, which is 0 when the node is not found *)
Definition next_of (e : delem) (i : nat) : nat :=
  match nodeorder e i with Some k => nx3 k | None => O end.

(** Delaunay.h:718-723 the elements around node [i] *)
Fixpoint around (fuel : nat) (es : list delem) (i start now : nat) : res (list nat) :=
  match fuel with
  | O => Fail OutOfFuel
  | S fuel =>
      e <- rd es now ;;
      match at3 (enb e) (next_of e i) with
      | Some t => if (t =? start)%nat then Ok [now] else l <- around fuel es i start t ;; Ok (now :: l)
      | None => Fail OutOfBounds  (* elements[-1] in the next round *)
      end
  end.

(** Delaunay.h:725-729 *)
Definition set_x (ns : list dnode) (i : nat) (x : list R) : res (list dnode) :=
  n <- rd ns i ;; wr ns i (mkNode x (isset n) (isonb n)).
Definition move_node (ns : list dnode) (es : list delem) (i : nat) (st : list nat) : res (list dnode) :=
  ns <- set_x ns i (vnew R_ops 2) ;;
  ns <- foldM (fun ns j =>
          e <- rd es j ;; n <- rd ns (at3 (en e) (next_of e i)) ;;
          c <- rd ns i ;; x <- vadd R_ops (dx c) (dx n) ;; set_x ns i x) st ns ;;
  c <- rd ns i ;; x <- vdiv R_ops (dx c) (INR (length st)) ;; set_x ns i x.

(** Delaunay.h:706-732 laplacesmoothing *)
Definition laplacesmoothing (fuel : nat) (M : dmesh) : res dmesh :=
  ns <- foldM (fun ns i =>
          n <- rd ns i ;;
          if isonb n then Ok ns
          else
            let s := start_elem (mes M) i in
            st <- around fuel (mes M) i s s ;;
            move_node ns (mes M) i st)
          (seq 0 (length (mns M))) (mns M) ;;
  Ok (mkMesh ns (mes M)).

(** Delaunay.h:685-701 one round of makefinemesh: the longest side and the mesh *)
Definition refine (fuel : nat) (M : dmesh) : res (R * dmesh) :=
  ' (d, k, j) <- longest M ;;
  e <- rd (mes M) k ;;
  a <- rd (mns M) (at3 (en e) (nx3 j)) ;; b <- rd (mns M) (at3 (en e) (pv3 j)) ;;
  s <- vadd R_ops (dx a) (dx b) ;;
  let M := mkMesh (mns M ++ [node_of (vscal R_ops (1 / 2) s)]) (mes M) in
  M <- getelementon fuel M k j (-2) (length (mns M) - 1) (-2) ;;
  Ok (d, M).

(** Delaunay.h:681-703 makefinemesh *)
Fixpoint makefinemesh (rounds fuel : nat) (M : dmesh) (maxside : R) : res dmesh :=
  match rounds with
  | O => Fail OutOfFuel
  | S rounds =>
      ' (d, M) <- refine fuel M ;;
      M <- laplacesmoothing fuel M ;;
      if Rltb maxside d then makefinemesh rounds fuel M maxside else Ok M
  end.

(** Delaunay.h:234-266 the constructor up to the subdivision *)
Definition roughmesh (fuel : nat) (x : list (list R)) (outer inner : list (list nat)) : res dmesh :=
  M <- getsupertriangle (map node_of x) ;;
  M <- foldM (makeroughmesh fuel) outer M ;;
  M <- foldM (makeroughmesh fuel) inner M ;;
  let M := fold_left (fun M l => deactivateelements M l true) outer M in
  let M := fold_left (fun M l => deactivateelements M l false) inner M in
  Ok (sortnode (sortelement (deleteelement (deactivatesupertriangle M)))).

(** Delaunay.h:234-273 the constructor *)
Definition delaunay (rounds fuel : nat) (x : list (list R)) (outer inner : list (list nat)) (maxsize : R) : res dmesh :=
  M <- roughmesh fuel x outer inner ;;
  M <- makefinemesh rounds fuel M maxsize ;;
  foldM (fun M (_ : nat) => laplacesmoothing fuel M) (seq 0 10) M.

(** Delaunay.h:735-742 GenerateNodes *)
Definition gen_nodes (M : dmesh) : list (list R) := map dx (mns M).

(** Delaunay.h:745-754 GenerateElements *)
Definition gen_elements (M : dmesh) : list (list nat) :=
  flat_map (fun e => if eact e then [[at3 (en e) 0; at3 (en e) 1; at3 (en e) 2]] else [])%nat (mes M).

(** Delaunay.h:757-770 GenerateEdges *)
Definition gen_edges (M : dmesh) : list (list nat) :=
  flat_map (fun e => if eact e then
    flat_map (fun i => if at3 (esd e) i then [[at3 (en e) (nx3 i); at3 (en e) (pv3 i)]] else []) [0; 1; 2]%nat
    else []) (mes M).

(** Delaunay.h:773-786 GenerateFixedlist; min_element of an empty list is its
    end, which is read *)
Definition gen_fixed (M : dmesh) (ulist : list Z) (P : list R -> bool) : res (list ((nat * Z) * R)) :=
  match ulist with
  | [] => Fail OutOfBounds
  | u :: us =>
      _ <- assert_ (0 <=? fold_left Z.min us u)%Z ;;
      Ok (flat_map (fun q => if P (dx (snd q)) then map (fun ui => ((fst q, ui), 0)) ulist else [])
            (combine (seq 0 (length (mns M))) (mns M)))
  end.
