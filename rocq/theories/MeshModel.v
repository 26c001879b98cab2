(** The structured mesh generators of src/PrePost/Mesher.

    Simplifications: numbers of subdivisions and node numbers are natural
    numbers (integers for SquareAnnulusMesh2, whose index expressions subtract)
    and do not overflow; coordinates are exact reals; a coordinate whose
    denominator is zero is the fault [DivByZero] (nan in the C++); predicates
    passed by the caller are pure functions. *)
From Coq Require Import List Arith ZArith Lia Bool Reals.
From Verif Require Import Res DenseR LUModel OCModel.
Import ListNotations.
Local Open Scope nat_scope.

(** for(int i = 0; i < n; i++) *)
Definition for_ {S} (n : nat) (body : nat -> S -> res S) (s : S) : res S := foldM (fun s i => body i s) (seq 0 n) s.
(** i/(T)n *)
Definition frac (i n : nat) : res R := Rdiv_res (INR i) (INR n).
(** (i + 0.5)/(T)n *)
Definition frac_half (i n : nat) : res R := Rdiv_res (INR i + 5/10)%R (INR n).

(** assert(0 <= *std::min_element(_ulist.begin(), _ulist.end())): an empty list
    dereferences the end iterator *)
Definition check_ulist (ulist : list Z) : res unit :=
  match ulist with [] => Fail OutOfBounds | _ => assert_ (forallb (fun u => (0 <=? u)%Z) ulist) end.
Definition fixed := list ((nat * Z) * R).
(** for(auto ui : _ulist) ufixed.push_back({ { node, ui }, T() }) if the point satisfies the predicate *)
Definition push_fixed (pred : list R -> bool) (ulist : list Z) (p : list R) (node : nat) (out : fixed) : fixed :=
  if pred p then out ++ map (fun u => ((node, u), 0%R)) ulist else out.

(** ** SquareMesh *)
Section Square.
Variables (x y : R) (nx ny : nat).

(** SquareMesh.h:61-70 *)
Definition sq_nodes : res (list (list R)) :=
  for_ (nx + 1) (fun i => for_ (ny + 1) (fun j nodes =>
    u <- frac i nx ;; v <- frac j ny ;; wr nodes ((ny + 1) * i + j) [x * u; y * v]%R)) (repeat [] ((nx + 1) * (ny + 1))).

(** SquareMesh.h:73-94 *)
Definition sq_nodes2 : res (list (list R)) :=
  nodes <- for_ (nx + 1) (fun i => for_ (ny + 1) (fun j nodes =>
    u <- frac i nx ;; v <- frac j ny ;; wr nodes ((ny + 1) * i + j) [x * u; y * v]%R)) (repeat [] ((2 * nx + 1) * (2 * ny + 1) - nx * ny)) ;;
  nodes <- for_ (nx + 1) (fun i => for_ ny (fun j nodes =>
    u <- frac i nx ;; v <- frac_half j ny ;; wr nodes (ny * i + j + (nx + 1) * (ny + 1)) [x * u; y * v]%R)) nodes ;;
  for_ nx (fun i => for_ (ny + 1) (fun j nodes =>
    u <- frac_half i nx ;; v <- frac j ny ;; wr nodes ((ny + 1) * i + j + (nx + 1) * (2 * ny + 1)) [x * u; y * v]%R)) nodes.

(** SquareMesh.h:97-106 *)
Definition sq_elements : res (list (list nat)) :=
  for_ nx (fun i => for_ ny (fun j elements =>
    wr elements (ny * i + j) [(ny + 1) * i + j; (ny + 1) * (i + 1) + j; (ny + 1) * (i + 1) + (j + 1); (ny + 1) * i + (j + 1)])) (repeat [] (nx * ny)).

(** SquareMesh.h:109-118 *)
Definition sq_elements2 : res (list (list nat)) :=
  for_ nx (fun i => for_ ny (fun j elements =>
    wr elements (ny * i + j) [(ny + 1) * i + j; (ny + 1) * (i + 1) + j; (ny + 1) * (i + 1) + (j + 1); (ny + 1) * i + (j + 1);
      (ny + 1) * i + j + (nx + 1) * (2 * ny + 1); ny * (i + 1) + j + (nx + 1) * (ny + 1);
      (ny + 1) * i + (j + 1) + (nx + 1) * (2 * ny + 1); ny * i + j + (nx + 1) * (ny + 1)])) (repeat [] (nx * ny)).

(** SquareMesh.h:121-134 *)
Definition sq_element_ids (pred : list R -> bool) : res (list nat) :=
  nodes <- sq_nodes ;;
  for_ nx (fun i => for_ ny (fun j ids =>
    a <- rd nodes ((ny + 1) * i + j) ;; if negb (pred a) then Ok ids else
    b <- rd nodes ((ny + 1) * (i + 1) + j) ;; if negb (pred b) then Ok ids else
    c <- rd nodes ((ny + 1) * (i + 1) + (j + 1)) ;; if negb (pred c) then Ok ids else
    d <- rd nodes ((ny + 1) * i + (j + 1)) ;; if negb (pred d) then Ok ids else
    Ok (ids ++ [ny * i + j]))) [].

(** SquareMesh.h:137-149 *)
Definition sq_edges : res (list (list nat)) :=
  edges <- for_ nx (fun i edges =>
    edges <- wr edges i [(ny + 1) * i; (ny + 1) * (i + 1)] ;;
    wr edges (2 * nx + ny - i - 1) [(ny + 1) * (i + 1) + ny; (ny + 1) * i + ny]) (repeat [] (2 * (nx + ny))) ;;
  for_ ny (fun j edges =>
    edges <- wr edges (j + nx) [(ny + 1) * nx + j; (ny + 1) * nx + j + 1] ;;
    wr edges (2 * (nx + ny) - j - 1) [j + 1; j]) edges.

(** SquareMesh.h:152-164 *)
Definition sq_edges2 : res (list (list nat)) :=
  edges <- for_ nx (fun i edges =>
    edges <- wr edges i [(ny + 1) * i; (ny + 1) * (i + 1); (ny + 1) * i + (nx + 1) * (2 * ny + 1)] ;;
    wr edges (2 * nx + ny - i - 1) [(ny + 1) * (i + 1) + ny; (ny + 1) * i + ny; (ny + 1) * i + (nx + 1) * (2 * ny + 1) + ny]) (repeat [] (2 * (nx + ny))) ;;
  for_ ny (fun j edges =>
    edges <- wr edges (j + nx) [(ny + 1) * nx + j; (ny + 1) * nx + j + 1; j + (nx + 1) * (ny + 1) + nx * ny] ;;
    wr edges (2 * (nx + ny) - j - 1) [j + 1; j; j + (nx + 1) * (ny + 1)]) edges.

(** SquareMesh.h:167-189 *)
Definition sq_edge_ids (pred : list R -> bool) : res (list nat) :=
  nodes <- sq_nodes ;;
  let both k l id ids :=
    a <- rd nodes k ;; if negb (pred a) then Ok ids else
    b <- rd nodes l ;; if negb (pred b) then Ok ids else Ok (ids ++ [id]) in
  ids <- for_ nx (fun i ids =>
    ids <- both ((ny + 1) * i) ((ny + 1) * (i + 1)) i ids ;;
    both ((ny + 1) * (i + 1) + ny) ((ny + 1) * i + ny) (2 * nx + ny - i - 1) ids) [] ;;
  for_ ny (fun j ids =>
    ids <- both ((ny + 1) * nx + j) ((ny + 1) * nx + j + 1) (j + nx) ids ;;
    both (j + 1) j (2 * (nx + ny) - j - 1) ids) ids.

(** SquareMesh.h:192-207; GrandStructure.h:82-97 is the same text *)
Definition sq_fixed (ulist : list Z) (pred : list R -> bool) : res fixed :=
  _ <- check_ulist ulist ;;
  for_ (nx + 1) (fun i => for_ (ny + 1) (fun j out =>
    u <- frac i nx ;; v <- frac j ny ;; Ok (push_fixed pred ulist [x * u; y * v]%R ((ny + 1) * i + j) out))) [].

(** SquareMesh.h:210-245 *)
Definition sq_fixed2 (ulist : list Z) (pred : list R -> bool) : res fixed :=
  _ <- check_ulist ulist ;;
  out <- for_ (nx + 1) (fun i => for_ (ny + 1) (fun j out =>
    u <- frac i nx ;; v <- frac j ny ;; Ok (push_fixed pred ulist [x * u; y * v]%R ((ny + 1) * i + j) out))) [] ;;
  out <- for_ (nx + 1) (fun i => for_ ny (fun j out =>
    u <- frac i nx ;; v <- frac_half j ny ;; Ok (push_fixed pred ulist [x * u; y * v]%R (ny * i + j + (nx + 1) * (ny + 1)) out))) out ;;
  for_ nx (fun i => for_ (ny + 1) (fun j out =>
    u <- frac_half i nx ;; v <- frac j ny ;; Ok (push_fixed pred ulist [x * u; y * v]%R ((ny + 1) * i + j + (nx + 1) * (2 * ny + 1)) out))) out.

(** ** SquareMesh2, graded towards the sides *)
Variables (rx ry : R).
(** SquareMesh.h:287-315: the coordinate with index i; [i < n/2.0] is 2 i < n.
    The nine branches of the source are the product of the two directions *)
Definition graded (r0 r len : R) (n i : nat) : R :=
  (if 2 * i <? n then r0 * (r ^ i - 1) else if n <? 2 * i then len - r0 * (r ^ (n - i) - 1) else 5/10 * len)%R.
(** SquareMesh.h:285-286 *)
Definition graded0 (r len : R) (n : nat) : res R :=
  p <- cpow r (INR n / 2)%R ;; Rdiv_res (5/10 * len)%R (p - 1)%R.
(** SquareMesh.h:282-317 *)
Definition sq2_nodes : res (list (list R)) :=
  rx0 <- graded0 rx x nx ;; ry0 <- graded0 ry y ny ;;
  for_ (nx + 1) (fun i => for_ (ny + 1) (fun j nodes =>
    wr nodes ((ny + 1) * i + j) [graded rx0 rx x nx i; graded ry0 ry y ny j])) (repeat [] ((nx + 1) * (ny + 1))).
(** SquareMesh.h:320-329, the text of SquareMesh *)
Definition sq2_elements : res (list (list nat)) := sq_elements.
(** SquareMesh.h:332-344, the text of SquareMesh *)
Definition sq2_edges : res (list (list nat)) := sq_edges.
(** SquareMesh.h:347-420 *)
Definition sq2_fixed (ulist : list Z) (pred : list R -> bool) : res fixed :=
  _ <- check_ulist ulist ;;
  rx0 <- graded0 rx x nx ;; ry0 <- graded0 ry y ny ;;
  for_ (nx + 1) (fun i => for_ (ny + 1) (fun j out =>
    Ok (push_fixed pred ulist [graded rx0 rx x nx i; graded ry0 ry y ny j] ((ny + 1) * i + j) out))) [].
End Square.

(** ** GrandStructure2D *)
Section Grand.
Variables (x y : R) (nx ny : nat) (lmax : R).
(** GrandStructure.h:52-61 *)
Definition gs_nodes : res (list (list R)) :=
  for_ (nx + 1) (fun i => for_ (ny + 1) (fun j nodes =>
    u <- frac i nx ;; v <- frac j ny ;; wr nodes ((ny + 1) * i + j) [x * u; y * v]%R)) (repeat [] ((nx + 1) * (ny + 1))).
(** GrandStructure.h:64-79 *)
Definition gs_elements : res (list (list nat)) :=
  for_ (nx + 1) (fun i => for_ (ny + 1) (fun j => for_ (nx + 1) (fun k => for_ (ny + 1) (fun l elements =>
    if (ny + 1) * k + l <? (ny + 1) * i + j then
      u <- Rdiv_res (x * (INR i - INR k))%R (INR nx) ;; v <- Rdiv_res (y * (INR j - INR l))%R (INR ny) ;;
      Ok (if Rltb (u ^ 2 + v ^ 2)%R (lmax ^ 2)%R then elements ++ [[(ny + 1) * i + j; (ny + 1) * k + l]] else elements)
    else Ok elements)))) [].
(** GrandStructure.h:82-97 *)
Definition gs_fixed (ulist : list Z) (pred : list R -> bool) : res fixed :=
  _ <- check_ulist ulist ;;
  for_ (nx + 1) (fun i => for_ (ny + 1) (fun j out =>
    u <- frac i nx ;; v <- frac j ny ;; Ok (push_fixed pred ulist [x * u; y * v]%R ((ny + 1) * i + j) out))) [].
End Grand.

(** ** ring topology: AnnulusMesh.h:66-75, SquareAnnulusMesh.h:74-83 and
    SquareCircleAnnulusMesh.h:82-91 (n nodes per ring, m layers) *)
Definition ring_elements (n m : nat) : res (list (list nat)) :=
  for_ m (fun i => for_ n (fun j elements =>
    wr elements (n * i + j) [n * i + j mod n; n * (i + 1) + j mod n; n * (i + 1) + (j + 1) mod n; n * i + (j + 1) mod n])) (repeat [] (n * m)).
(** AnnulusMesh.h:78-86, SquareAnnulusMesh.h:86-94, SquareCircleAnnulusMesh.h:94-102 *)
Definition ring_edges (n m : nat) : res (list (list nat)) :=
  for_ n (fun i edges =>
    edges <- wr edges (n - i - 1) [(i + 1) mod n; i] ;;
    wr edges (i + n) [n * m + i; n * m + (i + 1) mod n]) (repeat [] (2 * n)).

(** ** AnnulusMesh *)
Section Annulus.
Variables (r0 r1 : R) (nr nt : nat).
(** AnnulusMesh.h:52-63 *)
Definition an_nodes : res (list (list R)) :=
  for_ (nr + 1) (fun i nodes =>
    q <- Rdiv_res ((r1 - r0) * INR i)%R (INR nr) ;; let r := (q + r0)%R in
    for_ nt (fun j nodes =>
      theta <- Rdiv_res (2 * PI * INR j)%R (INR nt) ;; wr nodes (nt * i + j) [r * cos theta; r * sin theta]%R) nodes) (repeat [] ((nr + 1) * nt)).
Definition an_elements := ring_elements nt nr.
Definition an_edges := ring_edges nt nr.
(** AnnulusMesh.h:89-106 *)
Definition an_fixed (ulist : list Z) (pred : list R -> bool) : res fixed :=
  _ <- check_ulist ulist ;;
  for_ (nr + 1) (fun i out =>
    q <- Rdiv_res ((r1 - r0) * INR i)%R (INR nr) ;; let r := (q + r0)%R in
    for_ nt (fun j out =>
      theta <- Rdiv_res (2 * PI * INR j)%R (INR nt) ;; Ok (push_fixed pred ulist [r * cos theta; r * sin theta]%R (nt * i + j) out)) out) [].
End Annulus.

(** ** SquareAnnulusMesh: between the rectangles c x d and a x b *)
Section SquareAnnulus.
Variables (a b c d : R) (nx ny nt : nat).
Definition sa_nxy := 2 * (nx + ny).
Local Notation nxy := sa_nxy.
(** SquareAnnulusMesh.h:56-71 *)
Definition sa_nodes : res (list (list R)) :=
  for_ (nt + 1) (fun i nodes =>
    t <- frac i nt ;;
    nodes <- for_ ny (fun j nodes =>
      f <- frac j ny ;;
      nodes <- wr nodes (nxy * i + j) [t * (5/10) * a + (1 - t) * (5/10) * c; t * b * (f - 5/10) + (1 - t) * d * (f - 5/10)]%R ;;
      wr nodes (nxy * i + j + ny + nx) [- t * (5/10) * a - (1 - t) * (5/10) * c; t * b * (5/10 - f) + (1 - t) * d * (5/10 - f)]%R) nodes ;;
    for_ nx (fun j nodes =>
      f <- frac j nx ;;
      nodes <- wr nodes (nxy * i + j + ny) [t * a * (5/10 - f) + (1 - t) * c * (5/10 - f); t * (5/10) * b + (1 - t) * (5/10) * d]%R ;;
      wr nodes (nxy * i + j + 2 * ny + nx) [t * a * (f - 5/10) + (1 - t) * c * (f - 5/10); - t * (5/10) * b - (1 - t) * (5/10) * d]%R) nodes)
    (repeat [] (nxy * (nt + 1))).
Definition sa_elements := ring_elements nxy nt.
Definition sa_edges := ring_edges nxy nt.
(** SquareAnnulusMesh.h:97-134: here t and 1 - t are exchanged *)
Definition sa_fixed (ulist : list Z) (pred : list R -> bool) : res fixed :=
  _ <- check_ulist ulist ;;
  for_ (nt + 1) (fun i out =>
    t <- frac i nt ;;
    out <- for_ ny (fun j out => f <- frac j ny ;;
      Ok (push_fixed pred ulist [(1 - t) * (5/10) * a + t * (5/10) * c; (1 - t) * b * (f - 5/10) + t * d * (f - 5/10)]%R (nxy * i + j) out)) out ;;
    out <- for_ nx (fun j out => f <- frac j nx ;;
      Ok (push_fixed pred ulist [(1 - t) * a * (5/10 - f) + t * c * (5/10 - f); (1 - t) * (5/10) * b + t * (5/10) * d]%R (nxy * i + j + ny) out)) out ;;
    out <- for_ ny (fun j out => f <- frac j ny ;;
      Ok (push_fixed pred ulist [- (1 - t) * (5/10) * a - t * (5/10) * c; (1 - t) * b * (5/10 - f) + t * d * (5/10 - f)]%R (nxy * i + j + ny + nx) out)) out ;;
    for_ nx (fun j out => f <- frac j nx ;;
      Ok (push_fixed pred ulist [(1 - t) * a * (f - 5/10) + t * c * (f - 5/10); - (1 - t) * (5/10) * b - t * (5/10) * d]%R (nxy * i + j + 2 * ny + nx) out)) out) [].
End SquareAnnulus.

(** ** SquareCircleAnnulusMesh: between a circle and a rectangle *)
Section SquareCircle.
Variables (a b r p : R) (nx ny nr : nat).
Definition sc_nxy := 2 * (nx + ny).
Local Notation nxy := sc_nxy.
(** SquareCircleAnnulusMesh.h:56-79 *)
Definition sc_nodes : res (list (list R)) :=
  for_ (nr + 1) (fun i nodes =>
    q <- frac i nr ;; t <- cpow q p ;;
    nodes <- for_ ny (fun j nodes => f <- frac j ny ;;
      th <- Rdiv_res (2 * PI * (INR j - 5/10 * INR ny))%R (INR nxy) ;;
      wr nodes (nxy * i + j) [(1 - t) * r * cos th + t * (5/10) * a; (1 - t) * r * sin th + t * b * (f - 5/10)]%R) nodes ;;
    nodes <- for_ nx (fun j nodes => f <- frac j nx ;;
      th <- Rdiv_res (2 * PI * (INR j + 5/10 * INR ny))%R (INR nxy) ;;
      wr nodes (nxy * i + j + ny) [(1 - t) * r * cos th + t * a * (5/10 - f); (1 - t) * r * sin th + t * (5/10) * b]%R) nodes ;;
    nodes <- for_ ny (fun j nodes => f <- frac j ny ;;
      th <- Rdiv_res (2 * PI * (INR j + 5/10 * INR ny + INR nx))%R (INR nxy) ;;
      wr nodes (nxy * i + j + ny + nx) [(1 - t) * r * cos th - t * (5/10) * a; (1 - t) * r * sin th + t * b * (5/10 - f)]%R) nodes ;;
    for_ nx (fun j nodes => f <- frac j nx ;;
      th <- Rdiv_res (2 * PI * (INR j + 15/10 * INR ny + INR nx))%R (INR nxy) ;;
      wr nodes (nxy * i + j + 2 * ny + nx) [(1 - t) * r * cos th + t * a * (f - 5/10); (1 - t) * r * sin th - t * (5/10) * b]%R) nodes)
    (repeat [] (nxy * (nr + 1))).
Definition sc_elements := ring_elements nxy nr.
Definition sc_edges := ring_edges nxy nr.
(** SquareCircleAnnulusMesh.h:105-146 *)
Definition sc_fixed (ulist : list Z) (pred : list R -> bool) : res fixed :=
  _ <- check_ulist ulist ;;
  for_ (nr + 1) (fun i out =>
    q <- frac i nr ;; t <- cpow q p ;;
    out <- for_ ny (fun j out => f <- frac j ny ;;
      th <- Rdiv_res (2 * PI * (INR j - 5/10 * INR ny))%R (INR nxy) ;;
      Ok (push_fixed pred ulist [(1 - t) * r * cos th + t * (5/10) * a; (1 - t) * r * sin th + t * b * (f - 5/10)]%R (nxy * i + j) out)) out ;;
    out <- for_ nx (fun j out => f <- frac j nx ;;
      th <- Rdiv_res (2 * PI * (INR j + 5/10 * INR ny))%R (INR nxy) ;;
      Ok (push_fixed pred ulist [(1 - t) * r * cos th + t * a * (5/10 - f); (1 - t) * r * sin th + t * (5/10) * b]%R (nxy * i + j + ny) out)) out ;;
    out <- for_ ny (fun j out => f <- frac j ny ;;
      th <- Rdiv_res (2 * PI * (INR j + 5/10 * INR ny + INR nx))%R (INR nxy) ;;
      Ok (push_fixed pred ulist [(1 - t) * r * cos th - t * (5/10) * a; (1 - t) * r * sin th + t * b * (5/10 - f)]%R (nxy * i + j + ny + nx) out)) out ;;
    for_ nx (fun j out => f <- frac j nx ;;
      th <- Rdiv_res (2 * PI * (INR j + 15/10 * INR ny + INR nx))%R (INR nxy) ;;
      Ok (push_fixed pred ulist [(1 - t) * r * cos th + t * a * (f - 5/10); (1 - t) * r * sin th - t * (5/10) * b]%R (nxy * i + j + 2 * ny + nx) out)) out) [].
End SquareCircle.

(** ** SquareAnnulusMesh2: a rectangle with nx x ny cells and a centred hole of nv x nw cells *)
Local Open Scope Z_scope.
Record hole := mkHole { ho_nx : Z; ho_ny : Z; ho_nv : Z; ho_nw : Z; ho_nxv : Z; ho_nyw : Z }.
(** SquareAnnulusMesh.h:156-168, the constructor; / and % truncate *)
Definition hole_new (nx ny nv nw : Z) : res hole :=
  _ <- assert_ ((Z.rem (nx - nv) 2 =? 0) && (Z.rem (ny - nw) 2 =? 0)) ;;
  Ok (mkHole nx ny nv nw (Z.quot (nx - nv) 2) (Z.quot (ny - nw) 2)).
(** std::vector of n elements; a negative count throws *)
Definition alloc {A} (n : Z) (d : A) : res (list A) := if n <? 0 then Fail AssertFail else Ok (repeat d (Z.to_nat n)).
(** for(int i = 0; i < n; i++) *)
Definition forZ {S} (n : Z) (body : Z -> S -> res S) (s : S) : res S := for_ (Z.to_nat n) (fun i => body (Z.of_nat i)) s.
(** elements[id] = e; id++ *)
Definition put {A} (e : A) (s : list A * nat) : res (list A * nat) := let '(l, id) := s in l <- wr l id e ;; Ok (l, S id).

Section Hole.
Variables (a b : R) (h : hole).
Local Notation nx := (ho_nx h). Local Notation ny := (ho_ny h). Local Notation nv := (ho_nv h). Local Notation nw := (ho_nw h).
Local Notation nxv := (ho_nxv h). Local Notation nyw := (ho_nyw h).
(** a*i/(T)n *)
Definition at_ (len : R) (i n : Z) : res R := Rdiv_res (len * IZR i)%R (IZR n).
(** SquareAnnulusMesh.h:175-202 *)
Definition ho_nodes : res (list (list R)) :=
  nodes <- alloc ((nx + 1) * (ny + 1) - (nv - 1) * (nw - 1)) [] ;;
  s <- forZ (nxv + 1) (fun i => forZ (ny + 1) (fun j s => u <- at_ a i nx ;; v <- at_ b j ny ;; put [u; v] s)) (nodes, 0%nat) ;;
  s <- forZ (nv - 1) (fun i s =>
    s <- forZ (nyw + 1) (fun j s => u <- at_ a (nxv + 1 + i) nx ;; v <- at_ b j ny ;; put [u; v] s) s ;;
    forZ (nyw + 1) (fun j s => u <- at_ a (nxv + 1 + i) nx ;; v <- at_ b (j + nyw + nw) ny ;; put [u; v] s) s) s ;;
  s <- forZ (nxv + 1) (fun i => forZ (ny + 1) (fun j s => u <- at_ a (nxv + nv + i) nx ;; v <- at_ b j ny ;; put [u; v] s)) s ;;
  Ok (fst s).

(** SquareAnnulusMesh.h:205-260 *)
Definition ho_elements : res (list (list Z)) :=
  elements <- alloc (nx * ny - nv * nw) [] ;;
  s <- forZ nxv (fun i => forZ ny (fun j =>
    put [(ny + 1) * i + j; (ny + 1) * (i + 1) + j; (ny + 1) * (i + 1) + (j + 1); (ny + 1) * i + (j + 1)])) (elements, 0%nat) ;;
  s <- forZ nyw (fun j =>
    put [(ny + 1) * nxv + j; (ny + 1) * (nxv + 1) + j; (ny + 1) * (nxv + 1) + (j + 1); (ny + 1) * nxv + (j + 1)]) s ;;
  s <- forZ (nv - 1) (fun i s =>
    s <- forZ nyw (fun j =>
      put [(ny + 1) * nxv + nw - 1 + (nyw + 1) * (2 * i + 1) + j; (ny + 1) * nxv + nw - 1 + (nyw + 1) * (2 * i + 3) + j;
           (ny + 1) * nxv + nw - 1 + (nyw + 1) * (2 * i + 3) + (j + 1); (ny + 1) * nxv + nw - 1 + (nyw + 1) * (2 * i + 1) + (j + 1)]) s ;;
    forZ nyw (fun j =>
      put [(ny + 1) * (nxv + 1) + 2 * (nyw + 1) * i + j; (ny + 1) * (nxv + 1) + 2 * (nyw + 1) * (i + 1) + j;
           (ny + 1) * (nxv + 1) + 2 * (nyw + 1) * (i + 1) + (j + 1); (ny + 1) * (nxv + 1) + 2 * (nyw + 1) * i + (j + 1)]) s) s ;;
  s <- forZ nyw (fun j =>
    put [(ny + 1) * (nxv + 1) + (nyw + 1) * (2 * nv - 3) + j; (ny + 1) * (nxv + 1) + 2 * (nyw + 1) * (nv - 1) + nyw + nw + j;
         (ny + 1) * (nxv + 1) + 2 * (nyw + 1) * (nv - 1) + nyw + nw + (j + 1); (ny + 1) * (nxv + 1) + (nyw + 1) * (2 * nv - 3) + (j + 1)]) s ;;
  s <- forZ nxv (fun i => forZ ny (fun j =>
    put [(ny + 1) * (nxv + 1) + 2 * (nyw + 1) * (nv - 1) + (ny + 1) * i + j; (ny + 1) * (nxv + 1) + 2 * (nyw + 1) * (nv - 1) + (ny + 1) * (i + 1) + j;
         (ny + 1) * (nxv + 1) + 2 * (nyw + 1) * (nv - 1) + (ny + 1) * (i + 1) + (j + 1); (ny + 1) * (nxv + 1) + 2 * (nyw + 1) * (nv - 1) + (ny + 1) * i + (j + 1)])) s ;;
  Ok (fst s).

(** SquareAnnulusMesh.h:263-310 *)
Definition ho_edges : res (list (list Z)) :=
  edges <- alloc (2 * (nx + ny)) [] ;;
  s <- forZ (nxv + 1) (fun i => put [(ny + 1) * i; (ny + 1) * (i + 1)]) (edges, 0%nat) ;;
  s <- forZ (nv - 1) (fun i => put [(ny + 1) * (nxv + 1) + 2 * (nyw + 1) * i; (ny + 1) * (nxv + 1) + 2 * (nyw + 1) * (i + 1)]) s ;;
  s <- forZ nxv (fun i => put [(ny + 1) * (nxv + 1) + 2 * (nyw + 1) * (nv - 1) + (ny + 1) * i; (ny + 1) * (nxv + 1) + 2 * (nyw + 1) * (nv - 1) + (ny + 1) * (i + 1)]) s ;;
  s <- forZ ny (fun j => put [(ny + 1) * (2 * nxv + 1) + 2 * (nyw + 1) * (nv - 1) + j; (ny + 1) * (2 * nxv + 1) + 2 * (nyw + 1) * (nv - 1) + (j + 1)]) s ;;
  s <- forZ (nxv + 1) (fun i => put [2 * (ny + 1) * (nxv + 1) + 2 * (nyw + 1) * (nv - 1) - (ny + 1) * i - 1;
                                     2 * (ny + 1) * (nxv + 1) + 2 * (nyw + 1) * (nv - 1) - (ny + 1) * (i + 1) - 1]) s ;;
  s <- forZ (nv - 1) (fun i => put [(ny + 1) * (nxv + 1) + 2 * (nyw + 1) * (nv - i - 1) - 1; (ny + 1) * (nxv + 1) + 2 * (nyw + 1) * (nv - (i + 1) - 1) - 1]) s ;;
  s <- forZ nxv (fun i => put [(ny + 1) * (nxv + 1 - i) - 1; (ny + 1) * (nxv + 1 - (i + 1)) - 1]) s ;;
  s <- forZ ny (fun j => put [ny - j; ny - (j + 1)]) s ;;
  Ok (fst s).

(** SquareAnnulusMesh.h:313-358 *)
Definition ho_fixed (ulist : list Z) (pred : list R -> bool) : res fixed :=
  _ <- check_ulist ulist ;;
  let visit p s := let '(out, nodeid) := s : fixed * nat in (push_fixed pred ulist p nodeid out, S nodeid) in
  s <- forZ (nxv + 1) (fun i => forZ (ny + 1) (fun j s => u <- at_ a i nx ;; v <- at_ b j ny ;; Ok (visit [u; v] s))) ([], 0%nat) ;;
  s <- forZ (nv - 1) (fun i s =>
    s <- forZ (nyw + 1) (fun j s => u <- at_ a (nxv + 1 + i) nx ;; v <- at_ b j ny ;; Ok (visit [u; v] s)) s ;;
    forZ (nyw + 1) (fun j s => u <- at_ a (nxv + 1 + i) nx ;; v <- at_ b (j + nyw + nw) ny ;; Ok (visit [u; v] s)) s) s ;;
  s <- forZ (nxv + 1) (fun i => forZ (ny + 1) (fun j s => u <- at_ a (nxv + nv + i) nx ;; v <- at_ b j ny ;; Ok (visit [u; v] s))) s ;;
  Ok (fst s).
End Hole.
