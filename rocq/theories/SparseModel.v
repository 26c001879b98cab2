(** Model of the sparse containers
      /repo/src/LinearAlgebra/Models/LILCSR.h  (class LILCSR)
      /repo/src/LinearAlgebra/Models/CSR.h     (class CSR)

    Simplifications: row and column numbers are [nat] (the C++ uses [int]; a
    negative row is undefined behaviour there, and [int] overflow is not
    modelled).  The scalar type is arbitrary; [zero] is [T()]. *)
From Coq Require Import List Arith Lia Bool.
From Verif Require Import Res.
Import ListNotations.

(** LILCSR.h:33-34,62 *)
Record lil (T : Type) := mkLil {
  lrows : nat;
  lcols : nat;
  ldata : list (list (nat * T))
}.
Arguments mkLil {T}. Arguments lrows {T}. Arguments lcols {T}. Arguments ldata {T}.

(** CSR.h:34-35,72-74 *)
Record csr (T : Type) := mkCsr {
  crows : nat;
  ccols : nat;
  indptr : list nat;
  indices : list nat;
  cdata : list T
}.
Arguments mkCsr {T}. Arguments crows {T}. Arguments ccols {T}.
Arguments indptr {T}. Arguments indices {T}. Arguments cdata {T}.

Section Containers.
Context {T : Type}.
Variable zero : T.

(** LILCSR.h:74-77 LILCSR(int,int) *)
Definition lil_new (r c : nat) : lil T := mkLil r c (repeat [] r).

(** LILCSR.h:92-102: scan of one row by [set] *)
Fixpoint row_set (row : list (nat * T)) (c : nat) (v : T) : bool * list (nat * T) :=
  match row with
  | [] => (false, [(c, v)])
  | (c', v') :: t =>
      if c' =? c then (true, (c', v) :: t)
      else let (b, t') := row_set t c v in (b, (c', v') :: t')
  end.

(** LILCSR.h:106-114: scan of one row by [get] *)
Fixpoint row_get (row : list (nat * T)) (c : nat) : T :=
  match row with
  | [] => zero
  | (c', v) :: t => if c' =? c then v else row_get t c
  end.

(** LILCSR.h:91-102 set (no check on the column) *)
Definition lil_set (m : lil T) (i c : nat) (v : T) : res (bool * lil T) :=
  row <- rd (ldata m) i ;;
  let (b, row') := row_set row c v in
  Ok (b, mkLil (lrows m) (lcols m) (upd (ldata m) i row')).

(** LILCSR.h:105-114 get *)
Definition lil_get (m : lil T) (i c : nat) : res T :=
  row <- rd (ldata m) i ;; Ok (row_get row c).

(** CSR.h:86-89 CSR(int,int) *)
Definition csr_new (r c : nat) : csr T := mkCsr r c (repeat 0 (S r)) [] [].

(** std::lower_bound on [a[first], a[first+len)): the libstdc++ bisection.
    Used by CSR.h:128,157. *)
Fixpoint lower_bound (fuel : nat) (a : list nat) (first len : nat) (v : nat) : res nat :=
  match fuel with
  | 0 => if len =? 0 then Ok first else Fail OutOfFuel
  | S fuel' =>
      if len =? 0 then Ok first
      else
        let half := len / 2 in
        let mid := first + half in
        x <- rd a mid ;;
        if x <? v then lower_bound fuel' a (S mid) (len - half - 1) v
        else lower_bound fuel' a first half v
  end.

(** iterators CSR.h:127,156: [indices.begin()+indptr[row]], [...+indptr[row+1]];
    a range outside the array is undefined behaviour *)
Definition row_range (m : csr T) (i : nat) : res (nat * nat) :=
  lo <- rd (indptr m) i ;;
  hi <- rd (indptr m) (S i) ;;
  if (lo <=? hi) && (hi <=? length (indices m)) then Ok (lo, hi) else Fail OutOfBounds.

(** std::vector::insert before position [k] *)
Definition insert_at {A} (l : list A) (k : nat) (x : A) : res (list A) :=
  if k <=? length l then Ok (firstn k l ++ x :: skipn k l) else Fail OutOfBounds.

(** CSR.h:132-134, 144-146: increment indptr[p] for p >= row+1 *)
Fixpoint bump_from (k : nat) (l : list nat) : list nat :=
  match l with
  | [] => []
  | x :: t => match k with 0 => S x :: bump_from 0 t | S k' => x :: bump_from k' t end
  end.

Definition csr_insert (m : csr T) (i k c : nat) (v : T) : res (csr T) :=
  d <- insert_at (cdata m) k v ;;
  ix <- insert_at (indices m) k c ;;
  Ok (mkCsr (crows m) (ccols m) (bump_from (S i) (indptr m)) ix d).

(** CSR.h:125-151 set (no check on the column) *)
Definition csr_set (m : csr T) (i c : nat) (v : T) : res (bool * csr T) :=
  '(lo, hi) <- row_range m i ;;
  k <- lower_bound (hi - lo) (indices m) lo (hi - lo) c ;;
  if k =? hi then
    m' <- csr_insert m i k c v ;; Ok (false, m')
  else
    x <- rd (indices m) k ;;
    if x =? c then
      d <- wr (cdata m) k v ;;
      Ok (true, mkCsr (crows m) (ccols m) (indptr m) (indices m) d)
    else
      m' <- csr_insert m i k c v ;; Ok (false, m').

(** CSR.h:154-167 get *)
Definition csr_get (m : csr T) (i c : nat) : res T :=
  '(lo, hi) <- row_range m i ;;
  k <- lower_bound (hi - lo) (indices m) lo (hi - lo) c ;;
  if k =? hi then Ok zero
  else
    x <- rd (indices m) k ;;
    if x =? c then rd (cdata m) k else Ok zero.

(** std::sort of one row of (column, value) pairs, CSR.h:99.  [std::pair]
    compares columns first; rows with repeated columns (where values would be
    compared) are outside the model. *)
Fixpoint ins_sorted (p : nat * T) (l : list (nat * T)) : list (nat * T) :=
  match l with
  | [] => [p]
  | q :: t => if fst p <=? fst q then p :: q :: t else q :: ins_sorted p t
  end.
Definition sort_row (l : list (nat * T)) : list (nat * T) := fold_right ins_sorted [] l.

(** CSR.h:92-105 CSR(LILCSR&): one iteration of the row loop; state is
    (CSR under construction, source data) because the source is sorted in place *)
Definition csr_of_lil_step (s : csr T * list (list (nat * T))) (i : nat)
  : res (csr T * list (list (nat * T))) :=
  let (m, src) := s in
  p <- rd (indptr m) i ;;
  row <- rd src i ;;
  ptr <- wr (indptr m) (S i) (p + length row) ;;
  let row' := sort_row row in
  Ok (mkCsr (crows m) (ccols m) ptr (indices m ++ map fst row') (cdata m ++ map snd row'),
      upd src i row').

Definition csr_of_lil (a : lil T) : res (csr T * lil T) :=
  '(m, src) <- foldM csr_of_lil_step (seq 0 (lrows a)) (csr_new (lrows a) (lcols a), ldata a) ;;
  Ok (m, mkLil (lrows a) (lcols a) src).

(** LILCSR.h:80-88 LILCSR(CSR) *)
Definition lil_of_csr_row (m : csr T) (i : nat) : res (list (nat * T)) :=
  lo <- rd (indptr m) i ;;
  hi <- rd (indptr m) (S i) ;;
  mapM (fun k => c <- rd (indices m) k ;; d <- rd (cdata m) k ;; Ok (c, d)) (seq lo (hi - lo)).

Definition lil_of_csr (m : csr T) : res (lil T) :=
  rows <- mapM (lil_of_csr_row m) (seq 0 (crows m)) ;;
  Ok (mkLil (crows m) (ccols m) rows).

(** LILCSR.h:134-163 operator+ / operator- ([op] is [+] or [-]) *)
Definition lil_zip (op : T -> T -> T) (a b : lil T) : res (lil T) :=
  _ <- assert_ ((lrows a =? lrows b) && (lcols a =? lcols b)) ;;
  foldM (fun m i =>
           row <- rd (ldata b) i ;;
           foldM (fun m '(j, d) =>
                    g <- lil_get m i j ;;
                    '(_, m') <- lil_set m i j (op g d) ;;
                    Ok m') row m)
        (seq 0 (lrows b)) a.

(** CSR.h:180-211 operator+ / operator- *)
Definition csr_zip (op : T -> T -> T) (a b : csr T) : res (csr T) :=
  _ <- assert_ ((crows a =? crows b) && (ccols a =? ccols b)) ;;
  foldM (fun m i =>
           lo <- rd (indptr b) i ;;
           hi <- rd (indptr b) (S i) ;;
           foldM (fun m k =>
                    j <- rd (indices b) k ;;
                    d <- rd (cdata b) k ;;
                    g <- csr_get m i j ;;
                    '(_, m') <- csr_set m i j (op g d) ;;
                    Ok m') (seq lo (hi - lo)) m)
        (seq 0 (crows b)) a.

(** LILCSR.h:166-199 and CSR.h:170-177,214-241: [*= a] or [/= a] on each stored value *)
Definition lil_map (f : T -> T) (a : lil T) : lil T :=
  mkLil (lrows a) (lcols a) (map (map (fun p => (fst p, f (snd p)))) (ldata a)).
Definition csr_map (f : T -> T) (a : csr T) : csr T :=
  mkCsr (crows a) (ccols a) (indptr a) (indices a) (map f (cdata a)).

(** * Products with a vector *)
Variables (add mul : T -> T -> T).

(** LILCSR.h:117-131 *)
Definition lil_mulvec (m : lil T) (x : list T) : res (list T) :=
  _ <- assert_ (lcols m =? length x) ;;
  foldM (fun v i =>
           row <- rd (ldata m) i ;;
           foldM (fun v '(c, d) =>
                    xc <- rd x c ;;
                    vi <- rd v i ;;
                    wr v i (add vi (mul d xc))) row v)
        (seq 0 (lrows m)) (repeat zero (lrows m)).

(** CSR.h:108-122, sequential reading of the loop *)
Definition csr_mulvec_row (m : csr T) (x : list T) (v : list T) (i : nat) : res (list T) :=
  lo <- rd (indptr m) i ;;
  hi <- rd (indptr m) (S i) ;;
  foldM (fun v j =>
           d <- rd (cdata m) j ;;
           c <- rd (indices m) j ;;
           xc <- rd x c ;;
           vi <- rd v i ;;
           wr v i (add vi (mul d xc))) (seq lo (hi - lo)) v.

Definition csr_mulvec (m : csr T) (x : list T) : res (list T) :=
  foldM (csr_mulvec_row m x) (seq 0 (crows m)) (repeat zero (crows m)).

End Containers.

(** A history of [set] calls: (row, column, value) in call order. *)
Definition run_lil {T} (h : list (nat * nat * T)) (m : lil T) : res (list bool * lil T) :=
  foldM (fun '(bs, m) '(i, j, v) => '(b, m') <- lil_set m i j v ;; Ok (bs ++ [b], m')) h ([], m).
Definition run_csr {T} (h : list (nat * nat * T)) (m : csr T) : res (list bool * csr T) :=
  foldM (fun '(bs, m) '(i, j, v) => '(b, m') <- csr_set m i j v ;; Ok (bs ++ [b], m')) h ([], m).
