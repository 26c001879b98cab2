(** Export and import of meshes and fields (src/PrePost/Export, src/PrePost/Import).

    Files are sequences of characters.  An input stream is the text not yet read
    together with its [eofbit] and [failbit]; the stream operators [>>] and
    [getline] are modelled with their effect on these bits and on the variable
    they read into (a failed [>>] leaves its variable untouched when the stream is
    already bad or at its end, and stores zero when the text is no number).

    Simplifications: integers do not overflow; how a number of the value type [T]
    is written by [<<] and recognised by [>>] and [std::stod] is a parameter
    ([numfmt]), and the text of such a number extends up to the next white space
    (for [std::stod], over the whole string); an exception ([std::stod],
    [std::stoi], [std::length_error]) ends the program like a failed assertion
    ([AssertFail]); the file can be opened. *)
From Coq Require Import Ascii String.
From Coq Require Import List Arith ZArith Lia Bool.
From Verif Require Import Res.
Import ListNotations.
Local Open Scope nat_scope.

Definition text := list ascii.
Definition txt (s : string) : text := list_ascii_of_string s.

Definition c_tab : ascii := ascii_of_nat 9.
Definition c_nl : ascii := ascii_of_nat 10.

(** [std::isspace] *)
Definition ws (c : ascii) : bool :=
  let n := nat_of_ascii c in (n =? 32) || ((9 <=? n) && (n <=? 13)).

Definition digit (c : ascii) : bool :=
  let n := nat_of_ascii c in (48 <=? n) && (n <=? 57).
Definition digit_val (c : ascii) : nat := nat_of_ascii c - 48.
Definition digit_of (d : nat) : ascii := ascii_of_nat (48 + d).

(** [<<] applied to an integer *)
Fixpoint show_fuel (fuel n : nat) : text :=
  match fuel with
  | 0 => []
  | S f => if n <? 10 then [digit_of n] else show_fuel f (n / 10) ++ [digit_of (n mod 10)]
  end.
Definition show_nat (n : nat) : text := show_fuel (S n) n.
Definition show_Z (z : Z) : text :=
  if (z <? 0)%Z then "-"%char :: show_nat (Z.to_nat (- z)) else show_nat (Z.to_nat z).

Record numfmt (T : Type) := mkfmt {
  tzero : T;                    (* [T()] *)
  show : T -> text;             (* [<<] *)
  readT : text -> option T }.   (* [>>], [std::stod] *)
Arguments mkfmt {T}. Arguments tzero {T}. Arguments show {T}. Arguments readT {T}.

(** * Input streams *)
Record istream := mkst { rest : text; eofb : bool; failb : bool }.
Definition open_text (t : text) : istream := mkst t false false.
Definition bad (s : istream) : istream := mkst (rest s) (eofb s) true.

Fixpoint skip_ws (t : text) : text :=
  match t with c :: t' => if ws c then skip_ws t' else t | [] => [] end.
Fixpoint span (p : ascii -> bool) (t : text) : text * text :=
  match t with
  | c :: t' => if p c then let '(a, b) := span p t' in (c :: a, b) else ([], t)
  | [] => ([], [])
  end.
Definition at_end (t : text) : bool := match t with [] => true | _ => false end.

(** the characters a [>>] finds after skipping white space; [None] when the stream
    is bad or only white space is left *)
Definition enter (s : istream) : option text :=
  if eofb s || failb s then None
  else match skip_ws (rest s) with [] => None | t => Some t end.
(** the stream after a [>>] that found nothing *)
Definition none_left (s : istream) : istream :=
  if eofb s || failb s then bad s else mkst [] true true.

(** [s >> str] *)
Definition get_word (s : istream) : option text * istream :=
  match enter s with
  | None => (None, none_left s)
  | Some t => let '(w, r) := span (fun c => negb (ws c)) t in (Some w, mkst r (at_end r) false)
  end.

(** value of a string of digits *)
Definition digits_val (t : text) : Z :=
  fold_left (fun a c => (a * 10 + Z.of_nat (digit_val c))%Z) t 0%Z.
(** sign and digits at the start of a text *)
Definition int_prefix (t : text) : option Z * text :=
  let '(neg, t1) := match t with
                    | c :: t' => if Ascii.eqb c "-" then (true, t')
                                 else if Ascii.eqb c "+" then (false, t') else (false, t)
                    | [] => (false, t)
                    end in
  let '(ds, r) := span digit t1 in
  match ds with
  | [] => (None, r)
  | _ => (Some (if neg then - digits_val ds else digits_val ds)%Z, r)
  end.

(** [s >> x] for an [int] variable whose value is [x] before *)
Definition get_int (s : istream) (x : option Z) : option Z * istream :=
  match enter s with
  | None => (x, none_left s)
  | Some t => match int_prefix t with
              | (Some z, r) => (Some z, mkst r (at_end r) false)
              | (None, r) => (Some 0%Z, mkst r (at_end r) true)
              end
  end.

(** [s >> x] for a variable of type [T] *)
Definition get_T {T} (F : numfmt T) (s : istream) (x : option T) : option T * istream :=
  match enter s with
  | None => (x, none_left s)
  | Some t => let '(w, r) := span (fun c => negb (ws c)) t in
              match readT F w with
              | Some v => (Some v, mkst r (at_end r) false)
              | None => (Some (tzero F), mkst r (at_end r) true)
              end
  end.

(** [getline(s, str, delim)] where [str] holds [old] before: success, string, stream *)
Definition getline (delim : ascii) (s : istream) (old : text) : bool * text * istream :=
  if eofb s || failb s then (false, old, bad s)
  else match rest s with
       | [] => (false, [], mkst [] true true)
       | _ => let '(w, r) := span (fun c => negb (Ascii.eqb c delim)) (rest s) in
              match r with
              | [] => (true, w, mkst [] true false)
              | _ :: r' => (true, w, mkst r' false false)
              end
       end.

Definition used {A} (x : option A) : res A :=
  match x with Some a => Ok a | None => Fail Uninit end.

(** * PrePost/Export/ExportToVTK.h *)

(** ExportToVTK.h:19-24 (MakeHeadderToVTK): [out] is the text written so far *)
Definition MakeHeadder (out : text) : text :=
  out ++ txt "# vtk DataFile Version 4.1" ++ [c_nl] ++ txt "vtk output" ++ [c_nl]
      ++ txt "ASCII" ++ [c_nl] ++ txt "DATASET UNSTRUCTURED_GRID" ++ [c_nl].

Section Export.
  Context {T : Type} (F : numfmt T).

  (** the two loops of ExportToVTK.h:31-39 and 109-117: the components, then zeros *)
  Definition row3 (v : list T) : text :=
    concat (map (fun x => show F x ++ [c_tab]) v)
    ++ concat (map (fun _ => show F (tzero F) ++ [c_tab]) (seq (List.length v) (3 - List.length v)))
    ++ [c_nl].

  (** ExportToVTK.h:28-41 *)
  Definition AddPoints (nodes : list (list T)) (out : text) : text :=
    out ++ [c_nl] ++ txt "POINTS" ++ [c_tab] ++ show_nat (List.length nodes) ++ [c_tab]
        ++ txt "float" ++ [c_nl] ++ concat (map row3 nodes).

  (** the header of ExportToVTK.h:74-76, 89-91, 105-107 *)
  Definition point_header {A} (isheader : bool) (values : list A) : text :=
    if isheader then [c_nl] ++ txt "POINT_DATA" ++ [c_tab] ++ show_nat (List.length values) ++ [c_nl]
    else [].
  Definition scalars_header (symbol : text) : text :=
    txt "SCALARS " ++ symbol ++ txt " float" ++ [c_nl] ++ txt "LOOKUP_TABLE default" ++ [c_nl].

  (** ExportToVTK.h:72-84 *)
  Definition AddPointScalers (values : list T) (symbol : text) (isheader : bool) (out : text) : text :=
    out ++ point_header isheader values ++ scalars_header symbol
        ++ concat (map (fun x => show F x ++ [c_nl]) values).

  (** ExportToVTK.h:88-99; [<<] of a Vector writes one line per component (Vector.h:287-293) *)
  Definition AddPointScalersV (values : list (list T)) (symbol : text) (isheader : bool) (out : text) : text :=
    out ++ point_header isheader values ++ scalars_header symbol
        ++ concat (map (fun v => concat (map (fun x => show F x ++ [c_nl]) v)) values).

  (** ExportToVTK.h:103-119 *)
  Definition AddPointVectors (values : list (list T)) (symbol : text) (isheader : bool) (out : text) : text :=
    out ++ point_header isheader values ++ txt "VECTORS " ++ symbol ++ txt " float" ++ [c_nl]
        ++ concat (map row3 values).

  (** ExportToVTK.h:126-137 *)
  Definition AddElementScalers (values : list T) (symbol : text) (isheader : bool) (out : text) : text :=
    out ++ (if isheader then [c_nl] ++ txt "CELL_DATA" ++ [c_tab] ++ show_nat (List.length values) ++ [c_nl]
            else [])
        ++ scalars_header symbol ++ concat (map (fun x => show F x ++ [c_nl]) values).
End Export.

(** ExportToVTK.h:46-49: [datanum] *)
Definition datanum (elements : list (list Z)) : nat :=
  fold_left (fun a e => a + (List.length e + 1)) elements 0.
(** ExportToVTK.h:45-59 *)
Definition AddElement (elements : list (list Z)) (out : text) : text :=
  out ++ [c_nl] ++ txt "CELLS " ++ show_nat (List.length elements) ++ [c_tab]
      ++ show_nat (datanum elements) ++ [c_nl]
      ++ concat (map (fun e => show_nat (List.length e) ++ [c_tab]
                               ++ concat (map (fun z => show_Z z ++ [c_tab]) e) ++ [c_nl]) elements).
(** ExportToVTK.h:63-68 *)
Definition AddElementTypes (types : list Z) (out : text) : text :=
  out ++ [c_nl] ++ txt "CELL_TYPES" ++ [c_tab] ++ show_nat (List.length types) ++ [c_nl]
      ++ concat (map (fun z => show_Z z ++ [c_nl]) types).

(** * PrePost/Import/ImportFromVTK2.h *)

(** a loop [for(int i = 0; i < n; i++)] *)
Fixpoint times {S} (n : nat) (f : S -> res S) (s : S) : res S :=
  match n with 0 => Ok s | Datatypes.S n' => s' <- f s ;; times n' f s' end.

Definition text_eqb (a b : text) : bool := if list_eq_dec ascii_dec a b then true else false.

(** ImportFromVTK2.h:33-52 (GenerateNodes): the reading loop; every word read
    shortens the text, so its length bounds the number of iterations *)
Fixpoint gen_nodes_loop {T} (F : numfmt T) (fuel : nat) (s : istream) (nodes : list (list T))
  : res (list (list T)) :=
  match fuel with
  | 0 => Fail OutOfFuel
  | S f =>
      match get_word s with
      | (None, _) => Ok nodes
      | (Some tmp, s) =>
          if text_eqb tmp (txt "POINTS") then
            let '(num, s) := get_int s None in
            nodesnum <- used num ;;
            let '(_, s) := get_word s in
            '(s, nodes) <- times (Z.to_nat nodesnum) (fun '(s, nodes) =>
               let '(x, s) := get_T F s None in
               let '(y, s) := get_T F s None in
               let '(z, s) := get_T F s None in
               x <- used x ;; y <- used y ;; z <- used z ;;
               Ok (s, nodes ++ [[x; y; z]])) (s, nodes) ;;
            gen_nodes_loop F f s nodes
          else gen_nodes_loop F f s nodes
      end
  end.
Definition GenerateNodes {T} (F : numfmt T) (file : text) : res (list (list T)) :=
  gen_nodes_loop F (S (List.length file)) (open_text file) [].

(** ImportFromVTK2.h:54-78 (GenerateElements) *)
Fixpoint gen_elements_loop (fuel : nat) (s : istream) (elements : list (list Z))
  : res (list (list Z)) :=
  match fuel with
  | 0 => Fail OutOfFuel
  | S f =>
      match get_word s with
      | (None, _) => Ok elements
      | (Some tmp, s) =>
          if text_eqb tmp (txt "CELLS") then
            let '(num, s) := get_int s None in
            elementsnum <- used num ;;
            let '(_, s) := get_word s in
            '(s, elements) <- times (Z.to_nat elementsnum) (fun '(s, elements) =>
               let '(num, s) := get_int s None in
               elementnum <- used num ;;
               '(s, element) <- times (Z.to_nat elementnum) (fun '(s, element) =>
                  let '(id, s) := get_int s None in
                  nodeid <- used id ;; Ok (s, element ++ [nodeid])) (s, []) ;;
               Ok (s, elements ++ [element])) (s, elements) ;;
            gen_elements_loop f s elements
          else gen_elements_loop f s elements
      end
  end.
Definition GenerateElements (file : text) : res (list (list Z)) :=
  gen_elements_loop (S (List.length file)) (open_text file) [].

(** * PrePost/Import/ImportFromVTK.h *)

(** [str.find(pat) != std::string::npos] *)
Fixpoint prefixb (p t : text) : bool :=
  match p, t with
  | [], _ => true
  | a :: p', b :: t' => Ascii.eqb a b && prefixb p' t'
  | _ :: _, [] => false
  end.
Fixpoint contains (pat t : text) : bool :=
  prefixb pat t || match t with [] => false | _ :: t' => contains pat t' end.

(** ImportFromVTK.h:36-41: the members *)
Record importer := mkimp {
  im_file : text; im_ifs : istream; im_dim : nat; im_mode : nat;
  im_points : Z; im_cells : Z }.

(** ImportFromVTK.h:45-52 *)
Definition new_importer (file : text) (dim : nat) : res importer :=
  _ <- assert_ ((0 <? dim) && (dim <? 4)) ;; Ok (mkimp file (open_text file) dim 0 0 0).

Definition set_ifs (s : istream) (m : importer) : importer :=
  mkimp (im_file m) s (im_dim m) (im_mode m) (im_points m) (im_cells m).

(** [keywordstream >> linestrings >> x] on a fresh stream over the line *)
Definition keyword_int (line : text) (x : Z) : Z :=
  let '(_, s) := get_word (open_text line) in
  match get_int s (Some x) with (Some z, _) => z | (None, _) => x end.
(** [keywordstream >> linestrings >> linestrings] *)
Definition second_word (line : text) : text :=
  let '(w, s) := get_word (open_text line) in
  match get_word s with
  | (Some w2, _) => w2
  | (None, _) => match w with Some w1 => w1 | None => line end
  end.

(** [std::vector<...>(n)] throws for a negative [n] *)
Definition size_of (n : Z) : res nat := if (n <? 0)%Z then Fail AssertFail else Ok (Z.to_nat n).

(** [getline(ifs, linestrings)] ignoring success *)
Definition next_line (m : importer) (old : text) : text * importer :=
  let '(_, l, s) := getline c_nl (im_ifs m) old in (l, set_ifs s m).

(** components read from one line into a zero vector (ImportFromVTK.h:81-85, 147-151, 219-223) *)
Fixpoint read_comps {T} (F : numfmt T) (n : nat) (s : istream) : list T :=
  match n with
  | 0 => []
  | S n' => let '(v, s) := get_T F s (Some (tzero F)) in
            match v with Some v => v | None => tzero F end :: read_comps F n' s
  end.

(** [for(auto& x : v){ getline(ifs, linestrings); ... }]: one line per entry *)
Fixpoint per_line {A} (body : text -> res A) (n : nat) (m : importer) (line : text)
  : res (list A * importer) :=
  match n with
  | 0 => Ok ([], m)
  | S n' => let '(l, m) := next_line m line in
            a <- body l ;; '(t, m) <- per_line body n' m l ;; Ok (a :: t, m)
  end.

(** the loop common to ImportFromVTK.h:66-92, 97-127, 132-161, 166-195, 200-229,
    234-263; [hit] is its last branch *)
Fixpoint scan {A} (hit : importer -> text -> option (res (list A * importer))) (fuel : nat)
  (m : importer) (line : text) : res (list A * importer) :=
  match fuel with
  | 0 => Fail OutOfFuel
  | S f =>
      match getline c_nl (im_ifs m) line with
      | (false, _, s) => Ok ([], set_ifs (open_text (im_file m)) m)      (* clear, seekg *)
      | (true, l, s) =>
          let m := set_ifs s m in
          if contains (txt "POINT_DATA") l then
            scan hit f (mkimp (im_file m) (im_ifs m) (im_dim m) 1 (keyword_int l (im_points m)) (im_cells m)) l
          else if contains (txt "CELL_DATA") l then
            scan hit f (mkimp (im_file m) (im_ifs m) (im_dim m) 2 (im_points m) (keyword_int l (im_cells m))) l
          else match hit m l with
               | Some r => r
               | None => scan hit f m l
               end
      end
  end.
Definition run_scan {A} (hit : importer -> text -> option (res (list A * importer))) (m : importer)
  : res (list A * importer) :=
  scan hit (S (List.length (rest (im_ifs m)))) m [].

(** ImportFromVTK.h:64-93 *)
Definition ImportPOINTS {T} (F : numfmt T) (m : importer) : res (list (list T) * importer) :=
  run_scan (fun m l =>
    if contains (txt "POINTS") l then Some (
      let m := mkimp (im_file m) (im_ifs m) (im_dim m) (im_mode m) (keyword_int l (im_points m)) (im_cells m) in
      n <- size_of (im_points m) ;;
      per_line (fun l => Ok (read_comps F (im_dim m) (open_text l))) n m l)
    else None) m.

(** the node numbers of one line (ImportFromVTK.h:113-120) *)
Fixpoint read_ids (n : nat) (s : istream) : list Z :=
  match n with
  | 0 => []
  | S n' => let '(v, s) := get_int s (Some 0%Z) in
            match v with Some v => v | None => 0%Z end :: read_ids n' s
  end.

(** ImportFromVTK.h:95-128 *)
Definition ImportCELLS (m : importer) : res (list (list Z) * importer) :=
  run_scan (fun m l =>
    if contains (txt "CELLS") l then Some (
      let m := mkimp (im_file m) (im_ifs m) (im_dim m) (im_mode m) (im_points m) (keyword_int l (im_cells m)) in
      n <- size_of (im_cells m) ;;
      per_line (fun l => let '(k, s) := get_int (open_text l) None in
                         k <- used k ;; k <- size_of k ;; Ok (read_ids k s)) n m l)
    else None) m.

(** ImportFromVTK.h:130-162 and 198-230: [mode] is 1 for POINT_DATA, 2 for CELL_DATA *)
Definition import_vectors {T} (F : numfmt T) (mode : nat) (keyword : text) (m : importer)
  : res (list (list T) * importer) :=
  run_scan (fun m l =>
    if (im_mode m =? mode) && contains (txt "VECTORS") l then
      if text_eqb (second_word l) keyword then Some (
        n <- size_of (if mode =? 1 then im_points m else im_cells m) ;;
        per_line (fun l => Ok (read_comps F (im_dim m) (open_text l))) n m (second_word l))
      else None
    else None) m.
Definition ImportPOINTVECTORS {T} (F : numfmt T) := import_vectors F 1.
Definition ImportCELLVECTORS {T} (F : numfmt T) := import_vectors F 2.

(** ImportFromVTK.h:164-196 and 232-264 *)
Definition import_scalars {T} (F : numfmt T) (mode : nat) (keyword : text) (m : importer)
  : res (list T * importer) :=
  run_scan (fun m l =>
    if (im_mode m =? mode) && contains (txt "SCALARS") l then
      if text_eqb (second_word l) keyword then Some (
        n <- size_of (if mode =? 1 then im_points m else im_cells m) ;;
        let '(l, m) := next_line m (second_word l) in
        per_line (fun l => let '(v, _) := get_T F (open_text l) (Some (tzero F)) in used v) n m l)
      else None
    else None) m.
Definition ImportPOINTSCALARS {T} (F : numfmt T) := import_scalars F 1.
Definition ImportCELLSCALARS {T} (F : numfmt T) := import_scalars F 2.

(** * PrePost/Import/ImportFromCSV.h *)

(** [std::stoi] *)
Definition stoi (t : text) : res Z :=
  match int_prefix (skip_ws t) with (Some z, _) => Ok z | (None, _) => Fail AssertFail end.
(** [std::stod] *)
Definition stod {T} (F : numfmt T) (t : text) : res T :=
  match readT F t with Some v => Ok v | None => Fail AssertFail end.

Definition c_comma : ascii := ","%char.

(** [while(getline(sbuf, str, ','))]: the remaining fields of a row *)
Fixpoint fields_loop (fuel : nat) (s : istream) (str : text) : res (list text) :=
  match fuel with
  | 0 => Fail OutOfFuel
  | S f => match getline c_comma s str with
           | (false, _, _) => Ok []
           | (true, x, s) => t <- fields_loop f s x ;; Ok (x :: t)
           end
  end.
Definition fields (s : istream) (str : text) : res (list text) :=
  fields_loop (S (List.length (rest s))) s str.

(** the loop of every import function (e.g. ImportFromCSV.h:34-53): one white space
    delimited word is one row, its first field goes to [row] together with the
    stream of the rest *)
Fixpoint csv_loop {A} (row : text -> istream -> A -> res A) (fuel : nat) (s : istream) (acc : A) : res A :=
  match fuel with
  | 0 => Fail OutOfFuel
  | S f =>
      if eofb s then Ok acc
      else
        let '(w, s) := get_word s in
        let buf := match w with Some w => w | None => [] end in
        let '(_, str, sbuf) := getline c_comma (open_text buf) [] in
        acc <- (if at_end str then Ok acc else row str sbuf acc) ;;
        csv_loop row f s acc
  end.
Definition import_csv {A} (row : text -> istream -> A -> res A) (file : text) (acc : A) : res A :=
  let '(_, _, s) := getline c_nl (open_text file) [] in     (* pass a line *)
  csv_loop row (S (S (List.length file))) s acc.

(** ImportFromCSV.h:21-59 *)
Definition ImportNodesFromCSV {T} (F : numfmt T) (nodes : list (list T)) (file : text) : res (list (list T)) :=
  import_csv (fun str sbuf nodes =>
    fs <- fields sbuf str ;; x <- mapM (stod F) fs ;; Ok (nodes ++ [x])) file nodes.

(** ImportFromCSV.h:63-99 *)
Definition ImportElementsFromCSV (elements : list (list Z)) (file : text) : res (list (list Z)) :=
  import_csv (fun str sbuf elements =>
    fs <- fields sbuf str ;; x <- mapM stoi fs ;; Ok (elements ++ [x])) file elements.

(** ImportFromCSV.h:102-138 and 141-177 (the two bodies agree) *)
Definition ImportDirichletFromCSV {T} (F : numfmt T) (ufixed : list ((Z * nat) * T)) (file : text)
  : res (list ((Z * nat) * T)) :=
  import_csv (fun str sbuf ufixed =>
    idn <- stoi str ;;
    fs <- fields sbuf str ;;
    foldM (fun u '(i, f) =>
      if text_eqb f (txt "free") then Ok u
      else v <- stod F f ;; Ok (u ++ [((idn, i), v)])) (combine (seq 0 (List.length fs)) fs) ufixed) file ufixed.
Definition ImportNeumannFromCSV {T} (F : numfmt T) := ImportDirichletFromCSV F.

(** [_u[idn]] *)
Definition rdZ {A} (l : list A) (i : Z) : res A :=
  if (i <? 0)%Z then Fail OutOfBounds else rd l (Z.to_nat i).
(** ImportFromCSV.h:205-210: one [getline] per component, whether or not a field is left *)
Fixpoint initial_row {T} (F : numfmt T) (n i : nat) (s : istream) (str : text) (v : list T) : res (list T) :=
  match n with
  | 0 => Ok v
  | S n' =>
      let '(_, str, s) := getline c_comma s str in
      v <- (if text_eqb str (txt "free") then Ok v else x <- stod F str ;; wr v i x) ;;
      initial_row F n' (S i) s str v
  end.
(** ImportFromCSV.h:180-217 *)
Definition ImportInitialFromCSV {T} (F : numfmt T) (u : list (list T)) (file : text) : res (list (list T)) :=
  import_csv (fun str sbuf u =>
    idn <- stoi str ;;
    ui <- rdZ u idn ;;
    ui <- initial_row F (List.length ui) 0 sbuf str ui ;;
    wr u (Z.to_nat idn) ui) file u.

(** ImportFromCSV.h:221-253 *)
Definition ImportPeriodicFromCSV (ufixed : list (Z * Z)) (file : text) : res (list (Z * Z)) :=
  import_csv (fun str sbuf ufixed =>
    masterid <- stoi str ;;
    let '(_, str, _) := getline c_comma sbuf str in
    slaveid <- stoi str ;;
    Ok (ufixed ++ [(masterid, slaveid)])) file ufixed.

(** * [<<] and [>>] for a [double] holding an integer

    Default precision: six significant digits, "%g" style (a concrete instance of
    [numfmt]; used to show which values survive a round trip). *)
Fixpoint strip0 (t : text) : text :=        (* [t] reversed: drop leading zeros *)
  match t with c :: t' => if Ascii.eqb c "0" then strip0 t' else t | [] => [] end.
Definition round_half_even (a b : Z) : Z :=
  let q := (a / b)%Z in let r := (a mod b)%Z in
  if (2 * r <? b)%Z then q else if (b <? 2 * r)%Z then (q + 1)%Z
  else if Z.even q then q else (q + 1)%Z.
Definition show_exp (e : nat) : text := if e <? 10 then "0"%char :: show_nat e else show_nat e.
Definition show_g (a : Z) : text :=         (* a >= 0 *)
  let ds := show_nat (Z.to_nat a) in
  if List.length ds <=? 6 then ds
  else
    let e := List.length ds - 1 in
    let m := round_half_even a (10 ^ Z.of_nat (e - 5)) in
    let '(m, e) := if (m =? 1000000)%Z then (100000%Z, S e) else (m, e) in
    match show_nat (Z.to_nat m) with
    | [] => []
    | d :: frac =>
        let frac := rev (strip0 (rev frac)) in
        d :: (match frac with [] => [] | _ => "."%char :: frac end) ++ txt "e+" ++ show_exp e
    end.
Definition show_double (z : Z) : text := if (z <? 0)%Z then "-"%char :: show_g (- z) else show_g z.

(** a decimal numeral with optional fraction and exponent, when its value is an integer *)
Definition read_unsigned (t : text) : option Z :=
  let '(ip, r) := span digit t in
  let '(fp, r) := match r with c :: r' => if Ascii.eqb c "." then span digit r' else ([], r) | [] => ([], []) end in
  let '(ok, ex, r) := match r with
                  | c :: d :: r' => if Ascii.eqb c "e" && Ascii.eqb d "+" then
                                      let '(ex, r) := span digit r' in (negb (at_end ex), digits_val ex, r)
                                    else (true, 0%Z, r)
                  | _ => (true, 0%Z, r)
                  end in
  let scale := (ex - Z.of_nat (List.length fp))%Z in
  if ok && at_end r && negb (at_end (ip ++ fp)) && (0 <=? scale)%Z
  then Some (digits_val (ip ++ fp) * 10 ^ scale)%Z else None.
Definition read_double (t : text) : option Z :=
  match t with
  | c :: t' => if Ascii.eqb c "-" then option_map Z.opp (read_unsigned t') else read_unsigned t
  | [] => None
  end.
Definition double_fmt : numfmt Z := mkfmt 0%Z show_double read_double.

(** Example: a triangle and one value per node *)
Example export_ex :
  string_of_list_ascii (AddElement [[0; 1; 2]]%Z (AddPoints double_fmt [[0; 0]; [1; 0]; [0; 12]]%Z [])) =
  ("
POINTS	3	float
0	0	0	
1	0	0	
0	12	0	

CELLS 1	4
3	0	1	2	
")%string.
Proof. vm_compute. reflexivity. Qed.
