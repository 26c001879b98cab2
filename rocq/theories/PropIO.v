(** Properties C54, C55 and C80: files. *)
From Coq Require Import Ascii String.
From Coq Require Import List Arith ZArith Lia Bool.
From Verif Require Import Res IOModel IOSpec IOMain.
Import ListNotations.
Local Open Scope nat_scope.

(** C54: the nodes (padded to three components) and the elements of every exported file are read back by GenerateNodes and GenerateElements, whatever fields the file also contains. *)
Theorem C54_reimport : forall (T : Type) (F : numfmt T) nodes elements types pds cds,
  survives F (tzero F) ->
  (forall v, In v nodes -> List.length v <= 3 /\ forall x, In x v -> survives F x) ->
  (forall d, In d pds -> is_symbol (psym d) /\ psym d <> txt "POINTS" /\ psym d <> txt "CELLS" /\
     forall x, In x (pvalues d) -> survives F x) ->
  (forall s v, In (s, v) cds -> is_symbol s /\ s <> txt "POINTS" /\ s <> txt "CELLS" /\
     forall x, In x v -> survives F x) ->
  let file := export_file F nodes elements types pds cds in
  GenerateNodes F file = Ok (map (pad3 F) nodes) /\ GenerateElements file = Ok elements.
Proof. exact C54_reimport_pf. Qed.
Print Assumptions C54_reimport.

(** C54: on every exported file ImportPOINTS, ImportCELLS and then the imports of any of the fields, asked for in file order, return what was exported (vectors cut to the importer's dimension). The flag beside a field says whether it is asked for; fields not asked for are skipped. *)
Theorem C54_import : forall (T : Type) (F : numfmt T) nodes elements types
  (pds : list (bool * pfield T)) (cds : list (bool * (text * list T))) dim np nc,
  1 <= dim <= 3 -> survives F (tzero F) ->
  (forall v x, In v nodes -> In x v -> survives F x) ->
  (forall b d, In (b, d) pds -> is_symbol (psym d) /\ keyword_free (psym d) /\ plen d = np /\
     (forall x, In x (pvalues d) -> survives F x) /\
     match d with PScalV _ v => forall r, In r v -> List.length r = 1 | _ => True end) ->
  (forall b s v, In (b, (s, v)) cds -> is_symbol s /\ keyword_free s /\ List.length v = nc /\
     forall x, In x v -> survives F x) ->
  NoDup (map (fun p => item_key (IPoint (snd p))) pds ++ map (fun p => item_key (ICell (fst (snd p)) (snd (snd p)))) cds) ->
  let file := export_file F nodes elements types (map snd pds) (map snd cds) in
  let asked := map (fun p => IPoint (snd p)) (filter fst pds) ++
               map (fun p => ICell (fst (snd p)) (snd (snd p))) (filter fst cds) in
  exists m0 m1 m2,
    new_importer file dim = Ok m0 /\
    ImportPOINTS F m0 = Ok (map (fun v => firstn dim (pad3 F v)) nodes, m1) /\
    ImportCELLS m1 = Ok (elements, m2) /\
    import_items F asked m2 = Ok (map (item_field F dim) asked).
Proof. exact C54_import_pf. Qed.
Print Assumptions C54_import.

(** C54: the counts announced in the POINTS, CELLS and CELL_TYPES headers are the numbers of values that follow. *)
Theorem C54_counts : forall (T : Type) (F : numfmt T) (nodes : list (list T)) (elements : list (list Z)) (types : list Z),
  (forall x, show F x <> [] /\ nows (show F x)) -> (forall v, In v nodes -> List.length v <= 3) ->
  (exists ws, words (AddPoints F nodes []) = [txt "POINTS"; show_nat (List.length nodes); txt "float"] ++ ws /\
     List.length ws = 3 * List.length nodes) /\
  (exists n ws, words (AddElement elements []) = [txt "CELLS"; show_nat (List.length elements); show_nat n] ++ ws /\
     List.length ws = n /\ n = list_sum (map (fun e => S (List.length e)) elements)) /\
  (exists ws, words (AddElementTypes types []) = [txt "CELL_TYPES"; show_nat (List.length types)] ++ ws /\
     List.length ws = List.length types).
Proof. exact C54_counts_pf. Qed.
Print Assumptions C54_counts.

(** C54: with the default six digit format of doubles, every integer value of at most six digits survives, so that the hypotheses above are met by such coordinates. *)
Theorem C54_double : forall z, (Z.abs z < 1000000)%Z -> survives double_fmt z.
Proof. exact C54_double_pf. Qed.
Print Assumptions C54_double.

(** C54 fails for doubles that need more than six digits: the coordinate 1234567 is written as 1.23457e+06 and read back as 1234570. *)
Theorem C54_precision_refuted : exists nodes : list (list Z),
  GenerateNodes double_fmt (export_file double_fmt nodes [] [] [] []) <> Ok (map (pad3 double_fmt) nodes) /\
  GenerateNodes double_fmt (export_file double_fmt nodes [] [] [] []) = Ok [[1234570; 0; 0]]%Z.
Proof. exact C54_precision_refuted_pf. Qed.
Print Assumptions C54_precision_refuted.

(** a mesh with two fields, read back completely *)
Example C54_ex :
  let file := export_file double_fmt [[0; 0]; [100; 0]; [0; -25]]%Z [[0; 1; 2]]%Z [5]%Z
     [PVec (txt "u") [[1; 2]; [3; 4]; [5; 6]]%Z; PScal (txt "T") [7; 8; 9]%Z] [(txt "rho", [10]%Z)] in
  GenerateNodes double_fmt file = Ok [[0; 0; 0]; [100; 0; 0]; [0; -25; 0]]%Z /\
  GenerateElements file = Ok [[0; 1; 2]]%Z /\
  (m <- new_importer file 2 ;; '(x, m) <- ImportPOINTS double_fmt m ;; '(e, m) <- ImportCELLS m ;;
   '(T, m) <- ImportPOINTSCALARS double_fmt (txt "T") m ;; '(r, m) <- ImportCELLSCALARS double_fmt (txt "rho") m ;;
   Ok (x, e, T, r)) = Ok ([[0; 0]; [100; 0]; [0; -25]]%Z, [[0; 1; 2]]%Z, [7; 8; 9]%Z, [10]%Z).
Proof. vm_compute. repeat split. Qed.

(** C80: what the importer returns depends on the order of the calls. Asked for the cells first, it then reports an empty point list for every mesh (and rewinds, so that a second request succeeds). *)
Theorem C80_order : forall (T : Type) (F : numfmt T) nodes elements types dim,
  1 <= dim <= 3 -> survives F (tzero F) -> (forall v x, In v nodes -> In x v -> survives F x) ->
  exists m0 m1 m2 m3,
    new_importer (export_file F nodes elements types [] []) dim = Ok m0 /\
    ImportCELLS m0 = Ok (elements, m1) /\
    ImportPOINTS F m1 = Ok ([], m2) /\
    ImportPOINTS F m2 = Ok (map (fun v => firstn dim (pad3 F v)) nodes, m3).
Proof. exact C80_order_pf. Qed.
Print Assumptions C80_order.

(** C80: the calls are not independent of each other; a concrete file. *)
Theorem C80_order_refuted : exists nodes elements m0 p c m1 m2,
  new_importer (export_file double_fmt nodes elements [] [] []) 2 = Ok m0 /\
  ImportPOINTS double_fmt m0 = Ok (p, m1) /\ p = nodes /\
  ImportCELLS m0 = Ok (c, m2) /\ c = elements /\
  exists m3, ImportPOINTS double_fmt m2 = Ok ([], m3) /\ nodes <> [].
Proof. exact C80_order_refuted_pf. Qed.
Print Assumptions C80_order_refuted.

(** C55: the node file yields one node per row, in file order, with the values behind the identifier. *)
Theorem C55_nodes : forall (T : Type) (F : numfmt T) header rows body old nodes,
  ~ In c_nl header -> layout rows body ->
  Forall2 (fun r x => exists idn fs, r = idn :: fs /\ Forall2 (fun f v => readT F f = Some v) fs x) rows nodes ->
  ImportNodesFromCSV F old (header ++ c_nl :: body) = Ok (old ++ nodes).
Proof. exact C55_nodes_pf. Qed.
Print Assumptions C55_nodes.

(** C55: the element file yields one element per row with its node numbers. *)
Theorem C55_elements : forall header rows body old elements,
  ~ In c_nl header -> layout rows body ->
  Forall2 (fun r x => exists idn fs, r = idn :: fs /\ Forall2 numeral fs x) rows elements ->
  ImportElementsFromCSV old (header ++ c_nl :: body) = Ok (old ++ elements).
Proof. exact C55_elements_pf. Qed.
Print Assumptions C55_elements.

(** C55: the condition files yield, row by row, one condition (node, component, value) for every field that is not "free". *)
Theorem C55_conditions : forall (T : Type) (F : numfmt T) header rows body old (conds : list (Z * list (option T))),
  ~ In c_nl header -> layout rows body ->
  Forall2 (fun r c => exists idn fs, r = idn :: fs /\ numeral idn (fst c) /\ value_fields F fs (snd c)) rows conds ->
  let expected := old ++ concat (map (fun c => conditions (fst c) 0 (snd c)) conds) in
  ImportDirichletFromCSV F old (header ++ c_nl :: body) = Ok expected /\
  ImportNeumannFromCSV F old (header ++ c_nl :: body) = Ok expected.
Proof. exact C55_conditions_pf. Qed.
Print Assumptions C55_conditions.

(** C55: the initial value file sets, row by row, the components of the named node whose field is not "free", when every row has as many values as the node has components. *)
Theorem C55_initial : forall (T : Type) (F : numfmt T) header rows body (u : list (list T)) (vals : list (nat * list (option T))),
  ~ In c_nl header -> layout rows body ->
  Forall2 (fun r c => exists idn fs, r = idn :: fs /\ numeral idn (Z.of_nat (fst c)) /\ value_fields F fs (snd c)) rows vals ->
  (forall k vs, In (k, vs) vals -> exists x, nth_error u k = Some x /\ List.length x = List.length vs) ->
  ImportInitialFromCSV F u (header ++ c_nl :: body) =
  Ok (fold_left (fun u c => upd u (fst c) (replace_comps (nth (fst c) u []) (snd c))) vals u).
Proof. exact C55_initial_pf. Qed.
Print Assumptions C55_initial.

(** C55: the periodic file yields one pair of node numbers per row. *)
Theorem C55_periodic : forall header rows body old pairs,
  ~ In c_nl header -> layout rows body ->
  Forall2 (fun r p => exists a b fs, r = a :: b :: fs /\ numeral a (fst p) /\ numeral b (snd p)) rows pairs ->
  ImportPeriodicFromCSV old (header ++ c_nl :: body) = Ok (old ++ pairs).
Proof. exact C55_periodic_pf. Qed.
Print Assumptions C55_periodic.

Definition crlf : text := [ascii_of_nat 13; c_nl].
(** carriage returns, an empty line and a last row without line end *)
Example C55_ex :
  ImportNodesFromCSV double_fmt [] (txt "ID,x,y" ++ [c_nl] ++ txt "0,0,1" ++ crlf ++ [c_nl] ++ txt "1,25,-3") = Ok [[0; 1]; [25; -3]]%Z /\
  ImportDirichletFromCSV double_fmt [] (txt "ID,x,y" ++ [c_nl] ++ txt "4,free,7" ++ crlf) = Ok [((4%Z, 1), 7%Z)] /\
  ImportPeriodicFromCSV [] (txt "a,b" ++ [c_nl] ++ txt "1,2" ++ [c_nl] ++ txt "3,4") = Ok [(1, 2); (3, 4)]%Z.
Proof. vm_compute. repeat split. Qed.

(** C55: in a row with fewer values than the node has components, ImportInitialFromCSV invents the missing ones: the last value of the row is stored in all of them. *)
Theorem C55_short_row : forall (T : Type) (F : numfmt T) header idn k fs f vs v (u : list (list T)) x,
  ~ In c_nl header -> Forall is_field (idn :: fs ++ [f]) -> numeral idn (Z.of_nat k) ->
  value_fields F (fs ++ [f]) (vs ++ [Some v]) ->
  nth_error u k = Some x -> S (List.length fs) < List.length x ->
  ImportInitialFromCSV F u (header ++ c_nl :: comma (idn :: fs ++ [f]) ++ [c_nl]) =
  Ok (upd u k (replace_comps (firstn (S (List.length fs)) x) (vs ++ [Some v])
               ++ repeat v (List.length x - S (List.length fs)))).
Proof. exact C55_short_row_pf. Qed.
Print Assumptions C55_short_row.

(** C55 fails for missing trailing fields: the row "0,7" overwrites the second component of node 0, for which the file has no value, and the row "5" makes node 5 its own periodic partner. *)
Theorem C55_missing_refuted : exists file u u' i v, ImportInitialFromCSV double_fmt u file = Ok u' /\
  file = txt "id,u,v" ++ [c_nl] ++ txt "0,7" ++ [c_nl] /\ u = [[1; 2]]%Z /\
  nth_error (nth 0 u' []) i = Some v /\ i = 1 /\ v = 7%Z /\
  exists file2 p, ImportPeriodicFromCSV [] file2 = Ok p /\ file2 = txt "a,b" ++ [c_nl] ++ txt "5" ++ [c_nl] /\ p = [(5, 5)]%Z.
Proof. exact C55_missing_refuted_pf. Qed.
Print Assumptions C55_missing_refuted.
