(** Notions used in the statements about file export and import. *)
From Coq Require Import Ascii String.
From Coq Require Import List Arith ZArith Lia Bool.
From Verif Require Import Res IOModel.
Import ListNotations.
Local Open Scope nat_scope.

Definition upper (c : ascii) : bool :=
  let n := nat_of_ascii c in (65 <=? n) && (n <=? 90).
Definition nows (t : text) : Prop := forall c, In c t -> ws c = false.
Definition allws (t : text) : Prop := forall c, In c t -> ws c = true.
Definition noupper (t : text) : Prop := forall c, In c t -> upper c = false.

(** a value that is written as one word without capital letters and read back unchanged *)
Definition survives {T} (F : numfmt T) (x : T) : Prop :=
  show F x <> [] /\ nows (show F x) /\ noupper (show F x) /\ readT F (show F x) = Some x.

(** the words of a text *)
Fixpoint words_from (w t : text) : list text :=
  match t with
  | [] => if at_end w then [] else [w]
  | c :: t' => if ws c then (if at_end w then [] else [w]) ++ words_from [] t' else words_from (w ++ [c]) t'
  end.
Definition words (t : text) : list text := words_from [] t.

(** three components, missing ones zero *)
Definition pad3 {T} (F : numfmt T) (v : list T) : list T :=
  v ++ repeat (tzero F) (3 - List.length v).

(** * A file as the samples write it *)

(** a field on the nodes: scalars, scalars given as vectors, vectors *)
Inductive pfield (T : Type) :=
| PScal (symbol : text) (values : list T)
| PScalV (symbol : text) (values : list (list T))
| PVec (symbol : text) (values : list (list T)).
Arguments PScal {T}. Arguments PScalV {T}. Arguments PVec {T}.

Definition psym {T} (d : pfield T) : text :=
  match d with PScal s _ | PScalV s _ | PVec s _ => s end.
Definition plen {T} (d : pfield T) : nat :=
  match d with PScal _ v => List.length v | PScalV _ v | PVec _ v => List.length v end.

Definition add_pfield {T} (F : numfmt T) (hdr : bool) (d : pfield T) (out : text) : text :=
  match d with
  | PScal s v => AddPointScalers F v s hdr out
  | PScalV s v => AddPointScalersV F v s hdr out
  | PVec s v => AddPointVectors F v s hdr out
  end.
(** the first field of a group carries the POINT_DATA or CELL_DATA header *)
Fixpoint add_pfields {T} (F : numfmt T) (hdr : bool) (ds : list (pfield T)) (out : text) : text :=
  match ds with [] => out | d :: ds' => add_pfields F false ds' (add_pfield F hdr d out) end.
Fixpoint add_cfields {T} (F : numfmt T) (hdr : bool) (ds : list (text * list T)) (out : text) : text :=
  match ds with
  | [] => out
  | (s, v) :: ds' => add_cfields F false ds' (AddElementScalers F v s hdr out)
  end.

Definition export_file {T} (F : numfmt T) (nodes : list (list T)) (elements : list (list Z))
  (types : list Z) (pds : list (pfield T)) (cds : list (text * list T)) : text :=
  add_cfields F true cds (add_pfields F true pds
    (AddElementTypes types (AddElement elements (AddPoints F nodes (MakeHeadder []))))).

(** all values of a field *)
Definition pvalues {T} (d : pfield T) : list T :=
  match d with PScal _ v => v | PScalV _ v | PVec _ v => concat v end.

Definition is_symbol (s : text) : Prop := s <> [] /\ nows s.

(** * Reading the fields of a file one after another *)
Inductive item (T : Type) := IPoint (d : pfield T) | ICell (symbol : text) (values : list T).
Arguments IPoint {T}. Arguments ICell {T}.
Inductive field (T : Type) := FScal (v : list T) | FVec (v : list (list T)).
Arguments FScal {T}. Arguments FVec {T}.

(** the import function that asks for an item by its symbol *)
Definition import_item {T} (F : numfmt T) (it : item T) (m : importer) : res (field T * importer) :=
  match it with
  | IPoint (PScal s _) | IPoint (PScalV s _) =>
      '(v, m) <- ImportPOINTSCALARS F s m ;; Ok (FScal v, m)
  | IPoint (PVec s _) => '(v, m) <- ImportPOINTVECTORS F s m ;; Ok (FVec v, m)
  | ICell s _ => '(v, m) <- ImportCELLSCALARS F s m ;; Ok (FScal v, m)
  end.
Fixpoint import_items {T} (F : numfmt T) (l : list (item T)) (m : importer) : res (list (field T)) :=
  match l with
  | [] => Ok []
  | it :: l' => '(f, m) <- import_item F it m ;; fs <- import_items F l' m ;; Ok (f :: fs)
  end.

(** what was exported, vectors cut to [dim] components *)
Definition item_field {T} (F : numfmt T) (dim : nat) (it : item T) : field T :=
  match it with
  | IPoint (PScal _ v) => FScal v
  | IPoint (PScalV _ v) => FScal (concat v)
  | IPoint (PVec _ v) => FVec (map (fun r => firstn dim (pad3 F r)) v)
  | ICell _ v => FScal v
  end.

(** section (1 points, 2 cells), vector or not, symbol *)
Definition item_key {T} (it : item T) : nat * bool * text :=
  match it with
  | IPoint (PScal s _) | IPoint (PScalV s _) => (1, false, s)
  | IPoint (PVec s _) => (1, true, s)
  | ICell s _ => (2, false, s)
  end.

(** no keyword of the format occurs in the symbol *)
Definition keyword_free (s : text) : Prop :=
  forall k, In k ["POINT_DATA"; "CELL_DATA"; "SCALARS"; "VECTORS"]%string -> contains (txt k) s = false.

(** * CSV files *)
Fixpoint comma (fs : list text) : text :=
  match fs with
  | [] => []
  | [f] => f
  | f :: fs' => f ++ c_comma :: comma fs'
  end.
Definition is_field (f : text) : Prop := f <> [] /\ nows f /\ ~ In c_comma f.

(** rows of comma separated fields, each row ended by white space (a line end, also
    with carriage return or empty lines), the last one possibly by the end of the file *)
Inductive layout : list (list text) -> text -> Prop :=
| lay_nil : layout [] []
| lay_ws c rows t : ws c = true -> layout rows t -> layout rows (c :: t)
| lay_row fs c rows t : fs <> [] -> Forall is_field fs -> ws c = true -> layout rows t ->
    layout (fs :: rows) (comma fs ++ c :: t)
| lay_last fs : fs <> [] -> Forall is_field fs -> layout [fs] (comma fs).

(** decimal numerals *)
Fixpoint dec_val (t : text) : Z :=
  match t with [] => 0 | c :: t' => Z.of_nat (digit_val c) * 10 ^ Z.of_nat (List.length t') + dec_val t' end.
Definition numeral (f : text) (z : Z) : Prop :=
  exists ds, ds <> [] /\ (forall c, In c ds -> digit c = true) /\
    ((f = ds /\ z = dec_val ds) \/ (f = "-"%char :: ds /\ z = - dec_val ds)%Z).

(** a row of values, "free" standing for none *)
Definition value_fields {T} (F : numfmt T) (fs : list text) (vs : list (option T)) : Prop :=
  Forall2 (fun f ov => match ov with
                       | None => f = txt "free"
                       | Some v => f <> txt "free" /\ readT F f = Some v
                       end) fs vs.
(** the conditions a row stands for: node, component, value *)
Fixpoint conditions {T} (idn : Z) (i : nat) (vs : list (option T)) : list ((Z * nat) * T) :=
  match vs with
  | [] => []
  | Some v :: vs' => ((idn, i), v) :: conditions idn (S i) vs'
  | None :: vs' => conditions idn (S i) vs'
  end.
(** [u] with the given components replaced *)
Fixpoint replace_comps {T} (u : list T) (vs : list (option T)) : list T :=
  match u, vs with
  | x :: u', Some v :: vs' => v :: replace_comps u' vs'
  | x :: u', None :: vs' => x :: replace_comps u' vs'
  | _, _ => u
  end.
