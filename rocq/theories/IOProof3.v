(** The exported file as a list of lines, and the imports on it. *)
From Coq Require Import Ascii String.
From Coq Require Import List Arith ZArith Lia Bool.
From Verif Require Import Res IOModel IOSpec IOProof IOProof2.
Import ListNotations.
Local Open Scope nat_scope.

Definition header_lines : list text :=
  map txt ["# vtk DataFile Version 4.1"; "vtk output"; "ASCII"; "DATASET UNSTRUCTURED_GRID"]%string.

Lemma header_is_lines out : MakeHeadder out = out ++ lines header_lines.
Proof. reflexivity. Qed.

Ltac norm := repeat (rewrite <- app_assoc || (progress cbn [app])).

Section File.
Context {T : Type} (F : numfmt T).

Definition points_title (n : nat) : text := txt "POINTS" ++ c_tab :: show_nat n ++ c_tab :: txt "float".
Definition points_lines (nodes : list (list T)) : list text :=
  [] :: points_title (List.length nodes) :: map (row_line F) nodes.
Lemma points_is_lines nodes out : AddPoints F nodes out = out ++ lines (points_lines nodes).
Proof.
  assert (E : concat (map (row3 F) nodes) = lines (map (row_line F) nodes)).
  { unfold lines; rewrite map_map; f_equal; apply map_ext; intros v; apply row3_line. }
  unfold AddPoints, points_lines, points_title; rewrite !lines_cons, E; norm; reflexivity.
Qed.

Definition cells_title (n d : nat) : text := txt "CELLS" ++ " "%char :: show_nat n ++ c_tab :: show_nat d.
Definition cells_lines (es : list (list Z)) : list text :=
  [] :: cells_title (List.length es) (datanum es) :: map cell_line es.
Lemma cells_is_lines es out : AddElement es out = out ++ lines (cells_lines es).
Proof.
  unfold AddElement, cells_lines, cells_title; rewrite !lines_cons.
  match goal with |- context [concat ?x] => assert (E : concat x = lines (map cell_line es)) end.
  { unfold lines; rewrite map_map; f_equal; apply map_ext; intros e.
    unfold cell_line; norm; reflexivity. }
  rewrite E; change (txt "CELLS " ++ ?r) with (txt "CELLS" ++ " "%char :: r); norm; reflexivity.
Qed.

Definition types_title (n : nat) : text := txt "CELL_TYPES" ++ c_tab :: show_nat n.
Definition types_lines (ts : list Z) : list text := [] :: types_title (List.length ts) :: map show_Z ts.
Lemma types_is_lines ts out : AddElementTypes ts out = out ++ lines (types_lines ts).
Proof.
  assert (E : concat (map (fun z => show_Z z ++ [c_nl]) ts) = lines (map show_Z ts)).
  { unfold lines; now rewrite map_map. }
  unfold AddElementTypes, types_lines, types_title; rewrite !lines_cons, E; norm; reflexivity.
Qed.

Definition data_title (k : text) (n : nat) : text := k ++ c_tab :: show_nat n.
Definition field_title (k s : text) : text := k ++ " "%char :: s ++ txt " float".
Definition item_lines (it : item T) : list text :=
  match it with
  | IPoint (PScal s v) => field_title (txt "SCALARS") s :: txt "LOOKUP_TABLE default" :: map (show F) v
  | IPoint (PScalV s v) => field_title (txt "SCALARS") s :: txt "LOOKUP_TABLE default" :: map (show F) (concat v)
  | IPoint (PVec s v) => field_title (txt "VECTORS") s :: map (row_line F) v
  | ICell s v => field_title (txt "SCALARS") s :: txt "LOOKUP_TABLE default" :: map (show F) v
  end.

(** section headers and fields *)
Inductive rec := RPoints (n : nat) | RCells (n : nat) | RItem (it : item T).
Definition rec_lines (r : rec) : list text :=
  match r with
  | RPoints n => [[]; data_title (txt "POINT_DATA") n]
  | RCells n => [[]; data_title (txt "CELL_DATA") n]
  | RItem it => item_lines it
  end.
Definition recs_lines (l : list rec) : list text := concat (map rec_lines l).
Lemma recs_lines_app a b : recs_lines (a ++ b) = recs_lines a ++ recs_lines b.
Proof. unfold recs_lines; now rewrite map_app, concat_app. Qed.
Lemma recs_lines_cons r b : recs_lines (r :: b) = rec_lines r ++ recs_lines b.
Proof. reflexivity. Qed.

Definition precs (pds : list (pfield T)) : list rec :=
  match pds with [] => [] | d :: _ => RPoints (plen d) :: map (fun d => RItem (IPoint d)) pds end.
Definition crecs (cds : list (text * list T)) : list rec :=
  match cds with [] => [] | (_, v) :: _ => RCells (List.length v) :: map (fun '(s, v) => RItem (ICell s v)) cds end.

Lemma scal_lines s v : scalars_header s ++ concat (map (fun x => show F x ++ [c_nl]) v) =
  lines (field_title (txt "SCALARS") s :: txt "LOOKUP_TABLE default" :: map (show F) v).
Proof.
  assert (E : concat (map (fun x => show F x ++ [c_nl]) v) = lines (map (show F) v)).
  { unfold lines; now rewrite map_map. }
  rewrite !lines_cons, E; unfold scalars_header, field_title.
  change (txt "SCALARS " ++ ?r) with (txt "SCALARS" ++ " "%char :: r); norm; reflexivity.
Qed.

Lemma vec_lines s v : txt "VECTORS " ++ s ++ txt " float" ++ [c_nl] ++ concat (map (row3 F) v) =
  lines (field_title (txt "VECTORS") s :: map (row_line F) v).
Proof.
  assert (E : concat (map (row3 F) v) = lines (map (row_line F) v)).
  { unfold lines; rewrite map_map; f_equal; apply map_ext; intros w; apply row3_line. }
  rewrite !lines_cons, E; unfold field_title.
  change (txt "VECTORS " ++ ?r) with (txt "VECTORS" ++ " "%char :: r); norm; reflexivity.
Qed.

Lemma concat_scal v : concat (map (fun v => concat (map (fun x => show F x ++ [c_nl]) v)) v) =
  concat (map (fun x => show F x ++ [c_nl]) (concat v)).
Proof.
  induction v as [|a v IH]; cbn [map concat]; [reflexivity|].
  now rewrite map_app, concat_app, IH.
Qed.

Lemma pfield_is_lines b d out : add_pfield F b d out =
  out ++ lines ((if b then rec_lines (RPoints (plen d)) else []) ++ item_lines (IPoint d)).
Proof.
  rewrite lines_app.
  assert (Hh : forall A (v : list A), List.length v = plen d ->
     point_header b v = lines (if b then rec_lines (RPoints (plen d)) else [])).
  { intros A v <-; unfold point_header; destruct b; [|reflexivity].
    cbn [rec_lines]; rewrite !lines_cons; unfold data_title; rewrite <- !app_assoc; reflexivity. }
  destruct d as [s v|s v|s v]; cbn [add_pfield item_lines plen] in *;
    [unfold AddPointScalers|unfold AddPointScalersV|unfold AddPointVectors]; f_equal;
    rewrite (Hh _ v eq_refl); f_equal.
  - apply scal_lines.
  - rewrite concat_scal; apply scal_lines.
  - apply vec_lines.
Qed.

Lemma pfields_is_lines ds : forall out, add_pfields F false ds out =
  out ++ lines (recs_lines (map (fun d => RItem (IPoint d)) ds)).
Proof.
  induction ds as [|d ds IH]; intros out; cbn [add_pfields map].
  - now rewrite app_nil_r.
  - rewrite IH, pfield_is_lines, recs_lines_cons, !lines_app; norm; reflexivity.
Qed.

Lemma precs_is_lines ds out : add_pfields F true ds out = out ++ lines (recs_lines (precs ds)).
Proof.
  destruct ds as [|d ds]; cbn [add_pfields precs map].
  - now rewrite app_nil_r.
  - rewrite pfields_is_lines, pfield_is_lines, !recs_lines_cons, !lines_app; norm; reflexivity.
Qed.

Lemma cfield_is_lines b s v out : AddElementScalers F v s b out =
  out ++ lines ((if b then rec_lines (RCells (List.length v)) else []) ++ item_lines (ICell s v)).
Proof.
  rewrite lines_app; unfold AddElementScalers; f_equal; cbn [item_lines]; rewrite <- scal_lines; f_equal.
  destruct b; [|reflexivity].
  cbn [rec_lines]; rewrite !lines_cons; unfold data_title; rewrite <- !app_assoc; reflexivity.
Qed.

Lemma cfields_is_lines ds : forall out, add_cfields F false ds out =
  out ++ lines (recs_lines (map (fun '(s, v) => RItem (ICell s v)) ds)).
Proof.
  induction ds as [|[s v] ds IH]; intros out; cbn [add_cfields map].
  - now rewrite app_nil_r.
  - rewrite IH, cfield_is_lines, recs_lines_cons, !lines_app; norm; reflexivity.
Qed.

Lemma crecs_is_lines ds out : add_cfields F true ds out = out ++ lines (recs_lines (crecs ds)).
Proof.
  destruct ds as [|[s v] ds]; cbn [add_cfields crecs map].
  - now rewrite app_nil_r.
  - rewrite cfields_is_lines, cfield_is_lines, !recs_lines_cons, !lines_app; norm; reflexivity.
Qed.

Lemma file_is_lines nodes es ts pds cds : export_file F nodes es ts pds cds =
  lines header_lines ++ lines (points_lines nodes) ++ lines (cells_lines es) ++ lines (types_lines ts)
  ++ lines (recs_lines (precs pds ++ crecs cds)).
Proof.
  unfold export_file.
  rewrite crecs_is_lines, precs_is_lines, types_is_lines, cells_is_lines, points_is_lines, header_is_lines.
  rewrite recs_lines_app, lines_app, <- !app_assoc; reflexivity.
Qed.

(** * Keywords in lines *)
Definition kw (k : string) : Prop :=
  In k ["POINT_DATA"; "CELL_DATA"; "POINTS"; "CELLS"; "SCALARS"; "VECTORS"]%string.

Lemma kw_noupper k t : kw k -> noupper t -> contains (txt k) t = false.
Proof.
  intros H Ht; cbn in H.
  destruct H as [<-|[<-|[<-|[<-|[<-|[<-|[]]]]]]]; now apply contains_noupper.
Qed.

Lemma kw_sep k s : kw k -> ws s = true -> ~ In s (txt k).
Proof.
  intros H Hs Hin; assert (Hn : nows (txt k)).
  { cbn in H; destruct H as [<-|[<-|[<-|[<-|[<-|[<-|[]]]]]]]; now apply nowsb_spec. }
  apply Hn in Hin; congruence.
Qed.

Lemma kw_ne k : kw k -> txt k <> [].
Proof. intros H; cbn in H; destruct H as [<-|[<-|[<-|[<-|[<-|[<-|[]]]]]]]; discriminate. Qed.

Lemma kw_title k a c b : kw k -> ws c = true -> contains (txt k) (a ++ c :: b) = contains (txt k) a || contains (txt k) b.
Proof. intros; apply contains_sep; auto using kw_sep, kw_ne. Qed.

Lemma kw_title_nat k a c n : kw k -> ws c = true -> contains (txt k) (a ++ c :: show_nat n) = contains (txt k) a.
Proof.
  intros; rewrite kw_title by assumption.
  rewrite (kw_noupper k (show_nat n)) by (auto using show_nat_noupper); apply orb_false_r.
Qed.

Lemma noupper_float : noupper (txt "float").
Proof. intros c Hc; cbn in Hc; repeat destruct Hc as [<-|Hc]; try reflexivity; contradiction. Qed.

Lemma kw_field k t s : kw k -> contains (txt k) (field_title t s) = contains (txt k) t || contains (txt k) s.
Proof.
  intros H; unfold field_title; rewrite kw_title by (auto; reflexivity).
  change (s ++ txt " float") with (s ++ " "%char :: txt "float").
  rewrite kw_title by (auto; reflexivity).
  rewrite (kw_noupper k (txt "float")) by (auto using noupper_float); now rewrite orb_false_r.
Qed.

Lemma kw_points k n : kw k -> contains (txt k) (points_title n) = contains (txt k) (txt "POINTS").
Proof.
  intros H; unfold points_title; rewrite !kw_title by (auto; reflexivity).
  rewrite (kw_noupper k (txt "float")) by (auto using noupper_float).
  rewrite (kw_noupper k (show_nat n)) by (auto using show_nat_noupper); now rewrite orb_false_r.
Qed.

Lemma kw_cells k n d : kw k -> contains (txt k) (cells_title n d) = contains (txt k) (txt "CELLS").
Proof.
  intros H; unfold cells_title; rewrite !kw_title by (auto; reflexivity).
  rewrite (kw_noupper k (show_nat d)) by (auto using show_nat_noupper).
  rewrite (kw_noupper k (show_nat n)) by (auto using show_nat_noupper); now rewrite orb_false_r.
Qed.

(** * No line contains a line end *)
Lemma nonl_app a b : nonl a -> nonl b -> nonl (a ++ b).
Proof. intros Ha Hb H; apply in_app_iff in H as [H|H]; auto. Qed.
Lemma nonl_cons c a : c <> c_nl -> nonl a -> nonl (c :: a).
Proof. intros Hc Ha [H|H]; auto. Qed.
Lemma nonl_nat n : nonl (show_nat n).
Proof. apply nows_nonl, show_nat_nows. Qed.
Lemma nonl_nil : nonl [].
Proof. intros []. Qed.
Lemma nonl_txtb t : nowsb t = true -> nonl t.
Proof. intros H; apply nows_nonl; now apply nowsb_spec. Qed.

Lemma nonl_points n : nonl (points_title n).
Proof.
  unfold points_title; apply nonl_app; [now apply nonl_txtb|]; apply nonl_cons; [discriminate|].
  apply nonl_app; [apply nonl_nat|]; apply nonl_cons; [discriminate|now apply nonl_txtb].
Qed.
Lemma nonl_cells n d : nonl (cells_title n d).
Proof.
  unfold cells_title; apply nonl_app; [now apply nonl_txtb|]; apply nonl_cons; [discriminate|].
  apply nonl_app; [apply nonl_nat|]; apply nonl_cons; [discriminate|apply nonl_nat].
Qed.
Lemma nonl_data k n : nowsb k = true -> nonl (data_title k n).
Proof.
  intros H; unfold data_title; apply nonl_app; [now apply nonl_txtb|]; apply nonl_cons; [discriminate|apply nonl_nat].
Qed.
Lemma nonl_field k s : nowsb k = true -> nows s -> nonl (field_title k s).
Proof.
  intros H Hs; unfold field_title; apply nonl_app; [now apply nonl_txtb|]; apply nonl_cons; [discriminate|].
  apply nonl_app; [now apply nows_nonl|].
  change (txt " float") with (" "%char :: txt "float"); apply nonl_cons; [discriminate|now apply nonl_txtb].
Qed.
Lemma nonl_lookup : nonl (txt "LOOKUP_TABLE default").
Proof. intros H; cbn in H; repeat destruct H as [H|H]; discriminate || contradiction. Qed.
End File.
