(** The VTK imports on an exported file. *)
From Coq Require Import Ascii String.
From Coq Require Import List Arith ZArith Lia Bool.
From Verif Require Import Res IOModel IOSpec IOProof IOProof2 IOProof3.
Import ListNotations.
Local Open Scope nat_scope.

Section Import.
Context {T : Type} (F : numfmt T).

Lemma kw_PD : kw "POINT_DATA". Proof. cbn; auto 10. Qed.
Lemma kw_CD : kw "CELL_DATA". Proof. cbn; auto 10. Qed.
Lemma kw_P : kw "POINTS". Proof. cbn; auto 10. Qed.
Lemma kw_C : kw "CELLS". Proof. cbn; auto 10. Qed.
Lemma kw_S : kw "SCALARS". Proof. cbn; auto 10. Qed.
Lemma kw_V : kw "VECTORS". Proof. cbn; auto 10. Qed.

Lemma passed_low {A} (hit : importer -> text -> option (res (list A * importer))) m l :
  nonl l -> noupper l -> (forall t, hit (pos t m) l = None) -> passed hit m l.
Proof.
  intros H1 H2 H3; unfold passed; split; [assumption|].
  split; [now apply (kw_noupper "POINT_DATA" l kw_PD)|].
  split; [now apply (kw_noupper "CELL_DATA" l kw_CD)|assumption].
Qed.

Lemma noupper_nil : noupper [].
Proof. intros c []. Qed.

(** * Points and cells *)
Definition hit_points : importer -> text -> option (res (list (list T) * importer)) := fun m l =>
    if contains (txt "POINTS") l then Some (
      let m := mkimp (im_file m) (im_ifs m) (im_dim m) (im_mode m) (keyword_int l (im_points m)) (im_cells m) in
      n <- size_of (im_points m) ;;
      per_line (fun l => Ok (read_comps F (im_dim m) (open_text l))) n m l)
    else None.
Definition hit_cells : importer -> text -> option (res (list (list Z) * importer)) := fun m l =>
    if contains (txt "CELLS") l then Some (
      let m := mkimp (im_file m) (im_ifs m) (im_dim m) (im_mode m) (im_points m) (keyword_int l (im_cells m)) in
      n <- size_of (im_cells m) ;;
      per_line (fun l => let '(k, s) := get_int (open_text l) None in
                         k <- used k ;; k <- size_of k ;; Ok (read_ids k s)) n m l)
    else None.

Definition with_points (n : nat) (m : importer) : importer :=
  mkimp (im_file m) (im_ifs m) (im_dim m) (im_mode m) (Z.of_nat n) (im_cells m).
Definition with_cells (n : nat) (m : importer) : importer :=
  mkimp (im_file m) (im_ifs m) (im_dim m) (im_mode m) (im_points m) (Z.of_nat n).

Lemma header_passed {A} (hit : importer -> text -> option (res (list A * importer))) m :
  (forall t l, In l header_lines -> hit (pos t m) l = None) -> Forall (passed hit m) header_lines.
Proof.
  intros H; apply Forall_forall; intros l Hl; unfold passed; split; [|split; [|split]].
  - cbn in Hl; intros Hin; repeat destruct Hl as [<-|Hl]; try contradiction;
      cbn in Hin; repeat destruct Hin as [Hin|Hin]; try discriminate; contradiction.
  - cbn in Hl; repeat destruct Hl as [<-|Hl]; try contradiction; reflexivity.
  - cbn in Hl; repeat destruct Hl as [<-|Hl]; try contradiction; reflexivity.
  - intros t; now apply H.
Qed.

Lemma size_of_nat n : size_of (Z.of_nat n) = Ok n.
Proof. unfold size_of; destruct (Z.ltb_spec (Z.of_nat n) 0); [lia|]; now rewrite Nat2Z.id. Qed.

Lemma import_points_at nodes r m f old : survives F (tzero F) ->
  (forall v x, In v nodes -> In x v -> survives F x) -> im_dim m <= 3 ->
  List.length (lines header_lines ++ lines (points_lines F nodes) ++ r) < f ->
  scan hit_points f (pos (lines header_lines ++ lines (points_lines F nodes) ++ r) m) old =
  Ok (map (fun v => firstn (im_dim m) (pad3 F v)) nodes, pos r (with_points (List.length nodes) m)).
Proof.
  intros Hz Hv Hd Hf; unfold points_lines in *; rewrite lines_cons in *.
  change ([] ++ c_nl :: ?x) with (lines [[]] ++ x) in *.
  rewrite <- (app_assoc (lines [[]])) in *; rewrite (app_assoc (lines header_lines)), <- lines_app in *.
  destruct (scan_skip hit_points (header_lines ++ [[]])
     (lines (points_title (List.length nodes) :: map (row_line F) nodes) ++ r) m f old) as (f' & old' & E & Hf').
  - apply Forall_app; split.
    + apply header_passed; intros t l Hl; unfold hit_points.
      cbn in Hl; repeat destruct Hl as [<-|Hl]; try contradiction; reflexivity.
    + constructor; [|constructor]; apply passed_low; [apply nonl_nil|apply noupper_nil|reflexivity].
  - exact Hf.
  - rewrite E, lines_cons, <- app_assoc; cbn [app].
    eapply scan_hit; [apply nonl_points|rewrite kw_points by apply kw_PD; reflexivity
      |rewrite kw_points by apply kw_CD; reflexivity| |lia].
    unfold hit_points; rewrite kw_points by apply kw_P.
    change (contains (txt "POINTS") (txt "POINTS")) with true; cbv iota; f_equal.
    assert (K : keyword_int (points_title (List.length nodes)) (im_points m) = Z.of_nat (List.length nodes)).
    { unfold points_title; apply keyword_int_line; [discriminate|now apply nowsb_spec|reflexivity|reflexivity]. }
    match goal with |- bind (size_of (im_points ?mm)) _ = _ => assert (Em : mm =
      pos (lines (map (row_line F) nodes) ++ r) (with_points (List.length nodes) m)) end.
    { unfold pos, with_points, set_ifs; cbn [im_file im_ifs im_dim im_mode im_points im_cells]; now rewrite K. }
    rewrite Em; cbn [im_points im_dim pos set_ifs with_points]; rewrite size_of_nat; cbn [bind].
    rewrite <- (map_length (row_line F) nodes) at 1.
    fold (with_points (List.length nodes) m).
    change (mkimp _ _ _ _ _ _) with (pos (lines (map (row_line F) nodes) ++ r) (with_points (List.length nodes) m)).
    apply per_line_lines.
    + apply Forall_forall; intros l Hl; apply in_map_iff in Hl as (v & <- & Hin).
      apply row_line_nonl; eauto.
    + clear -Hz Hv Hd; induction nodes as [|v nodes IH]; cbn [map]; constructor.
      * f_equal; apply read_row; [exact Hd|assumption|intros x Hx; apply (Hv v x); [now left|assumption]].
      * apply IH; intros w x Hw Hx; apply (Hv w x); [now right|assumption].
Qed.

Lemma import_cells_at es r m f old :
  List.length (lines (cells_lines es) ++ r) < f ->
  scan hit_cells f (pos (lines (cells_lines es) ++ r) m) old =
  Ok (es, pos r (with_cells (List.length es) m)).
Proof.
  intros Hf; unfold cells_lines in *; rewrite lines_cons in *.
  change ([] ++ c_nl :: ?x) with (lines [[]] ++ x) in *.
  rewrite <- (app_assoc (lines [[]])) in *.
  destruct (scan_skip hit_cells [[]]
     (lines (cells_title (List.length es) (datanum es) :: map cell_line es) ++ r) m f old) as (f' & old' & E & Hf').
  - constructor; [|constructor]; apply passed_low; [apply nonl_nil|apply noupper_nil|reflexivity].
  - exact Hf.
  - rewrite E, lines_cons, <- app_assoc; cbn [app].
    eapply scan_hit; [apply nonl_cells|rewrite kw_cells by apply kw_PD; reflexivity
      |rewrite kw_cells by apply kw_CD; reflexivity| |lia].
    unfold hit_cells; rewrite kw_cells by apply kw_C.
    change (contains (txt "CELLS") (txt "CELLS")) with true; cbv iota; f_equal.
    assert (K : keyword_int (cells_title (List.length es) (datanum es)) (im_cells m) = Z.of_nat (List.length es)).
    { unfold cells_title; apply keyword_int_line; [discriminate|now apply nowsb_spec|reflexivity|reflexivity]. }
    match goal with |- bind (size_of (im_cells ?mm)) _ = _ => assert (Em : mm =
      pos (lines (map cell_line es) ++ r) (with_cells (List.length es) m)) end.
    { unfold pos, with_cells, set_ifs; cbn [im_file im_ifs im_dim im_mode im_points im_cells]; now rewrite K. }
    rewrite Em; cbn [im_cells pos set_ifs with_cells]; rewrite size_of_nat; cbn [bind].
    rewrite <- (map_length cell_line es) at 1.
    fold (with_cells (List.length es) m).
    change (mkimp _ _ _ _ _ _) with (pos (lines (map cell_line es) ++ r) (with_cells (List.length es) m)).
    apply per_line_lines.
    + apply Forall_forall; intros l Hl; apply in_map_iff in Hl as (v & <- & Hin); apply cell_line_nonl.
    + clear; induction es as [|v es IH]; cbn [map]; constructor; [apply read_cell|exact IH].
Qed.

(** * Fields *)
Definition hit_vectors (mode : nat) (keyword : text) : importer -> text -> option (res (list (list T) * importer)) :=
  fun m l =>
    if (im_mode m =? mode) && contains (txt "VECTORS") l then
      if text_eqb (second_word l) keyword then Some (
        n <- size_of (if mode =? 1 then im_points m else im_cells m) ;;
        per_line (fun l => Ok (read_comps F (im_dim m) (open_text l))) n m (second_word l))
      else None
    else None.
Definition hit_scalars (mode : nat) (keyword : text) : importer -> text -> option (res (list T * importer)) :=
  fun m l =>
    if (im_mode m =? mode) && contains (txt "SCALARS") l then
      if text_eqb (second_word l) keyword then Some (
        n <- size_of (if mode =? 1 then im_points m else im_cells m) ;;
        let '(l, m) := next_line m (second_word l) in
        per_line (fun l => let '(v, _) := get_T F (open_text l) (Some (tzero F)) in used v) n m l)
      else None
    else None.

Definition item_sym (it : item T) : text := snd (item_key it).
Definition item_mode (it : item T) : nat := fst (fst (item_key it)).
Definition item_len (it : item T) : nat :=
  match it with IPoint d => plen d | ICell _ v => List.length v end.
Definition item_values (it : item T) : list T :=
  match it with IPoint d => pvalues d | ICell _ v => v end.
Definition item_good (it : item T) : Prop :=
  is_symbol (item_sym it) /\ keyword_free (item_sym it) /\ (forall x, In x (item_values it) -> survives F x) /\
  match it with IPoint (PScalV _ v) => forall r, In r v -> List.length r = 1 | _ => True end.

Definition after (m : importer) (r : rec (T := T)) : importer :=
  match r with
  | RPoints n => set_points (Z.of_nat n) m
  | RCells n => set_cells (Z.of_nat n) m
  | RItem _ => m
  end.
Fixpoint wf (m : importer) (l : list (rec (T := T))) : Prop :=
  match l with
  | [] => True
  | r :: t =>
      match r with
      | RItem it => item_good it /\ im_mode m = item_mode it /\
          (if item_mode it =? 1 then im_points m else im_cells m) = Z.of_nat (item_len it)
      | _ => True
      end /\ wf (after m r) t
  end.

Lemma wf_app l1 : forall m l2, wf m (l1 ++ l2) <-> wf m l1 /\ wf (fold_left after l1 m) l2.
Proof.
  induction l1 as [|r l1 IH]; intros m l2; cbn [app wf fold_left]; [tauto|].
  rewrite IH; tauto.
Qed.

Lemma kfree k s : keyword_free s -> In k ["POINT_DATA"; "CELL_DATA"; "SCALARS"; "VECTORS"]%string ->
  contains (txt k) s = false.
Proof. intros H Hk; now apply H. Qed.

Lemma second_title k s : k <> [] -> nowsb k = true -> is_symbol s -> second_word (field_title k s) = s.
Proof.
  intros Hk Hn [H1 H2]; unfold field_title.
  change (s ++ txt " float") with (s ++ " "%char :: txt "float").
  apply second_word_line; auto; [now apply nowsb_spec|reflexivity].
Qed.

Lemma noupper_survives x : survives F x -> noupper (show F x).
Proof. intros H; apply H. Qed.
Lemma nonl_survives x : survives F x -> nonl (show F x).
Proof. intros H; apply nows_nonl, H. Qed.

(** lines between the titles *)
Lemma value_passed {A} (hit : importer -> text -> option (res (list A * importer))) m l :
  nonl l -> noupper l -> (noupper l -> forall t, hit (pos t m) l = None) -> passed hit m l.
Proof. intros; apply passed_low; auto. Qed.

Lemma lookup_passed {A} (hit : importer -> text -> option (res (list A * importer))) m :
  (forall t, hit (pos t m) (txt "LOOKUP_TABLE default") = None) -> passed hit m (txt "LOOKUP_TABLE default").
Proof.
  intros H; unfold passed; split; [apply nonl_lookup|]; split; [reflexivity|]; split; [reflexivity|assumption].
Qed.

Lemma title_passed {A} (hit : importer -> text -> option (res (list A * importer))) m k s :
  In k ["SCALARS"; "VECTORS"]%string -> is_symbol s -> keyword_free s ->
  (forall t, hit (pos t m) (field_title (txt k) s) = None) -> passed hit m (field_title (txt k) s).
Proof.
  intros Hk Hs Hf H; unfold passed; split; [|split; [|split]].
  - apply nonl_field; [|apply Hs].
    cbn in Hk; destruct Hk as [<-|[<-|[]]]; reflexivity.
  - rewrite kw_field by apply kw_PD; rewrite (kfree "POINT_DATA" s Hf) by (cbn; auto).
    cbn in Hk; destruct Hk as [<-|[<-|[]]]; reflexivity.
  - rewrite kw_field by apply kw_CD; rewrite (kfree "CELL_DATA" s Hf) by (cbn; auto).
    cbn in Hk; destruct Hk as [<-|[<-|[]]]; reflexivity.
  - assumption.
Qed.

Section Hits.
Context {A : Type} (hit : importer -> text -> option (res (list A * importer))) (key : nat * bool * text).
Hypothesis Hlow : forall m l, noupper l -> hit m l = None.
Hypothesis Hlook : forall m, hit m (txt "LOOKUP_TABLE default") = None.
Hypothesis Htitle : forall m k s, In k ["SCALARS"; "VECTORS"]%string -> is_symbol s -> keyword_free s ->
  (im_mode m, (if string_dec k "VECTORS" then true else false), s) <> key -> hit m (field_title (txt k) s) = None.

Lemma item_passed it m : item_good it -> im_mode m = item_mode it -> item_key it <> key ->
  survives F (tzero F) -> Forall (passed hit m) (item_lines F it).
Proof.
  intros (Hs & Hk & Hv & _) Hm Hne Hz.
  assert (Hlines : forall vs, (forall x, In x vs -> survives F x) -> Forall (passed hit m) (map (show F) vs)).
  { intros vs H; apply Forall_forall; intros l Hl; apply in_map_iff in Hl as (x & <- & Hx).
    apply value_passed; [now apply nonl_survives, H|now apply noupper_survives, H|]; intros Hn t; now apply Hlow. }
  assert (Hscal : forall s vs, item_sym it = s -> (forall x, In x vs -> survives F x) ->
    item_key it = (item_mode it, false, s) ->
    Forall (passed hit m) (field_title (txt "SCALARS") s :: txt "LOOKUP_TABLE default" :: map (show F) vs)).
  { intros s vs <- H HK; constructor; [|constructor; [|now apply Hlines]].
    - apply title_passed; [cbn; auto|assumption|assumption|].
      intros t; apply Htitle; [cbn; auto|assumption|assumption|].
      cbn [pos set_ifs im_mode]; rewrite Hm; destruct (string_dec "SCALARS" "VECTORS") as [Hc|_]; [discriminate|].
      now rewrite <- HK.
    - apply lookup_passed; intros t; apply Hlook. }
  destruct it as [[s v|s v|s v]|s v]; cbn [item_lines].
  - apply Hscal; auto.
  - apply Hscal; auto.
  - constructor.
    + apply title_passed; [cbn; auto|assumption|assumption|].
      intros t; apply Htitle; [cbn; auto|assumption|assumption|].
      cbn [pos set_ifs im_mode]; rewrite Hm; destruct (string_dec "VECTORS" "VECTORS") as [_|Hc]; [|congruence].
      exact Hne.
    + apply Forall_forall; intros l Hl; apply in_map_iff in Hl as (r & <- & Hr).
      assert (Hvr : forall x, In x r -> survives F x).
      { intros x Hx; apply Hv; cbn [item_values pvalues]; apply in_concat; eauto. }
      apply value_passed; [now apply row_line_nonl|now apply row_line_noupper|]; intros Hn t; now apply Hlow.
  - apply Hscal; auto.
Qed.

Lemma data_title_int k n x : k <> [] -> nowsb k = true -> keyword_int (data_title k n) x = Z.of_nat n.
Proof.
  intros Hk Hn; unfold data_title; rewrite <- (app_nil_r (show_nat n)).
  apply keyword_int_line; [assumption|now apply nowsb_spec|reflexivity|exact I].
Qed.

Lemma head_split t x : lines [[]; t] ++ x = lines [[]] ++ t ++ c_nl :: x.
Proof. unfold lines; cbn [map concat app]; rewrite app_nil_r, <- app_assoc; reflexivity. Qed.

Lemma scan_recs l : survives F (tzero F) -> forall m f old r,
  wf m l -> (forall it, In (RItem it) l -> item_key it <> key) ->
  List.length (lines (recs_lines F l) ++ r) < f ->
  exists f' old', scan hit f (pos (lines (recs_lines F l) ++ r) m) old =
    scan hit f' (pos r (fold_left after l m)) old' /\ List.length r < f'.
Proof.
  intros Hz; induction l as [|a l IH]; intros m f old r Hwf Hne Hf.
  - exists f, old; split; [reflexivity|exact Hf].
  - rewrite recs_lines_cons, lines_app, <- app_assoc in *; cbn [wf] in Hwf; destruct Hwf as [Ha Hwf].
    assert (Hne' : forall it, In (RItem it) l -> item_key it <> key) by (intros it Hit; apply Hne; now right).
    cbn [fold_left].
    destruct a as [n|n|it]; cbn [rec_lines after] in *.
    + rewrite head_split in *.
      destruct (scan_skip hit [[]] (data_title (txt "POINT_DATA") n ++ c_nl :: lines (recs_lines F l) ++ r) m f old)
        as (f1 & o1 & E1 & H1).
      { constructor; [|constructor]; apply passed_low; [apply nonl_nil|apply noupper_nil|].
        intros t; apply Hlow, noupper_nil. }
      { exact Hf. }
      destruct (scan_points hit (data_title (txt "POINT_DATA") n) (lines (recs_lines F l) ++ r) m f1 o1)
        as (f2 & o2 & E2 & H2).
      { now apply nonl_data. }
      { unfold data_title; rewrite kw_title_nat by (apply kw_PD || reflexivity); reflexivity. }
      { exact H1. }
      rewrite data_title_int in E2 by (discriminate || reflexivity).
      destruct (IH (set_points (Z.of_nat n) m) f2 o2 r Hwf Hne' H2) as (f3 & o3 & E3 & H3).
      exists f3, o3; split; [|assumption].
      rewrite E1, E2; exact E3.
    + rewrite head_split in *.
      destruct (scan_skip hit [[]] (data_title (txt "CELL_DATA") n ++ c_nl :: lines (recs_lines F l) ++ r) m f old)
        as (f1 & o1 & E1 & H1).
      { constructor; [|constructor]; apply passed_low; [apply nonl_nil|apply noupper_nil|].
        intros t; apply Hlow, noupper_nil. }
      { exact Hf. }
      destruct (scan_cells hit (data_title (txt "CELL_DATA") n) (lines (recs_lines F l) ++ r) m f1 o1)
        as (f2 & o2 & E2 & H2).
      { now apply nonl_data. }
      { unfold data_title; rewrite kw_title_nat by (apply kw_PD || reflexivity); reflexivity. }
      { unfold data_title; rewrite kw_title_nat by (apply kw_CD || reflexivity); reflexivity. }
      { exact H1. }
      rewrite data_title_int in E2 by (discriminate || reflexivity).
      destruct (IH (set_cells (Z.of_nat n) m) f2 o2 r Hwf Hne' H2) as (f3 & o3 & E3 & H3).
      exists f3, o3; split; [|assumption].
      rewrite E1, E2; exact E3.
    + destruct Ha as (Hg & Hm & Hl).
      destruct (scan_skip hit (item_lines F it) (lines (recs_lines F l) ++ r) m f old) as (f1 & o1 & E1 & H1).
      { apply item_passed; auto; apply Hne; now left. }
      { exact Hf. }
      destruct (IH m f1 o1 r Hwf Hne' H1) as (f2 & o2 & E2 & H2).
      exists f2, o2; split; [|assumption]; rewrite E1; exact E2.
Qed.
End Hits.

Lemma hits_low_s mode kwd m l : noupper l -> hit_scalars mode kwd m l = None.
Proof. intros H; unfold hit_scalars; rewrite (kw_noupper "SCALARS" l kw_S H), andb_false_r; reflexivity. Qed.
Lemma hits_low_v mode kwd m l : noupper l -> hit_vectors mode kwd m l = None.
Proof. intros H; unfold hit_vectors; rewrite (kw_noupper "VECTORS" l kw_V H), andb_false_r; reflexivity. Qed.
Lemma hits_look_s mode kwd m : hit_scalars mode kwd m (txt "LOOKUP_TABLE default") = None.
Proof.
  unfold hit_scalars; change (contains (txt "SCALARS") (txt "LOOKUP_TABLE default")) with false.
  now rewrite andb_false_r.
Qed.
Lemma hits_look_v mode kwd m : hit_vectors mode kwd m (txt "LOOKUP_TABLE default") = None.
Proof.
  unfold hit_vectors; change (contains (txt "VECTORS") (txt "LOOKUP_TABLE default")) with false.
  now rewrite andb_false_r.
Qed.
Lemma hits_title_s mode kwd m k s : In k ["SCALARS"; "VECTORS"]%string -> is_symbol s -> keyword_free s ->
  (im_mode m, (if string_dec k "VECTORS" then true else false), s) <> (mode, false, kwd) ->
  hit_scalars mode kwd m (field_title (txt k) s) = None.
Proof.
  intros Hk Hs Hf Hne; unfold hit_scalars; rewrite kw_field by apply kw_S.
  rewrite (kfree "SCALARS" s Hf) by (cbn; auto).
  cbn in Hk; destruct Hk as [<-|[<-|[]]].
  - destruct (Nat.eqb_spec (im_mode m) mode) as [Hm|_]; [|reflexivity]; rewrite Hm in Hne.
    change (contains (txt "SCALARS") (txt "SCALARS")) with true; cbn [andb orb].
    rewrite second_title by (auto; discriminate).
    rewrite text_eqb_neq; [reflexivity|]; intros ->; apply Hne; reflexivity.
  - change (contains (txt "SCALARS") (txt "VECTORS")) with false; cbn [orb]; now rewrite andb_false_r.
Qed.
Lemma hits_title_v mode kwd m k s : In k ["SCALARS"; "VECTORS"]%string -> is_symbol s -> keyword_free s ->
  (im_mode m, (if string_dec k "VECTORS" then true else false), s) <> (mode, true, kwd) ->
  hit_vectors mode kwd m (field_title (txt k) s) = None.
Proof.
  intros Hk Hs Hf Hne; unfold hit_vectors; rewrite kw_field by apply kw_V.
  rewrite (kfree "VECTORS" s Hf) by (cbn; auto).
  cbn in Hk; destruct Hk as [<-|[<-|[]]].
  - change (contains (txt "VECTORS") (txt "SCALARS")) with false; cbn [orb]; now rewrite andb_false_r.
  - destruct (Nat.eqb_spec (im_mode m) mode) as [Hm|_]; [|reflexivity]; rewrite Hm in Hne.
    change (contains (txt "VECTORS") (txt "VECTORS")) with true; cbn [andb orb].
    rewrite second_title by (auto; discriminate).
    rewrite text_eqb_neq; [reflexivity|]; intros ->; apply Hne; reflexivity.
Qed.

(** the title that is asked for *)
Lemma title_data k s : In k ["SCALARS"; "VECTORS"]%string -> is_symbol s -> keyword_free s ->
  nonl (field_title (txt k) s) /\ contains (txt "POINT_DATA") (field_title (txt k) s) = false /\
  contains (txt "CELL_DATA") (field_title (txt k) s) = false.
Proof.
  intros Hk Hs Hf.
  destruct (title_passed (A := unit) (fun _ _ => None) (mkimp [] (good []) 0 0 0 0) k s Hk Hs Hf (fun _ => eq_refl))
    as (H1 & H2 & H3 & _); auto.
Qed.

Lemma scan_scalars mode s vs r m f old : is_symbol s -> keyword_free s ->
  (forall x, In x vs -> survives F x) -> im_mode m = mode ->
  (if mode =? 1 then im_points m else im_cells m) = Z.of_nat (List.length vs) -> 0 < f ->
  scan (hit_scalars mode s) f
    (pos (lines (field_title (txt "SCALARS") s :: txt "LOOKUP_TABLE default" :: map (show F) vs) ++ r) m) old =
  Ok (vs, pos r m).
Proof.
  intros Hs Hk Hv Hm Hl Hf; rewrite !lines_cons; rewrite <- app_assoc; cbn [app]; rewrite <- app_assoc; cbn [app].
  destruct (title_data "SCALARS" s ltac:(cbn; auto) Hs Hk) as (N1 & N2 & N3).
  eapply scan_hit; [exact N1|exact N2|exact N3| |assumption].
  unfold hit_scalars; rewrite kw_field by apply kw_S.
  change (contains (txt "SCALARS") (txt "SCALARS")) with true.
  change (im_mode (pos ?t m)) with (im_mode m); rewrite Hm, Nat.eqb_refl; cbn [andb orb].
  rewrite second_title by (auto; discriminate); rewrite text_eqb_refl; f_equal.
  change (im_points (pos ?t m)) with (im_points m); change (im_cells (pos ?t m)) with (im_cells m).
  rewrite Hl, size_of_nat; cbn [bind].
  rewrite next_line_line by apply nonl_lookup.
  rewrite <- (map_length (show F) vs) at 1.
  rewrite per_line_lines with (xs := vs).
  - reflexivity.
  - apply Forall_forall; intros l Hl'; apply in_map_iff in Hl' as (x & <- & Hx); now apply nonl_survives, Hv.
  - clear -Hv; induction vs as [|x vs IH]; cbn [map]; constructor.
    + pose proof (read_scalar F x (tzero F) (Hv x (or_introl eq_refl))) as E.
      destruct (get_T F (open_text (show F x)) (Some (tzero F))) as [v s']; cbn [fst] in E; rewrite E; reflexivity.
    + apply IH; intros y Hy; apply Hv; now right.
Qed.

Lemma scan_vectors mode s vs r m f old : is_symbol s -> keyword_free s -> survives F (tzero F) ->
  (forall v x, In v vs -> In x v -> survives F x) -> im_mode m = mode -> im_dim m <= 3 ->
  (if mode =? 1 then im_points m else im_cells m) = Z.of_nat (List.length vs) -> 0 < f ->
  scan (hit_vectors mode s) f
    (pos (lines (field_title (txt "VECTORS") s :: map (row_line F) vs) ++ r) m) old =
  Ok (map (fun v => firstn (im_dim m) (pad3 F v)) vs, pos r m).
Proof.
  intros Hs Hk Hz Hv Hm Hd Hl Hf; rewrite !lines_cons; rewrite <- app_assoc; cbn [app].
  destruct (title_data "VECTORS" s ltac:(cbn; auto) Hs Hk) as (N1 & N2 & N3).
  eapply scan_hit; [exact N1|exact N2|exact N3| |assumption].
  unfold hit_vectors; rewrite kw_field by apply kw_V.
  change (contains (txt "VECTORS") (txt "VECTORS")) with true.
  change (im_mode (pos ?t m)) with (im_mode m); rewrite Hm, Nat.eqb_refl; cbn [andb orb].
  rewrite second_title by (auto; discriminate); rewrite text_eqb_refl; f_equal.
  change (im_points (pos ?t m)) with (im_points m); change (im_cells (pos ?t m)) with (im_cells m).
  change (im_dim (pos ?t m)) with (im_dim m).
  rewrite Hl, size_of_nat; cbn [bind].
  rewrite <- (map_length (row_line F) vs) at 1.
  apply per_line_lines.
  - apply Forall_forall; intros l Hl'; apply in_map_iff in Hl' as (x & <- & Hx); apply row_line_nonl; eauto.
  - clear -Hv Hz Hd; induction vs as [|v vs IH]; cbn [map]; constructor.
    + f_equal; apply read_row; [exact Hd|assumption|intros x Hx; apply (Hv v x); [now left|assumption]].
    + apply IH; intros w x Hw Hx; apply (Hv w x); [now right|assumption].
Qed.

(** importing an item behind any other records *)
Lemma import_item_at pre it r m : survives F (tzero F) -> im_dim m <= 3 ->
  wf m (pre ++ [RItem it]) -> (forall it', In (RItem it') pre -> item_key it' <> item_key it) ->
  import_item F it (pos (lines (recs_lines F pre) ++ lines (item_lines F it) ++ r) m) =
  Ok (item_field F (im_dim m) it, pos r (fold_left after pre m)).
Proof.
  intros Hz Hd Hwf Hne; apply wf_app in Hwf as [Hwf Hit].
  cbn [wf after] in Hit; destruct Hit as [(Hg & Hm & Hl) _].
  destruct Hg as (Hs & Hk & Hv & Hone).
  assert (Hdim : im_dim (fold_left after pre m) = im_dim m).
  { clear; revert m; induction pre as [|a pre IH]; intros m; cbn [fold_left]; [reflexivity|].
    rewrite IH; destruct a; reflexivity. }
  assert (Hscal : forall mode s vs, item_key it = (mode, false, s) ->
    item_lines F it = field_title (txt "SCALARS") s :: txt "LOOKUP_TABLE default" :: map (show F) vs ->
    (forall x, In x vs -> survives F x) -> List.length vs = item_len it ->
    import_scalars F mode s (pos (lines (recs_lines F pre) ++ lines (item_lines F it) ++ r) m) =
    Ok (vs, pos r (fold_left after pre m))).
  { intros mode s vs HK HL Hvs Hlen.
    assert (Hmode : item_mode it = mode) by (unfold item_mode; now rewrite HK).
    assert (Hsym : item_sym it = s) by (unfold item_sym; now rewrite HK).
    unfold import_scalars, run_scan; fold (hit_scalars mode s).
    change (rest (im_ifs (pos ?t m))) with t.
    rewrite HK in Hne.
    destruct (scan_recs (hit_scalars mode s) (mode, false, s) (hits_low_s mode s) (hits_look_s mode s)
      (hits_title_s mode s) pre Hz m
      (S (List.length (lines (recs_lines F pre) ++ lines (item_lines F it) ++ r))) []
      (lines (item_lines F it) ++ r) Hwf Hne ltac:(lia)) as (f' & o' & E & Hf').
    rewrite E, HL; apply scan_scalars; try assumption.
    - now rewrite <- Hsym.
    - now rewrite <- Hsym.
    - now rewrite Hm.
    - rewrite Hmode in Hl; rewrite Hl; now rewrite Hlen.
    - lia. }
  destruct it as [[s v|s v|s v]|s v]; cbn [import_item item_field]; unfold ImportPOINTSCALARS, ImportCELLSCALARS.
  - rewrite (Hscal 1 s v eq_refl eq_refl Hv eq_refl); reflexivity.
  - rewrite (Hscal 1 s (concat v) eq_refl eq_refl Hv); [reflexivity|].
    cbn [item_len plen]; clear -Hone; induction v as [|a v IH]; cbn [concat List.length]; [reflexivity|].
    rewrite app_length, (Hone a (or_introl eq_refl)), IH; [reflexivity|intros x Hx; apply Hone; now right].
  - unfold ImportPOINTVECTORS, import_vectors, run_scan; fold (hit_vectors 1 s).
    change (rest (im_ifs (pos ?t m))) with t.
    destruct (scan_recs (hit_vectors 1 s) (1, true, s) (hits_low_v 1 s) (hits_look_v 1 s)
      (hits_title_v 1 s) pre Hz m
      (S (List.length (lines (recs_lines F pre) ++ lines (item_lines F (IPoint (PVec s v))) ++ r))) []
      (lines (item_lines F (IPoint (PVec s v))) ++ r) Hwf Hne ltac:(lia)) as (f' & o' & E & Hf').
    rewrite E; cbn [item_lines]; rewrite scan_vectors; try assumption.
    + cbn [bind]; now rewrite Hdim.
    + intros w x Hw Hx; apply Hv; cbn [item_values pvalues]; apply in_concat; eauto.
    + now rewrite Hdim.
    + lia.
  - rewrite (Hscal 2 s v eq_refl eq_refl Hv eq_refl); reflexivity.
Qed.

(** a list of flagged records *)
Fixpoint wanted (l : list (bool * rec (T := T))) : list (item T) :=
  match l with
  | [] => []
  | (true, RItem it) :: t => it :: wanted t
  | _ :: t => wanted t
  end.
Fixpoint keys (l : list (rec (T := T))) : list (nat * bool * text) :=
  match l with [] => [] | RItem it :: t => item_key it :: keys t | _ :: t => keys t end.
Lemma keys_app a b : keys (a ++ b) = keys a ++ keys b.
Proof. induction a as [|[n|n|it] a IH]; cbn [app keys]; [reflexivity|assumption|assumption|now rewrite IH]. Qed.
Lemma keys_in it l : In (RItem it) l -> In (item_key it) (keys l).
Proof.
  induction l as [|a l IH]; intros H; [contradiction|].
  destruct H as [->|H]; [now left|]; destruct a; cbn [keys]; [auto|auto|right; auto].
Qed.

Lemma import_flagged l : survives F (tzero F) -> forall pre m, im_dim m <= 3 -> wf m (pre ++ map snd l) ->
  NoDup (keys (pre ++ map snd l)) ->
  import_items F (wanted l) (pos (lines (recs_lines F (pre ++ map snd l))) m) =
  Ok (map (item_field F (im_dim m)) (wanted l)).
Proof.
  intros Hz; induction l as [|[b a] l IH]; intros pre m Hd Hwf Hnd; [reflexivity|].
  cbn [map snd] in *.
  assert (Hskip : import_items F (wanted l) (pos (lines (recs_lines F (pre ++ a :: map snd l))) m) =
    Ok (map (item_field F (im_dim m)) (wanted l))).
  { replace (pre ++ a :: map snd l) with ((pre ++ [a]) ++ map snd l) in * by (rewrite <- app_assoc; reflexivity).
    apply IH; assumption. }
  destruct b; [|exact Hskip].
  destruct a as [n|n|it]; cbn [wanted]; [exact Hskip|exact Hskip|].
  cbn [import_items map].
  rewrite recs_lines_app, recs_lines_cons, !lines_app; cbn [rec_lines].
  assert (Hwf2 : wf m ((pre ++ [RItem it]) ++ map snd l)) by (rewrite <- app_assoc; exact Hwf).
  apply wf_app in Hwf2 as [Hwf2 Hwf3].
  rewrite import_item_at; [|assumption|assumption|assumption|].
  - cbn [bind].
    rewrite fold_left_app in Hwf3; cbn [fold_left after] in Hwf3.
    assert (Hdim : im_dim (fold_left after pre m) = im_dim m).
    { clear; revert m; induction pre as [|a pre IH]; intros m; cbn [fold_left]; [reflexivity|].
      rewrite IH; destruct a; reflexivity. }
    pose proof (IH [] (fold_left after pre m) ltac:(rewrite Hdim; assumption) Hwf3) as E; cbn [app] in E.
    rewrite E, Hdim; [reflexivity|].
    rewrite keys_app in Hnd; cbn [keys] in Hnd; apply NoDup_remove in Hnd as [Hnd _].
    clear -Hnd; induction (keys pre) as [|k ks IH']; [exact Hnd|apply IH'; now inversion Hnd].
  - intros it' Hin Heq; rewrite keys_app in Hnd; cbn [keys] in Hnd.
    apply NoDup_remove in Hnd as [_ Hnd]; apply Hnd; rewrite <- Heq.
    apply in_app_iff; left; now apply keys_in.
Qed.
End Import.
