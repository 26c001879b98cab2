(** Lemmas about the line oriented VTK import. *)
From Coq Require Import Ascii String.
From Coq Require Import List Arith ZArith Lia Bool.
From Verif Require Import Res IOModel IOSpec IOProof.
Import ListNotations.
Local Open Scope nat_scope.

(** * Substrings *)
Lemma prefixb_in c p t : prefixb (c :: p) t = true -> In c t.
Proof.
  destruct t as [|x t]; cbn [prefixb]; [discriminate|]; intros H.
  apply andb_true_iff in H as [H _]; apply Ascii.eqb_eq in H as ->; now left.
Qed.

Lemma contains_in c p t : contains (c :: p) t = true -> In c t.
Proof.
  induction t as [|x t IH]; cbn [contains]; intros H.
  - apply orb_true_iff in H as [H|H]; [now apply prefixb_in in H|discriminate].
  - apply orb_true_iff in H as [H|H]; [now apply prefixb_in in H|right; auto].
Qed.

Lemma contains_noupper c p t : upper c = true -> noupper t -> contains (c :: p) t = false.
Proof.
  intros Hc Ht; destruct (contains (c :: p) t) eqn:E; [|reflexivity].
  apply contains_in in E; apply Ht in E; congruence.
Qed.

Lemma prefixb_sep p : forall a s b, ~ In s p -> p <> [] ->
  prefixb p (a ++ s :: b) = prefixb p a.
Proof.
  induction p as [|c p IH]; intros a s b Hs Hp; [congruence|].
  destruct a as [|x a]; cbn [app prefixb].
  - destruct (Ascii.eqb_spec c s) as [->|_]; [exfalso; apply Hs; now left|reflexivity].
  - destruct p as [|c' p]; [reflexivity|].
    rewrite IH; [reflexivity|intros H; apply Hs; now right|discriminate].
Qed.

Lemma contains_sep p a s b : ~ In s p -> p <> [] ->
  contains p (a ++ s :: b) = contains p a || contains p b.
Proof.
  intros Hs Hp; induction a as [|x a IH].
  - cbn [app contains].
    change (s :: b) with ([] ++ s :: b) at 1; rewrite prefixb_sep by assumption.
    destruct p as [|c p]; [congruence|]; cbn [prefixb orb]; reflexivity.
  - cbn [app contains]; rewrite IH, orb_assoc; f_equal; f_equal.
    change (x :: a ++ s :: b) with ((x :: a) ++ s :: b); now apply prefixb_sep.
Qed.

(** * Lines *)
Definition nonl (t : text) : Prop := ~ In c_nl t.
Definition lines (ls : list text) : text := concat (map (fun l => l ++ [c_nl]) ls).

Lemma lines_app a b : lines (a ++ b) = lines a ++ lines b.
Proof. unfold lines; now rewrite map_app, concat_app. Qed.
Lemma lines_cons l ls : lines (l :: ls) = l ++ c_nl :: lines ls.
Proof. unfold lines; cbn [map concat]; rewrite <- app_assoc; reflexivity. Qed.

Lemma nows_nonl t : nows t -> nonl t.
Proof. intros H Hin; apply H in Hin; discriminate. Qed.

Lemma getline_line l r old : nonl l -> getline c_nl (good (l ++ c_nl :: r)) old = (true, l, good r).
Proof.
  intros Hl; unfold getline; cbn [eofb failb rest good orb].
  destruct (l ++ c_nl :: r) as [|x y] eqn:E; [destruct l; discriminate|].
  rewrite <- E, span_all; [reflexivity| |now rewrite Ascii.eqb_refl].
  intros c Hc; apply negb_true_iff; apply Ascii.eqb_neq; intros ->; contradiction.
Qed.

Lemma getline_end old : getline c_nl (good []) old = (false, [], mkst [] true true).
Proof. reflexivity. Qed.

Definition pos (t : text) (m : importer) : importer := set_ifs (good t) m.

Lemma next_line_line l r m old : nonl l -> next_line (pos (l ++ c_nl :: r) m) old = (l, pos r m).
Proof. intros Hl; unfold next_line, pos; cbn [set_ifs im_ifs]; now rewrite getline_line. Qed.

Lemma per_line_lines {A} (body : text -> res A) ls : forall xs r m old,
  Forall nonl ls -> Forall2 (fun l x => body l = Ok x) ls xs ->
  per_line body (List.length ls) (pos (lines ls ++ r) m) old = Ok (xs, pos r m).
Proof.
  induction ls as [|l ls IH]; intros xs r m old Hn H2; inversion H2 as [|? x ? xs' Hb H2']; subst.
  - reflexivity.
  - inversion Hn as [|? ? Hl Hn']; subst.
    cbn [List.length per_line]; rewrite lines_cons, <- app_assoc; cbn [app].
    rewrite next_line_line by assumption.
    rewrite Hb; cbn [bind].
    rewrite (IH _ _ _ _ Hn' H2'); reflexivity.
Qed.

Section Scan.
Context {A : Type} (hit : importer -> text -> option (res (list A * importer))).

Definition passed (m : importer) (l : text) : Prop :=
  nonl l /\ contains (txt "POINT_DATA") l = false /\ contains (txt "CELL_DATA") l = false /\
  forall t, hit (pos t m) l = None.

Lemma scan_skip ls : forall r m f old, Forall (passed m) ls ->
  List.length (lines ls ++ r) < f ->
  exists f' old', scan hit f (pos (lines ls ++ r) m) old = scan hit f' (pos r m) old' /\ List.length r < f'.
Proof.
  induction ls as [|l ls IH]; intros r m f old HF Hf.
  - exists f, old; split; [reflexivity|exact Hf].
  - inversion HF as [|? ? (Hn & Hp & Hc & Hh) HF']; subst.
    rewrite lines_cons, <- app_assoc in *; cbn [app] in *.
    destruct f as [|f]; [lia|].
    destruct (IH r m f l HF') as (f' & old' & E & Hl).
    { rewrite app_length in Hf; cbn [List.length] in Hf; lia. }
    exists f', old'; split; [|assumption].
    rewrite <- E; cbn [scan]; unfold pos at 1; cbn [set_ifs im_ifs].
    rewrite getline_line by assumption.
    rewrite Hp, Hc.
    change (set_ifs (good (lines ls ++ r)) (pos (l ++ c_nl :: lines ls ++ r) m)) with (pos (lines ls ++ r) m).
    now rewrite Hh.
Qed.

Lemma scan_hit l r m f old res : nonl l -> contains (txt "POINT_DATA") l = false ->
  contains (txt "CELL_DATA") l = false -> hit (pos r m) l = Some res -> 0 < f ->
  scan hit f (pos (l ++ c_nl :: r) m) old = res.
Proof.
  intros Hn Hp Hc Hh Hf; destruct f as [|f]; [lia|].
  cbn [scan]; unfold pos at 1; cbn [set_ifs im_ifs].
  rewrite getline_line by assumption; rewrite Hp, Hc.
  change (set_ifs (good r) (pos (l ++ c_nl :: r) m)) with (pos r m).
  now rewrite Hh.
Qed.

Definition set_points (n : Z) (m : importer) : importer :=
  mkimp (im_file m) (im_ifs m) (im_dim m) 1 n (im_cells m).
Definition set_cells (n : Z) (m : importer) : importer :=
  mkimp (im_file m) (im_ifs m) (im_dim m) 2 (im_points m) n.

Lemma scan_points l r m f old : nonl l -> contains (txt "POINT_DATA") l = true ->
  List.length (l ++ c_nl :: r) < f -> exists f' old',
  scan hit f (pos (l ++ c_nl :: r) m) old = scan hit f' (pos r (set_points (keyword_int l (im_points m)) m)) old'
  /\ List.length r < f'.
Proof.
  intros Hn Hp Hf; destruct f as [|f]; [lia|]; exists f, l.
  rewrite app_length in Hf; cbn [List.length] in Hf; split; [|lia].
  cbn [scan]; unfold pos at 1; cbn [set_ifs im_ifs].
  rewrite getline_line by assumption; rewrite Hp; reflexivity.
Qed.

Lemma scan_cells l r m f old : nonl l -> contains (txt "POINT_DATA") l = false ->
  contains (txt "CELL_DATA") l = true ->
  List.length (l ++ c_nl :: r) < f -> exists f' old',
  scan hit f (pos (l ++ c_nl :: r) m) old = scan hit f' (pos r (set_cells (keyword_int l (im_cells m)) m)) old'
  /\ List.length r < f'.
Proof.
  intros Hn Hp Hc Hf; destruct f as [|f]; [lia|]; exists f, l.
  rewrite app_length in Hf; cbn [List.length] in Hf; split; [|lia].
  cbn [scan]; unfold pos at 1; cbn [set_ifs im_ifs].
  rewrite getline_line by assumption; rewrite Hp, Hc; reflexivity.
Qed.

Lemma scan_end m f old : 0 < f -> scan hit f (pos [] m) old = Ok ([], pos (im_file m) m).
Proof. intros Hf; destruct f as [|f]; [lia|]; reflexivity. Qed.
End Scan.

(** * Words of one line *)
Definition sep_or_end (r : text) : Prop := match r with [] => True | c :: _ => ws c = true end.

Lemma span_word w r : nows w -> sep_or_end r -> span (fun c => negb (ws c)) (w ++ r) = (w, r).
Proof.
  intros Hw Hr; destruct r as [|c r].
  - rewrite app_nil_r; apply span_end; now apply neg_ws.
  - apply span_all; [now apply neg_ws|cbn in Hr; now rewrite Hr].
Qed.

Lemma enter_word a w r : allws a -> w <> [] -> nows w -> enter (good (a ++ w ++ r)) = Some (w ++ r).
Proof.
  intros Ha Hw Hn; unfold enter; cbn [eofb failb rest good orb].
  assert (E : skip_ws (a ++ w ++ r) = w ++ r).
  { induction a as [|c a IH]; cbn [app skip_ws]; [now apply skip_word|].
    rewrite (Ha c (or_introl eq_refl)); apply IH; intros x Hx; apply Ha; now right. }
  rewrite E; destruct w as [|x w]; [congruence|reflexivity].
Qed.

Lemma get_word_line a w r : allws a -> w <> [] -> nows w -> sep_or_end r ->
  get_word (good (a ++ w ++ r)) = (Some w, mkst r (at_end r) false).
Proof.
  intros Ha Hw Hn Hr; unfold get_word; rewrite enter_word by assumption; now rewrite span_word.
Qed.

Lemma get_int_line a z r x : allws a -> sep_or_end r ->
  get_int (good (a ++ show_Z z ++ r)) x = (Some z, mkst r (at_end r) false).
Proof.
  intros Ha Hr; unfold get_int; rewrite enter_word by (auto using show_Z_nonempty, show_Z_nows).
  rewrite int_prefix_show; [reflexivity|].
  destruct r; [exact I|now apply ws_digit].
Qed.

Lemma allws1 c : ws c = true -> allws [c].
Proof. intros H x [<-|[]]; assumption. Qed.
Lemma allws0 : allws [].
Proof. intros x []. Qed.

Lemma keyword_int_line k c n r x : k <> [] -> nows k -> ws c = true -> sep_or_end r ->
  keyword_int (k ++ c :: show_nat n ++ r) x = Z.of_nat n.
Proof.
  intros Hk Hn Hc Hr; unfold keyword_int.
  pose proof (get_word_line [] k (c :: show_nat n ++ r) allws0 Hk Hn Hc) as E; cbn [app at_end] in E.
  unfold open_text; fold (good (k ++ c :: show_nat n ++ r)); rewrite E.
  rewrite <- show_Z_nat.
  pose proof (get_int_line [c] (Z.of_nat n) r (Some x) (allws1 c Hc) Hr) as E2; cbn [app] in E2.
  fold (good (c :: show_Z (Z.of_nat n) ++ r)); now rewrite E2.
Qed.

Lemma second_word_line k c s r : k <> [] -> nows k -> ws c = true -> s <> [] -> nows s -> sep_or_end r ->
  second_word (k ++ c :: s ++ r) = s.
Proof.
  intros Hk Hn Hc Hs Hns Hr; unfold second_word.
  pose proof (get_word_line [] k (c :: s ++ r) allws0 Hk Hn Hc) as E; cbn [app at_end] in E.
  unfold open_text; fold (good (k ++ c :: s ++ r)); rewrite E.
  pose proof (get_word_line [c] s r (allws1 c Hc) Hs Hns Hr) as E2; cbn [app] in E2.
  fold (good (c :: s ++ r)); now rewrite E2.
Qed.

Section Rows.
Context {T : Type} (F : numfmt T).

Lemma read_comps_spells vs : forall d t, (forall x, In x vs -> survives F x) -> d <= List.length vs ->
  spells t (map (show F) vs) -> read_comps F d (good t) = firstn d vs.
Proof.
  induction vs as [|v vs IH]; intros [|d] t Hv Hd Hs; cbn [List.length] in Hd; try reflexivity; try lia.
  cbn [map] in Hs; cbn [read_comps firstn].
  destruct (get_T_spells F t v (Some (tzero F)) _ (Hv v (or_introl eq_refl)) Hs) as (t' & E & Hs' & _).
  rewrite E; f_equal; apply IH; [intros x Hx; apply Hv; now right|lia|assumption].
Qed.

Lemma read_ids_spells e : forall t, spells t (map show_Z e) -> read_ids (List.length e) (good t) = e.
Proof.
  induction e as [|z e IH]; intros t Hs; cbn [List.length read_ids]; [reflexivity|].
  cbn [map] in Hs.
  destruct (get_int_spells t z (Some 0%Z) _ Hs) as (t' & E & Hs' & _).
  rewrite E; f_equal; now apply IH.
Qed.

(** the line of a vector without its end *)
Definition row_line (v : list T) : text :=
  concat (map (fun x => show F x ++ [c_tab]) v)
  ++ concat (map (fun _ => show F (tzero F) ++ [c_tab]) (seq (List.length v) (3 - List.length v))).

Lemma row3_line v : row3 F v = row_line v ++ [c_nl].
Proof. unfold row3, row_line; now rewrite <- app_assoc. Qed.

Lemma survives_fine x : survives F x -> fine F x.
Proof. intros (H1 & H2 & _); now split. Qed.

Lemma spells_row_line v : (forall x, In x v -> fine F x) -> fine F (tzero F) ->
  spells (row_line v) (map (show F) (pad3 F v)).
Proof.
  intros Hv Hz; unfold row_line, pad3; rewrite map_app.
  apply spells_app; [now apply spells_values|].
  generalize (3 - List.length v) as k; intros k; generalize (List.length v); revert k.
  induction k as [|k IH]; intros a; cbn [seq map concat repeat]; [constructor|].
  destruct Hz as [H1 H2].
  rewrite <- app_assoc; apply spells_step; auto.
Qed.

Definition okc (P : ascii -> Prop) (t : text) : Prop := forall c, In c t -> P c.
Lemma row_line_chars (P : ascii -> Prop) v : P c_tab -> okc P (show F (tzero F)) ->
  (forall x, In x v -> okc P (show F x)) -> okc P (row_line v).
Proof.
  intros Ht Hz Hv c Hc; unfold row_line in Hc; apply in_app_iff in Hc as [Hc|Hc];
    apply in_concat in Hc as (w & Hw & Hc); apply in_map_iff in Hw as (x & <- & Hx);
    apply in_app_iff in Hc as [Hc|[<-|[]]]; auto.
  now apply (Hv x Hx).
Qed.

Lemma row_line_nonl v : survives F (tzero F) -> (forall x, In x v -> survives F x) -> nonl (row_line v).
Proof.
  intros Hz Hv Hin.
  assert (H : okc (fun c => c <> c_nl) (row_line v)).
  { apply row_line_chars; [discriminate| |].
    - intros c Hc ->; apply (proj1 (proj2 Hz)) in Hc; discriminate.
    - intros x Hx c Hc ->; apply (proj1 (proj2 (Hv x Hx))) in Hc; discriminate. }
  now apply (H _ Hin).
Qed.

Lemma row_line_noupper v : survives F (tzero F) -> (forall x, In x v -> survives F x) -> noupper (row_line v).
Proof.
  intros Hz Hv; apply (row_line_chars (fun c => upper c = false)); [reflexivity| |].
  - apply Hz.
  - intros x Hx; now apply Hv.
Qed.

Lemma pad3_length v : 3 <= List.length (pad3 F v).
Proof. unfold pad3; rewrite app_length, repeat_length; lia. Qed.

Lemma pad3_survives v : survives F (tzero F) -> (forall x, In x v -> survives F x) ->
  forall x, In x (pad3 F v) -> survives F x.
Proof.
  intros Hz Hv x Hx; unfold pad3 in Hx; apply in_app_iff in Hx as [Hx|Hx]; [auto|].
  now apply repeat_spec in Hx as ->.
Qed.

Lemma read_row d v : d <= 3 -> survives F (tzero F) -> (forall x, In x v -> survives F x) ->
  read_comps F d (open_text (row_line v)) = firstn d (pad3 F v).
Proof.
  intros Hd Hz Hv; apply read_comps_spells.
  - now apply pad3_survives.
  - pose proof (pad3_length v); lia.
  - apply spells_row_line; [intros x Hx; now apply survives_fine, Hv|now apply survives_fine].
Qed.

Lemma read_scalar x d : survives F x -> fst (get_T F (open_text (show F x)) (Some d)) = Some x.
Proof.
  intros (H1 & H2 & _ & H4); unfold get_T.
  pose proof (enter_word [] (show F x) [] allws0 H1 H2) as E; cbn [app] in E.
  rewrite app_nil_r in E; change (open_text (show F x)) with (good (show F x)); rewrite E.
  rewrite span_end by (now apply neg_ws); now rewrite H4.
Qed.
End Rows.

(** the line of an element without its end *)
Definition cell_line (e : list Z) : text :=
  show_nat (List.length e) ++ [c_tab] ++ concat (map (fun z => show_Z z ++ [c_tab]) e).

Lemma cell_line_chars (P : ascii -> Prop) e : P c_tab -> (forall z, okc P (show_Z z)) -> okc P (cell_line e).
Proof.
  intros Ht Hz c Hc; unfold cell_line in Hc.
  apply in_app_iff in Hc as [Hc|[<-|Hc]]; [rewrite <- show_Z_nat in Hc; now apply Hz in Hc|assumption|].
  apply in_concat in Hc as (w & Hw & Hc); apply in_map_iff in Hw as (x & <- & Hx).
  apply in_app_iff in Hc as [Hc|[<-|[]]]; [now apply Hz in Hc|assumption].
Qed.
Lemma cell_line_nonl e : nonl (cell_line e).
Proof.
  intros Hin.
  assert (H : okc (fun c => c <> c_nl) (cell_line e)).
  { apply cell_line_chars; [discriminate|]; intros z c Hc ->; apply show_Z_nows in Hc; discriminate. }
  now apply (H _ Hin).
Qed.
Lemma cell_line_noupper e : noupper (cell_line e).
Proof. apply (cell_line_chars (fun c => upper c = false)); [reflexivity|apply show_Z_noupper]. Qed.

Lemma read_cell e :
  (let '(k, s) := get_int (open_text (cell_line e)) None in
   k <- used k ;; k <- size_of k ;; Ok (read_ids k s)) = Ok e.
Proof.
  assert (Hs : spells (cell_line e) (cell_words e)).
  { unfold cell_line, cell_words; apply spells_nat; [reflexivity|].
    induction e as [|z e IH]; cbn [map concat]; [constructor|].
    rewrite <- app_assoc; apply spells_Z; [reflexivity|assumption]. }
  unfold cell_words in Hs; rewrite <- show_Z_nat in Hs.
  destruct (get_int_spells _ _ None _ Hs) as (t & E & Ht & _).
  change (open_text (cell_line e)) with (good (cell_line e)); rewrite E; cbn [used bind].
  unfold size_of; destruct (Z.ltb_spec (Z.of_nat (List.length e)) 0); [lia|]; cbn [bind].
  rewrite Nat2Z.id; f_equal; now apply read_ids_spells.
Qed.
