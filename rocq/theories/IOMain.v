(** Properties C54, C55 and C80: files: the proofs. *)
From Coq Require Import Ascii String.
From Coq Require Import List Arith ZArith Lia Bool.
From Verif Require Import Res IOModel IOSpec.
Import ListNotations.
Local Open Scope nat_scope.
From Verif Require Import IOProof IOProof2 IOProof3 IOProof4 IOProof5.

Lemma words_from_word w : forall a c t, nows w -> ws c = true -> a ++ w <> [] ->
  words_from a (w ++ c :: t) = (a ++ w) :: words_from [] t.
Proof.
  induction w as [|x w IH]; intros a c t Hn Hc Hne; cbn [app words_from].
  - rewrite Hc, app_nil_r in *; destruct a; [congruence|reflexivity].
  - rewrite (Hn x (or_introl eq_refl)), IH.
    + rewrite <- app_assoc; reflexivity.
    + intros y Hy; apply Hn; now right.
    + assumption.
    + destruct a; discriminate.
Qed.

Lemma spells_words t l : spells t l -> words t = l.
Proof.
  unfold words; induction 1 as [|c t l Hc _ IH|w c t l Hw Hn Hc _ IH]; [reflexivity| |].
  - cbn [words_from]; rewrite Hc; exact IH.
  - rewrite words_from_word by assumption; now rewrite IH.
Qed.

Lemma datanum_sum es : forall a, fold_left (fun a e => a + (List.length e + 1)) es a =
  a + list_sum (map (fun e : list Z => S (List.length e)) es).
Proof.
  induction es as [|e es IH]; intros a; cbn [fold_left map list_sum fold_right]; [lia|].
  rewrite IH; unfold list_sum; lia.
Qed.

Lemma cell_words_length es : List.length (concat (map cell_words es)) =
  list_sum (map (fun e : list Z => S (List.length e)) es).
Proof.
  induction es as [|e es IH]; cbn [map concat list_sum fold_right]; [reflexivity|].
  rewrite app_length, IH; unfold cell_words; cbn [List.length]; rewrite map_length; reflexivity.
Qed.

Lemma pad3_exact {T} (F : numfmt T) v : List.length v <= 3 -> List.length (pad3 F v) = 3.
Proof. intros H; unfold pad3; rewrite app_length, repeat_length; lia. Qed.

Lemma not_noupper w c : upper c = true -> In c w -> ~ noupper w.
Proof. intros H1 H2 H3; apply H3 in H2; congruence. Qed.

Section NotIn.
Context {T : Type} (F : numfmt T) (K : string).
Hypothesis HK : K = "POINTS"%string \/ K = "CELLS"%string.

Lemma K_upper : ~ noupper (txt K).
Proof.
  destruct HK as [-> | ->]; [apply (not_noupper _ "P"%char)|apply (not_noupper _ "C"%char)]; reflexivity || (cbn; auto).
Qed.

Lemma notin_num l : (forall w, In w l -> noupper w) -> ~ In (txt K) l.
Proof. intros H Hin; apply H in Hin; now apply K_upper. Qed.

Lemma notin_app a b : ~ In (txt K) a -> ~ In (txt K) b -> ~ In (txt K) (a ++ b).
Proof. intros Ha Hb H; apply in_app_iff in H as [H|H]; auto. Qed.

Lemma notin_vals vs : (forall x, In x vs -> survives F x) -> ~ In (txt K) (map (show F) vs).
Proof.
  intros H; apply notin_num; intros w Hw; apply in_map_iff in Hw as (x & <- & Hx); now apply H.
Qed.

Lemma notin_rows vs : survives F (tzero F) -> (forall v x, In v vs -> In x v -> survives F x) ->
  ~ In (txt K) (concat (map (map (show F)) (map (pad3 F) vs))).
Proof.
  intros Hz H; apply notin_num; intros w Hw; apply in_concat in Hw as (l & Hl & Hw).
  apply in_map_iff in Hl as (l' & <- & Hl); apply in_map_iff in Hl as (v & <- & Hv).
  apply in_map_iff in Hw as (x & <- & Hx).
  apply (pad3_survives F v Hz (fun y Hy => H v y Hv Hy) x Hx).
Qed.

Lemma notin_zs ts : ~ In (txt K) (map show_Z ts).
Proof. apply notin_num; intros w Hw; apply in_map_iff in Hw as (x & <- & Hx); apply show_Z_noupper. Qed.

Lemma notin_nat n : txt K <> show_nat n.
Proof. intros E; apply K_upper; rewrite E; apply show_nat_noupper. Qed.

Lemma notin_head b k n : k = "POINT_DATA"%string \/ k = "CELL_DATA"%string -> ~ In (txt K) (head_words b (txt k) n).
Proof.
  intros Hk; unfold head_words; destruct b; [|intros []].
  intros [E|[E|[]]]; [|symmetry in E; now apply notin_nat in E].
  apply txt_inj in E; destruct HK as [-> | ->], Hk as [-> | ->]; discriminate.
Qed.

Lemma notin_scal s : s <> txt K -> ~ In (txt K) (scal_words s).
Proof.
  intros Hs; unfold scal_words; cbn [In]; intros [E|[E|[E|[E|[E|[]]]]]]; try (now apply Hs);
    apply txt_inj in E; destruct HK as [-> | ->]; discriminate.
Qed.

Lemma notin_pfields ds : forall b, survives F (tzero F) ->
  (forall d, In d ds -> psym d <> txt K /\ forall x, In x (pvalues d) -> survives F x) ->
  ~ In (txt K) (pfields_words F b ds).
Proof.
  induction ds as [|d ds IH]; intros b Hz H; cbn [pfields_words]; [intros []|].
  destruct (H d (or_introl eq_refl)) as [H1 H2].
  apply notin_app; [|apply IH; [assumption|intros d' Hd; apply H; now right]].
  unfold pfield_words; apply notin_app; [apply notin_head; auto|].
  destruct d as [s v|s v|s v]; cbn [psym pvalues] in *.
  - apply notin_app; [now apply notin_scal|now apply notin_vals].
  - apply notin_app; [now apply notin_scal|now apply notin_vals].
  - apply notin_app.
    + cbn [In]; intros [E|[E|[E|[]]]]; try (now apply H1); apply txt_inj in E; destruct HK as [-> | ->]; discriminate.
    + apply notin_rows; [assumption|]; intros w x Hw Hx; apply H2; apply in_concat; eauto.
Qed.

Lemma notin_cfields ds : forall b,
  (forall s v, In (s, v) ds -> s <> txt K /\ forall x, In x v -> survives F x) ->
  ~ In (txt K) (cfields_words F b ds).
Proof.
  induction ds as [|[s v] ds IH]; intros b H; cbn [cfields_words]; [intros []|].
  destruct (H s v (or_introl eq_refl)) as [H1 H2].
  apply notin_app; [|apply IH; intros s' v' Hd; apply H; now right].
  apply notin_app; [apply notin_head; auto|].
  apply notin_app; [now apply notin_scal|now apply notin_vals].
Qed.

Lemma notin_header : ~ In (txt K) header_words.
Proof.
  unfold header_words; intros H; apply in_map_iff in H as (k & E & Hk); apply txt_inj in E.
  cbn in Hk; destruct HK as [-> | ->]; repeat destruct Hk as [<-|Hk]; try discriminate; contradiction.
Qed.

Lemma notin_types ts : ~ In (txt K) (txt "CELL_TYPES" :: show_nat (List.length ts) :: map show_Z ts).
Proof.
  intros [E|[E|E]]; [apply txt_inj in E; destruct HK as [-> | ->]; discriminate|symmetry in E; now apply notin_nat in E|].
  now apply notin_zs in E.
Qed.
End NotIn.

Lemma notin_cells es : ~ In (txt "POINTS") (txt "CELLS" :: show_nat (List.length es) :: show_nat (datanum es) :: concat (map cell_words es)).
Proof.
  assert (HP : "POINTS"%string = "POINTS"%string \/ "POINTS"%string = "CELLS"%string) by auto.
  intros [E|[E|[E|E]]]; [discriminate| | |].
  - symmetry in E; now apply (notin_nat "POINTS" HP) in E.
  - symmetry in E; now apply (notin_nat "POINTS" HP) in E.
  - apply in_concat in E as (l & Hl & E); apply in_map_iff in Hl as (e & <- & _).
    destruct E as [E|E]; [symmetry in E; now apply (notin_nat "POINTS" HP) in E|].
    now apply (notin_zs "POINTS" HP) in E.
Qed.

Lemma notin_points {T} (F : numfmt T) nodes : survives F (tzero F) ->
  (forall v x, In v nodes -> In x v -> survives F x) ->
  ~ In (txt "CELLS") (txt "POINTS" :: show_nat (List.length nodes) :: txt "float" :: concat (map (map (show F)) (map (pad3 F) nodes))).
Proof.
  intros Hz H.
  assert (HP : "CELLS"%string = "POINTS"%string \/ "CELLS"%string = "CELLS"%string) by auto.
  intros [E|[E|[E|E]]]; [discriminate| |discriminate|].
  - symmetry in E; now apply (notin_nat "CELLS" HP) in E.
  - now apply (notin_rows F "CELLS" HP) in E.
Qed.

Lemma file_words {T} (F : numfmt T) nodes es ts pds cds : survives F (tzero F) ->
  (forall v x, In v nodes -> In x v -> survives F x) ->
  (forall d, In d pds -> is_symbol (psym d) /\ forall x, In x (pvalues d) -> survives F x) ->
  (forall s v, In (s, v) cds -> is_symbol s /\ forall x, In x v -> survives F x) ->
  spells (export_file F nodes es ts pds cds)
   ((((((header_words ++ txt "POINTS" :: show_nat (List.length nodes) :: txt "float"
     :: concat (map (map (show F)) (map (pad3 F) nodes))) ++ txt "CELLS" :: show_nat (List.length es) :: show_nat (datanum es)
     :: concat (map cell_words es)) ++ txt "CELL_TYPES" :: show_nat (List.length ts) :: map show_Z ts)
     ++ pfields_words F true pds) ++ cfields_words F true cds)).
Proof.
  intros Hz Hn Hp Hc; unfold export_file.
  assert (Hz' := survives_fine F _ Hz).
  apply spells_cfields.
  { intros s v Hin; destruct (Hc s v Hin) as [H1 H2]; split; [assumption|]; intros x Hx; now apply survives_fine, H2. }
  apply spells_pfields; [|assumption|].
  { intros d Hin; destruct (Hp d Hin) as [H1 H2]; split; [assumption|]; intros x Hx; now apply survives_fine, H2. }
  apply spells_types, spells_element, spells_points; [|assumption|apply spells_header].
  intros v x Hv Hx; now apply survives_fine, (Hn v x).
Qed.

Lemma precs_wf {T} (F : numfmt T) np ds m :
  (forall d, In d ds -> item_good F (IPoint d) /\ plen d = np) ->
  im_mode m = 1 -> im_points m = Z.of_nat np -> wf F m (map (fun d => RItem (IPoint d)) ds).
Proof.
  intros H Hm Hp; induction ds as [|d ds IH]; cbn [map wf after]; [exact Logic.I|].
  destruct (H d (or_introl eq_refl)) as [H1 H2].
  assert (Hmd : item_mode (IPoint d) = 1) by (destruct d; reflexivity).
  split; [|apply IH; intros d' Hd; apply H; now right].
  rewrite Hmd; cbn [Nat.eqb item_len]; rewrite H2; auto.
Qed.

Lemma crecs_wf {T} (F : numfmt T) nc ds m :
  (forall s v, In (s, v) ds -> item_good F (ICell s v) /\ List.length v = nc) ->
  im_mode m = 2 -> im_cells m = Z.of_nat nc -> wf F m (map (fun '(s, v) => RItem (ICell s v)) ds).
Proof.
  intros H Hm Hp; induction ds as [|[s v] ds IH]; cbn [map wf after]; [exact Logic.I|].
  destruct (H s v (or_introl eq_refl)) as [H1 H2].
  split; [|apply IH; intros s' v' Hd; apply H; now right].
  cbn [item_mode item_key fst Nat.eqb item_len]; rewrite H2; auto.
Qed.

Lemma fold_after_items {T} (l : list (item T)) m : fold_left after (map RItem l) m = m.
Proof. induction l as [|it l IH]; cbn [map fold_left after]; [reflexivity|exact IH]. Qed.

Lemma all_wf {T} (F : numfmt T) np nc pds cds m :
  (forall d, In d pds -> item_good F (IPoint d) /\ plen d = np) ->
  (forall s v, In (s, v) cds -> item_good F (ICell s v) /\ List.length v = nc) ->
  wf F m (precs pds ++ crecs cds).
Proof.
  intros Hp Hc; apply wf_app; split.
  - destruct pds as [|d pds]; [exact Logic.I|]; unfold precs; cbn [wf after]; split; [exact Logic.I|].
    apply (precs_wf F np); [assumption|reflexivity|]; cbn [im_points set_points].
    f_equal; apply (Hp d (or_introl eq_refl)).
  - destruct cds as [|[s v] cds]; [exact Logic.I|]; unfold crecs; cbn [wf after]; split; [exact Logic.I|].
    apply (crecs_wf F nc); [assumption|reflexivity|]; cbn [im_cells set_cells].
    f_equal; apply (Hc s v (or_introl eq_refl)).
Qed.

Definition fprecs {T} (l : list (bool * pfield T)) : list (bool * rec (T := T)) :=
  match l with [] => [] | (_, d) :: _ => (false, RPoints (plen d)) :: map (fun p => (fst p, RItem (IPoint (snd p)))) l end.
Definition fcrecs {T} (l : list (bool * (text * list T))) : list (bool * rec (T := T)) :=
  match l with
  | [] => []
  | (_, (_, v)) :: _ => (false, RCells (List.length v)) ::
      map (fun p => (fst p, RItem (ICell (fst (snd p)) (snd (snd p))))) l
  end.

Lemma fprecs_snd {T} (l : list (bool * pfield T)) : map snd (fprecs l) = precs (map snd l).
Proof.
  destruct l as [|[b d] l]; [reflexivity|]; unfold fprecs, precs; cbn [map snd].
  do 2 f_equal; rewrite !map_map; reflexivity.
Qed.
Lemma fcrecs_snd {T} (l : list (bool * (text * list T))) : map snd (fcrecs l) = crecs (map snd l).
Proof.
  destruct l as [|[b [s v]] l]; [reflexivity|]; unfold fcrecs, crecs; cbn [map snd fst].
  do 2 f_equal; rewrite !map_map; apply map_ext; intros [b' [s' v']]; reflexivity.
Qed.

Lemma wanted_app {T} (a b : list (bool * rec (T := T))) : wanted (a ++ b) = wanted a ++ wanted b.
Proof.
  induction a as [|[[] [n|n|it]] a IH]; cbn [app wanted]; try assumption; [reflexivity|now rewrite IH].
Qed.
Lemma wanted_p {T} (l : list (bool * pfield T)) :
  wanted (map (fun p => (fst p, RItem (IPoint (snd p)))) l) = map (fun p => IPoint (snd p)) (filter fst l).
Proof. induction l as [|[[] d] l IH]; cbn [map wanted filter fst snd]; [reflexivity|now rewrite IH|exact IH]. Qed.
Lemma wanted_c {T} (l : list (bool * (text * list T))) :
  wanted (map (fun p => (fst p, RItem (ICell (fst (snd p)) (snd (snd p))))) l) =
  map (fun p => ICell (fst (snd p)) (snd (snd p))) (filter fst l).
Proof. induction l as [|[[] [s v]] l IH]; cbn [map wanted filter fst snd]; [reflexivity|now rewrite IH|exact IH]. Qed.
Lemma wanted_fp {T} (l : list (bool * pfield T)) : wanted (fprecs l) = map (fun p => IPoint (snd p)) (filter fst l).
Proof. destruct l as [|[b d] l]; [reflexivity|]; unfold fprecs; cbn [wanted]; apply wanted_p. Qed.
Lemma wanted_fc {T} (l : list (bool * (text * list T))) :
  wanted (fcrecs l) = map (fun p => ICell (fst (snd p)) (snd (snd p))) (filter fst l).
Proof. destruct l as [|[b [s v]] l]; [reflexivity|]; unfold fcrecs; cbn [wanted]; apply wanted_c. Qed.

Lemma keys_p {T} (l : list (pfield T)) : keys (precs l) = map (fun d => item_key (IPoint d)) l.
Proof.
  destruct l as [|d l]; [reflexivity|]; unfold precs; cbn [keys]; generalize (d :: l) as l'.
  induction l' as [|d' l' IH]; cbn [map keys]; [reflexivity|now rewrite IH].
Qed.
Lemma keys_c {T} (l : list (text * list T)) : keys (crecs l) = map (fun p => item_key (ICell (fst p) (snd p))) l.
Proof.
  destruct l as [|[s v] l]; [reflexivity|]; unfold crecs; cbn [keys]; generalize ((s, v) :: l) as l'.
  induction l' as [|[s' v'] l' IH]; cbn [map keys fst snd]; [reflexivity|now rewrite IH].
Qed.

(** the two first calls *)
Lemma points_then {T} (F : numfmt T) nodes r m : survives F (tzero F) ->
  (forall v x, In v nodes -> In x v -> survives F x) -> im_dim m <= 3 ->
  ImportPOINTS F (pos (lines header_lines ++ lines (points_lines F nodes) ++ r) m) =
  Ok (map (fun v => firstn (im_dim m) (pad3 F v)) nodes, pos r (with_points (List.length nodes) m)).
Proof.
  intros Hz Hn Hd; unfold ImportPOINTS, run_scan; fold (hit_points F).
  change (rest (im_ifs (pos ?t m))) with t.
  apply import_points_at; auto; lia.
Qed.
Lemma cells_then es r m :
  ImportCELLS (pos (lines (cells_lines es) ++ r) m) = Ok (es, pos r (with_cells (List.length es) m)).
Proof.
  unfold ImportCELLS, run_scan; fold hit_cells.
  change (rest (im_ifs (pos ?t m))) with t.
  apply import_cells_at; lia.
Qed.

Lemma span_length p t : forall a b, span p t = (a, b) -> List.length t = List.length a + List.length b.
Proof.
  induction t as [|c t IH]; intros a b; cbn [span]; [intros E; injection E as <- <-; reflexivity|].
  destruct (p c).
  - destruct (span p t) as [a' b'] eqn:E'; intros E; injection E as <- <-.
    cbn [List.length]; rewrite (IH a' b' eq_refl); reflexivity.
  - intros E; injection E as <- <-; reflexivity.
Qed.
Lemma getline_shrinks d s old l s' : getline d s old = (true, l, s') -> List.length (rest s') < List.length (rest s).
Proof.
  unfold getline; destruct (eofb s || failb s); [discriminate|].
  destruct (rest s) as [|c t] eqn:ER; [discriminate|].
  destruct (span (fun c0 => negb (Ascii.eqb c0 d)) (c :: t)) as [w r] eqn:ES.
  apply span_length in ES; rewrite ES.
  destruct r as [|x r]; intros E; injection E as <- <-; cbn [rest List.length] in *; lia.
Qed.
Lemma getline_old d s o1 o2 : getline d s o1 = getline d s o2 \/
  (fst (fst (getline d s o1)) = false /\ fst (fst (getline d s o2)) = false).
Proof. unfold getline; destruct (eofb s || failb s); [right; auto|left; reflexivity]. Qed.
Lemma scan_fuel {A} (hit : importer -> text -> option (res (list A * importer))) : forall f1 f2 m o1 o2,
  List.length (rest (im_ifs m)) < f1 -> List.length (rest (im_ifs m)) < f2 -> scan hit f1 m o1 = scan hit f2 m o2.
Proof.
  induction f1 as [|f1 IH]; intros f2 m o1 o2 H1 H2; [lia|]; destruct f2 as [|f2]; [lia|]; cbn [scan].
  destruct (getline_old c_nl (im_ifs m) o1 o2) as [->|[E1 E2]].
  - destruct (getline c_nl (im_ifs m) o2) as [[[] l] s'] eqn:EG; [|reflexivity].
    apply getline_shrinks in EG.
    destruct (contains _ l); [apply IH; cbn; lia|].
    destruct (contains _ l); [apply IH; cbn; lia|].
    destruct (hit _ l); [reflexivity|apply IH; cbn; lia].
  - destruct (getline c_nl (im_ifs m) o1) as [[[] l] s'], (getline c_nl (im_ifs m) o2) as [[[] l2] s2];
      cbn in E1, E2; try discriminate; reflexivity.
Qed.

(** the element types hold nothing to import, seen as a field list *)
Lemma types_skip {T} (F : numfmt T) ts l m : survives F (tzero F) -> im_dim m <= 3 ->
  wf F m (map snd l) -> NoDup (keys (map snd l)) -> im_mode m = 0 ->
  import_items F (wanted l) (pos (lines (types_lines ts) ++ lines (recs_lines F (map snd l))) m) =
  Ok (map (item_field F (im_dim m)) (wanted l)).
Proof.
  intros Hz Hd Hwf Hnd Hmode.
  pose proof (import_flagged F l Hz [] m Hd Hwf Hnd) as E; cbn [app] in E.
  destruct (wanted l) as [|it its] eqn:EW; [reflexivity|].
  cbn [import_items] in *.
  assert (Hpass : forall A (hit : importer -> text -> option (res (list A * importer))),
    (forall t l, hit (pos t m) l = None) ->
    Forall (passed hit m) (types_lines ts)).
  { intros A hit Hh; unfold types_lines; constructor; [|constructor].
    - apply passed_low; [apply nonl_nil|apply noupper_nil|auto].
    - unfold passed, types_title; split; [|split; [|split]].
      + apply nonl_data; reflexivity.
      + rewrite kw_title_nat by (apply kw_PD || reflexivity); reflexivity.
      + rewrite kw_title_nat by (apply kw_CD || reflexivity); reflexivity.
      + auto.
    - apply Forall_forall; intros x Hx; apply in_map_iff in Hx as (z & <- & _).
      apply passed_low; [apply nows_nonl, show_Z_nows|apply show_Z_noupper|auto]. }
  assert (Hitem : import_item F it (pos (lines (types_lines ts) ++ lines (recs_lines F (map snd l))) m) =
    import_item F it (pos (lines (recs_lines F (map snd l))) m)).
  { assert (Hs : forall mode s, mode <> 0 ->
      import_scalars F mode s (pos (lines (types_lines ts) ++ lines (recs_lines F (map snd l))) m) =
      import_scalars F mode s (pos (lines (recs_lines F (map snd l))) m)).
    { intros mode s Hne; unfold import_scalars, run_scan; fold (hit_scalars F mode s).
      change (rest (im_ifs (pos ?t m))) with t.
      destruct (scan_skip (hit_scalars F mode s) (types_lines ts) (lines (recs_lines F (map snd l))) m
        (S (List.length (lines (types_lines ts) ++ lines (recs_lines F (map snd l))))) []) as (f' & o' & E' & Hf').
      - apply Hpass; intros t l'; unfold hit_scalars; change (im_mode (pos t m)) with (im_mode m).
        rewrite Hmode; destruct (Nat.eqb_spec 0 mode); [congruence|reflexivity].
      - lia.
      - rewrite E'; apply scan_fuel; change (rest (im_ifs (pos ?t m))) with t; lia. }
    assert (Hv : forall mode s, mode <> 0 ->
      import_vectors F mode s (pos (lines (types_lines ts) ++ lines (recs_lines F (map snd l))) m) =
      import_vectors F mode s (pos (lines (recs_lines F (map snd l))) m)).
    { intros mode s Hne; unfold import_vectors, run_scan; fold (hit_vectors F mode s).
      change (rest (im_ifs (pos ?t m))) with t.
      destruct (scan_skip (hit_vectors F mode s) (types_lines ts) (lines (recs_lines F (map snd l))) m
        (S (List.length (lines (types_lines ts) ++ lines (recs_lines F (map snd l))))) []) as (f' & o' & E' & Hf').
      - apply Hpass; intros t l'; unfold hit_vectors; change (im_mode (pos t m)) with (im_mode m).
        rewrite Hmode; destruct (Nat.eqb_spec 0 mode); [congruence|reflexivity].
      - lia.
      - rewrite E'; apply scan_fuel; change (rest (im_ifs (pos ?t m))) with t; lia. }
    destruct it as [[s v|s v|s v]|s v]; cbn [import_item];
      unfold ImportPOINTSCALARS, ImportPOINTVECTORS, ImportCELLSCALARS; rewrite ?Hs, ?Hv by discriminate; reflexivity. }
  rewrite Hitem; exact E.
Qed.

Lemma show_fuel_length k : forall f n, n < 10 ^ (S k) -> List.length (show_fuel f n) <= S k.
Proof.
  induction k as [|k IH]; intros f n Hn; (destruct f as [|f]; [cbn; lia|]); cbn [show_fuel];
    destruct (Nat.ltb_spec n 10) as [H|H]; try (cbn [List.length]; lia).
  - change (10 ^ 1) with 10 in Hn; lia.
  - rewrite app_length; cbn [List.length].
    assert (List.length (show_fuel f (n / 10)) <= S k); [|lia].
    apply IH, Nat.div_lt_upper_bound; [lia|].
    replace (10 * 10 ^ S k) with (10 ^ S (S k)) by (rewrite (Nat.pow_succ_r' 10 (S k)); reflexivity); exact Hn.
Qed.

Lemma read_unsigned_digits ds : ds <> [] -> alldigits ds -> read_unsigned ds = Some (digits_val ds).
Proof.
  intros Hne Hd; unfold read_unsigned; rewrite span_end by exact Hd.
  cbn [at_end andb List.length]; rewrite app_nil_r.
  destruct ds as [|d ds]; [congruence|]; cbn [at_end negb andb].
  change (0 <=? 0 - Z.of_nat 0)%Z with true; cbv iota.
  change (10 ^ (0 - Z.of_nat 0))%Z with 1%Z; now rewrite Z.mul_1_r.
Qed.

Lemma foldM_push {A B} (row : list A -> B -> res (list A)) (P : B -> A -> Prop) rows xs :
  (forall acc b a, In b rows -> P b a -> row acc b = Ok (acc ++ [a])) -> Forall2 P rows xs ->
  forall acc, foldM row rows acc = Ok (acc ++ xs).
Proof.
  intros H HF; induction HF as [|b a rows xs Hb _ IH]; intros acc; cbn [foldM]; [now rewrite app_nil_r|].
  rewrite (H acc b a (or_introl eq_refl) Hb); cbn [bind].
  rewrite IH, <- app_assoc; [reflexivity|]; intros acc' b' a' Hin; apply H; now right.
Qed.

Lemma Forall2_weaken {A B} (P Q : A -> B -> Prop) l l' : (forall a b, P a b -> Q a b) -> Forall2 P l l' -> Forall2 Q l l'.
Proof. intros H; induction 1; constructor; auto. Qed.

Lemma layout_fields rows body : layout rows body -> forall r, In r rows -> Forall is_field r.
Proof.
  induction 1 as [|c rows t Hc H IH|fs c rows t Hn Hf Hc H IH|fs Hn Hf]; intros r Hr; auto.
  - contradiction.
  - destruct Hr as [<-|Hr]; auto.
  - destruct Hr as [<-|[]]; auto.
Qed.


Lemma C54_reimport_pf : forall (T : Type) (F : numfmt T) nodes elements types pds cds,
  survives F (tzero F) ->
  (forall v, In v nodes -> List.length v <= 3 /\ forall x, In x v -> survives F x) ->
  (forall d, In d pds -> is_symbol (psym d) /\ psym d <> txt "POINTS" /\ psym d <> txt "CELLS" /\
     forall x, In x (pvalues d) -> survives F x) ->
  (forall s v, In (s, v) cds -> is_symbol s /\ s <> txt "POINTS" /\ s <> txt "CELLS" /\
     forall x, In x v -> survives F x) ->
  let file := export_file F nodes elements types pds cds in
  GenerateNodes F file = Ok (map (pad3 F) nodes) /\ GenerateElements file = Ok elements.
Proof.
  intros T F nodes es ts pds cds Hz Hn Hp Hc file.
  assert (Hs : spells file _) by (apply file_words; [assumption|intros v x Hv; now apply Hn
    |intros d Hd; split; now apply Hp|intros s v Hd; split; now apply (Hc s v)]).
  assert (HP : "POINTS"%string = "POINTS"%string \/ "POINTS"%string = "CELLS"%string) by auto.
  assert (HC : "CELLS"%string = "POINTS"%string \/ "CELLS"%string = "CELLS"%string) by auto.
  split.
  - unfold GenerateNodes; change (open_text file) with (good file).
    rewrite (gen_nodes_read F header_words file _ [] (map (pad3 F) nodes) (txt "float")
      ((((txt "CELLS" :: show_nat (List.length es) :: show_nat (datanum es) :: concat (map cell_words es))
        ++ txt "CELL_TYPES" :: show_nat (List.length ts) :: map show_Z ts) ++ pfields_words F true pds) ++ cfields_words F true cds)).
    + reflexivity.
    + intros r x Hr Hx; apply in_map_iff in Hr as (v & <- & Hv).
      apply (pad3_survives F v Hz (proj2 (Hn v Hv)) x Hx).
    + intros r Hr; apply in_map_iff in Hr as (v & <- & Hv); apply pad3_exact; now apply Hn.
    + now apply notin_header.
    + apply notin_app; [apply notin_app; [apply notin_app|]|].
      * apply notin_cells.
      * now apply notin_types.
      * apply notin_pfields; [assumption|assumption|]; intros d Hd; destruct (Hp d Hd) as (_ & A1 & _ & A2); now split.
      * apply notin_cfields; [assumption|]; intros s v Hd; destruct (Hc s v Hd) as (_ & A1 & _ & A2); now split.
    + rewrite map_length; repeat (first [rewrite <- !app_assoc in Hs | progress cbn [app] in Hs]).
      repeat (first [rewrite <- !app_assoc | progress cbn [app]]); exact Hs.
    + lia.
  - unfold GenerateElements; change (open_text file) with (good file).
    rewrite (gen_elements_read (header_words ++ txt "POINTS" :: show_nat (List.length nodes) :: txt "float"
         :: concat (map (map (show F)) (map (pad3 F) nodes))) file _ [] es (show_nat (datanum es))
      (((txt "CELL_TYPES" :: show_nat (List.length ts) :: map show_Z ts) ++ pfields_words F true pds) ++ cfields_words F true cds)).
    + reflexivity.
    + apply notin_app; [now apply notin_header|].
      apply notin_points; [assumption|]; intros v x Hv; now apply Hn.
    + apply notin_app; [apply notin_app|].
      * now apply notin_types.
      * apply notin_pfields; [assumption|assumption|]; intros d Hd; destruct (Hp d Hd) as (_ & _ & A1 & A2); now split.
      * apply notin_cfields; [assumption|]; intros s v Hd; destruct (Hc s v Hd) as (_ & _ & A1 & A2); now split.
    + repeat (first [rewrite <- !app_assoc in Hs | progress cbn [app] in Hs]).
      repeat (first [rewrite <- !app_assoc | progress cbn [app]]); exact Hs.
    + lia.
Qed.

Lemma C54_import_pf : forall (T : Type) (F : numfmt T) nodes elements types
  (pds : list (bool * pfield T)) (cds : list (bool * (text * list T))) dim np nc,
  1 <= dim <= 3 -> survives F (tzero F) ->
  (forall v x, In v nodes -> In x v -> survives F x) ->
  (forall b d, In (b, d) pds -> is_symbol (psym d) /\ keyword_free (psym d) /\ plen d = np /\
     (forall x, In x (pvalues d) -> survives F x) /\
     match d with PScalV _ v => forall r, In r v -> List.length r = 1 | _ => True end) ->
  (forall b s v, In (b, (s, v)) cds -> is_symbol s /\ keyword_free s /\ List.length v = nc /\
     forall x, In x v -> survives F x) ->
  NoDup (map (fun p => item_key (IPoint (snd p))) pds ++ map (fun p => item_key (ICell (fst (snd p)) (snd (snd p)))) cds) ->
  let file := export_file F nodes elements types (map snd pds) (map snd cds) in
  let asked := map (fun p => IPoint (snd p)) (filter fst pds) ++
               map (fun p => ICell (fst (snd p)) (snd (snd p))) (filter fst cds) in
  exists m0 m1 m2,
    new_importer file dim = Ok m0 /\
    ImportPOINTS F m0 = Ok (map (fun v => firstn dim (pad3 F v)) nodes, m1) /\
    ImportCELLS m1 = Ok (elements, m2) /\
    import_items F asked m2 = Ok (map (item_field F dim) asked).
Proof.
  intros T F nodes es ts pds cds dim np nc Hdim Hz Hn Hp Hc Hnd file asked.
  assert (Hgp : forall d, In d (map snd pds) -> item_good F (IPoint d) /\ plen d = np).
  { intros d Hd; apply in_map_iff in Hd as ([b d'] & <- & Hin); cbn [snd].
    destruct (Hp b d' Hin) as (A1 & A2 & A3 & A4 & A5); split; [|assumption].
    unfold item_good, item_sym, item_values.
    replace (snd (item_key (IPoint d'))) with (psym d') by (destruct d'; reflexivity).
    splits; auto. }
  assert (Hgc : forall s v, In (s, v) (map snd cds) -> item_good F (ICell s v) /\ List.length v = nc).
  { intros s v Hd; apply in_map_iff in Hd as ([b [s' v']] & E & Hin); cbn [snd] in E; injection E as -> ->.
    destruct (Hc b s v Hin) as (A1 & A2 & A3 & A4); split; [|assumption].
    unfold item_good, item_sym, item_values; cbn [item_key snd]; splits; auto. }
  set (m0 := mkimp file (good file) dim 0 0%Z 0%Z).
  set (r2 := lines (types_lines ts) ++ lines (recs_lines F (precs (map snd pds) ++ crecs (map snd cds)))).
  set (r1 := lines (cells_lines es) ++ r2).
  assert (Efile : file = lines header_lines ++ lines (points_lines F nodes) ++ r1).
  { unfold file; rewrite file_is_lines; reflexivity. }
  exists m0, (pos r1 (with_points (List.length nodes) m0)),
    (pos r2 (with_cells (List.length es) (with_points (List.length nodes) m0))).
  split; [|split; [|split]].
  - unfold new_importer, assert_.
    destruct (Nat.ltb_spec 0 dim); [|lia]; destruct (Nat.ltb_spec dim 4); [|lia]; reflexivity.
  - pose proof (points_then F nodes r1 m0 Hz Hn (proj2 Hdim)) as E.
    rewrite <- Efile in E; exact E.
  - apply cells_then.
  - assert (Easked : asked = wanted (fprecs pds ++ fcrecs cds)) by (now rewrite wanted_app, wanted_fp, wanted_fc).
    assert (Esnd : map snd (fprecs pds ++ fcrecs cds) = precs (map snd pds) ++ crecs (map snd cds))
      by (now rewrite map_app, fprecs_snd, fcrecs_snd).
    rewrite Easked; unfold r2; rewrite <- Esnd.
    apply (types_skip F ts (fprecs pds ++ fcrecs cds) (with_cells (List.length es) (with_points (List.length nodes) m0))).
    + assumption.
    + exact (proj2 Hdim).
    + rewrite Esnd; now apply (all_wf F np nc).
    + rewrite Esnd, keys_app, keys_p, keys_c, !map_map; exact Hnd.
    + reflexivity.
Qed.

Lemma C54_counts_pf : forall (T : Type) (F : numfmt T) (nodes : list (list T)) (elements : list (list Z)) (types : list Z),
  (forall x, show F x <> [] /\ nows (show F x)) -> (forall v, In v nodes -> List.length v <= 3) ->
  (exists ws, words (AddPoints F nodes []) = [txt "POINTS"; show_nat (List.length nodes); txt "float"] ++ ws /\
     List.length ws = 3 * List.length nodes) /\
  (exists n ws, words (AddElement elements []) = [txt "CELLS"; show_nat (List.length elements); show_nat n] ++ ws /\
     List.length ws = n /\ n = list_sum (map (fun e => S (List.length e)) elements)) /\
  (exists ws, words (AddElementTypes types []) = [txt "CELL_TYPES"; show_nat (List.length types)] ++ ws /\
     List.length ws = List.length types).
Proof.
  intros T F nodes es ts Hs Hl; split; [|split].
  - exists (concat (map (map (show F)) (map (pad3 F) nodes))); split.
    + apply spells_words; apply (spells_points F nodes [] []); [intros; apply Hs|apply Hs|constructor].
    + clear -Hl; induction nodes as [|v nodes IH]; cbn [map concat]; [reflexivity|].
      rewrite app_length, map_length, pad3_exact, IH; [cbn [List.length]; lia| |apply Hl; now left].
      intros w Hw; apply Hl; now right.
  - exists (datanum es), (concat (map cell_words es)); split; [|split].
    + apply spells_words; apply (spells_element es [] []); constructor.
    + rewrite cell_words_length; unfold datanum; now rewrite datanum_sum.
    + unfold datanum; now rewrite datanum_sum.
  - exists (map show_Z ts); split; [|apply map_length].
    apply spells_words; apply (spells_types ts [] []); constructor.
Qed.

Lemma C54_double_pf : forall z, (Z.abs z < 1000000)%Z -> survives double_fmt z.
Proof.
  intros z Hz.
  assert (Hg : forall a, (0 <= a < 1000000)%Z -> show_g a = show_nat (Z.to_nat a)).
  { intros a Ha; unfold show_g.
    assert (HL : List.length (show_nat (Z.to_nat a)) <= 6).
    { apply show_fuel_length; apply Nat2Z.inj_lt; rewrite Z2Nat.id by lia.
      rewrite Nat2Z.inj_pow; change (Z.of_nat 10 ^ Z.of_nat 6)%Z with 1000000%Z; lia. }
    destruct (Nat.leb_spec (List.length (show_nat (Z.to_nat a))) 6); [reflexivity|lia]. }
  assert (Hsh : show_double z = show_Z z).
  { unfold show_double, show_Z; destruct (Z.ltb_spec z 0); rewrite Hg by lia; reflexivity. }
  unfold survives; cbn [show readT double_fmt]; rewrite Hsh; split; [apply show_Z_nonempty|].
  split; [apply show_Z_nows|]; split; [apply show_Z_noupper|].
  unfold show_Z, read_double; destruct (Z.ltb_spec z 0) as [H|H].
  - change (Ascii.eqb "-" "-") with true; cbv iota.
    rewrite read_unsigned_digits by (apply show_nat_nonempty || apply show_nat_digits).
    cbn [option_map]; rewrite show_nat_val; f_equal; lia.
  - pose proof (show_nat_digits (Z.to_nat z)) as Hd.
    pose proof (show_nat_nonempty (Z.to_nat z)) as Hn.
    pose proof (show_nat_val (Z.to_nat z)) as Hv.
    destruct (show_nat (Z.to_nat z)) as [|d ds]; [congruence|].
    destruct (digit_minus d (Hd d (or_introl eq_refl))) as [-> _].
    rewrite read_unsigned_digits by assumption; rewrite Hv; f_equal; lia.
Qed.

Lemma C54_precision_refuted_pf : exists nodes : list (list Z),
  GenerateNodes double_fmt (export_file double_fmt nodes [] [] [] []) <> Ok (map (pad3 double_fmt) nodes) /\
  GenerateNodes double_fmt (export_file double_fmt nodes [] [] [] []) = Ok [[1234570; 0; 0]]%Z.
Proof.
  exists [[1234567]]%Z; split; [|vm_compute; reflexivity].
  vm_compute; discriminate.
Qed.

Lemma C80_order_pf : forall (T : Type) (F : numfmt T) nodes elements types dim,
  1 <= dim <= 3 -> survives F (tzero F) -> (forall v x, In v nodes -> In x v -> survives F x) ->
  exists m0 m1 m2 m3,
    new_importer (export_file F nodes elements types [] []) dim = Ok m0 /\
    ImportCELLS m0 = Ok (elements, m1) /\
    ImportPOINTS F m1 = Ok ([], m2) /\
    ImportPOINTS F m2 = Ok (map (fun v => firstn dim (pad3 F v)) nodes, m3).
Proof.
  intros T F nodes es ts dim Hdim Hz Hn.
  set (file := export_file F nodes es ts [] []).
  set (m0 := mkimp file (good file) dim 0 0%Z 0%Z).
  set (r2 := lines (types_lines ts)).
  assert (Efile : file = lines header_lines ++ lines (points_lines F nodes) ++ lines (cells_lines es) ++ r2).
  { unfold file; rewrite file_is_lines; unfold precs, crecs; cbn [app recs_lines map concat].
    change (lines []) with (@nil ascii); rewrite app_nil_r; reflexivity. }
  set (m1 := with_cells (List.length es) m0).
  assert (Hpass : forall A (hit : importer -> text -> option (res (list A * importer))) m,
    (forall t l, In l (header_lines ++ points_lines F nodes) -> hit (pos t m) l = None) ->
    Forall (passed hit m) (header_lines ++ points_lines F nodes)).
  { intros A hit m Hh; apply Forall_app; split.
    - apply header_passed; intros t l Hl; apply Hh; apply in_app_iff; now left.
    - assert (Hh' : forall t l, In l (points_lines F nodes) -> hit (pos t m) l = None)
        by (intros t l Hl; apply Hh; apply in_app_iff; now right).
      apply Forall_forall; intros l Hl; specialize (fun t => Hh' t l Hl); destruct Hl as [<-|[<-|Hl]].
      + apply passed_low; [apply nonl_nil|apply noupper_nil|assumption].
      + unfold passed; split; [apply nonl_points|]; split; [rewrite kw_points by apply kw_PD; reflexivity|].
        split; [rewrite kw_points by apply kw_CD; reflexivity|assumption].
      + apply in_map_iff in Hl as (v & <- & Hv).
        apply passed_low; [apply row_line_nonl; eauto|apply row_line_noupper; eauto|assumption]. }
  exists m0, (pos r2 m1), (pos file m1), (pos (lines (cells_lines es) ++ r2) (with_points (List.length nodes) m1)).
  split; [|split; [|split]].
  - unfold new_importer, assert_.
    destruct (Nat.ltb_spec 0 dim); [|lia]; destruct (Nat.ltb_spec dim 4); [|lia]; reflexivity.
  - unfold ImportCELLS, run_scan; fold hit_cells.
    change (rest (im_ifs m0)) with file; change m0 with (pos file m0) at 1; rewrite Efile.
    rewrite (app_assoc (lines header_lines)), <- lines_app.
    destruct (scan_skip hit_cells (header_lines ++ points_lines F nodes) (lines (cells_lines es) ++ r2) m0
      (S (List.length (lines (header_lines ++ points_lines F nodes) ++ lines (cells_lines es) ++ r2))) [])
      as (f' & o' & E & Hf').
    + apply Hpass; intros t l Hl; unfold hit_cells.
      replace (contains (txt "CELLS") l) with false; [reflexivity|symmetry].
      apply in_app_iff in Hl as [Hl|[<-|[<-|Hl]]].
      * cbn in Hl; repeat destruct Hl as [<-|Hl]; try contradiction; reflexivity.
      * reflexivity.
      * rewrite kw_points by apply kw_C; reflexivity.
      * apply in_map_iff in Hl as (v & <- & Hv); apply (kw_noupper "CELLS"); [apply kw_C|].
        apply row_line_noupper; eauto.
    + lia.
    + rewrite E; apply import_cells_at; assumption.
  - unfold ImportPOINTS, run_scan; fold (hit_points F).
    change (rest (im_ifs (pos r2 m1))) with r2.
    destruct (scan_skip (hit_points F) (types_lines ts) [] m1 (S (List.length r2)) []) as (f' & o' & E & Hf').
    + unfold types_lines; constructor; [|constructor].
      * apply passed_low; [apply nonl_nil|apply noupper_nil|reflexivity].
      * unfold passed, types_title; split; [|split; [|split]].
        -- apply nonl_data; reflexivity.
        -- rewrite kw_title_nat by (apply kw_PD || reflexivity); reflexivity.
        -- rewrite kw_title_nat by (apply kw_CD || reflexivity); reflexivity.
        -- intros t; unfold hit_points; rewrite kw_title_nat by (apply kw_P || reflexivity); reflexivity.
      * apply Forall_forall; intros x Hx; apply in_map_iff in Hx as (z & <- & _).
        apply passed_low; [apply nows_nonl, show_Z_nows|apply show_Z_noupper|].
        intros t; unfold hit_points; rewrite (kw_noupper "POINTS") by (apply kw_P || apply show_Z_noupper); reflexivity.
    + rewrite app_nil_r; unfold r2; lia.
    + rewrite app_nil_r in E; fold r2 in E; rewrite E; apply scan_end; lia.
  - rewrite Efile; apply (points_then F nodes (lines (cells_lines es) ++ r2) m1 Hz Hn (proj2 Hdim)).
Qed.

Lemma C80_order_refuted_pf : exists nodes elements m0 p c m1 m2,
  new_importer (export_file double_fmt nodes elements [] [] []) 2 = Ok m0 /\
  ImportPOINTS double_fmt m0 = Ok (p, m1) /\ p = nodes /\
  ImportCELLS m0 = Ok (c, m2) /\ c = elements /\
  exists m3, ImportPOINTS double_fmt m2 = Ok ([], m3) /\ nodes <> [].
Proof.
  exists [[0; 0]; [1; 0]; [0; 1]]%Z, [[0; 1; 2]]%Z.
  eexists _, _, _, _, _; split; [vm_compute; reflexivity|].
  split; [vm_compute; reflexivity|]; split; [reflexivity|].
  split; [vm_compute; reflexivity|]; split; [reflexivity|].
  eexists; split; [vm_compute; reflexivity|discriminate].
Qed.

Lemma C55_nodes_pf : forall (T : Type) (F : numfmt T) header rows body old nodes,
  ~ In c_nl header -> layout rows body ->
  Forall2 (fun r x => exists idn fs, r = idn :: fs /\ Forall2 (fun f v => readT F f = Some v) fs x) rows nodes ->
  ImportNodesFromCSV F old (header ++ c_nl :: body) = Ok (old ++ nodes).
Proof.
  intros T F header rows body old nodes Hh Hl HF; unfold ImportNodesFromCSV.
  rewrite import_csv_rows with (rows := rows) by assumption.
  apply foldM_push with (P := fun r x => exists idn fs, r = idn :: fs /\ Forall2 (fun f v => readT F f = Some v) fs x); [|assumption].
  intros acc r x Hin (idn & fs & -> & Hv); cbn [on_row].
  apply (layout_fields _ _ Hl) in Hin; inversion Hin as [|? ? _ Hfs]; subst.
  rewrite fields_ok by assumption; cbn [bind].
  rewrite mapM_Forall2 with (l' := x); [reflexivity|].
  eapply Forall2_weaken; [|exact Hv]; intros f v E; cbv beta; unfold stod; now rewrite E.
Qed.

Lemma C55_elements_pf : forall header rows body old elements,
  ~ In c_nl header -> layout rows body ->
  Forall2 (fun r x => exists idn fs, r = idn :: fs /\ Forall2 numeral fs x) rows elements ->
  ImportElementsFromCSV old (header ++ c_nl :: body) = Ok (old ++ elements).
Proof.
  intros header rows body old elements Hh Hl HF; unfold ImportElementsFromCSV.
  rewrite import_csv_rows with (rows := rows) by assumption.
  apply foldM_push with (P := fun r x => exists idn fs, r = idn :: fs /\ Forall2 numeral fs x); [|assumption].
  intros acc r x Hin (idn & fs & -> & Hv); cbn [on_row].
  apply (layout_fields _ _ Hl) in Hin; inversion Hin as [|? ? _ Hfs]; subst.
  rewrite fields_ok by assumption; cbn [bind].
  rewrite mapM_Forall2 with (l' := x); [reflexivity|].
  eapply Forall2_weaken; [|exact Hv]; intros f v E; now apply stoi_numeral.
Qed.

Lemma C55_conditions_pf : forall (T : Type) (F : numfmt T) header rows body old (conds : list (Z * list (option T))),
  ~ In c_nl header -> layout rows body ->
  Forall2 (fun r c => exists idn fs, r = idn :: fs /\ numeral idn (fst c) /\ value_fields F fs (snd c)) rows conds ->
  let expected := old ++ concat (map (fun c => conditions (fst c) 0 (snd c)) conds) in
  ImportDirichletFromCSV F old (header ++ c_nl :: body) = Ok expected /\
  ImportNeumannFromCSV F old (header ++ c_nl :: body) = Ok expected.
Proof.
  intros T F header rows body old conds Hh Hl HF expected.
  assert (H : ImportDirichletFromCSV F old (header ++ c_nl :: body) = Ok expected); [|split; exact H].
  unfold ImportDirichletFromCSV; rewrite import_csv_rows with (rows := rows) by assumption.
  assert (Hfl := layout_fields _ _ Hl); clear Hl Hh header body; subst expected; revert old.
  induction HF as [|r c rows conds (idn & fs & -> & Hn & Hv) _ IH]; intros old; cbn [foldM map concat].
  - now rewrite app_nil_r.
  - cbn [on_row]; assert (Hf := Hfl _ (or_introl eq_refl)); inversion Hf as [|? ? _ Hfs]; subst.
    rewrite (stoi_numeral idn (fst c) Hn); cbn [bind]; rewrite fields_ok by assumption; cbn [bind].
    rewrite (conditions_fold F fs (snd c) (fst c) Hv); cbn [bind].
    rewrite IH, <- app_assoc; [reflexivity|]; intros r Hr; apply Hfl; now right.
Qed.

Lemma C55_initial_pf : forall (T : Type) (F : numfmt T) header rows body (u : list (list T)) (vals : list (nat * list (option T))),
  ~ In c_nl header -> layout rows body ->
  Forall2 (fun r c => exists idn fs, r = idn :: fs /\ numeral idn (Z.of_nat (fst c)) /\ value_fields F fs (snd c)) rows vals ->
  (forall k vs, In (k, vs) vals -> exists x, nth_error u k = Some x /\ List.length x = List.length vs) ->
  ImportInitialFromCSV F u (header ++ c_nl :: body) =
  Ok (fold_left (fun u c => upd u (fst c) (replace_comps (nth (fst c) u []) (snd c))) vals u).
Proof.
  intros T F header rows body u vals Hh Hl HF Hu.
  unfold ImportInitialFromCSV; rewrite import_csv_rows with (rows := rows) by assumption.
  assert (Hfl := layout_fields _ _ Hl); clear Hl Hh header body; revert u Hu.
  induction HF as [|r c rows vals (idn & fs & -> & Hn & Hv) _ IH]; intros u Hu; cbn [foldM fold_left]; [reflexivity|].
  cbn [on_row]; assert (Hf := Hfl _ (or_introl eq_refl)); inversion Hf as [|? ? _ Hfs]; subst.
  destruct c as [k vs]; cbn [fst snd] in *.
  destruct (Hu k vs (or_introl eq_refl)) as (x & Hx & Hlen).
  assert (Hk : k < List.length u) by (apply nth_error_Some; congruence).
  rewrite (stoi_numeral idn _ Hn); cbn [bind].
  unfold rdZ, rd; destruct (Z.ltb_spec (Z.of_nat k) 0); [lia|]; rewrite Nat2Z.id, Hx; cbn [bind].
  pose proof (initial_full F fs vs Hv [] x idn Hfs ltac:(rewrite Hlen; symmetry; exact (F2_length _ _ _ Hv))) as E.
  cbn [List.length app] in E; rewrite E; cbn [bind].
  assert (Enth : nth k u [] = x) by (now apply nth_error_nth).
  rewrite Enth; unfold wr; destruct (Nat.ltb_spec k (List.length u)); [|lia]; cbn [bind].
  apply IH; [intros r Hr; apply Hfl; now right|].
  intros k' vs' Hin; destruct (Hu k' vs' (or_intror Hin)) as (y & Hy & Hly).
  rewrite nth_error_upd; destruct (Nat.eqb_spec k k') as [<-|]; cbn [andb].
  - destruct (Nat.ltb_spec k (List.length u)); [|lia].
    exists (replace_comps x vs); split; [reflexivity|].
    rewrite <- Hly; rewrite Hx in Hy; injection Hy as <-; clear.
    revert vs; induction x as [|a x IH]; intros [|[v|] vs]; cbn [replace_comps List.length]; auto.
  - exists y; auto.
Qed.

Lemma C55_periodic_pf : forall header rows body old pairs,
  ~ In c_nl header -> layout rows body ->
  Forall2 (fun r p => exists a b fs, r = a :: b :: fs /\ numeral a (fst p) /\ numeral b (snd p)) rows pairs ->
  ImportPeriodicFromCSV old (header ++ c_nl :: body) = Ok (old ++ pairs).
Proof.
  intros header rows body old pairs Hh Hl HF; unfold ImportPeriodicFromCSV.
  rewrite import_csv_rows with (rows := rows) by assumption.
  apply foldM_push with (P := fun r p => exists a b fs, r = a :: b :: fs /\ numeral a (fst p) /\ numeral b (snd p)); [|assumption].
  intros acc r p Hin (a & b & fs & -> & Ha & Hb); cbn [on_row].
  apply (layout_fields _ _ Hl) in Hin; inversion Hin as [|? ? _ Hfs]; subst.
  rewrite (stoi_numeral a _ Ha); cbn [bind].
  rewrite getline_tail by assumption.
  rewrite (stoi_numeral b _ Hb); cbn [bind]; now destruct p.
Qed.

Lemma C55_short_row_pf : forall (T : Type) (F : numfmt T) header idn k fs f vs v (u : list (list T)) x,
  ~ In c_nl header -> Forall is_field (idn :: fs ++ [f]) -> numeral idn (Z.of_nat k) ->
  value_fields F (fs ++ [f]) (vs ++ [Some v]) ->
  nth_error u k = Some x -> S (List.length fs) < List.length x ->
  ImportInitialFromCSV F u (header ++ c_nl :: comma (idn :: fs ++ [f]) ++ [c_nl]) =
  Ok (upd u k (replace_comps (firstn (S (List.length fs)) x) (vs ++ [Some v])
               ++ repeat v (List.length x - S (List.length fs)))).
Proof.
  intros T F header idn k fs f vs v u x Hh Hf Hn Hv Hx Hlen.
  assert (Hlay : layout [idn :: fs ++ [f]] (comma (idn :: fs ++ [f]) ++ [c_nl])).
  { apply lay_row; [discriminate|assumption|reflexivity|constructor]. }
  unfold ImportInitialFromCSV; rewrite import_csv_rows with (rows := [idn :: fs ++ [f]]) by assumption.
  cbn [foldM on_row]; inversion Hf as [|? ? _ Hfs]; subst.
  rewrite (stoi_numeral idn _ Hn); cbn [bind].
  unfold rdZ, rd; destruct (Z.ltb_spec (Z.of_nat k) 0); [lia|]; rewrite Nat2Z.id, Hx; cbn [bind].
  pose proof (initial_short F fs vs f v Hv [] x idn Hfs ltac:(lia)) as E.
  cbn [List.length app] in E; rewrite E; cbn [bind].
  assert (Hk : k < List.length u) by (apply nth_error_Some; congruence).
  unfold wr; destruct (Nat.ltb_spec k (List.length u)); [|lia]; cbn [bind].
  do 3 f_equal.
  rewrite <- (skipn_length (S (List.length fs)) x); generalize (skipn (S (List.length fs)) x) as l; clear.
  induction l as [|a l IH]; cbn [map repeat List.length]; [reflexivity|now rewrite IH].
Qed.

Lemma C55_missing_refuted_pf : exists file u u' i v, ImportInitialFromCSV double_fmt u file = Ok u' /\
  file = txt "id,u,v" ++ [c_nl] ++ txt "0,7" ++ [c_nl] /\ u = [[1; 2]]%Z /\
  nth_error (nth 0 u' []) i = Some v /\ i = 1 /\ v = 7%Z /\
  exists file2 p, ImportPeriodicFromCSV [] file2 = Ok p /\ file2 = txt "a,b" ++ [c_nl] ++ txt "5" ++ [c_nl] /\ p = [(5, 5)]%Z.
Proof.
  eexists _, _, _, _, _; split; [|split; [reflexivity|split; [reflexivity|split; [|split; [reflexivity|split; [reflexivity|]]]]]].
  - vm_compute; reflexivity.
  - reflexivity.
  - eexists _, _; split; [|split; reflexivity]; vm_compute; reflexivity.
Qed.
