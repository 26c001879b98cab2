(** Lemmas about the CSV import. *)
From Coq Require Import Ascii String.
From Coq Require Import List Arith ZArith Lia Bool.
From Verif Require Import Res IOModel IOSpec IOProof IOProof2.
Import ListNotations.
Local Open Scope nat_scope.

Definition tailst (fs : list text) : istream :=
  match fs with [] => mkst [] true false | _ => good (comma fs) end.

Lemma comma_cons f g fs : comma (f :: g :: fs) = f ++ c_comma :: comma (g :: fs).
Proof. reflexivity. Qed.

Lemma comma_nows fs : Forall is_field fs -> nows (comma fs).
Proof.
  induction fs as [|f fs IH]; intros H; [intros c []|].
  inversion H as [|? ? (H1 & H2 & H3) H4]; subst.
  destruct fs as [|g fs]; [exact H2|].
  rewrite comma_cons; intros c Hc; apply in_app_iff in Hc as [Hc|[<-|Hc]]; [auto|reflexivity|now apply IH].
Qed.

Lemma comma_ne fs : fs <> [] -> Forall is_field fs -> comma fs <> [].
Proof.
  intros Hn H; destruct fs as [|f fs]; [congruence|].
  inversion H as [|? ? (H1 & H2 & H3) H4]; subst.
  destruct fs as [|g fs]; [exact H1|].
  rewrite comma_cons; intros E; apply app_eq_nil in E as [E _]; auto.
Qed.

Lemma comma_length fs : Forall is_field fs -> List.length fs <= List.length (comma fs).
Proof.
  induction fs as [|f fs IH]; intros H; [cbn; lia|].
  inversion H as [|? ? (H1 & H2 & H3) H4]; subst.
  assert (1 <= List.length f) by (destruct f; [congruence|cbn; lia]).
  destruct fs as [|g fs]; [cbn [comma List.length]; lia|].
  rewrite comma_cons, app_length; specialize (IH H4); cbn [List.length] in *; lia.
Qed.

Lemma getline_field f fs old : Forall is_field (f :: fs) ->
  getline c_comma (good (comma (f :: fs))) old = (true, f, tailst fs).
Proof.
  intros H; inversion H as [|? ? (H1 & H2 & H3) H4]; subst.
  assert (Hall : forall x, In x f -> negb (Ascii.eqb x c_comma) = true).
  { intros x Hx; apply negb_true_iff, Ascii.eqb_neq; intros ->; contradiction. }
  unfold getline; cbn [eofb failb rest good orb].
  destruct (comma (f :: fs)) as [|a b] eqn:E; [now apply comma_ne in E|]; rewrite <- E.
  destruct fs as [|g fs].
  - cbn [comma]; now rewrite span_end.
  - rewrite comma_cons, span_all; [reflexivity|assumption|reflexivity].
Qed.

Lemma getline_tail f fs old : Forall is_field (f :: fs) ->
  getline c_comma (tailst (f :: fs)) old = (true, f, tailst fs).
Proof. apply getline_field. Qed.

Lemma getline_tail_none old : getline c_comma (tailst []) old = (false, old, mkst [] true true).
Proof. reflexivity. Qed.

Lemma fields_tail fs : forall f str, Forall is_field fs -> List.length fs < f ->
  fields_loop f (tailst fs) str = Ok fs.
Proof.
  induction fs as [|x fs IH]; intros f str H Hf; (destruct f as [|f]; [lia|]); cbn [fields_loop].
  - now rewrite getline_tail_none.
  - rewrite getline_tail by assumption.
    rewrite IH; [reflexivity|now inversion H|cbn [List.length] in Hf; lia].
Qed.

Lemma fields_ok fs str : Forall is_field fs -> fields (tailst fs) str = Ok fs.
Proof.
  intros H; unfold fields; apply fields_tail; [assumption|].
  pose proof (comma_length fs H); destruct fs; cbn [tailst rest good] in *; [cbn; lia|lia].
Qed.

Section Rows.
Context {A : Type} (row : text -> istream -> A -> res A).

Definition on_row (acc : A) (fs : list text) : res A :=
  match fs with [] => Ok acc | f :: fs' => row f (tailst fs') acc end.

Lemma row_word fs acc : fs <> [] -> Forall is_field fs ->
  (let '(_, str, sbuf) := getline c_comma (open_text (comma fs)) [] in
   if at_end str then Ok acc else row str sbuf acc) = on_row acc fs.
Proof.
  intros Hn H; destruct fs as [|f fs]; [congruence|].
  change (open_text (comma (f :: fs))) with (good (comma (f :: fs))).
  rewrite getline_field by assumption.
  inversion H as [|? ? (H1 & _) _]; subst; destruct f; [congruence|reflexivity].
Qed.

Lemma csv_step t f acc : csv_loop row (S f) (good t) acc =
  let '(w, s) := get_word (good t) in
  let buf := match w with Some w => w | None => [] end in
  acc <- (let '(_, str, sbuf) := getline c_comma (open_text buf) [] in
          if at_end str then Ok acc else row str sbuf acc) ;;
  csv_loop row f s acc.
Proof.
  cbn [csv_loop eofb good]; destruct (get_word (good t)) as [w s].
  destruct (getline c_comma (open_text (match w with Some w => w | None => [] end)) []) as [[b str] sb].
  reflexivity.
Qed.

(** leading white space does not matter *)
Lemma enter_ws c t : ws c = true -> enter (good (c :: t)) = enter (good t).
Proof. intros H; unfold enter; cbn [eofb failb rest good orb skip_ws]; now rewrite H. Qed.
Lemma none_left_ws c t : none_left (good (c :: t)) = none_left (good t).
Proof. reflexivity. Qed.
Lemma get_word_ws c t : ws c = true -> get_word (good (c :: t)) = get_word (good t).
Proof. intros H; unfold get_word; now rewrite enter_ws, none_left_ws. Qed.

Lemma csv_loop_eof f r acc b : 0 < f -> csv_loop row f (mkst r true b) acc = Ok acc.
Proof. intros H; destruct f; [lia|reflexivity]. Qed.

Lemma csv_rows rows t : layout rows t -> forall f acc, List.length t + 1 < f ->
  csv_loop row f (good t) acc = foldM on_row rows acc.
Proof.
  induction 1 as [|c rows t Hc H IH|fs c rows t Hn Hf Hc H IH|fs Hn Hf]; intros f acc Hl;
    (destruct f as [|f]; [lia|]).
  - rewrite csv_step; cbn [get_word]; unfold get_word; cbn [enter eofb failb rest good orb skip_ws none_left].
    cbn; destruct f; [cbn in Hl; lia|reflexivity].
  - rewrite csv_step, get_word_ws, <- csv_step by assumption.
    apply IH; cbn [List.length] in Hl; lia.
  - rewrite csv_step.
    pose proof (get_word_line [] (comma fs) (c :: t) allws0 (comma_ne fs Hn Hf) (comma_nows fs Hf) Hc) as E.
    cbn [app at_end] in E; rewrite E; cbv beta iota zeta; rewrite row_word by assumption.
    cbn [foldM]; destruct (on_row acc fs) as [a|e]; [|reflexivity]; cbn [bind].
    rewrite app_length in Hl; cbn [List.length] in Hl.
    pose proof (comma_ne fs Hn Hf) as Hne.
    assert (1 <= List.length (comma fs)) by (destruct (comma fs); [congruence|cbn; lia]).
    fold (good (c :: t)).
    destruct f as [|f]; [lia|].
    rewrite csv_step, get_word_ws, <- csv_step by assumption.
    apply IH; lia.
  - rewrite csv_step.
    pose proof (get_word_line [] (comma fs) [] allws0 (comma_ne fs Hn Hf) (comma_nows fs Hf) Logic.I) as E.
    cbn [app at_end] in E; rewrite app_nil_r in E; rewrite E; cbv beta iota zeta; rewrite row_word by assumption.
    cbn [foldM]; destruct (on_row acc fs) as [a|e]; [|reflexivity]; cbn [bind].
    apply csv_loop_eof; lia.
Qed.

Lemma import_csv_rows header rows body acc : ~ In c_nl header -> layout rows body ->
  import_csv row (header ++ c_nl :: body) acc = foldM on_row rows acc.
Proof.
  intros Hh Hb; unfold import_csv.
  change (open_text (header ++ c_nl :: body)) with (good (header ++ c_nl :: body)).
  rewrite getline_line by assumption.
  apply csv_rows; [assumption|].
  rewrite app_length; cbn [List.length]; lia.
Qed.
End Rows.

(** * Numerals *)
Lemma digits_val_acc t : forall a,
  fold_left (fun a c => (a * 10 + Z.of_nat (digit_val c))%Z) t a = (a * 10 ^ Z.of_nat (List.length t) + dec_val t)%Z.
Proof.
  induction t as [|c t IH]; intros a; cbn [fold_left dec_val List.length].
  - rewrite Z.pow_0_r; lia.
  - rewrite IH, Nat2Z.inj_succ, Z.pow_succ_r by lia; lia.
Qed.

Lemma digits_val_dec t : digits_val t = dec_val t.
Proof. unfold digits_val; rewrite digits_val_acc; lia. Qed.

Lemma stoi_numeral f z : numeral f z -> stoi f = Ok z.
Proof.
  intros (ds & Hne & Hd & H); unfold stoi, int_prefix.
  assert (Hs : span digit ds = (ds, [])) by (now apply span_end).
  destruct H as [[-> ->]|[-> ->]].
  - destruct ds as [|d ds]; [congruence|].
    assert (Hdd := Hd d (or_introl eq_refl)).
    cbn [skip_ws]; rewrite (digit_ws d Hdd).
    destruct (digit_minus d Hdd) as [-> ->].
    now rewrite Hs, digits_val_dec.
  - cbn [skip_ws]; change (ws "-") with false; cbv iota.
    change (Ascii.eqb "-" "-") with true; cbv iota beta.
    rewrite Hs; destruct ds as [|d ds]; [congruence|]; now rewrite digits_val_dec.
Qed.

Lemma F2_length {A B} (P : A -> B -> Prop) l l' : Forall2 P l l' -> List.length l = List.length l'.
Proof. induction 1; cbn [List.length]; congruence. Qed.

Lemma mapM_Forall2 {A B} (f : A -> res B) l l' : Forall2 (fun a b => f a = Ok b) l l' -> mapM f l = Ok l'.
Proof. induction 1 as [|a b l l' H _ IH]; cbn [mapM]; [reflexivity|]; now rewrite H, IH. Qed.

Section Values.
Context {T : Type} (F : numfmt T).

Lemma conditions_fold fs vs idn : value_fields F fs vs -> forall i acc,
  foldM (fun u '(i, f) => if text_eqb f (txt "free") then Ok u
      else v <- stod F f ;; Ok (u ++ [((idn, i), v)])) (combine (seq i (List.length fs)) fs) acc =
  Ok (acc ++ conditions idn i vs).
Proof.
  induction 1 as [|f ov fs vs H _ IH]; intros i acc; cbn [List.length seq combine foldM conditions].
  - now rewrite app_nil_r.
  - destruct ov as [v|].
    + destruct H as [H1 H2]; rewrite text_eqb_neq by assumption; unfold stod at 1; rewrite H2; cbn [bind].
      rewrite IH, <- app_assoc; reflexivity.
    + subst f; rewrite text_eqb_refl; cbn [bind]; apply IH.
Qed.

Lemma initial_full fs vs : value_fields F fs vs -> forall (done todo : list T) str,
  Forall is_field fs -> List.length todo = List.length fs ->
  initial_row F (List.length todo) (List.length done) (tailst fs) str (done ++ todo) =
  Ok (done ++ replace_comps todo vs).
Proof.
  induction 1 as [|f ov fs vs H _ IH]; intros done todo str Hf Hl.
  - destruct todo; [|discriminate]; reflexivity.
  - destruct todo as [|x todo]; [discriminate|]; cbn [List.length initial_row].
    rewrite getline_tail by assumption.
    assert (Hf' : Forall is_field fs) by (now inversion Hf).
    cbn [List.length] in Hl.
    assert (Hw : forall v, wr (done ++ x :: todo) (List.length done) v = Ok ((done ++ [v]) ++ todo)).
    { intros v; unfold wr; rewrite app_length; cbn [List.length].
      destruct (Nat.ltb_spec (List.length done) (List.length done + S (List.length todo))); [|lia].
      f_equal; rewrite <- app_assoc; cbn [app]; clear.
      induction done as [|y done IH]; cbn [app upd List.length]; [reflexivity|now rewrite IH]. }
    assert (Hlen : forall v, S (List.length done) = List.length (done ++ [v : T])) by (intros v; rewrite app_length; cbn; lia).
    destruct ov as [v|].
    + destruct H as [H1 H2]; rewrite text_eqb_neq by assumption; unfold stod; rewrite H2; cbn [bind].
      rewrite Hw; cbn [bind replace_comps].
      rewrite (Hlen v), IH by (auto; lia).
      rewrite <- app_assoc; reflexivity.
    + subst f; rewrite text_eqb_refl; cbn [bind replace_comps].
      replace (done ++ x :: todo) with ((done ++ [x]) ++ todo) by (rewrite <- app_assoc; reflexivity).
      rewrite (Hlen x), IH by (auto; lia).
      rewrite <- app_assoc; reflexivity.
Qed.

(** when no field is left the last one is used again *)
Lemma initial_empty str v : str <> txt "free" -> readT F str = Some v -> forall (todo done : list T) b,
  initial_row F (List.length todo) (List.length done) (mkst [] true b) str (done ++ todo) =
  Ok (done ++ map (fun _ => v) todo).
Proof.
  intros H1 H2; induction todo as [|x todo IH]; intros done b; cbn [List.length initial_row map]; [reflexivity|].
  unfold getline; cbn [eofb orb]; rewrite text_eqb_neq by assumption; unfold stod; rewrite H2; cbn [bind].
  assert (Hw : wr (done ++ x :: todo) (List.length done) v = Ok ((done ++ [v]) ++ todo)).
  { unfold wr; rewrite app_length; cbn [List.length].
    destruct (Nat.ltb_spec (List.length done) (List.length done + S (List.length todo))); [|lia].
    f_equal; rewrite <- app_assoc; cbn [app]; clear.
    induction done as [|y done IH]; cbn [app upd List.length]; [reflexivity|now rewrite IH]. }
  rewrite Hw; cbn [bind].
  replace (S (List.length done)) with (List.length (done ++ [v])) by (rewrite app_length; cbn; lia).
  unfold bad; cbn [rest eofb]; rewrite IH, <- app_assoc; reflexivity.
Qed.

Lemma initial_short fs vs f v : value_fields F (fs ++ [f]) (vs ++ [Some v]) ->
  forall (done todo : list T) str, Forall is_field (fs ++ [f]) -> List.length fs < List.length todo ->
  initial_row F (List.length todo) (List.length done) (tailst (fs ++ [f])) str (done ++ todo) =
  Ok (done ++ replace_comps (firstn (S (List.length fs)) todo) (vs ++ [Some v])
           ++ map (fun _ => v) (skipn (S (List.length fs)) todo)).
Proof.
  revert vs; induction fs as [|g fs IH]; intros vs H done todo str Hf Hl.
  - pose proof (F2_length _ _ _ H) as HL; rewrite !app_length in HL; cbn [List.length] in HL.
    destruct vs as [|w vs]; [|cbn [List.length] in HL; lia].
    cbn [app] in *; inversion H as [|? ? ? ? Hfv Hr]; subst; destruct Hfv as [Hf1 Hf2].
    destruct todo as [|x todo]; [cbn in Hl; lia|].
    cbn [List.length initial_row firstn skipn].
    rewrite getline_tail by assumption.
    rewrite text_eqb_neq by assumption; unfold stod; rewrite Hf2; cbn [bind].
    assert (Hw : wr (done ++ x :: todo) (List.length done) v = Ok ((done ++ [v]) ++ todo)).
    { unfold wr; rewrite app_length; cbn [List.length].
      destruct (Nat.ltb_spec (List.length done) (List.length done + S (List.length todo))); [|lia].
      f_equal; rewrite <- app_assoc; cbn [app]; clear.
      induction done as [|y done IH]; cbn [app upd List.length]; [reflexivity|now rewrite IH]. }
    rewrite Hw; cbn [bind replace_comps].
    replace (S (List.length done)) with (List.length (done ++ [v])) by (rewrite app_length; cbn; lia).
    cbn [tailst]; rewrite (initial_empty f v Hf1 Hf2).
    rewrite <- app_assoc; reflexivity.
  - cbn [app] in *.
    destruct vs as [|ov vs]; [pose proof (F2_length _ _ _ H) as HL; cbn [List.length app] in HL; rewrite app_length in HL; cbn in HL; lia|].
    cbn [app] in H; inversion H as [|? ? ? ? Hov Hr]; subst.
    assert (Hf' : Forall is_field (fs ++ [f])) by (now inversion Hf).
    destruct todo as [|x todo]; [cbn in Hl; lia|].
    cbn [List.length] in *; cbn [initial_row firstn skipn].
    rewrite getline_tail by assumption.
    assert (Hw : forall v, wr (done ++ x :: todo) (List.length done) v = Ok ((done ++ [v]) ++ todo)).
    { intros v'; unfold wr; rewrite app_length; cbn [List.length].
      destruct (Nat.ltb_spec (List.length done) (List.length done + S (List.length todo))); [|lia].
      f_equal; rewrite <- app_assoc; cbn [app]; clear.
      induction done as [|y done IH]; cbn [app upd List.length]; [reflexivity|now rewrite IH]. }
    assert (Hlen : forall v, S (List.length done) = List.length (done ++ [v : T])) by (intros v'; rewrite app_length; cbn; lia).
    destruct ov as [w|]; cbn [app replace_comps].
    + destruct Hov as [H1 H2]; rewrite text_eqb_neq by assumption; unfold stod; rewrite H2; cbn [bind].
      rewrite Hw; cbn [bind].
      rewrite (Hlen w), (IH vs Hr) by (auto; lia).
      rewrite <- app_assoc; reflexivity.
    + subst g; rewrite text_eqb_refl; cbn [bind].
      replace (done ++ x :: todo) with ((done ++ [x]) ++ todo) by (rewrite <- app_assoc; reflexivity).
      rewrite (Hlen x), (IH vs Hr) by (auto; lia).
      rewrite <- app_assoc; reflexivity.
Qed.
End Values.
