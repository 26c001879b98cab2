(** Lemmas about the stream operators and the exporters of IOModel. *)
From Coq Require Import Ascii String.
From Coq Require Import List Arith ZArith Lia Bool.
From Verif Require Import Res IOModel IOSpec.
Import ListNotations.
Local Open Scope nat_scope.

(** * Characters and numerals *)
Definition alldigits (t : text) : Prop := forall c, In c t -> digit c = true.

Lemma nat_digit_of d : d < 10 -> nat_of_ascii (digit_of d) = 48 + d.
Proof. intros H; unfold digit_of; rewrite nat_ascii_embedding; lia. Qed.

Lemma digit_digit_of d : d < 10 -> digit (digit_of d) = true.
Proof.
  intros H; unfold digit; rewrite nat_digit_of by assumption.
  apply andb_true_iff; split; apply Nat.leb_le; lia.
Qed.

Lemma digit_val_of d : d < 10 -> digit_val (digit_of d) = d.
Proof. intros H; unfold digit_val; rewrite nat_digit_of by assumption; lia. Qed.

Lemma digit_range c : digit c = true -> 48 <= nat_of_ascii c <= 57.
Proof.
  unfold digit; intros H; apply andb_true_iff in H as [H1 H2].
  apply Nat.leb_le in H1; apply Nat.leb_le in H2; lia.
Qed.

Lemma digit_ws c : digit c = true -> ws c = false.
Proof.
  intros H; apply digit_range in H; unfold ws.
  apply orb_false_iff; split; [apply Nat.eqb_neq; lia|].
  apply andb_false_iff; right; apply Nat.leb_gt; lia.
Qed.

Lemma digit_upper c : digit c = true -> upper c = false.
Proof.
  intros H; apply digit_range in H; unfold upper.
  apply andb_false_iff; left; apply Nat.leb_gt; lia.
Qed.

Lemma digit_minus c : digit c = true -> Ascii.eqb c "-" = false /\ Ascii.eqb c "+" = false.
Proof.
  intros H; apply digit_range in H; split; apply Ascii.eqb_neq; intros ->;
    cbv in H; lia.
Qed.

Lemma ws_digit c : ws c = true -> digit c = false.
Proof. intros H; destruct (digit c) eqn:E; [|reflexivity]; apply digit_ws in E; congruence. Qed.

Lemma ws_upper c : ws c = true -> upper c = false.
Proof.
  unfold ws, upper; intros H.
  apply andb_false_iff; left; apply Nat.leb_gt.
  apply orb_true_iff in H as [H|H]; [apply Nat.eqb_eq in H; lia|].
  apply andb_true_iff in H as [_ H]; apply Nat.leb_le in H; lia.
Qed.

Lemma show_fuel_digits f : forall n, alldigits (show_fuel f n).
Proof.
  induction f as [|f IH]; intros n c; cbn [show_fuel]; [intros []|].
  destruct (Nat.ltb_spec n 10) as [H|H].
  - intros [<-|[]]; now apply digit_digit_of.
  - intros Hc; apply in_app_iff in Hc as [Hc|[<-|[]]]; [now apply IH in Hc|].
    apply digit_digit_of; apply Nat.mod_upper_bound; lia.
Qed.

Lemma show_fuel_nonempty f n : n < f -> show_fuel f n <> [].
Proof.
  destruct f as [|f]; [lia|]; intros _; simpl.
  destruct (n <? 10); [discriminate|].
  intros E; apply app_eq_nil in E as [_ E]; discriminate.
Qed.

Lemma digits_val_app a c : digits_val (a ++ [c]) = (digits_val a * 10 + Z.of_nat (digit_val c))%Z.
Proof. unfold digits_val; rewrite fold_left_app; reflexivity. Qed.

Lemma show_fuel_val f : forall n, n < f -> digits_val (show_fuel f n) = Z.of_nat n.
Proof.
  induction f as [|f IH]; intros n H; [lia|]; cbn [show_fuel].
  destruct (Nat.ltb_spec n 10) as [Hn|Hn].
  - cbv [digits_val fold_left]; rewrite digit_val_of by assumption; lia.
  - rewrite digits_val_app, IH.
    + rewrite digit_val_of by (apply Nat.mod_upper_bound; lia).
      pose proof (Nat.div_mod n 10 ltac:(lia)); lia.
    + pose proof (Nat.div_lt n 10 ltac:(lia) ltac:(lia)); lia.
Qed.

Lemma show_nat_digits n : alldigits (show_nat n).
Proof. apply show_fuel_digits. Qed.
Lemma show_nat_nonempty n : show_nat n <> [].
Proof. apply show_fuel_nonempty; lia. Qed.
Lemma show_nat_val n : digits_val (show_nat n) = Z.of_nat n.
Proof. apply show_fuel_val; lia. Qed.

Lemma show_Z_nat n : show_Z (Z.of_nat n) = show_nat n.
Proof. unfold show_Z; destruct (Z.ltb_spec (Z.of_nat n) 0); [lia|]; now rewrite Nat2Z.id. Qed.

Lemma span_all p a c r : (forall x, In x a -> p x = true) -> p c = false ->
  span p (a ++ c :: r) = (a, c :: r).
Proof.
  intros Ha Hc; induction a as [|x a IH]; simpl; [now rewrite Hc|].
  rewrite (Ha x (or_introl eq_refl)), IH; [reflexivity|].
  intros y Hy; apply Ha; now right.
Qed.

Lemma span_end p a : (forall x, In x a -> p x = true) -> span p a = (a, []).
Proof.
  intros Ha; induction a as [|x a IH]; simpl; [reflexivity|].
  rewrite (Ha x (or_introl eq_refl)), IH; [reflexivity|].
  intros y Hy; apply Ha; now right.
Qed.

Lemma span_digits ds r : alldigits ds -> match r with c :: _ => digit c = false | [] => True end ->
  span digit (ds ++ r) = (ds, r).
Proof.
  intros Hd Hr; destruct r as [|c r]; [rewrite app_nil_r; now apply span_end|now apply span_all].
Qed.

Lemma int_prefix_show z r : match r with c :: _ => digit c = false | [] => True end ->
  int_prefix (show_Z z ++ r) = (Some z, r).
Proof.
  intros Hr; unfold show_Z, int_prefix.
  destruct (Z.ltb_spec z 0) as [Hz|Hz].
  - cbn [app]; change (Ascii.eqb "-" "-") with true; cbv iota beta.
    rewrite span_digits by (assumption || apply show_nat_digits).
    destruct (show_nat (Z.to_nat (- z))) as [|d ds] eqn:E; [now apply show_nat_nonempty in E|].
    rewrite <- E, show_nat_val; do 2 f_equal; lia.
  - pose proof (show_nat_digits (Z.to_nat z)) as Hd.
    pose proof (show_nat_nonempty (Z.to_nat z)) as Hn.
    pose proof (show_nat_val (Z.to_nat z)) as Hv.
    destruct (show_nat (Z.to_nat z)) as [|d ds]; [congruence|].
    cbn [app].
    destruct (digit_minus d (Hd d (or_introl eq_refl))) as [-> ->].
    change (d :: ds ++ r) with ((d :: ds) ++ r).
    rewrite span_digits by assumption.
    rewrite Hv; do 2 f_equal; lia.
Qed.

Lemma show_Z_nonempty z : show_Z z <> [].
Proof. unfold show_Z; destruct (z <? 0)%Z; [discriminate|apply show_nat_nonempty]. Qed.

Lemma show_nat_nows n : nows (show_nat n).
Proof. intros c Hc; apply digit_ws; eapply show_nat_digits; eauto. Qed.
Lemma show_nat_noupper n : noupper (show_nat n).
Proof. intros c Hc; apply digit_upper; eapply show_nat_digits; eauto. Qed.

Lemma show_Z_nows z : nows (show_Z z).
Proof.
  unfold show_Z; destruct (z <? 0)%Z; [|apply show_nat_nows].
  intros c [<-|Hc]; [reflexivity|now apply show_nat_nows in Hc].
Qed.
Lemma show_Z_noupper z : noupper (show_Z z).
Proof.
  unfold show_Z; destruct (z <? 0)%Z; [|apply show_nat_noupper].
  intros c [<-|Hc]; [reflexivity|now apply show_nat_noupper in Hc].
Qed.

(** * Words of a text every word of which is followed by white space *)
Inductive spells : text -> list text -> Prop :=
| sp_nil : spells [] []
| sp_ws c t l : ws c = true -> spells t l -> spells (c :: t) l
| sp_word w c t l : w <> [] -> nows w -> ws c = true -> spells t l -> spells (w ++ c :: t) (w :: l).

Lemma spells_app a la b lb : spells a la -> spells b lb -> spells (a ++ b) (la ++ lb).
Proof.
  intros Ha Hb; induction Ha as [|c t l Hc _ IH|w c t l Hw Hn Hc _ IH]; cbn [app].
  - assumption.
  - now constructor.
  - rewrite <- app_assoc; cbn [app]; now constructor.
Qed.

Lemma spells_concat {A} (f : A -> text) (g : A -> list text) l :
  (forall a, In a l -> spells (f a) (g a)) -> spells (concat (map f l)) (concat (map g l)).
Proof.
  intros H; induction l as [|a l IH]; cbn [map concat]; [constructor|].
  apply spells_app; [apply H; now left|apply IH; intros x Hx; apply H; now right].
Qed.

Lemma spells_word w c : w <> [] -> nows w -> ws c = true -> spells (w ++ [c]) [w].
Proof. intros; constructor; auto using sp_nil. Qed.

Definition good (t : text) : istream := mkst t false false.

Lemma skip_word w r : w <> [] -> nows w -> skip_ws (w ++ r) = w ++ r.
Proof.
  destruct w as [|c w]; [congruence|]; intros _ Hn; cbn [app skip_ws].
  now rewrite (Hn c (or_introl eq_refl)).
Qed.

(** what a [>>] finds *)
Lemma enter_spells t w l : spells t (w :: l) -> exists c t0,
  enter (good t) = Some (w ++ c :: t0) /\ ws c = true /\ spells (c :: t0) l /\
  w <> [] /\ nows w /\ List.length (c :: t0) < List.length t.
Proof.
  remember (w :: l) as wl; intros H; revert w l Heqwl.
  induction H as [|c t l' Hc H IH|w' c t l' Hw Hn Hc H IH]; intros w l E; [discriminate| |].
  - destruct (IH w l E) as (c' & t0 & E1 & H1 & H2 & H3 & H4 & H5).
    exists c', t0; unfold enter in *; cbn [eofb failb rest good orb skip_ws] in *.
    rewrite Hc; splits; auto; cbn [List.length] in *; lia.
  - injection E as -> ->; exists c, t; unfold enter; cbn [eofb failb rest good orb].
    rewrite skip_word by assumption.
    split; [destruct w as [|x w]; [congruence|reflexivity]|].
    split; [assumption|]; split; [now constructor|]; split; [assumption|]; split; [assumption|].
    rewrite app_length; cbn [List.length]; destruct w; [congruence|cbn [List.length]; lia].
Qed.

Lemma enter_none t : spells t [] -> enter (good t) = None.
Proof.
  remember [] as l; intros H; unfold enter; cbn [eofb failb rest good orb].
  induction H as [|c t l Hc H IH|]; [reflexivity| |discriminate].
  cbn [skip_ws]; rewrite Hc; now apply IH.
Qed.

Lemma neg_ws w : nows w -> forall x, In x w -> negb (ws x) = true.
Proof. intros H x Hx; now rewrite (H x Hx). Qed.

Lemma get_word_spells t w l : spells t (w :: l) -> exists t',
  get_word (good t) = (Some w, good t') /\ spells t' l /\ List.length t' < List.length t.
Proof.
  intros H; destruct (enter_spells _ _ _ H) as (c & t0 & E & Hc & Hs & Hw & Hn & Hl).
  exists (c :: t0); unfold get_word; rewrite E.
  rewrite span_all; [|now apply neg_ws|now rewrite Hc].
  cbn [at_end]; splits; auto.
Qed.

Lemma get_word_none t : spells t [] -> fst (get_word (good t)) = None.
Proof. intros H; unfold get_word; now rewrite enter_none. Qed.

Lemma get_int_spells t z x l : spells t (show_Z z :: l) -> exists t',
  get_int (good t) x = (Some z, good t') /\ spells t' l /\ List.length t' < List.length t.
Proof.
  intros H; destruct (enter_spells _ _ _ H) as (c & t0 & E & Hc & Hs & Hw & Hn & Hl).
  exists (c :: t0); unfold get_int; rewrite E, int_prefix_show by (now apply ws_digit).
  cbn [at_end]; splits; auto.
Qed.

Lemma get_T_spells {T} (F : numfmt T) t v x l : survives F v -> spells t (show F v :: l) -> exists t',
  get_T F (good t) x = (Some v, good t') /\ spells t' l /\ List.length t' < List.length t.
Proof.
  intros (_ & _ & _ & Hr) H; destruct (enter_spells _ _ _ H) as (c & t0 & E & Hc & Hs & Hw & Hn & Hl).
  exists (c :: t0); unfold get_T; rewrite E.
  rewrite span_all; [|now apply neg_ws|now rewrite Hc].
  rewrite Hr; cbn [at_end]; splits; auto.
Qed.

(** * The words written by the exporters *)
Lemma txt_inj a b : txt a = txt b -> a = b.
Proof.
  unfold txt; intros H; apply (f_equal string_of_list_ascii) in H.
  now rewrite !string_of_list_ascii_of_string in H.
Qed.

Lemma ws_nl : ws c_nl = true. Proof. reflexivity. Qed.
Lemma ws_tab : ws c_tab = true. Proof. reflexivity. Qed.

Lemma spells_nl t l : spells t l -> spells (c_nl :: t) l.
Proof. now constructor. Qed.

Lemma show_nat_words n : show_nat n <> [] /\ nows (show_nat n).
Proof. split; [apply show_nat_nonempty|apply show_nat_nows]. Qed.

(** a constant text: computed words *)
Fixpoint nowsb (t : text) : bool := match t with [] => true | c :: t' => negb (ws c) && nowsb t' end.
Lemma nowsb_spec t : nowsb t = true -> nows t.
Proof.
  induction t as [|c t IH]; intros H x; [intros []|].
  cbn [nowsb] in H; apply andb_true_iff in H as [H1 H2].
  intros [<-|Hx]; [now destruct (ws c)|now apply IH].
Qed.

Lemma spells_wordc w c : negb (at_end w) && nowsb w && ws c = true -> spells (w ++ [c]) [w].
Proof.
  intros H; apply andb_true_iff in H as [H H3]; apply andb_true_iff in H as [H1 H2].
  apply spells_word; [destruct w; [discriminate|congruence]|now apply nowsb_spec|assumption].
Qed.

(** a text given as a list of pieces, each one word and its separator *)
Lemma spells_pieces (l : list (text * ascii)) :
  (forall w c, In (w, c) l -> ws c = true /\ nows w) ->
  spells (concat (map (fun p => fst p ++ [snd p]) l))
         (filter (fun w => negb (at_end w)) (map fst l)).
Proof.
  intros H; induction l as [|[w c] l IH]; cbn [map concat fst snd filter]; [constructor|].
  destruct (H w c (or_introl eq_refl)) as [Hc Hn].
  assert (IH' := IH (fun w' c' Hin => H w' c' (or_intror Hin))).
  destruct w as [|x w]; cbn [at_end negb].
  - cbn [app]; now constructor.
  - rewrite <- app_assoc; cbn [app]; change (x :: w ++ c :: ?r) with ((x :: w) ++ c :: r).
    now constructor.
Qed.

(** * Reading back words *)
Lemma text_eqb_eq a b : text_eqb a b = true <-> a = b.
Proof. unfold text_eqb; destruct (list_eq_dec ascii_dec a b); split; congruence. Qed.
Lemma text_eqb_refl a : text_eqb a a = true.
Proof. now apply text_eqb_eq. Qed.
Lemma text_eqb_neq a b : a <> b -> text_eqb a b = false.
Proof. intros H; destruct (text_eqb a b) eqn:E; [now apply text_eqb_eq in E|reflexivity]. Qed.

Section Nodes.
Context {T : Type} (F : numfmt T).

Lemma gen_nodes_none l : forall t f acc, spells t l -> ~ In (txt "POINTS") l ->
  List.length t < f -> gen_nodes_loop F f (good t) acc = Ok acc.
Proof.
  induction l as [|w l IH]; intros t f acc Hs Hn Hf; (destruct f as [|f]; [lia|]); cbn [gen_nodes_loop].
  - pose proof (get_word_none _ Hs) as E.
    destruct (get_word (good t)) as [o s]; cbn [fst] in E; now rewrite E.
  - destruct (get_word_spells _ _ _ Hs) as (t' & E & Hs' & Hl); rewrite E.
    rewrite text_eqb_neq by (intros ->; apply Hn; now left).
    apply IH; [assumption|intros H; apply Hn; now right|lia].
Qed.

Definition node_step := (fun '(s, nodes) =>
               let '(x, s) := get_T F s None in
               let '(y, s) := get_T F s None in
               let '(z, s) := get_T F s None in
               x <- used x ;; y <- used y ;; z <- used z ;;
               Ok (s, nodes ++ [[x; y; z]])).

Lemma node_times rows : forall t acc post,
  (forall r x, In r rows -> In x r -> survives F x) -> (forall r, In r rows -> List.length r = 3) ->
  spells t (concat (map (map (show F)) rows) ++ post) ->
  exists t', times (List.length rows) node_step (good t, acc) = Ok (good t', acc ++ rows) /\
    spells t' post /\ List.length t' <= List.length t.
Proof.
  induction rows as [|r rows IH]; intros t acc post Hv Hlen Hs; cbn [List.length times].
  - exists t; rewrite app_nil_r; splits; auto.
  - assert (H3 := Hlen r (or_introl eq_refl)).
    destruct r as [|x [|y [|z [|]]]]; try discriminate H3.
    cbn [map concat app] in Hs.
    destruct (get_T_spells F t x None _ (Hv _ x (or_introl eq_refl) ltac:(cbn; auto)) Hs) as (t1 & E1 & Hs1 & L1).
    destruct (get_T_spells F t1 y None _ (Hv _ y (or_introl eq_refl) ltac:(cbn; auto)) Hs1) as (t2 & E2 & Hs2 & L2).
    destruct (get_T_spells F t2 z None _ (Hv _ z (or_introl eq_refl) ltac:(cbn; auto)) Hs2) as (t3 & E3 & Hs3 & L3).
    unfold node_step at 1; rewrite E1, E2, E3; cbn [used bind].
    destruct (IH t3 (acc ++ [[x; y; z]]) post) as (t' & E & Hs' & L').
    + intros r x' Hr Hx; eapply Hv; [right; exact Hr|exact Hx].
    + intros r Hr; apply Hlen; now right.
    + exact Hs3.
    + exists t'; rewrite E, <- app_assoc; splits; auto; lia.
Qed.

Lemma gen_nodes_read pre : forall t f acc rows w post,
  (forall r x, In r rows -> In x r -> survives F x) -> (forall r, In r rows -> List.length r = 3) ->
  ~ In (txt "POINTS") pre -> ~ In (txt "POINTS") post ->
  spells t (pre ++ txt "POINTS" :: show_nat (List.length rows) :: w
            :: concat (map (map (show F)) rows) ++ post) ->
  List.length t < f -> gen_nodes_loop F f (good t) acc = Ok (acc ++ rows).
Proof.
  induction pre as [|p pre IH]; intros t f acc rows w post Hv Hlen Hpre Hpost Hs Hf;
    (destruct f as [|f]; [lia|]); cbn [gen_nodes_loop app] in *;
    destruct (get_word_spells _ _ _ Hs) as (t1 & E & Hs1 & L1); rewrite E.
  - rewrite text_eqb_refl.
    rewrite <- show_Z_nat in Hs1.
    destruct (get_int_spells _ _ None _ Hs1) as (t2 & E2 & Hs2 & L2); rewrite E2; cbn [used bind].
    destruct (get_word_spells _ _ _ Hs2) as (t3 & E3 & Hs3 & L3); rewrite E3.
    destruct (node_times rows t3 acc post Hv Hlen Hs3) as (t4 & E4 & Hs4 & L4).
    rewrite Nat2Z.id; fold node_step; rewrite E4; cbn [bind].
    apply gen_nodes_none with (l := post); [assumption|assumption|lia].
  - rewrite text_eqb_neq by (intros ->; apply Hpre; now left).
    eapply IH; eauto; [intros H; apply Hpre; now right|lia].
Qed.
End Nodes.

Lemma gen_elements_none l : forall t f acc, spells t l -> ~ In (txt "CELLS") l ->
  List.length t < f -> gen_elements_loop f (good t) acc = Ok acc.
Proof.
  induction l as [|w l IH]; intros t f acc Hs Hn Hf; (destruct f as [|f]; [lia|]); cbn [gen_elements_loop].
  - pose proof (get_word_none _ Hs) as E.
    destruct (get_word (good t)) as [o s]; cbn [fst] in E; now rewrite E.
  - destruct (get_word_spells _ _ _ Hs) as (t' & E & Hs' & Hl); rewrite E.
    rewrite text_eqb_neq by (intros ->; apply Hn; now left).
    apply IH; [assumption|intros H; apply Hn; now right|lia].
Qed.

Definition id_step := (fun '(s, element) =>
                  let '(id, s) := get_int s None in
                  nodeid <- used id ;; Ok (s, element ++ [nodeid])).
Definition element_step := (fun '(s, elements) =>
               let '(num, s) := get_int s None in
               elementnum <- used num ;;
               '(s, element) <- times (Z.to_nat elementnum) id_step (s, []) ;;
               Ok (s, elements ++ [element])).

Lemma id_times e : forall t acc post, spells t (map show_Z e ++ post) ->
  exists t', times (List.length e) id_step (good t, acc) = Ok (good t', acc ++ e) /\
    spells t' post /\ List.length t' <= List.length t.
Proof.
  induction e as [|z e IH]; intros t acc post Hs; cbn [List.length times].
  - exists t; rewrite app_nil_r; splits; auto.
  - cbn [map app] in Hs.
    destruct (get_int_spells _ _ None _ Hs) as (t1 & E1 & Hs1 & L1).
    unfold id_step at 1; rewrite E1; cbn [used bind].
    destruct (IH t1 (acc ++ [z]) post Hs1) as (t' & E & Hs' & L').
    exists t'; rewrite E, <- app_assoc; splits; auto; lia.
Qed.

Definition cell_words (e : list Z) : list text := show_nat (List.length e) :: map show_Z e.

Lemma element_times es : forall t acc post, spells t (concat (map cell_words es) ++ post) ->
  exists t', times (List.length es) element_step (good t, acc) = Ok (good t', acc ++ es) /\
    spells t' post /\ List.length t' <= List.length t.
Proof.
  induction es as [|e es IH]; intros t acc post Hs; cbn [List.length times].
  - exists t; rewrite app_nil_r; splits; auto.
  - cbn [map concat] in Hs; unfold cell_words at 1 in Hs; cbn [app] in Hs.
    rewrite <- show_Z_nat in Hs.
    destruct (get_int_spells _ _ None _ Hs) as (t1 & E1 & Hs1 & L1).
    rewrite <- app_assoc in Hs1.
    destruct (id_times e t1 [] _ Hs1) as (t2 & E2 & Hs2 & L2).
    unfold element_step at 1; rewrite E1; cbn [used bind]; rewrite Nat2Z.id, E2; cbn [bind app].
    destruct (IH t2 (acc ++ [e]) post Hs2) as (t' & E & Hs' & L').
    exists t'; rewrite E, <- app_assoc; splits; auto; lia.
Qed.

Lemma gen_elements_read pre : forall t f acc es w post,
  ~ In (txt "CELLS") pre -> ~ In (txt "CELLS") post ->
  spells t (pre ++ txt "CELLS" :: show_nat (List.length es) :: w
            :: concat (map cell_words es) ++ post) ->
  List.length t < f -> gen_elements_loop f (good t) acc = Ok (acc ++ es).
Proof.
  induction pre as [|p pre IH]; intros t f acc es w post Hpre Hpost Hs Hf;
    (destruct f as [|f]; [lia|]); cbn [gen_elements_loop app] in *;
    destruct (get_word_spells _ _ _ Hs) as (t1 & E & Hs1 & L1); rewrite E.
  - rewrite text_eqb_refl.
    rewrite <- show_Z_nat in Hs1.
    destruct (get_int_spells _ _ None _ Hs1) as (t2 & E2 & Hs2 & L2); rewrite E2; cbn [used bind].
    destruct (get_word_spells _ _ _ Hs2) as (t3 & E3 & Hs3 & L3); rewrite E3.
    destruct (element_times es t3 acc post Hs3) as (t4 & E4 & Hs4 & L4).
    rewrite Nat2Z.id; fold id_step; fold element_step; rewrite E4; cbn [bind].
    apply gen_elements_none with (l := post); [assumption|assumption|lia].
  - rewrite text_eqb_neq by (intros ->; apply Hpre; now left).
    eapply IH; eauto; [intros H; apply Hpre; now right|lia].
Qed.

(** * The words of an exported file *)
Section Words.
Context {T : Type} (F : numfmt T).

Lemma spells_step w c t l : w <> [] -> nows w -> ws c = true -> spells t l -> spells (w ++ [c] ++ t) (w :: l).
Proof. apply sp_word. Qed.

Definition header_words : list text :=
  map txt ["#"; "vtk"; "DataFile"; "Version"; "4.1"; "vtk"; "output"; "ASCII"; "DATASET"; "UNSTRUCTURED_GRID"]%string.

Lemma spells_const w c t l : negb (at_end w) && nowsb w && ws c = true -> spells t l -> spells (w ++ c :: t) (w :: l).
Proof.
  intros H Hs; apply andb_true_iff in H as [H H3]; apply andb_true_iff in H as [H1 H2].
  apply sp_word; [destruct w; [discriminate|congruence]|now apply nowsb_spec|assumption|assumption].
Qed.

Lemma spells_nat n c t l : ws c = true -> spells t l -> spells (show_nat n ++ c :: t) (show_nat n :: l).
Proof. intros; apply sp_word; auto using show_nat_nonempty, show_nat_nows. Qed.
Lemma spells_Z z c t l : ws c = true -> spells t l -> spells (show_Z z ++ c :: t) (show_Z z :: l).
Proof. intros; apply sp_word; auto using show_Z_nonempty, show_Z_nows. Qed.

Lemma spells_header : spells (MakeHeadder []) header_words.
Proof.
  unfold MakeHeadder, header_words; cbn [app map].
  change (txt "# vtk DataFile Version 4.1" ++ ?r) with
    (txt "#" ++ " "%char :: txt "vtk" ++ " "%char :: txt "DataFile" ++ " "%char :: txt "Version" ++ " "%char :: txt "4.1" ++ r).
  do 5 (apply spells_const; [reflexivity|]).
  change (txt "vtk output" ++ ?r) with (txt "vtk" ++ " "%char :: txt "output" ++ r).
  do 3 (apply spells_const; [reflexivity|]).
  change (txt "DATASET UNSTRUCTURED_GRID" ++ ?r) with (txt "DATASET" ++ " "%char :: txt "UNSTRUCTURED_GRID" ++ r).
  do 2 (apply spells_const; [reflexivity|]).
  constructor.
Qed.

Definition fine (x : T) : Prop := show F x <> [] /\ nows (show F x).

Lemma spells_values (c : ascii) vs : ws c = true -> (forall x, In x vs -> fine x) ->
  spells (concat (map (fun x => show F x ++ [c]) vs)) (map (show F) vs).
Proof.
  intros Hc H; induction vs as [|x vs IH]; cbn [map concat]; [constructor|].
  destruct (H x (or_introl eq_refl)) as [H1 H2].
  rewrite <- app_assoc; apply spells_step; auto.
  apply IH; intros y Hy; apply H; now right.
Qed.

Lemma spells_row3 v : (forall x, In x v -> fine x) -> fine (tzero F) ->
  spells (row3 F v) (map (show F) (pad3 F v)).
Proof.
  intros Hv Hz; unfold row3, pad3; rewrite map_app.
  apply spells_app; [now apply spells_values|].
  rewrite <- app_nil_r; apply spells_app; [|apply spells_nl; constructor].
  generalize (3 - List.length v) as k; intros k; generalize (List.length v); revert k.
  induction k as [|k IH]; intros a; cbn [seq map concat repeat]; [constructor|].
  destruct Hz as [H1 H2].
  rewrite <- app_assoc; apply spells_step; auto.
Qed.

Lemma spells_rows vs : (forall v x, In v vs -> In x v -> fine x) -> fine (tzero F) ->
  spells (concat (map (row3 F) vs)) (concat (map (map (show F)) (map (pad3 F) vs))).
Proof.
  intros Hv Hz; rewrite map_map; apply spells_concat; intros v Hin; apply spells_row3; eauto.
Qed.

Lemma spells_points nodes out l : (forall v x, In v nodes -> In x v -> fine x) -> fine (tzero F) ->
  spells out l ->
  spells (AddPoints F nodes out) (l ++ txt "POINTS" :: show_nat (List.length nodes) :: txt "float"
     :: concat (map (map (show F)) (map (pad3 F) nodes))).
Proof.
  intros Hv Hz Ho; unfold AddPoints; apply spells_app; [assumption|].
  apply spells_nl.
  apply spells_const; [reflexivity|]; apply spells_nat; [reflexivity|]; apply spells_const; [reflexivity|].
  now apply spells_rows.
Qed.

Lemma spells_element es out l : spells out l ->
  spells (AddElement es out) (l ++ txt "CELLS" :: show_nat (List.length es) :: show_nat (datanum es)
     :: concat (map cell_words es)).
Proof.
  intros Ho; unfold AddElement; apply spells_app; [assumption|].
  apply spells_nl.
  change (txt "CELLS " ++ ?r) with (txt "CELLS" ++ " "%char :: r).
  apply spells_const; [reflexivity|]; apply spells_nat; [reflexivity|]; apply spells_nat; [reflexivity|].
  apply spells_concat; intros e _; unfold cell_words; apply spells_nat; [reflexivity|].
  rewrite <- (app_nil_r (map show_Z e)); apply spells_app; [|apply spells_nl; constructor].
  induction e as [|z e IH]; cbn [map concat]; [constructor|].
  rewrite <- app_assoc; apply spells_Z; [reflexivity|assumption].
Qed.

Lemma spells_types ts out l : spells out l ->
  spells (AddElementTypes ts out) (l ++ txt "CELL_TYPES" :: show_nat (List.length ts) :: map show_Z ts).
Proof.
  intros Ho; unfold AddElementTypes; apply spells_app; [assumption|].
  apply spells_nl; apply spells_const; [reflexivity|]; apply spells_nat; [reflexivity|].
  induction ts as [|z ts IH]; cbn [map concat]; [constructor|].
  rewrite <- app_assoc; apply spells_Z; [reflexivity|assumption].
Qed.

Lemma spells_scalars_header s t l : is_symbol s -> spells t l ->
  spells (scalars_header s ++ t) (txt "SCALARS" :: s :: txt "float" :: txt "LOOKUP_TABLE" :: txt "default" :: l).
Proof.
  intros [H1 H2] Hs; unfold scalars_header.
  rewrite <- !app_assoc; cbn [app].
  change (txt "SCALARS " ++ ?r) with (txt "SCALARS" ++ " "%char :: r).
  apply spells_const; [reflexivity|].
  change (s ++ txt " float" ++ ?r) with (s ++ " "%char :: txt "float" ++ r).
  apply sp_word; auto.
  apply spells_const; [reflexivity|].
  change (txt "LOOKUP_TABLE default" ++ ?r) with (txt "LOOKUP_TABLE" ++ " "%char :: txt "default" ++ r).
  do 2 (apply spells_const; [reflexivity|]); assumption.
Qed.

Lemma spells_point_header {A} b (vs : list A) t l : spells t l ->
  spells (point_header b vs ++ t) ((if b then [txt "POINT_DATA"; show_nat (List.length vs)] else []) ++ l).
Proof.
  intros Hs; unfold point_header; destruct b; [|exact Hs].
  rewrite <- !app_assoc; apply spells_nl.
  apply spells_const; [reflexivity|]; apply spells_nat; [reflexivity|assumption].
Qed.

Definition head_words (b : bool) (k : text) (n : nat) : list text := if b then [k; show_nat n] else [].
Definition scal_words (s : text) : list text := [txt "SCALARS"; s; txt "float"; txt "LOOKUP_TABLE"; txt "default"].
Definition pfield_words (b : bool) (d : pfield T) : list text :=
  head_words b (txt "POINT_DATA") (plen d) ++
  match d with
  | PScal s v => scal_words s ++ map (show F) v
  | PScalV s v => scal_words s ++ map (show F) (concat v)
  | PVec s v => [txt "VECTORS"; s; txt "float"] ++ concat (map (map (show F)) (map (pad3 F) v))
  end.

Lemma spells_pfield b d out l : is_symbol (psym d) -> (forall x, In x (pvalues d) -> fine x) -> fine (tzero F) ->
  spells out l -> spells (add_pfield F b d out) (l ++ pfield_words b d).
Proof.
  intros Hs Hv Hz Ho; destruct d as [s v|s v|s v]; cbn [add_pfield pfield_words psym plen pvalues] in *;
    [unfold AddPointScalers|unfold AddPointScalersV|unfold AddPointVectors];
    (apply spells_app; [assumption|]); apply spells_point_header.
  - apply spells_scalars_header; [assumption|]; now apply spells_values.
  - apply spells_scalars_header; [assumption|].
    rewrite concat_map; apply spells_concat; intros w Hw; apply spells_values; [reflexivity|].
    intros x Hx; apply Hv; apply in_concat; eauto.
  - change (txt "VECTORS " ++ ?r) with (txt "VECTORS" ++ " "%char :: r).
    apply spells_const; [reflexivity|].
    change (s ++ txt " float" ++ ?r) with (s ++ " "%char :: txt "float" ++ r).
    destruct Hs as [H1 H2]; apply sp_word; auto.
    apply spells_const; [reflexivity|].
    apply spells_rows; [|assumption].
    intros w x Hw Hx; apply Hv; apply in_concat; eauto.
Qed.

Fixpoint pfields_words (b : bool) (ds : list (pfield T)) : list text :=
  match ds with [] => [] | d :: ds' => pfield_words b d ++ pfields_words false ds' end.

Lemma spells_pfields ds : forall b out l,
  (forall d, In d ds -> is_symbol (psym d) /\ forall x, In x (pvalues d) -> fine x) -> fine (tzero F) ->
  spells out l -> spells (add_pfields F b ds out) (l ++ pfields_words b ds).
Proof.
  induction ds as [|d ds IH]; intros b out l H Hz Ho; cbn [add_pfields pfields_words].
  - now rewrite app_nil_r.
  - destruct (H d (or_introl eq_refl)) as [H1 H2].
    rewrite app_assoc; apply IH; [intros d' Hd; apply H; now right|assumption|].
    now apply spells_pfield.
Qed.

Fixpoint cfields_words (b : bool) (ds : list (text * list T)) : list text :=
  match ds with
  | [] => []
  | (s, v) :: ds' => (head_words b (txt "CELL_DATA") (List.length v) ++ scal_words s ++ map (show F) v)
                     ++ cfields_words false ds'
  end.

Lemma spells_cfields ds : forall b out l,
  (forall s v, In (s, v) ds -> is_symbol s /\ forall x, In x v -> fine x) ->
  spells out l -> spells (add_cfields F b ds out) (l ++ cfields_words b ds).
Proof.
  induction ds as [|[s v] ds IH]; intros b out l H Ho; cbn [add_cfields cfields_words].
  - now rewrite app_nil_r.
  - destruct (H s v (or_introl eq_refl)) as [H1 H2].
    rewrite app_assoc; apply IH; [intros s' v' Hd; apply H; now right|].
    unfold AddElementScalers; apply spells_app; [assumption|].
    assert (Hsv : spells (scalars_header s ++ concat (map (fun x => show F x ++ [c_nl]) v))
                         (scal_words s ++ map (show F) v)).
    { apply spells_scalars_header; [assumption|]; now apply spells_values. }
    unfold head_words; destruct b; [|exact Hsv].
    rewrite <- !app_assoc; apply spells_nl.
    apply spells_const; [reflexivity|]; apply spells_nat; [reflexivity|exact Hsv].
Qed.
End Words.
