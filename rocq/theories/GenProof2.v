(** Averages over elements and nodes. *)
From Coq Require Import List Arith Lia Bool Reals Lra.
From Verif Require Import Res SumR DenseModel DenseR DenseSpec DenseProof ElemModel ElemSpec ElemProof GenModel GenSpec GenProof.
Import ListNotations.
Local Open Scope R_scope.

Section Avg.
Context {V : Type} (d : V) (add : V -> V -> res V) (plus : V -> V -> V) (Dom : V -> Prop).
Hypothesis add_ok : forall x y, Dom x -> Dom y -> add x y = Ok (plus x y) /\ Dom (plus x y).
Definition total (l : list V) (x : V) : V := fold_left plus l x.
Lemma total_dom l x : Dom x -> Forall Dom l -> Dom (total l x).
Proof.
  revert x. unfold total. induction l as [|a l IH]; intros x Hx Hl; cbn [fold_left]; auto. inversion Hl; subst. apply IH; auto. now apply add_ok.
Qed.

(** the state of the loop over the elements *)
Definition state_ok (N : nat) (un0 : V) (F : nat -> list V) (st : list V * list nat) : Prop :=
  length (fst st) = N /\ length (snd st) = N /\ forall n, (n < N)%nat ->
    Forall Dom (F n) /\ nth n (fst st) d = total (F n) un0 /\ nth n (snd st) O = length (F n).
Lemma element_loop N un0 ue i e : Dom un0 -> (i < length ue)%nat -> Dom (nth i ue d) -> (forall n, In n e -> (n < N)%nat) -> forall F st, state_ok N un0 F st ->
  exists st', foldM (fun st n => let '(un, count) := st in
      x <- rd un n ;; y <- rd ue i ;; z <- add x y ;; un <- wr un n z ;; c <- rd count n ;; count <- wr count n (S c) ;; Ok (un, count)) e st = Ok st' /\
    state_ok N un0 (fun n => F n ++ repeat (nth i ue d) (count_occ Nat.eq_dec e n)) st'.
Proof.
  intros H0 Hi Hu. match goal with |- context [foldM ?f e _] => set (stp := f) end. induction e as [|a e IH]; intros He F st HS.
  - exists st. cbn [foldM count_occ repeat]. split; auto. destruct HS as (A & B & C). split; [|split]; auto. intros n Hn. now rewrite app_nil_r; apply C.
  - cbn [foldM]. destruct st as [un cn]. destruct HS as (A & B & C). cbn [fst snd] in A, B, C.
    assert (Ha : (a < N)%nat) by (apply He; now left). destruct (C a Ha) as (C1 & C2 & C3).
    unfold stp at 1. rewrite (rd_nth un a d) by lia. cbn [bind]. rewrite (rd_nth ue i d) by auto. cbn [bind].
    rewrite C2. destruct (add_ok (total (F a) un0) (nth i ue d)) as (E1 & _); auto; [now apply total_dom|]. rewrite E1. cbn [bind].
    rewrite wr_Ok by lia. cbn [bind]. rewrite (rd_nth cn a O) by lia. cbn [bind]. rewrite wr_Ok by lia. cbn [bind]. rewrite C3.
    destruct (IH ltac:(intros; apply He; now right) (fun n => if (n =? a)%nat then F n ++ [nth i ue d] else F n)
      (upd un a (plus (total (F a) un0) (nth i ue d)), upd cn a (S (length (F a))))) as (st' & E & HS').
    { unfold state_ok. cbn [fst snd]. rewrite !upd_length. split; [|split]; auto. intros n Hn. destruct (C n Hn) as (D1 & D2 & D3).
      rewrite !nth_upd. destruct (Nat.eqb_spec n a) as [->|Hne].
      - rewrite Nat.eqb_refl, A, B, (proj2 (Nat.ltb_lt a N)) by auto. cbn [andb]. split; [|split].
        + apply Forall_app. split; auto.
        + unfold total. now rewrite fold_left_app.
        + rewrite app_length. cbn. lia.
      - destruct (Nat.eqb_spec a n); [congruence|]. cbn [andb]. auto. }
    exists st'. split; auto. destruct HS' as (A' & B' & C'). split; [|split]; auto. intros n Hn. specialize (C' n Hn). cbn [count_occ].
    destruct (Nat.eq_dec a n) as [->|Hne].
    + rewrite Nat.eqb_refl in C'. cbn [repeat]. rewrite <- app_assoc in C'. exact C'.
    + destruct (Nat.eqb_spec n a); [congruence|]. exact C'.
Qed.
Definition received_upto (ue : list V) (elements : list (list nat)) (k n : nat) : list V :=
  flat_map (fun i => repeat (nth i ue d) (count_occ Nat.eq_dec (nth i elements []) n)) (seq 0 k).
Lemma scatter_ok N un0 ue elements : Dom un0 -> Forall Dom ue -> mesh_ok N elements -> (length elements <= length ue)%nat ->
  exists st, scatter add ue elements (repeat un0 N, repeat O N) = Ok st /\ state_ok N un0 (received d ue elements) st.
Proof.
  intros H0 Hu HM HL. unfold scatter.
  assert (G : forall k, (k <= length elements)%nat -> exists st, foldM (fun st i => e <- rd elements i ;;
    foldM (fun st n => let '(un, count) := st in
      x <- rd un n ;; y <- rd ue i ;; z <- add x y ;; un <- wr un n z ;; c <- rd count n ;; count <- wr count n (S c) ;; Ok (un, count)) e st) (seq 0 k) (repeat un0 N, repeat O N) = Ok st /\
    state_ok N un0 (received_upto ue elements k) st).
  { induction k as [|k IH]; intros Hk.
    - eexists. split; [reflexivity|]. unfold state_ok. cbn [fst snd]. rewrite !repeat_length. split; [|split]; auto. intros n Hn. cbn [received_upto seq flat_map].
      split; [constructor|]. split; [|now rewrite nth_repeat]. cbn [total fold_left].
      rewrite (nth_indep _ d un0) by (rewrite repeat_length; auto). now rewrite nth_repeat.
    - destruct IH as (st & E & HS); [lia|]. rewrite seq_S, foldM_app, E. cbn [bind foldM Nat.add]. rewrite (rd_nth elements k []) by lia. cbn [bind].
      destruct (element_loop N un0 ue k (nth k elements [])) with (F := received_upto ue elements k) (st := st) as (st' & E' & HS'); auto; [lia| | |].
      + apply (proj1 (Forall_forall Dom ue) Hu). apply nth_In. lia.
      + intros n Hn. apply (HM (nth k elements [])); auto. apply nth_In. lia.
      + exists st'. rewrite E'. cbn [bind]. split; auto. destruct HS' as (A & B & C). split; [|split]; auto. intros n Hn. specialize (C n Hn).
        unfold received_upto in *. rewrite seq_S, flat_map_app. cbn [flat_map Nat.add]. rewrite app_nil_r. exact C. }
  destruct (G (length elements) (le_n _)) as (st & E & HS). exists st. split; auto.
Qed.

Context (div : V -> R -> res V) (divf : V -> R -> V).
Hypothesis div_ok : forall x c, Dom x -> c <> 0 -> div x c = Ok (divf x c).
Lemma nodal_ok N un0 ue elements : Dom un0 -> Forall Dom ue -> mesh_ok N elements -> (length elements <= length ue)%nat ->
  (forall n, (n < N)%nat -> received d ue elements n <> []) ->
  nodal_from_elemental add div N un0 ue elements = Ok (map (fun n => divf (total (received d ue elements n) un0) (INR (length (received d ue elements n)))) (seq 0 N)).
Proof.
  intros H0 Hu HM HL HR. unfold nodal_from_elemental. destruct (scatter_ok N un0 ue elements) as ((un & cn) & E & A & B & C); auto. rewrite E. cbn [bind fst snd] in *.
  rewrite (rows_fold' d N _ (fun i x => divf x (INR (nth i cn O)))); auto.
  - f_equal. apply map_ext_in. intros n Hn. apply in_seq in Hn. destruct (C n ltac:(lia)) as (_ & -> & ->). reflexivity.
  - intros L i HLn Hi EL. destruct (C i Hi) as (C1 & C2 & C3). rewrite (rd_nth L i d) by lia. cbn [bind]. rewrite (rd_nth cn i O) by lia. cbn [bind].
    rewrite div_ok; [|rewrite EL, C2; now apply total_dom|].
    + cbn [bind]. rewrite wr_Ok by lia. reflexivity.
    + rewrite C3. apply not_0_INR. specialize (HR i Hi). destruct (received d ue elements i); [congruence|discriminate].
Qed.
(** a node that no element touches *)
Hypothesis div_fails : forall x, Dom x -> div x 0 = Fail DivByZero.
Lemma nodal_fails N un0 ue elements n0 : Dom un0 -> Forall Dom ue -> mesh_ok N elements -> (length elements <= length ue)%nat ->
  (n0 < N)%nat -> (forall e, In e elements -> ~ In n0 e) ->
  nodal_from_elemental add div N un0 ue elements = Fail DivByZero.
Proof.
  intros H0 Hu HM HL Hn HR. unfold nodal_from_elemental. destruct (scatter_ok N un0 ue elements) as ((un & cn) & E & A & B & C); auto. rewrite E. cbn [bind fst snd] in *.
  assert (RN : received d ue elements n0 = []).
  { unfold received. assert (Q : forall l, (forall i, In i l -> (i < length elements)%nat) -> flat_map (fun i => repeat (nth i ue d) (count_occ Nat.eq_dec (nth i elements []) n0)) l = []).
    { induction l as [|i l IH]; intros Hl; cbn [flat_map]; auto. rewrite IH by (intros; apply Hl; now right).
      rewrite (proj1 (count_occ_not_In Nat.eq_dec (nth i elements []) n0)); auto. apply HR. apply nth_In. apply Hl. now left. }
    apply Q. intros i Hi. apply in_seq in Hi. lia. }
  set (stp := fun un i => x <- rd un i ;; c <- rd cn i ;; z <- div x (INR c) ;; wr un i z).
  (* all passes before the first division by zero return *)
  assert (P : forall k, (k <= n0)%nat -> (exists L, foldM stp (seq 0 k) un = Ok L /\ length L = N /\ forall j, (k <= j)%nat -> nth j L d = nth j un d) \/ foldM stp (seq 0 k) un = Fail DivByZero).
  { induction k as [|k IH]; intros Hk; [left; exists un; auto|].
    destruct IH as [(L & EL & HLn & HJ)|EL]; [lia| |].
    - rewrite seq_S, foldM_app, EL. cbn [bind foldM Nat.add]. destruct (C k ltac:(lia)) as (C1 & C2 & C3). unfold stp. rewrite (rd_nth L k d) by lia. cbn [bind].
      rewrite (rd_nth cn k O) by lia. cbn [bind]. rewrite HJ, C2, C3 by lia. destruct (received d ue elements k) as [|r rs] eqn:ER.
      + right. cbn [length INR]. rewrite div_fails; [reflexivity|]. exact H0.
      + left. rewrite <- ER. rewrite div_ok; [|apply total_dom; auto; rewrite ER; auto|apply not_0_INR; rewrite ER; discriminate]. cbn [bind].
        rewrite wr_Ok by lia. cbn [bind]. eexists. split; [reflexivity|]. rewrite upd_length. split; auto. intros j Hj. rewrite nth_upd.
        destruct (Nat.eqb_spec k j); [lia|]. cbn [andb]. apply HJ. lia.
    - right. rewrite seq_S, foldM_app, EL. reflexivity. }
  replace N with (n0 + S (N - n0 - 1))%nat by lia. rewrite seq_app, foldM_app.
  destruct (P n0 (le_n _)) as [(L & EL & HLn & HJ)| ->]; [|reflexivity]. rewrite EL. cbn [bind seq foldM Nat.add]. unfold stp at 1.
  destruct (C n0 Hn) as (C1 & C2 & C3). rewrite (rd_nth L n0 d) by lia. cbn [bind]. rewrite (rd_nth cn n0 O) by lia. cbn [bind].
  rewrite HJ, C2, C3, RN by lia. cbn [length INR]. rewrite div_fails; [reflexivity|]. exact H0.
Qed.

(** InterpolateElementalFromNodal *)
Lemma gather_ok ue0 un elements : Dom ue0 -> Forall Dom un -> mesh_ok (length un) elements -> (forall e, In e elements -> e <> []) ->
  elemental_from_nodal add div ue0 un elements = Ok (map (fun e => divf (total (map (fun n => nth n un d) e) ue0) (INR (length e))) elements).
Proof.
  intros H0 Hu HM HE. unfold elemental_from_nodal. set (N := length elements).
  assert (DN : forall n, (n < length un)%nat -> Dom (nth n un d)) by (intros; apply (proj1 (Forall_forall Dom un) Hu), nth_In; auto).
  rewrite (rows_fold' d N _ (fun i x => divf (total (map (fun n => nth n un d) (nth i elements [])) x) (INR (length (nth i elements []))))).
  - f_equal. apply (nth_ext _ _ d d); [now rewrite !map_length, seq_length|]. rewrite map_length, seq_length. intros i Hi.
    set (f := fun e : list nat => divf (total (map (fun n => nth n un d) e) ue0) (INR (length e))).
    rewrite (nth_indep (map f _) d (f [])) by (rewrite map_length; auto). rewrite map_nth.
    set (g := fun i => divf (total (map (fun n => nth n un d) (nth i elements [])) (nth i (repeat ue0 N) d)) (INR (length (nth i elements [])))).
    rewrite (nth_indep (map g _) d (g O)) by (rewrite map_length, seq_length; auto). rewrite map_nth, seq_nth by auto. cbn [Nat.add]. unfold f, g.
    rewrite (nth_indep (repeat _ _) d ue0) by (rewrite repeat_length; auto). now rewrite nth_repeat.
  - intros L i HL Hi EL. assert (Ee : In (nth i elements []) elements) by (apply nth_In; auto). rewrite (rd_nth elements i []) by auto. cbn [bind].
    assert (DL : Dom (nth i L d)). { rewrite EL. rewrite (nth_indep _ d ue0) by (rewrite repeat_length; auto). now rewrite nth_repeat. }
    assert (G : forall e L, (forall n, In n e -> (n < length un)%nat) -> (i < length L)%nat -> Dom (nth i L d) ->
      foldM (fun ue n => x <- rd ue i ;; y <- rd un n ;; z <- add x y ;; wr ue i z) e L = Ok (upd L i (total (map (fun n => nth n un d) e) (nth i L d)))).
    { clear - add_ok DN. induction e as [|n e IH]; intros L He Hi DL; cbn [foldM map]; [unfold total; cbn [fold_left]; now rewrite upd_nth_id|].
      assert (Hn : (n < length un)%nat) by (apply He; now left).
      rewrite (rd_nth L i d) by auto. cbn [bind]. rewrite (rd_nth un n d) by auto. cbn [bind].
      destruct (add_ok (nth i L d) (nth n un d) DL (DN n Hn)) as (-> & DP). cbn [bind]. rewrite wr_Ok by auto. cbn [bind].
      rewrite IH; [|intros; apply He; now right|now rewrite upd_length|now rewrite nth_upd_same].
      rewrite upd_upd, nth_upd_same by auto. reflexivity. }
    rewrite G; [|intros n Hn; apply (HM (nth i elements [])); auto|lia|auto]. cbn [bind].
    rewrite (rd_nth _ i d) by (rewrite upd_length; lia). cbn [bind]. rewrite nth_upd_same by lia.
    rewrite div_ok.
    + cbn [bind]. rewrite wr_Ok by (rewrite upd_length; lia). now rewrite upd_upd.
    + apply total_dom; auto. apply Forall_forall. intros v Hv. apply in_map_iff in Hv as (n & <- & Hn). apply DN. apply (HM (nth i elements [])); auto.
    + apply not_0_INR. specialize (HE _ Ee). destruct (nth i elements []); [congruence|discriminate].
  - apply repeat_length.
Qed.
End Avg.
