(** Property C103: the constructor of the triangle mesher: the proofs. *)
From Coq Require Import List Arith ZArith Lia Bool Reals Lra Sorted.
From Verif Require Import Res DenseModel DenseR LUModel DelaunayModel DelaunaySpec DelaunaySpec2 DelaunaySpec3 DelaunayMain DelaunayMain2 DelaunayMain3.
Import ListNotations.
Local Open Scope R_scope.
From Verif Require Import DelaunayProof DelaunayProof2 DelaunayProof6 DelaunayProof7 DelaunayProof10 DelaunayProof11 DelaunayProof12 DelaunayProof13 DelaunayProof14 DelaunayProof15.

Lemma sorted_filter (g : nat -> bool) : forall n s, StronglySorted lt (filter g (seq s n)).
Proof.
  induction n as [|n IH]; intros s; cbn [seq filter]; [constructor|]. destruct (g s); auto. constructor; auto.
  apply Forall_forall. intros k Hk. apply filter_In in Hk. destruct Hk as [Hk _]. apply in_seq in Hk. lia.
Qed.
Lemma cyc_runs l a b c i j k : order l a = Some i -> order l b = Some j -> order l c = Some k -> cyc i j k = false -> ~ runs_with l a b c.
Proof.
  intros Ha Hb Hc Hn (i' & j' & k' & Fa & Fb & Fc & D). unfold first_at in *. apply order_first in Fa, Fb, Fc.
  rewrite Ha in Fa. rewrite Hb in Fb. rewrite Hc in Fc. injection Fa as <-. injection Fb as <-. injection Fc as <-. unfold cyc in Hn.
  destruct (Nat.ltb_spec i j), (Nat.ltb_spec j k), (Nat.ltb_spec k i); cbn in Hn; try discriminate; lia.
Qed.
Lemma order_In l k i : order l k = Some i -> In k l.
Proof. intros H. apply order_first in H. destruct H as [H _]. eapply nth_error_In; eauto. Qed.
Lemma cs_ids (ns : list dnode) es e : cs (fun k => (k < length ns)%nat) true es -> In e es -> ids_ok (length ns) e /\ eact e = true.
Proof. intros C He. assert (Q := cs_In _ _ _ _ C He). split; [|exact (proj2 Q)]. intros j Hj. exact (cq_at _ _ _ j Hj Q). Qed.

(** ** the constructor on the triangle (1,0), (-2,0), (0,2) *)
Definition tri_points : list (list R) := [[1; 0]; [-2; 0]; [0; 2]].
Definition tri3_nodes : list dnode := [mkNode [1; 0] true true; mkNode [-2; 0] true true; mkNode [0; 2] true true].
Definition tri3_elems : list delem := [mkElem (A3 2 1 0)%nat (A3 None None None) (A3 true true true) true true].
Lemma tri_rough fuel : (3 <= fuel)%nat -> roughmesh fuel tri_points [[0; 1; 2]%nat] [] = Ok (mkMesh tri3_nodes tri3_elems).
Proof. exact (rough_run fuel). Qed.
Lemma tri_ok : mesh_ok tri3_nodes tri3_elems.
Proof.
  constructor.
  - intros n Hn. repeat (destruct Hn as [<-|Hn]; [reflexivity|]). destruct Hn.
  - intros e [<-|[]] j Hj. case3 j Hj; cbn; lia.
  - intros e [<-|[]]. unfold area2, tri2, xy, nxy. cbn. lra.
  - intros e [<-|[]]. reflexivity.
  - intros a e j b He Hj Nb. destruct a as [|a]; [|destruct a; discriminate He]. injection He as <-. case3 j Hj; discriminate Nb.
Qed.
Lemma tri_border : border_ok tri3_nodes tri3_elems.
Proof.
  split.
  - intros e j [<-|[]] Hj _. case3 j Hj; reflexivity.
  - intros e j n [<-|[]] Hj _ D. case3 j Hj; cbn in D; destruct D as [D|D]; injection D as <-; reflexivity.
Qed.
Lemma tri_cover : cover_ok tri3_nodes tri3_elems.
Proof. intros i n Hn Bn. destruct i as [|[|[|i]]]; try (injection Hn as <-; discriminate Bn). destruct i; discriminate Hn. Qed.
Lemma tri_first d M1 M2 N : (forall fuel, (N <= fuel)%nat -> refine fuel (mkMesh tri3_nodes tri3_elems) = Ok (d, M1) /\ laplacesmoothing fuel M1 = Ok M2) -> ccw M2 /\ d <= 3.
Proof.
  intros HN.
  destruct (C100_refine_pf _ _ tri_ok ltac:(discriminate)) as (d' & k & j & e & N' & ns1 & es1 & Hk & Hj & Hd & _ & HR & OK1 & _ & _ & L1 & X1 & _ & O1 & B1 & C1 & _).
  specialize (B1 tri_border). specialize (C1 tri_cover).
  destruct (HN (Nat.max N (Nat.max N' (length es1))) ltac:(lia)) as [R1 S1]. rewrite HR in R1 by lia. injection R1 as <- <-.
  destruct (C101_smoothing_pf ns1 es1 (mesh_topo _ _ OK1) B1 C1) as (ns2 & HS & L2 & _ & _ & _ & _ & _ & X2 & _).
  rewrite HS in S1 by lia. injection S1 as <-.
  assert (E : e = mkElem (A3 2 1 0)%nat (A3 None None None) (A3 true true true) true true).
  { apply nth_error_In in Hk. destruct Hk as [<-|[]]. reflexivity. }
  split.
  - intros f Hf. cbn [mns mes] in *. assert (Q : forall i, (i < length ns1)%nat -> xy ns2 i = xy ns1 i).
    { intros i Hi. apply X2. destruct (Nat.eq_dec i (length tri3_nodes)) as [->|Hn].
      - rewrite O1, E. case3 j Hj; reflexivity.
      - cbn in L1. destruct (X1 i ltac:(cbn in *; lia)) as [_ ->]. cbn in Hn. destruct i as [|[|[|i]]]; try reflexivity. lia. }
    assert (I := ok_ids _ _ OK1 f Hf). unfold area2. rewrite !Q by (apply I; lia). exact (ok_pos _ _ OK1 f Hf).
  - rewrite Hd, E. unfold side_len. rewrite <- (sqrt_square 3) by lra. unfold pdist.
    apply sqrt_le_1_alt. case3 j Hj; unfold xy, nxy; cbn; lra.
Qed.
Lemma tri_ccw maxside rounds : 3 <= maxside \/ rounds = 0%nat -> ccw_rounds (S rounds) (mkMesh tri3_nodes tri3_elems) maxside.
Proof.
  intros Hm. cbn [ccw_rounds]. intros d M1 M2 N HN. destruct (tri_first _ _ _ _ HN) as [A B]. split; [exact A|]. intros D.
  destruct Hm as [Hm| ->]; [lra|exact Logic.I].
Qed.
Lemma tri_fine : exists N M, forall fuel, (N <= fuel)%nat -> makefinemesh 1 fuel (mkMesh tri3_nodes tri3_elems) 3 = Ok M /\
  exists M', foldM (fun M (_ : nat) => laplacesmoothing fuel M) (seq 0 10) M = Ok M'.
Proof.
  destruct (one_round _ _ tri_ok ltac:(discriminate) tri_border tri_cover) as (N & d & ns1 & es1 & ns2 & HR & _ & _ & HK).
  destruct (tri_first _ _ _ _ HR) as [A B]. specialize (HK A).
  destruct (C101_repeated_pf 10 ns2 es1 (mesh_topo _ _ (kp_ok _ _ _ _ _ HK)) (kp_border _ _ _ _ _ HK) (kp_cover _ _ _ _ _ HK)) as (ns3 & HS & _).
  exists (Nat.max N (length es1)), (mkMesh ns2 es1). intros fuel Hf. destruct (HR fuel ltac:(lia)) as [H1 H2]. split.
  - cbn [makefinemesh]. rewrite H1. cbn [bind]. rewrite H2. cbn [bind]. now rewrite (proj2 (Rltb_f _ _)) by lra.
  - exists (mkMesh ns3 es1). apply HS. lia.
Qed.
Lemma tri_delaunay : exists N, forall fuel, (N <= fuel)%nat -> exists M, delaunay 1 fuel tri_points [[0; 1; 2]%nat] [] 3 = Ok M.
Proof.
  destruct tri_fine as (N & M & H). exists (Nat.max 3 N). intros fuel Hf. destruct (H fuel ltac:(lia)) as [H1 [M' H2]]. exists M'.
  unfold delaunay. rewrite tri_rough by lia. cbn [bind]. rewrite H1. exact H2.
Qed.


Lemma C103_roughmesh_pf : forall fuel x outer inner ns es,
  roughmesh fuel x outer inner = Ok (mkMesh ns es) -> (forall k, on_list outer inner k -> (k < length x)%nat) ->
  exists K, StronglySorted lt K /\ (forall k, In k K <-> on_list outer inner k) /\
    map dx ns = map (fun k => nth k x []) K /\ (forall n, In n ns -> isset n = true /\ isonb n = true) /\
    forall e, In e es -> eact e = true /\ ids_ok (length ns) e /\
      let o j := nth (at3 (en e) j) K 0%nat in
      (exists l, In l outer /\ (forall j, (j < 3)%nat -> In (o j) l) /\ ~ runs_with l (o 0%nat) (o 1%nat) (o 2%nat)) \/
      (exists l j, In l inner /\ (j < 3)%nat /\ In (o j) l /\ ~ runs_with l (o 0%nat) (o 1%nat) (o 2%nat)).
Proof.
  intros fuel x outer inner ns es H Hk.
  assert (Hk' : forall k, listed outer inner k = true -> (k < length x)%nat) by (intros k Q; apply Hk; now apply listed_iff in Q).
  destruct (roughmesh_ok _ _ _ _ _ H Hk') as (ns0 & es0 & E & Bd & Dx & Ms & He). rewrite sortnode_eq in E. injection E as -> ->.
  exists (filter (listed outer inner) (seq 0 (length x))). split; [apply sorted_filter|]. split.
  { intros k. rewrite filter_In, in_seq, listed_iff. unfold on_list. split; [tauto|]. intros Q. split; auto. specialize (Hk k Q). lia. }
  split; [exact Dx|]. split.
  { intros n Hn. apply filter_In in Hn. destruct Hn as [Hn Sn]. auto. }
  assert (Le : length (filter isset ns0) = length (filter (listed outer inner) (seq 0 (length x)))) by (rewrite <- (map_length dx), Dx; apply map_length).
  intros e Hin. apply in_map_iff in Hin. destruct Hin as (e0 & <- & Hin). destruct (He e0 Hin) as (Ac & Pa & Co).
  assert (Num : forall j, (j < 3)%nat -> nth_error (filter (listed outer inner) (seq 0 (length x))) (at3 (en (renumber ns0 e0)) j) = Some (at3 (en e0) j)).
  { intros j Hj. destruct (Co j Hj) as (m & Hm & Sm). assert (Lt := nth_error_lt _ _ _ Hm).
    replace (at3 (en (renumber ns0 e0)) j) with (renum 0 ns0 (at3 (en e0) j)) by (unfold renumber; cbn [en]; case3 j Hj; reflexivity).
    rewrite renum_below by lia. unfold below. assert (Li : listed outer inner (at3 (en e0) j) = true) by (apply Ms; exists m; auto).
    rewrite (filter_firstn_len ns0 (listed outer inner)); [|lia|].
    - apply (filter_seq_nth (listed outer inner) (length x) _ 0); [|exact Li]. now apply Hk'.
    - intros i n Hn. destruct (isset n) eqn:Si.
      + symmetry. apply Ms. exists n. auto.
      + destruct (listed outer inner i) eqn:Q; auto. apply Ms in Q. destruct Q as (n' & Hn' & Sn'). congruence. }
  split; [exact Ac|]. split.
  { intros j Hj. rewrite Le. eapply nth_error_lt. now apply Num. }
  cbv beta zeta. assert (Nu : forall j, (j < 3)%nat -> nth (at3 (en (renumber ns0 e0)) j) (filter (listed outer inner) (seq 0 (length x))) 0%nat = at3 (en e0) j) by (intros j Hj; apply nth_error_nth; now apply Num).
  rewrite (Nu 0%nat), (Nu 1%nat), (Nu 2%nat) by lia. destruct Pa as [(l & a & b & c & Hl & Oa & Ob & Oc & Cy)|(l & Hl & (j & Hj & Oj) & Cy)].
  - left. exists l. split; auto. split; [|eapply cyc_runs; eauto].
    intros j Hj. rewrite Nu by assumption. case3 j Hj; eapply order_In; eauto.
  - right. exists l, j. split; auto. split; auto. rewrite Nu by assumption. split.
    + destruct (order l (at3 (en e0) j)) eqn:Q; [eapply order_In; eauto|congruence].
    + intros Ru. destruct Ru as (a & b & c & Fa & Fb & Fc & D). assert (Ru : runs_with l (at3 (en e0) 0) (at3 (en e0) 1) (at3 (en e0) 2)) by (exists a, b, c; auto).
      unfold first_at in *. apply order_first in Fa, Fb, Fc. exact (cyc_runs _ _ _ _ _ _ _ Fa Fb Fc (Cy _ _ _ Fa Fb Fc) Ru).
Qed.

Lemma C103_direction_pf : forall fuel x l ns es s,
  roughmesh fuel x [l] [] = Ok (mkMesh ns es) -> (forall k, In k l -> (k < length x)%nat) ->
  (forall i j k a b c, (i < j < k)%nat -> nth_error l i = Some a -> nth_error l j = Some b -> nth_error l k = Some c ->
     0 < s * tri2 (xy (map node_of x) a) (xy (map node_of x) b) (xy (map node_of x) c)) ->
  forall e, In e es -> proper e -> s * area2 ns e < 0.
Proof.
  intros fuel x l ns es s H Hk Hp e He Pr.
  assert (Hk' : forall k, on_list [l] [] k -> (k < length x)%nat) by (intros k (l' & [<-|[]] & Q); auto).
  destruct (C103_roughmesh_pf _ _ _ _ _ _ H Hk') as (K & SK & HK & Dx & _ & HE). destruct (HE e He) as (_ & Id & D). cbv beta zeta in D.
  destruct D as [(l' & [<-|[]] & In3 & Ru)|(l' & j & [] & _)].
  assert (LK : length ns = length K) by (rewrite <- (map_length dx), Dx; apply map_length).
  assert (Xy : forall i, (i < length ns)%nat -> xy ns i = xy (map node_of x) (nth i K 0%nat)).
  { intros i Hi. unfold xy, nxy. assert (Q : nth_error (map dx ns) i = nth_error (map (fun k => nth k x []) K) i) by (now rewrite Dx). rewrite !nth_error_map in Q.
    destruct (nth_error ns i) as [n|] eqn:En; [|apply nth_error_None in En; lia]. destruct (nth_error K i) as [k|] eqn:Ek; [|discriminate Q].
    injection Q as Q. rewrite (nth_error_nth _ _ _ En), (nth_error_nth _ _ _ Ek), Q.
    assert (Lk : (k < length x)%nat) by (apply Hk', HK; eapply nth_error_In; eauto).
    rewrite (nth_indep (map node_of x) _ (node_of [])) by (now rewrite map_length). now rewrite map_nth. }
  assert (Inj : forall i j, (i < length ns)%nat -> (j < length ns)%nat -> i <> j -> nth i K 0%nat <> nth j K 0%nat).
  { intros i j Hi Hj Ne E. apply Ne. assert (ND : NoDup K). { clear -SK. induction SK as [|a K SK IH F]; constructor; auto. intros Hin. apply (proj1 (Forall_forall _ _) F) in Hin. lia. }
    exact (proj1 (NoDup_nth K 0%nat) ND i j ltac:(lia) ltac:(lia) E). }
  assert (I0 := Id 0%nat ltac:(lia)). assert (I1 := Id 1%nat ltac:(lia)). assert (I2 := Id 2%nat ltac:(lia)). destruct Pr as (P0 & P1 & P2).
  assert (N0 := Inj _ _ I0 I1 P0). assert (N1 := Inj _ _ I1 I2 P1). assert (N2 := Inj _ _ I2 I0 P2).
  assert (F0 := In3 0%nat ltac:(lia)). assert (F1 := In3 1%nat ltac:(lia)). assert (F2 := In3 2%nat ltac:(lia)).
  unfold area2. rewrite !Xy by assumption. set (a := nth (at3 (en e) 0) K 0%nat) in *. set (b := nth (at3 (en e) 1) K 0%nat) in *. set (c := nth (at3 (en e) 2) K 0%nat) in *.
  destruct (order l a) as [i|] eqn:Oa; [|now apply order_None in Oa]. destruct (order l b) as [j|] eqn:Ob; [|now apply order_None in Ob]. destruct (order l c) as [k|] eqn:Oc; [|now apply order_None in Oc].
  apply order_first in Oa, Ob, Oc. assert (D : ~ ((i < j /\ j < k) \/ (j < k /\ k < i) \/ (k < i /\ i < j))%nat) by (intros D; apply Ru; exists i, j, k; auto).
  destruct Oa as [Oa _], Ob as [Ob _], Oc as [Oc _].
  assert (i <> j) by congruence. assert (j <> k) by congruence. assert (k <> i) by congruence.
  assert (Q : ((i < k /\ k < j) \/ (k < j /\ j < i) \/ (j < i /\ i < k))%nat) by lia. clear D.
  destruct Q as [Q|[Q|Q]].
  - assert (Z := Hp _ _ _ _ _ _ Q Oa Oc Ob). unfold tri2 in *. lra.
  - assert (Z := Hp _ _ _ _ _ _ Q Oc Ob Oa). unfold tri2 in *. lra.
  - assert (Z := Hp _ _ _ _ _ _ Q Ob Oa Oc). unfold tri2 in *. lra.
Qed.

Lemma C103_constructor_pf : forall rounds fuel x outer inner maxsize ns es,
  delaunay rounds fuel x outer inner maxsize = Ok (mkMesh ns es) -> (forall k, on_list outer inner k -> (k < length x)%nat) ->
  exists K r, StronglySorted lt K /\ (forall k, In k K <-> on_list outer inner k) /\
    (1 <= r <= rounds)%nat /\ length ns = (length K + r)%nat /\ (r + 1 <= length es)%nat /\
    (forall i k, nth_error K i = Some k -> exists n, nth_error ns i = Some n /\ dx n = nth k x [] /\ isonb n = true) /\
    (forall e, In e es -> eact e = true /\ ids_ok (length ns) e) /\ 0 <= maxsize.
Proof.
  intros rounds fuel x outer inner maxsize ns es H Hk. unfold delaunay in H. binv H. binv H. destruct v as [n0 e0]. destruct v0 as [n1 e1].
  destruct (C103_roughmesh_pf _ _ _ _ _ _ E Hk) as (K & SK & HK & Dx & Bd & He).
  assert (C0 : cs (fun k => (k < length n0)%nat) true e0).
  { apply Forall_forall. intros e Hin. destruct (He e Hin) as (Ac & Id & _). split; [|exact Ac]. splits; apply Id; lia. }
  assert (Ne : e0 <> []). { intros ->. destruct rounds; [discriminate E0|]. cbn in E0. discriminate. }
  destruct (fine_fixed _ _ _ _ _ _ E0 C0) as (r & Hr & L1 & C1 & F1 & L2 & Hm). cbn [mns mes] in *.
  destruct (ten_fixed _ _ _ _ _ H) as (S1 & S2 & S3). cbn [mns mes] in *. subst e1.
  assert (LK : length n0 = length K) by (rewrite <- (map_length dx), Dx; apply map_length).
  exists K, r. split; [exact SK|]. split; [exact HK|]. split; [exact Hr|]. split; [lia|]. split; [destruct e0; [congruence|cbn [length] in L2; lia]|]. split; [|split; [|exact Hm]].
  - intros i k Hi. assert (Q : nth_error (map dx n0) i = Some (nth k x [])) by (rewrite Dx; now apply map_nth_error with (f := fun k => nth k x [])).
    destruct (nth_error n0 i) as [n|] eqn:Hn; [|rewrite nth_error_map, Hn in Q; discriminate]. rewrite nth_error_map, Hn in Q. injection Q as Q.
    destruct (fixed_trans _ _ _ F1 S3) as [_ F]. destruct (F i n Hn (proj2 (Bd n (nth_error_In _ _ Hn)))) as (n' & Hn' & D' & O').
    exists n'. splits; auto. congruence.
  - intros e Hin. assert (C2 : cs (fun k => (k < length ns)%nat) true es) by (rewrite S2, L1; exact C1).
    destruct (cs_ids _ _ _ C2 Hin). auto.
Qed.

Lemma C103_no_elements_pf : forall rounds fuel x outer inner maxsize ns, (0 < rounds)%nat ->
  roughmesh fuel x outer inner = Ok (mkMesh ns []) -> delaunay rounds fuel x outer inner maxsize = Fail OutOfBounds.
Proof. intros [|rounds] fuel x outer inner maxsize ns Hr H; [lia|]. unfold delaunay. rewrite H. reflexivity. Qed.

Lemma C103_rounds_pf : forall maxside rounds ns es, mesh_ok ns es -> es <> [] -> border_ok ns es -> cover_ok ns es ->
  ccw_rounds rounds (mkMesh ns es) maxside ->
  exists N, (forall fuel, (N <= fuel)%nat -> makefinemesh rounds fuel (mkMesh ns es) maxside = Fail OutOfFuel) \/
    exists r ns0 es0 d ns1 es1 ns', (r < rounds)%nat /\ kept ns es r ns0 es0 /\
      (forall f i, In f es0 -> (i < 3)%nat -> side_len ns0 f i <= maxside) /\ kept ns es (r + 1) ns' es1 /\
      (forall fuel, (N <= fuel)%nat -> refine fuel (mkMesh ns0 es0) = Ok (d, mkMesh ns1 es1) /\ laplacesmoothing fuel (mkMesh ns1 es1) = Ok (mkMesh ns' es1)) /\
      forall fuel, (N <= fuel)%nat -> makefinemesh rounds fuel (mkMesh ns es) maxside = Ok (mkMesh ns' es1).
Proof. intros. now apply fine_kept. Qed.

Lemma C103_nonpositive_pf : forall maxside, maxside <= 0 -> forall rounds ns es, mesh_ok ns es -> es <> [] -> border_ok ns es -> cover_ok ns es ->
  ccw_rounds rounds (mkMesh ns es) maxside ->
  exists N, forall fuel, (N <= fuel)%nat -> makefinemesh rounds fuel (mkMesh ns es) maxside = Fail OutOfFuel.
Proof. intros. now apply fine_nonpos. Qed.

Lemma C103_whole_pf : forall rounds x outer inner maxsize ns es N0,
  (forall k, on_list outer inner k -> (k < length x)%nat) ->
  (forall fuel, (N0 <= fuel)%nat -> roughmesh fuel x outer inner = Ok (mkMesh ns es)) ->
  mesh_ok ns es -> es <> [] -> (forall e j, In e es -> (j < 3)%nat -> at3 (enb e) j = None -> at3 (esd e) j = true) ->
  ccw_rounds rounds (mkMesh ns es) maxsize ->
  exists N, (forall fuel, (N <= fuel)%nat -> delaunay rounds fuel x outer inner maxsize = Fail OutOfFuel) \/
    exists r ns' es', (r < rounds)%nat /\
      (forall fuel, (N <= fuel)%nat -> delaunay rounds fuel x outer inner maxsize = Ok (mkMesh ns' es')) /\
      topo_ok ns' es' /\ border_ok ns' es' /\ cover_ok ns' es' /\ marks_ok es' /\ (forall e, In e es' -> eact e = true) /\ total2 ns' es' = total2 ns es /\
      length ns' = (length ns + r + 1)%nat /\ (length es + r + 1 <= length es')%nat /\
      (forall i, (i < length ns)%nat -> onb ns' i = true /\ xy ns' i = xy ns i) /\
      (forall u v w, (forall i, (i < length ns)%nat -> half_plane u v w (xy ns i)) -> forall i, (i < length ns')%nat -> half_plane u v w (xy ns' i)).
Proof.
  intros rounds x outer inner maxsize ns es N0 Hk HR OK Ne Un W.
  destruct (C103_roughmesh_pf _ _ _ _ _ _ (HR N0 (le_n _)) Hk) as (K & _ & _ & _ & Bd & _).
  assert (Bo : border_ok ns es).
  { split; [exact Un|]. intros e j n _ _ _ [D|D]; apply nth_error_In in D; now apply Bd. }
  assert (Co : cover_ok ns es). { intros i n Hn B. apply nth_error_In in Hn. destruct (Bd n Hn). congruence. }
  assert (On : forall i, (i < length ns)%nat -> onb ns i = true). { intros i Hi. unfold onb. apply Bd. now apply nth_In. }
  destruct (fine_kept maxsize rounds ns es OK Ne Bo Co W) as (N & [F|(r & ns0 & es0 & d & ns1 & es1 & ns2 & Hr & _ & _ & Kp & _ & H)]).
  - exists (Nat.max N0 N). left. intros fuel Hf. unfold delaunay. rewrite HR by lia. cbn [bind]. rewrite F by lia. reflexivity.
  - assert (Kp' := Kp). destruct Kp' as [K1 K2 K3 K4 K5 K6 K7 K8].
    destruct (C101_repeated_pf 10 ns2 es1 (mesh_topo _ _ K1) K2 K3) as (ns3 & HS & L3 & T3 & B3 & C3 & A3 & O3 & X3 & P3).
    exists (Nat.max N0 (Nat.max N (length es1))). right. exists r, ns3, es1. split; [exact Hr|]. split.
    { intros fuel Hf. unfold delaunay. rewrite HR by lia. cbn [bind]. rewrite H by lia. cbn [bind]. apply HS. lia. }
    split; [exact T3|]. split; [exact B3|]. split; [exact C3|]. split; [exact (mesh_marks _ _ K1)|]. split; [exact (ok_act _ _ K1)|]. split; [lra|]. split; [lia|]. split; [lia|]. split.
    + intros i Hi. destruct (K7 i Hi) as [Q1 Q2]. rewrite O3, Q1. split; [now apply On|]. rewrite X3 by (rewrite Q1; now apply On). apply Q2. now apply On.
    + intros u v w Hh i Hi. apply P3; [|lia]. now apply K8.
Qed.
