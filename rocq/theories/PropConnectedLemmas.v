(** Connected parts: classes of level_expansion, parts of the multinode expansion and of the bisection. *)
From Verif Require Import Base ListFacts Csr GraphModel GraphSpec GraphFacts GraphInsert GraphErase
  TraversalModel Bfs TraversalFacts Expansion Peripheral Eccentricity OrderingSpec SubgraphModel SubgraphFacts
  SubgraphLevels SubgraphUpdate SubgraphNew PartitionModel Bisection Multinode
  PropGraphLemmas PropPartitionLemmas.

(** Any two members of [l] are joined by edges of [g] between members of [l]. *)
Definition connected_part (g : graph) (l : list nat) : Prop :=
  forall u v, In u l -> In v l -> reachable (edge_inside g (fun x => In x l)) u v.

Lemma edge_inside_sym g (A : nat -> Prop) : well_formed false g -> forall u v, edge_inside g A u v -> edge_inside g A v u.
Proof. intros Hw u v (H1 & H2 & H3). split; [|auto]. apply (edge_sym g); auto. Qed.

Lemma reachable_trans E u v w : reachable E u v -> reachable E v w -> reachable E u w.
Proof. intros (k & H) (m & H'). exists (k + m). eapply walk_trans; eauto. Qed.

Lemma reachable_sym (E : nat -> nat -> Prop) u v : (forall a b, E a b -> E b a) -> reachable E u v -> reachable E v u.
Proof. intros H (k & W). exists k. apply walk_sym; auto. Qed.

Lemma centre_connected g l c : well_formed false g ->
  (forall v, In v l -> reachable (edge_inside g (fun x => In x l)) c v) -> connected_part g l.
Proof.
  intros Hw H u v Hu Hv. eapply reachable_trans; [|apply H; eauto].
  apply reachable_sym; [intros a b; apply edge_inside_sym; auto|auto].
Qed.

(** A part that is connected in the graph is connected as a graph of its own. *)
Lemma part_connected dbg g l s : NoDup l -> induced_by dbg g l s -> connected_part g l -> connected (s_graph s).
Proof.
  intros Hnd [_ Hsz _ He] Hc i j Hi Hj. unfold sub_size in Hsz. rewrite Hsz in Hi, Hj.
  destruct (Hc (nth i l 0) (nth j l 0)) as (k & W); [apply nth_In; auto|apply nth_In; auto|].
  remember (nth i l 0) as u eqn:Eu. remember (nth j l 0) as v eqn:Ev.
  assert (G : forall b, b < length l -> nth b l 0 = v ->
    exists a, a < length l /\ nth a l 0 = u /\ reachable (edge (s_graph s)) a b).
  { clear Ev Hj j. induction W as [u|k u x w W IH (Hx1 & Hx2 & Hx3)]; intros b Hb Eb.
    - exists b. split; auto. split; auto. exists 0. apply walk_0.
    - apply (In_nth _ _ 0) in Hx2 as (c & Hc' & Ec). destruct (IH Eu c Hc' Ec) as (a & Ha & Ea & R).
      exists a. split; auto. split; auto. eapply reachable_trans; [exact R|]. exists 1. apply walk_1.
      apply He; auto. rewrite Ec, Eb. auto. }
  destruct (G j Hj (eq_sym Ev)) as (a & Ha & Ea & R).
  assert (a = i) by (apply (proj1 (NoDup_nth l 0) Hnd); congruence). subst a. auto.
Qed.

Lemma mapM_In {A B} (f : A -> res B) l bs b : mapM f l = Ok bs -> In b bs -> exists a, In a l /\ f a = Ok b.
Proof.
  revert bs. induction l as [|a l IH]; intros bs H Hb; cbn in H.
  - injection H as <-. destruct Hb.
  - apply bind_Ok in H as (c & Hc & H). apply bind_Ok in H as (cs & Hcs & H). injection H as <-.
    destruct Hb as [<-|Hb]; [exists a; split; [left|]; auto|].
    destruct (IH cs Hcs Hb) as (x & Hx & E). exists x. split; [right|]; auto.
Qed.

(* ------------------------------------------------------------------ multinode expansion *)
Section Multi.
  Variables (h : nat -> nat) (M : nat) (dbg : bool) (g : graph) (T : list (list nat)).
  Let n := size_vertex g.
  Hypothesis Hw : well_formed false g.
  Hypothesis HM : n <= M.
  Hypothesis Hn : 0 < n.
  Hypothesis Hadj : n <= length (adj g).
  Hypothesis Hconn : connected g.
  Hypothesis HT : table_ok n M T.

  Lemma rebuild_connected seed C vs ss : seed <> [] -> length seed <= n -> (forall v, In v seed -> v < n) ->
    level_expansion M dbg g seed = Ok C -> collect (length seed) C = Ok vs ->
    mapM (fun l => subgraph_new h M dbg g l 0) vs = Ok ss -> Forall (fun s => connected_part g (s_lg s)) ss.
  Proof using Hw HM Hn Hadj Hconn.
    intros Hne Hl Hb EC Ev Es.
    destruct (level_expansion_inside M dbg false g seed Hw HM ltac:(lia) Hne Hb) as (C' & EC' & HCl & HC).
    rewrite EC in EC'. injection EC' as <-. fold n in HCl, HC.
    assert (H0 : 0 < length seed) by (destruct seed; [congruence|cbn; lia]).
    assert (Hcol : forall v c, nth_error C v = Some c -> v < n /\ c < length seed /\
      exists k, walk (edge_inside g (fun x => nth_error C x = Some c)) k (nth c seed 0) v).
    { intros v c E. pose proof (nth_error_lt_Some _ _ _ E) as Hv. rewrite HCl in Hv. split; auto.
      destruct (HC v Hv c E) as [(H1 & k & H2 & _)|[_ H1]]; [eauto|].
      exfalso. assert (Hs0 : In (nth 0 seed 0) seed) by (apply nth_In; lia).
      apply (H1 _ Hs0). apply Hconn; auto. }
    destruct (collect_ok (length seed) C) as (vs' & Ev' & Hvl & Hvn & _).
    { intros c Hc. apply In_nth_error in Hc as (v & Hv). apply (Hcol v c Hv). }
    rewrite Ev in Ev'. injection Ev' as <-. rewrite HCl in Hvn.
    apply Forall_forall. intros s Hs. destruct (mapM_In _ _ _ _ Es Hs) as (l & Hlin & El).
    apply (In_nth _ _ []) in Hlin as (c & Hc & Elc). rewrite Hvl in Hc. rewrite Hvn in Elc by auto.
    assert (Hin : forall v, In v l <-> nth_error C v = Some c).
    { intro v. rewrite <- Elc, filter_In, in_seq. split.
      - intros [Hv E]. apply Nat.eqb_eq in E. rewrite <- E. apply nth_error_nth_lt. lia.
      - intro E. split; [pose proof (proj1 (Hcol v c E)); lia|]. rewrite (nth_error_nth C v 0 E). apply Nat.eqb_refl. }
    destruct (new_part (fun _ => 0) h M dbg g Hw HM Hn Hadj (Nat.lt_le_trans _ _ _ Hn HM) l) as (s' & E' & El' & _).
    { rewrite <- Elc. apply ascending_filter, ascending_seq. }
    { intros v Hv. apply Hin in Hv. apply (Hcol v c Hv). }
    rewrite El in E'. injection E' as <-. rewrite El'.
    apply (centre_connected g l (nth c seed 0) Hw). intros v Hv. apply Hin in Hv.
    destruct (Hcol v c Hv) as (_ & _ & k & W). exists k. revert W. apply walk_impl. intros a b.
    apply edge_inside_impl. intro x. apply Hin.
  Qed.

  Lemma multinode_loop_connected iters : forall previous m ss ss', 0 < m -> partition_ok h g m ss ->
    Forall (fun s => connected_part g (s_lg s)) ss ->
    multinode_loop iters h M dbg g T previous ss = Ok ss' -> Forall (fun s => connected_part g (s_lg s)) ss'.
  Proof using Hw HM Hn Hadj Hconn HT.
    induction iters as [|k IH]; intros previous m ss ss' Hm Hs Hc; cbn [multinode_loop].
    - intro E. injection E as <-. auto.
    - pose proof (partition_disjoint h g m ss Hs) as Hd.
      destruct (seeds_ok h M dbg g T HM Hn Hadj HT ss Hd) as (seed & E & Hsl & _ & Hsb & _).
      rewrite E. cbn [bind]. destruct (list_eq_dec Nat.eq_dec previous seed); [intro E'; injection E' as <-; auto|].
      assert (Hne : ss <> []) by (destruct Hs as [Hs _]; destruct ss; [cbn in Hs; lia|discriminate]).
      destruct (multinode_step h M dbg g T Hw HM Hn Hadj Hconn HT ss seed Hd Hne E) as (C & vs & ss1 & R1 & R2 & R3 & R4).
      rewrite R1. cbn [bind]. rewrite R2. cbn [bind]. rewrite R3. cbn [bind].
      apply (IH _ (length ss)).
      + destruct ss; [congruence|cbn; lia].
      + auto.
      + rewrite <- Hsl in R2. apply (rebuild_connected seed C vs); auto.
        * destruct seed; [destruct ss; [congruence|discriminate]|discriminate].
        * rewrite Hsl. exact (disjoint_length h M g HM Hn Hadj ss Hd).
  Qed.

  Lemma multinode_first_connected iters ss ss' : disjoint_ok h g ss -> 1 < length ss ->
    multinode_loop (S iters) h M dbg g T (repeat 0 (length ss)) ss = Ok ss' ->
    Forall (fun s => connected_part g (s_lg s)) ss'.
  Proof using Hw HM Hn Hadj Hconn HT.
    intros Hd Hl. cbn [multinode_loop]. destruct (seeds_ok h M dbg g T HM Hn Hadj HT ss Hd) as (seed & E & Hsl & Hnd & Hsb & _).
    rewrite E. cbn [bind]. destruct (list_eq_dec Nat.eq_dec (repeat 0 (length ss)) seed) as [Eq|_].
    { exfalso. rewrite <- Eq in Hnd. destruct ss as [|a [|b ss]]; cbn in Hl, Hnd; try lia.
      inversion Hnd as [|? ? H _]. apply H. left. auto. }
    assert (Hne : ss <> []) by (destruct ss; [cbn in Hl; lia|discriminate]).
    destruct (multinode_step h M dbg g T Hw HM Hn Hadj Hconn HT ss seed Hd Hne E) as (C & vs & ss1 & R1 & R2 & R3 & R4).
    rewrite R1. cbn [bind]. rewrite R2. cbn [bind]. rewrite R3. cbn [bind].
    apply (multinode_loop_connected iters _ (length ss)); auto; [lia|].
    rewrite <- Hsl in R2. apply (rebuild_connected seed C vs); auto.
    - destruct seed; [cbn in Hsl; lia|discriminate].
    - rewrite Hsl. exact (disjoint_length h M g HM Hn Hadj ss Hd).
  Qed.
End Multi.

Lemma multinode_connected h M dbg g T iters parts ss :
  well_formed false g -> size_vertex g <= M -> 0 < size_vertex g -> size_vertex g <= length (adj g) ->
  connected g -> table_ok (size_vertex g) M T ->
  Forall2 (fun l s => ascending l /\ l <> [] /\ (forall v, In v l -> v < size_vertex g) /\
                      subgraph_new h M dbg g l 0 = Ok s) parts ss ->
  NoDup (concat parts) -> 1 < length ss ->
  exists ss', multinode_loop (S iters) h M dbg g T (repeat 0 (length ss)) ss = Ok ss' /\
    Forall (fun s => connected (s_graph s)) ss'.
Proof.
  intros Hw HM Hn Ha Hc HT H2 HN Hl.
  pose proof (disjoint_built h M dbg g parts ss Hw HM Hn Ha H2 HN) as Hd.
  destruct (multinode_loop_first h M dbg g T Hw HM Hn Ha Hc HT iters ss Hd Hl) as (ss' & E & H3 & H4 & H5 & H6).
  pose proof (multinode_first_connected h M dbg g T Hw HM Hn Ha Hc HT iters ss ss' Hd Hl E) as HC.
  exists ss'. split; auto. rewrite Forall_forall in *. intros s Hs.
  apply (part_connected dbg g (s_lg s)); auto.
  - destruct (H4 s Hs) as (Hasc & _). apply ascending_NoDup; auto.
  - apply (part_induced dbg h). auto.
Qed.

(* ------------------------------------------------------------------ bisection *)
Section Bisect.
  Variables (rnd h : nat -> nat) (M : nat) (dbg : bool) (g : graph).
  Let n := size_vertex g.
  Hypothesis Hw : well_formed false g.
  Hypothesis HM : n <= M.
  Hypothesis Hn : 0 < n.
  Hypothesis Hadj : n <= length (adj g).
  Hypothesis Hrnd : forall x, x < n -> rnd x = x.
  Hypothesis HrndM : rnd (M / 2) < M.

  (** The split of one subgraph in terms of the distances inside it. *)
  Lemma bisect_form s p L top lr : part_ok h g s -> 0 < sub_size s -> (dbg = true -> 1 < sub_size s) ->
    pseudo_peripheral_vertex M dbg (s_graph s) 0 = Ok p -> level_traversal M dbg (s_graph s) p M = Ok L ->
    vmax L = Ok top -> FOR (length L) (split_step dbg s L (rnd (top / 2))) ([], []) = Ok lr ->
    length L = length (s_lg s) /\ p < length L /\ rnd (top / 2) < M /\ In top L /\ (forall x, In x L -> x <= top) /\
    (forall v, v < length L -> forall k, nth_error L v = Some k <->
       dist (edge (s_graph s)) p v k \/ (k = M /\ ~ reachable (edge (s_graph s)) p v)) /\
    fst lr = map (fun i => nth i (s_lg s) 0) (filter (fun i => nth i L 0 <=? rnd (top / 2)) (seq 0 (length L))) /\
    snd lr = map (fun i => nth i (s_lg s) 0) (filter (fun i => negb (nth i L 0 <=? rnd (top / 2))) (seq 0 (length L))).
  Proof using Hw HM Hn Hadj Hrnd HrndM.
    intros Hp H0 Hd Ep EL Et Es. pose proof (part_size h g s Hp) as Hsz. pose proof (part_le rnd h M g HM Hn Hadj HrndM s Hp) as Hle.
    pose proof Hp as (_ & _ & _ & Hs). pose proof (so_wf _ _ _ _ Hs) as Hws. unfold sub_size in *.
    destruct (pseudo_peripheral_terminates M dbg false (s_graph s) 0 Hws ltac:(fold n in Hle; lia) H0) as (p' & Ep' & Hpn).
    rewrite Ep in Ep'. injection Ep' as <-.
    destruct (level_traversal_spec M dbg false (s_graph s) p Hws ltac:(fold n in Hle; lia) Hpn Hd) as (L' & EL' & HL & HLv).
    rewrite EL in EL'. injection EL' as <-.
    destruct (vmax_spec L) as (top' & Et' & Hin & Hmax).
    { destruct L; [cbn in HL; lia|discriminate]. }
    rewrite Et in Et'. injection Et' as <-.
    destruct (split_spec rnd h M dbg g HM Hn Hadj HrndM s L (rnd (top / 2)) Hp ltac:(lia)) as (l & r & Es' & El & Er).
    rewrite Es in Es'. injection Es' as ->. cbn [fst snd].
    split; [lia|]. split; [lia|]. split; [|split; [auto|split; [auto|split; [rewrite HL; auto|auto]]]].
    apply (In_nth _ _ M) in Hin as (i & Hi & Ei).
    assert (Hx : nth_error L i = Some top) by (rewrite <- Ei; apply nth_error_nth_lt; auto).
    apply HLv in Hx; [|lia]. destruct Hx as [Hx|[-> _]]; auto.
    apply (dist_lt false) in Hx; auto. fold n in Hle.
    assert (top / 2 <= top) by (apply Nat.div_le_upper_bound; lia). rewrite Hrnd; lia.
  Qed.

  Lemma ball_connected s p L mid : part_ok h g s -> p < length L -> length L = length (s_lg s) -> mid < M ->
    (forall v, v < length L -> forall k, nth_error L v = Some k <->
       dist (edge (s_graph s)) p v k \/ (k = M /\ ~ reachable (edge (s_graph s)) p v)) ->
    connected_part g (map (fun i => nth i (s_lg s) 0) (filter (fun i => nth i L 0 <=? mid) (seq 0 (length L)))).
  Proof using rnd Hw HM Hn Hadj HrndM.
    intros Hp Hpl HL Hmid HLv. pose proof Hp as (Ha & Hb & _ & Hs). pose proof (so_wf _ _ _ _ Hs) as Hws.
    pose proof (part_size h g s Hp) as Hsz. unfold sub_size in Hsz.
    set (l := map _ _).
    assert (Hin : forall i k, dist (edge (s_graph s)) p i k -> k <= mid -> In (nth i (s_lg s) 0) l).
    { intros i k Hd Hk. assert (Hi : i < length L).
      { rewrite HL, <- Hsz. destruct Hd as [Hd _]. eapply walk_bound; eauto. lia. }
      apply in_map_iff. exists i. split; auto. apply filter_In. split; [apply in_seq; lia|].
      assert (E : nth_error L i = Some k) by (apply HLv; auto).
      rewrite (nth_error_nth L i 0 E). apply Nat.leb_le. auto. }
    assert (Hr : forall k i, dist (edge (s_graph s)) p i k -> k <= mid ->
      reachable (edge_inside g (fun x => In x l)) (nth p (s_lg s) 0) (nth i (s_lg s) 0)).
    { induction k as [|k IH]; intros i Hd Hk.
      - destruct Hd as [Hd _]. inversion Hd; subst. exists 0. apply walk_0.
      - destruct (proj2 (dist_from_single _ _ _ _) Hd) as [_ _].
        destruct (dist_from_prefix _ (eq p) i (S k) k (proj2 (dist_from_single _ _ _ _) Hd)) as (j & Hj & Wj); [lia|].
        apply dist_from_single in Hj. replace (S k - k) with 1 in Wj by lia.
        assert (He : edge (s_graph s) j i).
        { inversion Wj as [|? ? x ? W1 He]; subst. inversion W1; subst. auto. }
        eapply reachable_trans; [apply (IH j); [auto|lia]|]. exists 1. apply walk_1.
        destruct (edge_bounds false _ _ _ Hws He) as (Hj' & Hi' & _). rewrite Hsz in Hj', Hi'.
        split; [|split; [eapply Hin; [exact Hj|lia]|eapply Hin; [exact Hd|lia]]].
        apply (so_edge _ _ _ _ Hs j i); auto using nth_error_nth_lt. }
    apply (centre_connected g l (nth p (s_lg s) 0) Hw). intros v Hv.
    apply in_map_iff in Hv as (i & <- & Hi). apply filter_In in Hi as [Hi Hle]. apply in_seq in Hi.
    apply Nat.leb_le in Hle.
    assert (E : nth_error L i = Some (nth i L 0)) by (apply nth_error_nth_lt; lia).
    apply HLv in E; [|lia]. destruct E as [E|[E _]]; [|lia]. eapply Hr; eauto.
  Qed.

  Lemma bisect_step_form ss ss' : parts_ok h g ss -> (dbg = true -> length ss < n) ->
    bisect_step rnd h M dbg g ss = Ok ss' ->
    exists sl sr, ss' = upd ss (max_subgraph ss) sl ++ [sr] /\ part_ok h g sl /\ connected_part g (s_lg sl).
  Proof using Hw HM Hn Hadj Hrnd HrndM.
    intros Hss Hd E. destruct (concat_pos rnd h M g HM Hn Hadj HrndM ss Hss) as (Hne & s0 & Hs0 & Hz).
    destruct (max_subgraph_spec ss Hne) as (s & Es & Hm).
    assert (Hin : In s ss) by (eapply nth_error_In; eauto).
    pose proof Hss as [HF HP]. rewrite Forall_forall in HF. pose proof (HF s Hin) as Hs.
    assert (H0 : 0 < sub_size s) by (specialize (Hm s0 Hs0); lia).
    assert (H1 : dbg = true -> 1 < sub_size s).
    { intro Hdb. destruct (concat_two rnd h M g HM Hn Hadj HrndM ss Hss (Hd Hdb)) as (t & Ht & H2). specialize (Hm t Ht). lia. }
    unfold bisect_step in E. rewrite (proj2 (vget_Ok ss _ s) Es) in E. cbn [bind] in E.
    apply bind_Ok in E as (p & Ep & E). apply bind_Ok in E as (L & EL & E). apply bind_Ok in E as (top & Et & E).
    apply bind_Ok in E as (lr & Elr & E). apply bind_Ok in E as (sl & Esl & E). apply bind_Ok in E as (ss1 & Ess & E).
    apply bind_Ok in E as (sr & Esr & E). injection E as <-.
    destruct (bisect_form s p L top lr Hs H0 H1 Ep EL Et Elr) as (F1 & F2 & F3 & _ & _ & F4 & F5 & F6).
    exists sl, sr. split.
    { rewrite vset_lt in Ess by (apply nth_error_lt_Some in Es; auto). injection Ess as <-. auto. }
    pose proof Hs as (Ha & Hb & _).
    assert (Hli : forall v, In v (fst lr) -> In v (s_lg s)).
    { intros v Hv. rewrite F5 in Hv. apply in_map_iff in Hv as (i & <- & Hi). apply filter_In in Hi as [Hi _].
      apply in_seq in Hi. apply nth_In. lia. }
    destruct (new_part rnd h M dbg g Hw HM Hn Hadj HrndM (fst lr)) as (sl' & E1 & E2 & E3).
    { rewrite F5. apply ascending_map_nth; auto using ascending_filter, ascending_seq.
      intros i Hi. apply filter_In in Hi as [Hi _]. apply in_seq in Hi. lia. }
    { intros v Hv. apply Hb, Hli, Hv. }
    rewrite Esl in E1. injection E1 as <-. split; auto. rewrite E2, F5.
    apply (ball_connected s p L); auto.
  Qed.

  Lemma bisection_first k : 1 < k -> (dbg = true -> k <= n) ->
    exists s ss, recursive_graph_bisection rnd h M dbg g k = Ok (s :: ss) /\ connected (s_graph s).
  Proof using Hw HM Hn Hadj Hrnd HrndM.
    intros Hk Hd. unfold recursive_graph_bisection.
    destruct (Nat.ltb_spec 0 k) as [_|]; [|lia]. cbn [ASSERT bind].
    destruct (bisect_start rnd h M dbg g Hw HM Hn Hadj Hrnd HrndM) as (s & E & Hs & Hne). fold n in E |- *. rewrite E. cbn [bind].
    destruct (FOR_inv (fun i ss => parts_ok h g ss /\ length ss = i + 1 /\
        (0 < i -> exists s ss1, ss = s :: ss1 /\ connected_part g (s_lg s))) (k - 1)
      (fun _ ss => bisect_step rnd h M dbg g ss) [s]) as (ss & Ess & H1 & H2 & H3).
    - split; auto. split; auto. lia.
    - intros i ss Hi (H1 & H2 & H3).
      assert (Hdb : dbg = true -> length ss < n) by (intro Hdb; specialize (Hd Hdb); lia).
      destruct (bisect_step_spec rnd h M dbg g Hw HM Hn Hadj Hrnd HrndM ss H1 Hdb) as (ss' & E' & R1 & R2 & R3).
      exists ss'. split; auto. split; auto. split; [lia|]. intros _.
      destruct (bisect_step_form ss ss' H1 Hdb E') as (sl & sr & -> & Hp & Hc).
      destruct ss as [|s1 ss]; [cbn in H2; lia|].
      destruct (max_subgraph (s1 :: ss)) as [|j] eqn:Ej.
      + exists sl, (ss ++ [sr]). split; auto.
      + destruct ss as [|s2 ss]; [cbn in Ej; lia|].
        destruct (H3 ltac:(cbn in H2; lia)) as (s3 & ss3 & E3 & Hc3). injection E3 as <- <-.
        exists s1, (upd (s2 :: ss) j sl ++ [sr]). split; auto.
    - destruct (H3 ltac:(lia)) as (s3 & ss3 & -> & Hc3). exists s3, ss3. split; auto.
      destruct H1 as [HF _]. inversion HF as [|? ? Hp _]; subst.
      apply (part_connected dbg g (s_lg s3)); auto; [|apply (part_induced dbg h); auto].
      destruct Hp as (Hasc & _). apply ascending_NoDup; auto.
  Qed.
End Bisect.

Lemma rows_of_edges d d' g G : well_formed d g -> well_formed d' G -> size_vertex g = size_vertex G ->
  (forall u v, edge g u v <-> edge G u v) -> forall u, u < size_vertex g -> row g u = row G u.
Proof.
  intros H1 H2 Hs He u Hu. apply ascending_ext.
  - apply (row_ascending d); auto.
  - apply (row_ascending d'); auto. lia.
  - intro v. specialize (He u v). unfold edge in He. rewrite Hs in *. tauto.
Qed.

Lemma dist_ext (E F : nat -> nat -> Prop) u v k : (forall a b, E a b <-> F a b) -> dist E u v k -> dist F u v k.
Proof.
  intros H [H1 H2]. split.
  - revert H1. apply walk_impl. intros a b. apply H.
  - intros m Hm. apply H2. revert Hm. apply walk_impl. intros a b. apply H.
Qed.

(** Bisection of a connected graph into two parts. *)
Lemma bisection_two rnd h M dbg g :
  well_formed false g -> size_vertex g <= M -> 1 < size_vertex g -> size_vertex g <= length (adj g) ->
  (forall x, x < size_vertex g -> rnd x = x) -> rnd (M / 2) < M -> connected g ->
  exists s0 s1 l0 l1 p q e, recursive_graph_bisection rnd h M dbg g 2 = Ok [s0; s1] /\
    induced_by dbg g l0 s0 /\ induced_by dbg g l1 s1 /\ ascending l0 /\ ascending l1 /\
    p < size_vertex g /\ dist (edge g) p q e /\
    (forall v k, dist (edge g) p v k -> k <= e) /\ (forall v k, dist (edge g) 0 v k -> k <= e) /\
    (forall v, dist (edge g) p v e -> length (row g p) <= length (row g v)) /\
    (forall v, In v l0 <-> exists k, dist (edge g) p v k /\ k <= e / 2) /\
    (forall v, In v l1 <-> exists k, dist (edge g) p v k /\ e / 2 < k).
Proof.
  intros Hw HM Hn Hadj Hr HrM Hc. set (n := size_vertex g) in *.
  destruct (bisection_spec rnd h M dbg g Hw HM ltac:(lia) Hadj Hr HrM 2 ltac:(lia)) as (ss & E & Hl & [HF HP] & _).
  { fold n. lia. }
  destruct ss as [|s0 [|s1 [|]]]; try discriminate Hl. clear Hl.
  inversion HF as [|? ? Hp0 HF']; subst. inversion HF' as [|? ? Hp1 _]; subst. clear HF HF' HP.
  pose proof E as E'. unfold recursive_graph_bisection in E'. cbn [Nat.ltb Nat.leb ASSERT bind] in E'.
  destruct (new_part rnd h M dbg g Hw HM ltac:(lia) Hadj HrM (seq 0 n) (ascending_seq 0 n)) as (s & Es & Els & Hps).
  { intros v Hv. apply in_seq in Hv. fold n. lia. }
  fold n in E'. rewrite Es in E'. cbn [bind Nat.sub] in E'.
  change (FOR 1 (fun _ ss => bisect_step rnd h M dbg g ss) [s]) with
    (bind (bisect_step rnd h M dbg g [s]) (fun x => Ok x)) in E'.
  apply bind_Ok in E' as (ss & E' & Ess). injection Ess as ->.
  pose proof Hps as (_ & _ & _ & Hs). pose proof (so_wf _ _ _ _ Hs) as Hws.
  pose proof (part_size h g s Hps) as Hsz. rewrite Els, seq_length in Hsz. unfold sub_size in Hsz.
  set (G := s_graph s) in *.
  assert (He : forall u v, edge G u v <-> edge g u v).
  { assert (K : forall i j, i < n -> j < n -> (edge G i j <-> edge g i j)).
    { intros i j Hi Hj. apply (so_edge _ _ _ _ Hs); rewrite Els, (nth_error_nth_lt _ _ 0), seq_nth; auto; rewrite seq_length; auto. }
    intros u v. split; intro H.
    - destruct (edge_bounds false _ _ _ Hws H) as (H1 & H2 & _). rewrite Hsz in H1, H2. apply K; auto.
    - destruct (edge_bounds false _ _ _ Hw H) as (H1 & H2 & _). apply K; auto. }
  assert (HcG : connected G).
  { intros u v Hu Hv. rewrite Hsz in Hu, Hv. destruct (Hc u v Hu Hv) as (k & W). exists k. revert W.
    apply walk_impl. intros a b. apply He. }
  destruct (pseudo_peripheral_spec M dbg G 0 Hws ltac:(lia) ltac:(lia) ltac:(lia) HcG)
    as (p & e & q & Ep & Hpn & Hqn & Hpq & Hpm & Hsm & Hdeg).
  rewrite Hsz in Hpn, Hqn, Hpm, Hsm, Hdeg.
  unfold bisect_step in E'. cbn [max_subgraph largest vget nth_error bind] in E'. fold G in E'.
  rewrite Ep in E'. cbn [bind] in E'.
  apply bind_Ok in E' as (L & EL & E'). apply bind_Ok in E' as (top & Et & E').
  apply bind_Ok in E' as (lr & Elr & E'). apply bind_Ok in E' as (sl & Esl & E').
  apply bind_Ok in E' as (ss1 & Ess & E'). apply bind_Ok in E' as (sr & Esr & E'). injection E' as E'.
  destruct (bisect_form rnd h M dbg g Hw HM ltac:(lia) Hadj Hr HrM s p L top lr Hps) as (F1 & F2 & F3 & Ft & Fm & F4 & F5 & F6);
    [unfold sub_size; fold G; lia|unfold sub_size; fold G; lia|exact Ep|exact EL|exact Et|exact Elr|].
  rewrite Els, seq_length in F1. fold G in F4. rewrite F1 in F4, F5, F6.
  cbn in Ess. injection Ess as <-. cbn in E'. injection E' as -> ->.
  assert (FL : forall v, v < n -> exists k, nth_error L v = Some k /\ dist (edge g) p v k).
  { intros v Hv. assert (Hx : nth_error L v = Some (nth v L 0)) by (apply nth_error_nth_lt; lia).
    exists (nth v L 0). split; auto. apply F4 in Hx; auto. destruct Hx as [Hx|[_ Hx]].
    - revert Hx. apply dist_ext. auto.
    - exfalso. apply Hx. apply HcG; lia. }
  assert (Hbd : forall u v k, u < n -> dist (edge g) u v k -> v < n) by (intros u v k Hu [W _]; eapply walk_bound; eauto).
  assert (Htop : top = e).
  { apply Nat.le_antisymm.
    - apply (In_nth _ _ 0) in Ft as (v & Hv & Ev). rewrite F1 in Hv. destruct (FL v Hv) as (k & Ek & Dk).
      rewrite (nth_error_nth L v 0 Ek) in Ev. subst k. apply (Hpm v top Hv). revert Dk. apply dist_ext. intros; symmetry; auto.
    - apply Fm. assert (X : nth_error L q = Some e) by (apply F4; auto). eapply nth_error_In; eauto. }
  subst top.
  assert (He2 : rnd (e / 2) = e / 2).
  { apply Hr. apply (dist_lt false) in Hpq; auto; [|lia]. rewrite Hsz in Hpq.
    assert (e / 2 <= e) by (apply Nat.div_le_upper_bound; lia). fold n. lia. }
  rewrite He2 in F5, F6.
  assert (Emap : forall f, map (fun i => nth i (s_lg s) 0) (filter f (seq 0 n)) = filter f (seq 0 n)).
  { intro f. rewrite <- (map_id (filter f (seq 0 n))) at 2. apply map_ext_in. intros i Hi.
    apply filter_In in Hi as [Hi _]. apply in_seq in Hi. rewrite Els, seq_nth by lia. auto. }
  rewrite Emap in F5, F6.
  assert (Hlt : forall f v, In v (filter f (seq 0 n)) -> v < size_vertex g).
  { intros f v Hv. apply filter_In in Hv as [Hv _]. apply in_seq in Hv. fold n. lia. }
  assert (E0 : s_lg s0 = fst lr).
  { destruct (new_part rnd h M dbg g Hw HM ltac:(lia) Hadj HrM (fst lr)) as (x & Ex & Elx & _).
    - rewrite F5. apply ascending_filter, ascending_seq.
    - intros v Hv. rewrite F5 in Hv. eapply Hlt; eauto.
    - rewrite Esl in Ex. injection Ex as ->. auto. }
  assert (E1 : s_lg s1 = snd lr).
  { destruct (new_part rnd h M dbg g Hw HM ltac:(lia) Hadj HrM (snd lr)) as (x & Ex & Elx & _).
    - rewrite F6. apply ascending_filter, ascending_seq.
    - intros v Hv. rewrite F6 in Hv. eapply Hlt; eauto.
    - rewrite Esr in Ex. injection Ex as ->. auto. }
  exists s0, s1, (s_lg s0), (s_lg s1), p, q, e.
  split; [exact E|]. split; [apply (part_induced dbg h); auto|]. split; [apply (part_induced dbg h); auto|].
  split; [apply Hp0|]. split; [apply Hp1|]. split; [exact Hpn|].
  split; [revert Hpq; apply dist_ext; auto|]. split; [|split; [|split]].
  - intros v k Hd. apply (Hpm v k); [apply (Hbd p v k); auto|]. revert Hd. apply dist_ext. intros; symmetry; auto.
  - intros v k Hd. apply (Hsm v k); [apply (Hbd 0 v k); [lia|auto]|]. revert Hd. apply dist_ext. intros; symmetry; auto.
  - intros v Hd. rewrite (rows_of_edges false false g G Hw Hws (eq_sym Hsz)); auto; [|intros; symmetry; auto].
    pose proof (Hbd p v e Hpn Hd) as Hv.
    rewrite (rows_of_edges false false g G Hw Hws (eq_sym Hsz)); auto; [|intros; symmetry; auto].
    apply Hdeg; auto. revert Hd. apply dist_ext. intros; symmetry; auto.
  - rewrite E0, E1, F5, F6. split; intro v; rewrite filter_In, in_seq.
    + split.
      * intros [Hv Hle]. apply Nat.leb_le in Hle. destruct (FL v ltac:(lia)) as (k & Ek & Dk).
        rewrite (nth_error_nth L v 0 Ek) in Hle. eauto.
      * intros (k & Dk & Hk). pose proof (Hbd p v k Hpn Dk) as Hv. split; [lia|].
        destruct (FL v Hv) as (k' & Ek & Dk'). rewrite (nth_error_nth L v 0 Ek).
        rewrite (dist_functional _ _ _ _ _ Dk' Dk). apply Nat.leb_le. auto.
    + split.
      * intros [Hv Hle]. destruct (FL v ltac:(lia)) as (k & Ek & Dk). rewrite (nth_error_nth L v 0 Ek) in Hle.
        destruct (Nat.leb_spec k (e / 2)); [discriminate|eauto].
      * intros (k & Dk & Hk). pose proof (Hbd p v k Hpn Dk) as Hv. split; [lia|].
        destruct (FL v Hv) as (k' & Ek & Dk'). rewrite (nth_error_nth L v 0 Ek).
        rewrite (dist_functional _ _ _ _ _ Dk' Dk). destruct (Nat.leb_spec k (e / 2)); [lia|auto].
Qed.

(* ------------------------------------------------------------------ stars *)
(** Vertex 0 is adjacent to the [m] other vertices, which have no other neighbour. *)
Definition star (m : nat) (g : graph) : Prop :=
  size_vertex g = m + 1 /\ forall u v, edge g u v <-> (u = 0 /\ 1 <= v <= m) \/ (v = 0 /\ 1 <= u <= m).

Lemma star_connected m g : star m g -> connected g.
Proof.
  intros [Hs He]. assert (H0 : forall v, v < m + 1 -> reachable (edge g) 0 v).
  { intros v Hv. destruct v as [|v]; [exists 0; apply walk_0|]. exists 1. apply walk_1. apply He. lia. }
  assert (H1 : forall v, v < m + 1 -> reachable (edge g) v 0).
  { intros v Hv. destruct v as [|v]; [exists 0; apply walk_0|]. exists 1. apply walk_1. apply He. lia. }
  intros u v Hu Hv. rewrite Hs in *. eapply reachable_trans; eauto.
Qed.

Lemma star_bisection rnd h M dbg g m : well_formed false g -> star m g -> 2 <= m -> m < M -> m < length (adj g) ->
  (forall x, x <= m -> rnd x = x) -> rnd (M / 2) < M ->
  exists s0 s1, recursive_graph_bisection rnd h M dbg g 2 = Ok [s0; s1] /\
    sub_size s0 = 2 /\ sub_size s1 = m - 1 /\ forall i j, ~ edge (s_graph s1) i j.
Proof.
  intros Hw Hst Hm HM Ha Hr HrM. pose proof Hst as [Hs He].
  destruct (bisection_two rnd h M dbg g Hw) as (s0 & s1 & l0 & l1 & p & q & e & E & I0 & I1 & A0 & A1 & Hp & Hpq & Hmx & H0 & Hdeg & M0 & M1);
    try rewrite Hs; try lia; auto.
  { intros x Hx. apply Hr. lia. } { eapply star_connected; eauto. }
  rewrite Hs in Hp.
  assert (D1 : forall v, 1 <= v <= m -> dist (edge g) 0 v 1).
  { intros v Hv. split; [apply walk_1, He; lia|]. intros k W. destruct k; [inversion W; lia|lia]. }
  assert (D1' : forall v, 1 <= v <= m -> dist (edge g) v 0 1) by (intros v Hv; apply dist_sym; auto; intros; apply edge_sym; auto).
  assert (D0 : forall v, dist (edge g) v v 0) by (intro v; split; [apply walk_0|lia]).
  assert (D2 : forall u v, 1 <= u <= m -> 1 <= v <= m -> u <> v -> dist (edge g) u v 2).
  { intros u v Hu Hv Huv. split; [eapply walk_S; [apply walk_1|]; apply He; [right|left]; split; auto; lia|].
    intros k W. destruct k as [|[|k]]; [inversion W; lia| |lia].
    inversion W as [|? ? x ? W1 Hx]; subst. inversion W1; subst. apply He in Hx. lia. }
  assert (He1 : 1 <= e) by (apply (H0 1 1), D1; lia).
  assert (Hp1 : 1 <= p).
  { destruct p as [|p]; [|lia]. exfalso.
    assert (Hq : q < m + 1) by (rewrite <- Hs; destruct Hpq as [W _]; eapply walk_bound; eauto; lia).
    assert (e = 1).
    { destruct q as [|q]; [pose proof (dist_functional _ _ _ _ _ Hpq (D0 0)); lia|].
      apply (dist_functional _ _ _ _ _ Hpq). apply D1. lia. }
    subst e. pose proof (Hdeg 1 (D1 1 ltac:(lia))) as Hd.
    assert (R1 : row g 1 = [0]).
    { apply ascending_ext; [apply (row_ascending false); auto; lia|repeat constructor|].
      intro x. specialize (He 1 x). unfold edge in He. split.
      - intro H. left. assert (Hx : 1 < size_vertex g /\ In x (row g 1)) by (split; auto; lia). apply He in Hx. lia.
      - intros [<-|[]]. apply He. lia. }
    assert (R0 : 2 <= length (row g 0)).
    { apply (NoDup_incl_length (l := [1; 2])); [repeat constructor; cbn; intuition lia|].
      intros x [<-|[<-|[]]]; [apply (He 0 1)|apply (He 0 2)]; lia. }
    rewrite R1 in Hd. cbn in Hd. lia. }
  assert (e = 2).
  { assert (Hq : q < m + 1) by (rewrite <- Hs; destruct Hpq as [W _]; eapply walk_bound; eauto; lia).
    assert (2 <= e).
    { destruct (Nat.eq_dec p 1) as [->|Hne]; [apply (Hmx 2 2), D2; lia|apply (Hmx 1 2), D2; lia]. }
    destruct (Nat.eq_dec p q) as [->|Hne]; [pose proof (dist_functional _ _ _ _ _ Hpq (D0 q)); lia|].
    destruct q as [|q]; [pose proof (dist_functional _ _ _ _ _ Hpq (D1' p ltac:(lia))); lia|].
    apply (dist_functional _ _ _ _ _ Hpq). apply D2; lia. }
  subst e. change (2 / 2) with 1 in *.
  assert (Hv0 : forall v, In v l0 <-> v = 0 \/ v = p).
  { intro v. rewrite M0. split.
    - intros (k & Dk & Hk). assert (Hv : v < m + 1) by (rewrite <- Hs; destruct Dk as [W _]; eapply walk_bound; eauto; lia).
      destruct (Nat.eq_dec v p) as [|Hvp]; auto. destruct v as [|v]; auto.
      pose proof (dist_functional _ _ _ _ _ Dk (D2 p (S v) ltac:(lia) ltac:(lia) ltac:(lia))). lia.
    - intros [->| ->]; [exists 1; split; [apply D1'; lia|lia]|exists 0; split; [apply D0|lia]]. }
  assert (Hv1 : forall v, In v l1 <-> 1 <= v <= m /\ v <> p).
  { intro v. rewrite M1. split.
    - intros (k & Dk & Hk). assert (Hv : v < m + 1) by (rewrite <- Hs; destruct Dk as [W _]; eapply walk_bound; eauto; lia).
      destruct (Nat.eq_dec v p) as [->|Hvp]; [pose proof (dist_functional _ _ _ _ _ Dk (D0 p)); lia|].
      destruct v as [|v]; [pose proof (dist_functional _ _ _ _ _ Dk (D1' p ltac:(lia))); lia|lia].
    - intros [Hv Hvp]. exists 2. split; [apply D2; lia|lia]. }
  exists s0, s1. split; [exact E|]. rewrite (ind_size _ _ _ _ I0), (ind_size _ _ _ _ I1). split; [|split].
  - assert (X : Permutation l0 [0; p]).
    { apply NoDup_Permutation; [apply ascending_NoDup; auto|repeat constructor; cbn; intuition lia|].
      intro x. rewrite Hv0. cbn. intuition lia. }
    rewrite (Permutation_length X). auto.
  - assert (X : Permutation (p :: l1) (seq 1 m)).
    { apply NoDup_Permutation; [constructor; [rewrite Hv1; lia|apply ascending_NoDup; auto]|apply seq_NoDup|].
      intro x. cbn. rewrite Hv1, in_seq. destruct (Nat.eq_dec p x); intuition lia. }
    apply Permutation_length in X. rewrite seq_length in X. cbn in X. lia.
  - intros i j Hij. destruct (edge_bounds false _ _ _ (ind_wf _ _ _ _ I1) Hij) as (Hi & Hj & _).
    pose proof (ind_size _ _ _ _ I1) as Hsz. unfold sub_size in Hsz. rewrite Hsz in Hi, Hj.
    apply (ind_edge _ _ _ _ I1) in Hij; auto. apply He in Hij.
    pose proof (proj1 (Hv1 _) (nth_In l1 0 Hi)). pose proof (proj1 (Hv1 _) (nth_In l1 0 Hj)). lia.
Qed.

Lemma star_disconnected rnd h M dbg g m : well_formed false g -> star m g -> 3 <= m -> m < M -> m < length (adj g) ->
  (forall x, x <= m -> rnd x = x) -> rnd (M / 2) < M ->
  exists s0 s1, recursive_graph_bisection rnd h M dbg g 2 = Ok [s0; s1] /\
    sub_size s0 = 2 /\ sub_size s1 = m - 1 /\ ~ connected (s_graph s1).
Proof.
  intros Hw Hs Hm HM Ha Hr HrM.
  destruct (star_bisection rnd h M dbg g m Hw Hs ltac:(lia) HM Ha Hr HrM) as (s0 & s1 & E & H0 & H1 & Hn).
  exists s0, s1. split; auto. split; auto. split; auto. intro Hc. unfold sub_size in H1.
  destruct (Hc 0 1) as (k & W); [lia|lia|]. inversion W as [|? ? x ? _ Hx]; subst. eapply Hn; eauto.
Qed.

(* ------------------------------------------------------------------ lines *)
Section Line.
  Variables (g : graph) (n : nat).
  Hypothesis He : forall u v, edge g u v <-> u < n /\ v < n /\ (v = u + 1 \/ u = v + 1).

  Lemma line_walk k u v : walk (edge g) k u v -> u <= v + k /\ v <= u + k.
  Proof using He.
    intro W. induction W as [u|k u v w W IH Hvw]; [lia|]. apply He in Hvw. lia.
  Qed.

  Lemma line_up k u : u + k < n -> walk (edge g) k u (u + k).
  Proof using He.
    induction k as [|k IH]; intro H; [rewrite Nat.add_0_r; apply walk_0|].
    eapply walk_S; [apply IH; lia|]. apply He. lia.
  Qed.

  Lemma line_dist u v : u < n -> v < n -> dist (edge g) u v (u - v + (v - u)).
  Proof using He.
    intros Hu Hv. split; [|intros m Hm; apply line_walk in Hm; lia].
    destruct (Nat.le_gt_cases u v).
    - replace (u - v + (v - u)) with (v - u) by lia. replace v with (u + (v - u)) at 2 by lia. apply line_up. lia.
    - replace (u - v + (v - u)) with (u - v) by lia. apply walk_sym.
      + intros a b H'. apply He in H'. apply He. lia.
      + replace u with (v + (u - v)) at 2 by lia. apply line_up. lia.
  Qed.

  Lemma line_interval l a b : (forall v, In v l <-> a <= v < b) -> b <= n -> connected_part g l.
  Proof using He.
    intros Hl Hb. assert (K : forall k u, In u l -> In (u + k) l -> reachable (edge_inside g (fun x => In x l)) u (u + k)).
    { induction k as [|k IH]; intros u H1 H2; [rewrite Nat.add_0_r; exists 0; apply walk_0|].
      assert (H3 : In (u + k) l) by (apply Hl; apply Hl in H1; apply Hl in H2; lia).
      eapply reachable_trans; [apply (IH u H1 H3)|]. exists 1. apply walk_1. split; [|auto].
      apply Hl in H2. apply He. lia. }
    assert (Hsym : forall x y, edge_inside g (fun x => In x l) x y -> edge_inside g (fun x => In x l) y x).
    { intros x y (H1 & H2 & H3). split; auto. apply He in H1. apply He. lia. }
    intros u v Hu Hv. destruct (Nat.le_gt_cases u v).
    - replace v with (u + (v - u)) by lia. apply K; auto. replace (u + (v - u)) with v by lia. auto.
    - apply reachable_sym; auto. replace u with (v + (u - v)) by lia. apply K; auto.
      replace (v + (u - v)) with u by lia. auto.
  Qed.
End Line.

Lemma interval_list l a b : ascending l -> (forall v, In v l <-> a <= v < b) -> l = seq a (b - a).
Proof.
  intros Ha Hl. apply ascending_ext; auto using ascending_seq. intro v. rewrite Hl, in_seq. lia.
Qed.

Lemma line_bisection rnd h M dbg n g : 2 <= n -> n <= M -> create_graph_line M dbg false n = Ok g ->
  (forall x, x < n -> rnd x = x) -> rnd (M / 2) < M ->
  exists s0 s1, recursive_graph_bisection rnd h M dbg g 2 = Ok [s0; s1] /\
    sub_size s0 = (n + 1) / 2 /\ sub_size s1 = n / 2 /\ connected (s_graph s0) /\ connected (s_graph s1).
Proof.
  intros H2 HM Eg Hr HrM. destruct (create_line_spec M dbg false n H2) as (g' & Eg' & Hw & Hs & Hse & He').
  rewrite Eg in Eg'. injection Eg' as <-.
  assert (He : forall u v, edge g u v <-> u < n /\ v < n /\ (v = u + 1 \/ u = v + 1)).
  { intros u v. rewrite He'. intuition. }
  pose proof (line_dist g n He) as D.
  assert (Hadj : n <= length (adj g)).
  { unfold size_edge in Hse. pose proof (Nat.div_mod_eq (length (adj g)) 2). lia. }
  destruct (bisection_two rnd h M dbg g Hw) as (s0 & s1 & l0 & l1 & p & q & e & E & I0 & I1 & A0 & A1 & Hp & Hpq & Hmx & H0 & Hdeg & M0 & M1);
    try rewrite Hs; try lia; auto.
  { intros u v Hu Hv. rewrite Hs in *. eexists. apply (D u v Hu Hv). }
  rewrite Hs in Hp.
  assert (Hq : q < n) by (rewrite <- Hs; destruct Hpq as [W _]; eapply walk_bound; eauto; lia).
  pose proof (dist_functional _ _ _ _ _ Hpq (D p q Hp Hq)) as Ee.
  pose proof (H0 (n - 1) _ (D 0 (n - 1) ltac:(lia) ltac:(lia))) as Hge.
  assert (Een : e = n - 1) by lia.
  assert (Hv0 : forall v, In v l0 <-> v < n /\ p - v + (v - p) <= e / 2).
  { intro v. rewrite M0. split.
    - intros (k & Dk & Hk). assert (Hv : v < n) by (rewrite <- Hs; destruct Dk as [W _]; eapply walk_bound; eauto; lia).
      split; auto. rewrite <- (dist_functional _ _ _ _ _ Dk (D p v Hp Hv)). auto.
    - intros [Hv Hk]. eauto. }
  assert (Hv1 : forall v, In v l1 <-> v < n /\ e / 2 < p - v + (v - p)).
  { intro v. rewrite M1. split.
    - intros (k & Dk & Hk). assert (Hv : v < n) by (rewrite <- Hs; destruct Dk as [W _]; eapply walk_bound; eauto; lia).
      split; auto. rewrite <- (dist_functional _ _ _ _ _ Dk (D p v Hp Hv)). auto.
    - intros [Hv Hk]. eauto. }
  pose proof (Nat.div_mod_eq e 2) as Q1. pose proof (Nat.mod_upper_bound e 2 ltac:(lia)) as Q2.
  pose proof (Nat.div_mod_eq (n + 1) 2) as Q3. pose proof (Nat.mod_upper_bound (n + 1) 2 ltac:(lia)) as Q4.
  pose proof (Nat.div_mod_eq n 2) as Q5. pose proof (Nat.mod_upper_bound n 2 ltac:(lia)) as Q6.
  set (x := e / 2) in *. set (y := (n + 1) / 2) in *. set (z := n / 2) in *.
  exists s0, s1. split; [exact E|]. rewrite (ind_size _ _ _ _ I0), (ind_size _ _ _ _ I1).
  assert (G : (exists a b, b <= n /\ (forall v, In v l0 <-> a <= v < b) /\ b - a = y) /\
              (exists a b, b <= n /\ (forall v, In v l1 <-> a <= v < b) /\ b - a = z)).
  { assert (Hpp : p = 0 \/ p = n - 1) by lia. destruct Hpp as [Hp'|Hp'].
    - split; [exists 0, (x + 1)|exists (x + 1), n]; (split; [lia|split; [|lia]]); intro v; rewrite ?Hv0, ?Hv1; lia.
    - split; [exists (n - 1 - x), n|exists 0, (n - 1 - x)]; (split; [lia|split; [|lia]]); intro v; rewrite ?Hv0, ?Hv1; lia. }
  destruct G as [(a0 & b0 & B0 & L0 & S0) (a1 & b1 & B1 & L1 & S1)].
  split; [rewrite (interval_list l0 a0 b0 A0 L0), seq_length; auto|].
  split; [rewrite (interval_list l1 a1 b1 A1 L1), seq_length; auto|].
  split; [apply (part_connected dbg g l0)|apply (part_connected dbg g l1)]; auto using ascending_NoDup;
    eapply line_interval; eauto.
Qed.

(** The star with three leaves. *)
Definition star3 : graph := mkG [1; 2; 3; 0; 0; 0] [0; 3; 4; 5; 6].

Lemma star3_wf : well_formed false star3.
Proof.
  exists [[1; 2; 3]; [0]; [0]; [0]]. split; [left; split; reflexivity|].
  intros i Hi. cbn in Hi. destruct i as [|[|[|[|i]]]]; [| | | |lia]; cbn;
    (split; [repeat (constructor; auto with arith)|split; [intros j Hj; intuition lia|intros _ j Hj; intuition (subst; cbn; auto)]]).
Qed.

Lemma star3_star : star 3 star3.
Proof.
  split; [reflexivity|]. intros u v. unfold edge. change (size_vertex star3) with 4. split.
  - intros [Hu Hv]. destruct u as [|[|[|[|u]]]]; [| | | |lia]; cbn in Hv; intuition lia.
  - intros [[-> Hv]|[-> Hu]].
    + split; [lia|]. destruct v as [|[|[|[|v]]]]; try lia; cbn; auto.
    + split; [lia|]. destruct u as [|[|[|[|u]]]]; try lia; cbn; auto.
Qed.
