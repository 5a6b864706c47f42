(** recursive_graph_bisection. *)
From Verif Require Import Base ListFacts Csr GraphModel GraphSpec GraphFacts GraphInsert GraphErase
  TraversalModel Bfs TraversalFacts Peripheral OrderingSpec SubgraphModel SubgraphFacts SubgraphLevels
  SubgraphUpdate SubgraphNew PartitionModel.

(* ------------------------------------------------------------------ list facts *)
Lemma filter_split {A} (p : A -> bool) l :
  Permutation (filter p l ++ filter (fun x => negb (p x)) l) l.
Proof.
  induction l as [|x l IH]; cbn; auto. destruct (p x); cbn.
  - constructor; auto.
  - etransitivity; [apply Permutation_sym, Permutation_middle|]. constructor; auto.
Qed.

Lemma ascending_map_nth lg l : ascending lg -> ascending l -> (forall i, In i l -> i < length lg) ->
  ascending (map (fun i => nth i lg 0) l).
Proof.
  intros Hlg Hl Hb. apply ascending_map; auto.
  intros i j Hi Hj Hij. apply (sorted_nth lt lg Hlg i j); auto; apply nth_error_nth_lt; auto.
Qed.

(* ------------------------------------------------------------------ largest subgraph *)
Lemma largest_spec ss : forall i best size,
  (largest i best size ss = best /\ (forall s, In s ss -> sub_size s <= size)) \/
  (exists j s, largest i best size ss = i + j /\ nth_error ss j = Some s /\ size < sub_size s /\
     forall s', In s' ss -> sub_size s' <= sub_size s).
Proof.
  induction ss as [|s ss IH]; intros i best size; cbn [largest].
  - left. split; auto. intros s [].
  - destruct (Nat.ltb_spec size (sub_size s)) as [Hs|Hs].
    + right. destruct (IH (i + 1) i (sub_size s)) as [[E H]|(j & t & E & Hj & Ht & H)].
      * exists 0, s. rewrite E, Nat.add_0_r. repeat split; auto. intros s' [<-|Hs']; auto.
      * exists (S j), t. rewrite E. repeat split; auto; [lia|lia|].
        intros s' [<-|Hs']; [lia|auto].
    + destruct (IH (i + 1) best size) as [[E H]|(j & t & E & Hj & Ht & H)].
      * left. split; auto. intros s' [<-|Hs']; auto.
      * right. exists (S j), t. rewrite E. repeat split; auto; [lia|].
        intros s' [<-|Hs']; [lia|auto].
Qed.

Lemma max_subgraph_spec ss : ss <> [] ->
  exists s, nth_error ss (max_subgraph ss) = Some s /\ forall s', In s' ss -> sub_size s' <= sub_size s.
Proof.
  intro H. destruct ss as [|s ss]; [congruence|]. cbn [max_subgraph].
  destruct (largest_spec ss 1 0 (sub_size s)) as [[E Hm]|(j & t & E & Hj & Ht & Hm)].
  - exists s. rewrite E. split; auto. intros s' [<-|Hs']; auto.
  - exists t. rewrite E. split; auto. intros s' [<-|Hs']; [lia|auto].
Qed.

(* ------------------------------------------------------------------ parts *)
(** A subgraph as the constructor builds it from an ascending list. *)
Definition part_ok (h : nat -> nat) (g : graph) (s : subgraph) : Prop :=
  ascending (s_lg s) /\ (forall v, In v (s_lg s) -> v < size_vertex g) /\
  s_hash s = hash_value h g /\ sub_ok g (fun x => In x (s_lg s)) 0 s.

Section Bisect.
  Variables (rnd h : nat -> nat) (M : nat) (dbg : bool) (g : graph).
  Let n := size_vertex g.
  Hypothesis Hw : well_formed false g.
  Hypothesis HM : n <= M.
  Hypothesis Hn : 0 < n.
  Hypothesis Hadj : n <= length (adj g).
  Hypothesis Hrnd : forall x, x < n -> rnd x = x.
  Hypothesis HrndM : rnd (M / 2) < M.

  Lemma new_part l : ascending l -> (forall v, In v l -> v < n) ->
    exists s, subgraph_new h M dbg g l 0 = Ok s /\ s_lg s = l /\ part_ok h g s.
  Proof.
    intros Ha Hb.
    destruct (subgraph_new_ok h M dbg g l Hw HM Ha Hb 0) as (s & E & Eh & Hs); [lia|auto| |].
    { intros v Hv. specialize (Hb v Hv). lia. }
    assert (El : s_lg s = l).
    { destruct (subgraph_new_unfold h M dbg g l Hw Ha Hb 0) as (gl & _ & E1).
      rewrite E1 in E. apply bind_Ok in E as (G & _ & E). injection E as <-. reflexivity. }
    exists s. split; auto. split; auto. unfold part_ok. rewrite El. auto.
  Qed.

  Lemma split_spec s L mid : part_ok h g s -> length L = length (s_lg s) ->
    exists l r, FOR (length L) (split_step dbg s L mid) ([], []) = Ok (l, r) /\
      l = map (fun i => nth i (s_lg s) 0) (filter (fun i => nth i L 0 <=? mid) (seq 0 (length L))) /\
      r = map (fun i => nth i (s_lg s) 0) (filter (fun i => negb (nth i L 0 <=? mid)) (seq 0 (length L))).
  Proof.
    intros (Ha & Hb & Eh & Hs) HL.
    destruct (FOR_inv (fun k lr =>
      fst lr = map (fun i => nth i (s_lg s) 0) (filter (fun i => nth i L 0 <=? mid) (seq 0 k)) /\
      snd lr = map (fun i => nth i (s_lg s) 0) (filter (fun i => negb (nth i L 0 <=? mid)) (seq 0 k)))
      (length L) (split_step dbg s L mid) ([], [])) as ([l r] & E & H1 & H2).
    - auto.
    - intros i [l r] Hi [H1 H2]. cbn [fst snd] in *. unfold split_step.
      rewrite (vget_lt L i 0) by auto. cbn [bind].
      rewrite (local_global_spec dbg g _ 0 s i Hs) by lia. cbn [bind].
      rewrite Nat.add_1_r, !seq_S, !filter_app, !map_app. cbn [filter Nat.add].
      destruct (nth i L 0 <=? mid); cbn [negb map]; eexists; (split; [reflexivity|]); cbn [fst snd];
        rewrite ?app_nil_r, <- ?H1, <- ?H2; auto.
    - exists l, r. auto.
  Qed.

  Lemma part_size s : part_ok h g s -> sub_size s = length (s_lg s).
  Proof. intros (_ & _ & _ & Hs). apply (so_size _ _ _ _ Hs). Qed.

  Lemma part_le s : part_ok h g s -> length (s_lg s) <= n.
  Proof.
    intros (Ha & Hb & _). rewrite <- (seq_length n 0). apply NoDup_incl_length; [apply ascending_NoDup; auto|].
    intros v Hv. apply in_seq. specialize (Hb v Hv). fold n in Hb. lia.
  Qed.

  (** The split of one subgraph. *)
  Lemma bisect_part s : part_ok h g s -> 0 < sub_size s -> (dbg = true -> 1 < sub_size s) ->
    exists p L top l r,
      pseudo_peripheral_vertex M dbg (s_graph s) 0 = Ok p /\
      level_traversal M dbg (s_graph s) p M = Ok L /\ vmax L = Ok top /\
      FOR (length L) (split_step dbg s L (rnd (top / 2))) ([], []) = Ok (l, r) /\
      ascending l /\ ascending r /\ Permutation (l ++ r) (s_lg s) /\
      l <> [] /\ (1 < sub_size s -> r <> []).
  Proof.
    intros Hp H0 Hd. pose proof (part_size s Hp) as Hsz. pose proof (part_le s Hp) as Hle.
    pose proof Hp as (Ha & Hb & Eh & Hs). pose proof (so_wf _ _ _ _ Hs) as Hws.
    unfold sub_size in *. set (G := s_graph s) in *.
    destruct (pseudo_peripheral_terminates M dbg false G 0 Hws ltac:(lia) H0) as (p & Ep & Hpn).
    destruct (level_traversal_spec M dbg false G p Hws ltac:(lia) Hpn Hd) as (L & EL & HL & HLv).
    destruct (vmax_spec L) as (top & Et & Hin & Hmax).
    { destruct L; [cbn in HL; lia|discriminate]. }
    destruct (split_spec s L (rnd (top / 2)) Hp ltac:(lia)) as (l & r & Es & El & Er).
    exists p, L, top, l, r. split; auto. split; auto. split; auto. split; auto.
    assert (Hseq : forall q i, In i (filter q (seq 0 (length L))) -> i < length (s_lg s)).
    { intros q i Hi. apply filter_In in Hi as [Hi _]. apply in_seq in Hi. lia. }
    assert (Hlp : nth_error L p = Some 0).
    { apply HLv; auto. left. split; [constructor|]. intros; lia. }
    assert (Hlt : forall i, i < length L -> nth i L 0 < n \/ nth i L 0 = M).
    { intros i Hi. assert (Hx : nth_error L i = Some (nth i L 0)) by (apply nth_error_nth_lt; auto).
      apply HLv in Hx; [|lia]. destruct Hx as [Hx|[Hx _]]; auto. left.
      apply (dist_lt false) in Hx; auto. lia. }
    split; [rewrite El; apply ascending_map_nth; auto using ascending_filter, ascending_seq; eauto|].
    split; [rewrite Er; apply ascending_map_nth; auto using ascending_filter, ascending_seq; eauto|].
    split.
    { rewrite El, Er, <- map_app.
      etransitivity; [apply Permutation_map, filter_split|].
      rewrite HL, Hsz, map_nth_seq. auto. }
    split.
    { intro E0. rewrite E0 in El. symmetry in El. apply map_eq_nil in El.
      assert (Hc : In p (filter (fun i => nth i L 0 <=? rnd (top / 2)) (seq 0 (length L)))).
      { apply filter_In. split; [apply in_seq; lia|]. rewrite (nth_error_nth L p 0 Hlp). reflexivity. }
      rewrite El in Hc. destruct Hc. }
    intros H1 E0. rewrite E0 in Er. symmetry in Er. apply map_eq_nil in Er.
    apply (In_nth _ _ 0) in Hin as (i & Hi & Ei).
    assert (Hbig : rnd (top / 2) < top).
    { destruct (Hlt i Hi) as [Hx|Hx]; rewrite Ei in Hx.
      - assert (Hpos : 0 < top).
        { (* some vertex other than p *)
          assert (exists q, q < length L /\ q <> p) as (q & Hq & Hqp).
          { destruct (Nat.eq_dec p 0); [exists 1|exists 0]; lia. }
          specialize (Hmax (nth q L 0) (nth_In L 0 Hq)).
          destruct (Nat.eq_dec (nth q L 0) 0) as [Ez|]; [|lia]. exfalso. apply Hqp.
          assert (Hz : nth_error L q = Some 0) by (rewrite <- Ez; apply nth_error_nth_lt; auto).
          apply HLv in Hz; [|lia]. destruct Hz as [[Hz _]|[Hz _]]; [|lia].
          inversion Hz; auto. }
        rewrite Hrnd.
        + apply Nat.div_lt; lia.
        + apply Nat.le_lt_trans with top; auto. apply Nat.div_le_upper_bound; lia.
      - rewrite Hx. auto. }
    assert (Hc : In i (filter (fun i => negb (nth i L 0 <=? rnd (top / 2))) (seq 0 (length L)))).
    { apply filter_In. split; [apply in_seq; lia|]. rewrite Ei.
      destruct (Nat.leb_spec top (rnd (top / 2))); auto. lia. }
    rewrite Er in Hc. destruct Hc.
  Qed.

  (** Parts of the vertex set. *)
  Definition parts_ok (ss : list subgraph) : Prop :=
    Forall (part_ok h g) ss /\ Permutation (concat (map s_lg ss)) (seq 0 n).

  Lemma concat_pos ss : parts_ok ss -> ss <> [] /\ exists s, In s ss /\ 0 < sub_size s.
  Proof.
    intros [HF HP].
    assert (H0 : In 0 (concat (map s_lg ss)))
      by (apply (Permutation_in _ (Permutation_sym HP)); apply in_seq; lia).
    apply in_concat in H0 as (l & Hl & H0). apply in_map_iff in Hl as (s & <- & Hs).
    split; [intro E; rewrite E in Hs; destruct Hs|]. exists s. split; auto.
    rewrite Forall_forall in HF. rewrite (part_size s (HF s Hs)). destruct (s_lg s); [destruct H0|cbn; lia].
  Qed.

  (** Pigeonhole: fewer parts than vertices leaves a part with two vertices. *)
  Lemma concat_two ss : parts_ok ss -> length ss < n -> exists s, In s ss /\ 1 < sub_size s.
  Proof.
    intros [HF HP] Hlt.
    assert (E : length (concat (map s_lg ss)) = n) by (rewrite (Permutation_length HP), seq_length; auto).
    clear HP. revert Hlt E. generalize n. induction ss as [|s ss IH]; intros m Hlt E; cbn in *; [lia|].
    inversion HF as [|? ? Hs HF']; subst. rewrite app_length in Hlt.
    destruct (Nat.le_gt_cases (length (s_lg s)) 1) as [H1|H1].
    - destruct (IH HF' (length (concat (map s_lg ss)))) as (t & Ht & H2); [lia|auto|]. exists t. auto.
    - exists s. split; auto. rewrite (part_size s Hs). auto.
  Qed.

  Lemma bisect_step_spec ss : parts_ok ss -> (dbg = true -> length ss < n) ->
    exists ss', bisect_step rnd h M dbg g ss = Ok ss' /\ parts_ok ss' /\ length ss' = length ss + 1 /\
      (length ss < n -> Forall (fun s => s_lg s <> []) ss -> Forall (fun s => s_lg s <> []) ss').
  Proof.
    intros Hss Hd. destruct (concat_pos ss Hss) as (Hne & s0 & Hs0 & Hz).
    destruct (max_subgraph_spec ss Hne) as (s & Es & Hm). unfold bisect_step.
    assert (Hin : In s ss) by (eapply nth_error_In; eauto).
    pose proof Hss as [HF HP]. rewrite Forall_forall in HF. pose proof (HF s Hin) as Hs.
    assert (H0 : 0 < sub_size s) by (specialize (Hm s0 Hs0); lia).
    assert (H1 : length ss < n -> 1 < sub_size s).
    { intro Hlt. destruct (concat_two ss Hss Hlt) as (t & Ht & H2). specialize (Hm t Ht). lia. }
    destruct (bisect_part s Hs H0) as (p & L & top & l & r & E1 & E2 & E3 & E4 & Hl & Hr & Hlr & Hln & Hrn).
    { intro Hdb. apply H1. auto. }
    rewrite (proj2 (vget_Ok ss _ s) Es). cbn [bind]. rewrite E1. cbn [bind]. rewrite E2. cbn [bind].
    rewrite E3. cbn [bind]. rewrite E4. cbn [bind fst snd].
    pose proof Hs as (_ & Hb & _).
    destruct (new_part l Hl) as (sl & El & Ell & Hpl).
    { intros v Hv. apply Hb. apply (Permutation_in _ Hlr). apply in_app_iff. auto. }
    destruct (new_part r Hr) as (sr & Er & Erl & Hpr).
    { intros v Hv. apply Hb. apply (Permutation_in _ Hlr). apply in_app_iff. auto. }
    rewrite El. cbn [bind].
    apply nth_error_split in Es as (l1 & l2 & E & Ek).
    rewrite <- Ek. clear Hne Hss Hd Hm Hin. subst ss.
    rewrite vset_lt; [|rewrite app_length; cbn; lia].
    cbn [bind]. rewrite Er. cbn [bind]. eexists. split; [reflexivity|].
    rewrite upd_split, <- app_assoc. cbn [app]. split.
    { split.
      - apply Forall_forall. intros t Ht. apply in_app_iff in Ht as [Ht|[<-|Ht]]; auto.
        + apply HF, in_app_iff; auto.
        + apply in_app_iff in Ht as [Ht|[<-|[]]]; auto. apply HF, in_app_iff. right. right. auto.
      - etransitivity; [|exact HP]. rewrite !map_app, !concat_app. cbn [map concat].
        apply Permutation_app_head. rewrite map_app, concat_app. cbn [map concat]. rewrite app_nil_r.
        rewrite Ell, Erl. rewrite <- Hlr. rewrite <- app_assoc. apply Permutation_app_head.
        apply Permutation_app_comm. }
    split.
    { rewrite !app_length. cbn [length]. rewrite app_length. cbn. lia. }
    intros Hlt HN. specialize (Hrn (H1 Hlt)). rewrite Forall_forall in *.
    intros t Ht. apply in_app_iff in Ht as [Ht|[<-|Ht]].
    + apply HN. apply in_app_iff; auto.
    + rewrite Ell. auto.
    + apply in_app_iff in Ht as [Ht|[<-|[]]].
      * apply HN. apply in_app_iff. right. right. auto.
      * rewrite Erl. auto.
  Qed.

  Lemma bisect_start : exists s, subgraph_new h M dbg g (seq 0 n) 0 = Ok s /\ parts_ok [s] /\ s_lg s <> [].
  Proof.
    destruct (new_part (seq 0 n) (ascending_seq 0 n)) as (s & E & El & Hp).
    { intros v Hv. apply in_seq in Hv. lia. }
    exists s. split; auto. split.
    - split; [constructor; auto|]. cbn. rewrite app_nil_r, El. auto.
    - rewrite El. destruct n; [lia|discriminate].
  Qed.

  Lemma bisection_spec k : 0 < k -> (dbg = true -> k <= n) ->
    exists ss, recursive_graph_bisection rnd h M dbg g k = Ok ss /\ length ss = k /\ parts_ok ss /\
      (k <= n -> Forall (fun s => s_lg s <> []) ss).
  Proof.
    intros Hk Hd. unfold recursive_graph_bisection.
    destruct (Nat.ltb_spec 0 k) as [_|]; [|lia]. cbn [ASSERT bind].
    destruct bisect_start as (s & E & Hs & Hne). fold n. rewrite E. cbn [bind].
    destruct (FOR_inv (fun i ss => parts_ok ss /\ length ss = i + 1 /\
        (i < n -> Forall (fun s => s_lg s <> []) ss)) (k - 1)
      (fun _ ss => bisect_step rnd h M dbg g ss) [s]) as (ss & Ess & H1 & H2 & H3).
    - split; auto.
    - intros i ss Hi (H1 & H2 & H3).
      destruct (bisect_step_spec ss H1) as (ss' & E' & R1 & R2 & R3).
      { intro Hdb. specialize (Hd Hdb). lia. }
      exists ss'. split; auto. split; auto. split; [lia|]. intro Hlt. apply R3; [lia|apply H3; lia].
    - exists ss. split; auto. split; [lia|]. split; auto. intro Hle. apply H3. lia.
  Qed.
End Bisect.

(* ------------------------------------------------------------------ more parts than vertices *)
Lemma forM_abort {A S} (l1 l2 : list A) (f : A -> S -> res S) s s1 a : forM l1 f s = Ok s1 ->
  f a s1 = Abort -> forM (l1 ++ a :: l2) f s = Abort.
Proof. intros H1 H2. rewrite forM_app, H1. cbn. rewrite H2. reflexivity. Qed.

Lemma one_vertex_degree d g v : well_formed d g -> size_vertex g = 1 -> v < 1 -> row g v = [].
Proof.
  intros Hw H1 Hv. destruct (row g v) as [|x l] eqn:E; auto. exfalso.
  assert (He : edge g v x) by (split; [lia|rewrite E; left; auto]).
  destruct (edge_bounds d g v x Hw He) as (? & ? & ?). lia.
Qed.

Lemma bisection_aborts rnd h M g k :
  well_formed false g -> size_vertex g <= M -> 0 < size_vertex g -> size_vertex g <= length (adj g) ->
  (forall x, x < size_vertex g -> rnd x = x) -> rnd (M / 2) < M -> size_vertex g < k ->
  recursive_graph_bisection rnd h M true g k = Abort.
Proof.
  intros Hw HM Hn Hadj Hr HrM Hk. set (n := size_vertex g) in *.
  destruct (bisection_spec rnd h M true g Hw HM Hn Hadj Hr HrM n Hn) as (ss & E & Hl & [HF HP] & Hne); [auto|].
  specialize (Hne (le_n _)). unfold recursive_graph_bisection in *. fold n in E |- *.
  destruct (Nat.ltb_spec 0 n) as [_|]; [|lia]. destruct (Nat.ltb_spec 0 k) as [_|]; [|lia].
  cbn [ASSERT bind] in *. destruct (subgraph_new h M true g (seq 0 n) 0) as [s| | |]; try discriminate.
  cbn [bind] in *. unfold FOR in *.
  replace (k - 1) with ((n - 1) + S (k - n - 1)) by lia. rewrite seq_app. cbn [seq].
  eapply forM_abort; [exact E|]. unfold bisect_step.
  assert (Hss : ss <> []) by (destruct ss; [cbn in Hl; lia|discriminate]).
  destruct (max_subgraph_spec ss Hss) as (t & Et & Hm).
  assert (Ht : In t ss) by (eapply nth_error_In; eauto).
  rewrite Forall_forall in HF, Hne. pose proof (HF t Ht) as (Hpa & Hpb & _ & Hpt).
  assert (H1 : size_vertex (s_graph t) = 1).
  { assert (Hall : forall s, In s ss -> length (s_lg s) = 1).
    { assert (El : length (concat (map s_lg ss)) = length ss).
      { rewrite (Permutation_length HP), seq_length. auto. }
      clear - El Hne. induction ss as [|s0 ss IH]; [intros ? []|].
      cbn in El. rewrite app_length in El.
      assert (Hge : length ss <= length (concat (map s_lg ss))).
      { clear - Hne. induction ss as [|s1 ss IH]; cbn; [lia|]. rewrite app_length.
        assert (s_lg s1 <> []) by (apply Hne; right; left; auto).
        destruct (s_lg s1); [congruence|]. cbn [length].
        assert (length ss <= length (concat (map s_lg ss))); [|lia].
        apply IH. intros x [<-|Hx]; apply Hne; [left|right; right]; auto. }
      assert (s_lg s0 <> []) by (apply Hne; left; auto).
      assert (0 < length (s_lg s0)) by (destruct (s_lg s0); [congruence|cbn; lia]).
      intros s [<-|Hs]; [lia|].
      apply IH; auto; first [lia|intros x Hx; apply Hne; right; auto]. }
    rewrite (so_size _ _ _ _ Hpt). apply Hall. auto. }
  rewrite (proj2 (vget_Ok ss _ t) Et). cbn [bind].
  pose proof (so_wf _ _ _ _ Hpt) as Hwt.
  unfold pseudo_peripheral_vertex. rewrite (size_pos_nonempty false) by (auto; lia).
  rewrite H1. cbn [negb ASSERT_DEBUG ASSERT bind Nat.ltb Nat.leb].
  rewrite (degree_row true false) by (auto; lia). cbn [bind].
  rewrite (one_vertex_degree false) by (auto; lia). cbn [length Nat.eqb bind].
  rewrite (level_traversal_one M false) by (auto; lia). reflexivity.
Qed.
