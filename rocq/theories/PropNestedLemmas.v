(** Lemmas behind C128: what each step of the bisection does, and the parts of a line. *)
From Verif Require Import Base ListFacts Csr GraphModel GraphSpec GraphFacts GraphInsert GraphErase
  TraversalModel Bfs TraversalFacts Expansion Peripheral Eccentricity OrderingSpec SubgraphModel SubgraphFacts
  SubgraphLevels SubgraphUpdate SubgraphNew PartitionModel Bisection Multinode
  PropGraphLemmas PropPartitionLemmas PropConnectedLemmas.
From Coq Require Import ZifyNat.

(** The edges of [g] between members of [l]. *)
Definition inner (g : graph) (l : list nat) : nat -> nat -> Prop := edge_inside g (fun x => In x l).

(** [l] and [r] are the vertices of [part] within half of the largest distance of a vertex [p], and the others. The
    largest distance [e] of [p] is at least that of the first vertex of the part. Distances are those inside the part. *)
Definition halved (g : graph) (part l r : list nat) : Prop :=
  exists p q e, In p part /\ dist (inner g part) p q e /\
    (forall v k, dist (inner g part) p v k -> k <= e) /\
    (forall v k, dist (inner g part) (nth 0 part 0) v k -> k <= e) /\
    (forall v, In v l <-> In v part /\ exists k, dist (inner g part) p v k /\ k <= e / 2) /\
    (forall v, In v r <-> In v part /\ exists k, dist (inner g part) p v k /\ e / 2 < k).

(* ------------------------------------------------------------------ the first largest part *)
Lemma largest_first ss : forall pre s i, i = length pre -> Forall (fun t => sub_size t <= sub_size s) pre -> forall best l1 l2,
  pre = l1 ++ s :: l2 -> best = length l1 -> Forall (fun t => sub_size t < sub_size s) l1 ->
  exists k1 t k2, pre ++ ss = k1 ++ t :: k2 /\ largest i best (sub_size s) ss = length k1 /\
    Forall (fun x => sub_size x < sub_size t) k1 /\ Forall (fun x => sub_size x <= sub_size t) (k1 ++ t :: k2).
Proof.
  induction ss as [|x ss IH]; intros pre s i Hi Hp best l1 l2 E Hb H1; cbn [largest].
  - exists l1, s, l2. rewrite app_nil_r, <- E. auto.
  - destruct (Nat.ltb_spec (sub_size s) (sub_size x)) as [L|L].
    + destruct (IH (pre ++ [x]) x (i + 1)) with (best := i) (l1 := pre) (l2 := @nil subgraph) as (k1 & t & k2 & E1 & R); auto.
      * rewrite app_length, Hi. reflexivity.
      * apply Forall_app. split; [|auto]. eapply Forall_impl; [|exact Hp]. cbn. intros; lia.
      * eapply Forall_impl; [|exact Hp]. cbn. intros; lia.
      * exists k1, t, k2. rewrite <- app_assoc in E1. auto.
    + destruct (IH (pre ++ [x]) s (i + 1)) with (best := best) (l1 := l1) (l2 := l2 ++ [x]) as (k1 & t & k2 & E1 & R); auto.
      * rewrite app_length, Hi. reflexivity.
      * apply Forall_app. auto.
      * rewrite E, <- app_assoc. reflexivity.
      * exists k1, t, k2. rewrite <- app_assoc in E1. auto.
Qed.

Lemma max_subgraph_first ss : ss <> [] -> exists l1 s l2, ss = l1 ++ s :: l2 /\ max_subgraph ss = length l1 /\
  Forall (fun t => sub_size t < sub_size s) l1 /\ Forall (fun t => sub_size t <= sub_size s) ss.
Proof.
  destruct ss as [|s ss]; [congruence|]. intros _. cbn [max_subgraph].
  destruct (largest_first ss [s] s 1 eq_refl) with (best := 0) (l1 := @nil subgraph) (l2 := @nil subgraph) as (k1 & t & k2 & E & R1 & R2 & R3); auto.
  exists k1, t, k2. cbn [app] in E. split; [exact E|]. split; [exact R1|]. split; [exact R2|]. rewrite E. exact R3.
Qed.

(* ------------------------------------------------------------------ distances inside a part *)
Section Inside.
  Variables (h : nat -> nat) (g : graph) (s : subgraph).
  Hypothesis Hp : part_ok h g s.
  Local Notation lg := (s_lg s).
  Local Notation at_ i := (nth i (s_lg s) 0).

  Lemma local_edge i j : i < length lg -> j < length lg -> (edge (s_graph s) i j <-> edge g (at_ i) (at_ j)).
  Proof. intros Hi Hj. destruct Hp as (_ & _ & _ & Hs). apply (so_edge _ _ _ _ Hs); auto using nth_error_nth_lt. Qed.

  Lemma local_bounds i j : edge (s_graph s) i j -> i < length lg /\ j < length lg.
  Proof.
    intro H. pose proof Hp as (_ & _ & _ & Hs). destruct (edge_bounds false _ _ _ (so_wf _ _ _ _ Hs) H) as (H1 & H2 & _).
    rewrite (so_size _ _ _ _ Hs) in *. auto.
  Qed.

  Lemma walk_out k i j : i < length lg -> walk (edge (s_graph s)) k i j -> walk (inner g lg) k (at_ i) (at_ j).
  Proof.
    intros Hi W. induction W as [i|k i j m W IH He]; [apply walk_0|]. eapply walk_S; [apply IH, Hi|].
    destruct (local_bounds _ _ He) as [H1 H2]. split; [apply local_edge; auto|]. split; apply nth_In; auto.
  Qed.

  Lemma walk_in k u v : walk (inner g lg) k u v -> forall i, i < length lg -> u = at_ i ->
    exists j, j < length lg /\ v = at_ j /\ walk (edge (s_graph s)) k i j.
  Proof.
    intro W. induction W as [u|k u v w W IH He]; intros i Hi Eu; [exists i; split; auto; split; auto; apply walk_0|].
    destruct (IH i Hi Eu) as (j & Hj & Ev & Wj). destruct He as (He & _ & Hw). apply (In_nth _ _ 0) in Hw as (m & Hm & Em).
    exists m. split; auto. split; auto. eapply walk_S; [exact Wj|]. apply local_edge; auto. rewrite Em, <- Ev. exact He.
  Qed.

  Lemma at_inj i j : i < length lg -> j < length lg -> at_ i = at_ j -> i = j.
  Proof. intros Hi Hj E. destruct Hp as (Ha & _). apply (proj1 (NoDup_nth lg 0) (ascending_NoDup _ Ha)); auto. Qed.

  Lemma dist_local i j k : i < length lg -> j < length lg -> (dist (edge (s_graph s)) i j k <-> dist (inner g lg) (at_ i) (at_ j) k).
  Proof.
    intros Hi Hj. split; intros [W Hm].
    - split; [apply walk_out; auto|]. intros m W'. destruct (walk_in m _ _ W' i Hi eq_refl) as (j' & Hj' & Ej & W'').
      apply at_inj in Ej; auto. subst j'. auto.
    - split.
      + destruct (walk_in k _ _ W i Hi eq_refl) as (j' & Hj' & Ej & W''). apply at_inj in Ej; auto. subst j'. auto.
      + intros m W'. apply Hm. apply walk_out; auto.
  Qed.

  Lemma dist_inside i v k : i < length lg -> dist (inner g lg) (at_ i) v k -> exists j, j < length lg /\ v = at_ j.
  Proof. intros Hi [W _]. destruct (walk_in k _ _ W i Hi eq_refl) as (j & Hj & Ej & _). eauto. Qed.

  Lemma part_connected_local : connected_part g lg -> connected (s_graph s).
  Proof.
    apply (part_connected true g lg s); [apply ascending_NoDup; apply Hp|]. apply (part_induced true h). exact Hp.
  Qed.
End Inside.

(* ------------------------------------------------------------------ one step *)
Lemma bisection_S rnd h M dbg g k : 0 < k -> recursive_graph_bisection rnd h M dbg g (k + 1) =
  do ss <- recursive_graph_bisection rnd h M dbg g k; bisect_step rnd h M dbg g ss.
Proof.
  intro Hk. unfold recursive_graph_bisection. destruct (Nat.ltb_spec 0 k); [|lia]. destruct (Nat.ltb_spec 0 (k + 1)); [|lia].
  cbn [ASSERT bind]. destruct (subgraph_new _ _ _ _ _ _) as [s| | |]; cbn [bind]; try reflexivity.
  replace (k + 1 - 1) with (k - 1 + 1) by lia. rewrite FOR_S. reflexivity.
Qed.

Section Step.
  Variables (rnd h : nat -> nat) (M : nat) (dbg : bool) (g : graph).
  Let n := size_vertex g.
  Hypothesis Hw : well_formed false g.
  Hypothesis HM : n <= M.
  Hypothesis Hn : 0 < n.
  Hypothesis Hadj : n <= length (adj g).
  Hypothesis Hrnd : forall x, x < n -> rnd x = x.
  Hypothesis HrndM : rnd (M / 2) < M.

  Lemma step_nested ss : parts_ok h g ss -> (dbg = true -> length ss < n) ->
    exists l1 s l2 sl sr, bisect_step rnd h M dbg g ss = Ok (l1 ++ sl :: l2 ++ [sr]) /\ ss = l1 ++ s :: l2 /\
      Forall (fun t => sub_size t < sub_size s) l1 /\ Forall (fun t => sub_size t <= sub_size s) ss /\
      part_ok h g s /\ part_ok h g sl /\ part_ok h g sr /\ Permutation (s_lg sl ++ s_lg sr) (s_lg s) /\ s_lg sl <> [] /\
      (1 < sub_size s -> s_lg sr <> []) /\ (1 < sub_size s -> connected_part g (s_lg s) -> halved g (s_lg s) (s_lg sl) (s_lg sr)).
  Proof using Hw HM Hn Hadj Hrnd HrndM.
    intros Hss Hd. destruct (concat_pos rnd h M g HM Hn Hadj HrndM ss Hss) as (Hne & s0 & Hs0 & Hz).
    destruct (max_subgraph_first ss Hne) as (l1 & s & l2 & Es & Em & H1 & H2).
    assert (Hin : In s ss) by (rewrite Es; apply in_or_app; right; left; reflexivity).
    pose proof Hss as [HF HP]. rewrite Forall_forall in HF. pose proof (HF s Hin) as Hs.
    assert (H0 : 0 < sub_size s) by (rewrite Forall_forall in H2; specialize (H2 s0 Hs0); lia).
    assert (H3 : dbg = true -> 1 < sub_size s).
    { intro Hdb. destruct (concat_two rnd h M g HM Hn Hadj HrndM ss Hss (Hd Hdb)) as (t & Ht & H4). rewrite Forall_forall in H2. specialize (H2 t Ht). lia. }
    destruct (bisect_part rnd h M dbg g HM Hn Hadj Hrnd HrndM s Hs H0 H3) as (p & L & top & l & r & E1 & E2 & E3 & E4 & Hl & Hr & Hlr & Hln & Hrn).
    pose proof Hs as (_ & Hb & _ & Hso).
    destruct (new_part rnd h M dbg g Hw HM Hn Hadj HrndM l Hl) as (sl & El & Ell & Hpl).
    { intros v Hv. apply Hb. apply (Permutation_in _ Hlr). apply in_app_iff. auto. }
    destruct (new_part rnd h M dbg g Hw HM Hn Hadj HrndM r Hr) as (sr & Er & Erl & Hpr).
    { intros v Hv. apply Hb. apply (Permutation_in _ Hlr). apply in_app_iff. auto. }
    exists l1, s, l2, sl, sr. split.
    { unfold bisect_step. rewrite Em, Es. unfold vget. rewrite nth_error_app2, Nat.sub_diag by lia. cbn [nth_error bind].
      rewrite E1. cbn [bind]. rewrite E2. cbn [bind]. rewrite E3. cbn [bind]. rewrite E4. cbn [bind fst snd]. rewrite El. cbn [bind].
      rewrite vset_lt by (rewrite app_length; cbn; lia). cbn [bind]. rewrite Er. cbn [bind]. rewrite upd_split, <- app_assoc. reflexivity. }
    split; [exact Es|]. split; [exact H1|]. split; [exact H2|]. split; [exact Hs|]. split; [exact Hpl|]. split; [exact Hpr|].
    rewrite Ell, Erl. split; [exact Hlr|]. split; [exact Hln|]. split; [exact Hrn|].
    intros H4 Hc. apply (part_connected_local h g s Hs) in Hc.
    pose proof (part_size h g s Hs) as Hsz. pose proof (part_le rnd h M g HM Hn Hadj HrndM s Hs) as Hle. fold n in Hle.
    pose proof (so_wf _ _ _ _ Hso) as Hws. unfold sub_size in *.
    destruct (bisect_form rnd h M dbg g Hw HM Hn Hadj Hrnd HrndM s p L top (l, r) Hs H0 H3 E1 E2 E3 E4) as (F1 & F2 & F3 & Ft & Fm & F4 & F5 & F6).
    cbn [fst snd] in F5, F6.
    destruct (pseudo_peripheral_spec M dbg (s_graph s) 0 Hws ltac:(lia) ltac:(lia) H4 Hc) as (p' & e & q & Ep & Hpn & Hqn & Hpq & Hpm & Hsm & _).
    rewrite E1 in Ep. injection Ep as <-. rewrite Hsz in Hpn, Hqn, Hpm, Hsm.
    assert (FL : forall v, v < length L -> dist (edge (s_graph s)) p v (nth v L 0)).
    { intros v Hv. assert (Hx : nth_error L v = Some (nth v L 0)) by (apply nth_error_nth_lt; auto).
      apply F4 in Hx; auto. destruct Hx as [Hx|[_ Hx]]; [exact Hx|]. exfalso. apply Hx, Hc; lia. }
    assert (Et : top = e).
    { apply Nat.le_antisymm.
      - apply (In_nth _ _ 0) in Ft as (v & Hv & Ev). apply (Hpm v top); [lia|]. rewrite <- Ev. apply FL, Hv.
      - apply Fm. assert (X : nth_error L q = Some e) by (apply F4; [lia|auto]). eapply nth_error_In; eauto. }
    subst top. assert (Hlt : e < length (s_lg s)) by (apply (dist_lt false) in Hpq; auto; lia).
    assert (He : e / 2 <= e) by (apply Nat.div_le_upper_bound; lia). rewrite Hrnd in F5, F6 by lia.
    exists (nth p (s_lg s) 0), (nth q (s_lg s) 0), e. split; [apply nth_In; lia|].
    split; [apply dist_local with (h := h); auto|]. split; [|split; [|split]].
    - intros v k Hv. destruct (dist_inside h g s Hs p v k ltac:(lia) Hv) as (j & Hj & ->). apply (dist_local h g s Hs) in Hv; [|lia|lia]. eauto.
    - intros v k Hv. destruct (dist_inside h g s Hs 0 v k ltac:(lia) Hv) as (j & Hj & ->). apply (dist_local h g s Hs) in Hv; [|lia|lia]. eauto.
    - intro v. rewrite F5, in_map_iff. split.
      + intros (i & <- & Hi). apply filter_In in Hi as [Hi Hk]. apply in_seq in Hi. apply Nat.leb_le in Hk.
        split; [apply nth_In; lia|]. exists (nth i L 0). split; [apply (dist_local h g s Hs); [lia|lia|apply FL; lia]|exact Hk].
      + intros (Hv & k & Dk & Hk). apply (In_nth _ _ 0) in Hv as (i & Hi & <-). exists i. split; [reflexivity|]. apply filter_In. split; [apply in_seq; lia|].
        apply Nat.leb_le. apply (dist_local h g s Hs) in Dk; [|lia|lia]. rewrite (dist_functional _ _ _ _ _ (FL i ltac:(lia)) Dk). exact Hk.
    - intro v. rewrite F6, in_map_iff. split.
      + intros (i & <- & Hi). apply filter_In in Hi as [Hi Hk]. apply in_seq in Hi. apply Bool.negb_true_iff, Nat.leb_gt in Hk.
        split; [apply nth_In; lia|]. exists (nth i L 0). split; [apply (dist_local h g s Hs); [lia|lia|apply FL; lia]|exact Hk].
      + intros (Hv & k & Dk & Hk). apply (In_nth _ _ 0) in Hv as (i & Hi & <-). exists i. split; [reflexivity|]. apply filter_In. split; [apply in_seq; lia|].
        apply Bool.negb_true_iff, Nat.leb_gt. apply (dist_local h g s Hs) in Dk; [|lia|lia]. rewrite (dist_functional _ _ _ _ _ (FL i ltac:(lia)) Dk). exact Hk.
  Qed.

  Lemma bisection_nested k : 0 < k -> (dbg = true -> k < n) ->
    exists l1 s l2 sl sr part l r,
      recursive_graph_bisection rnd h M dbg g k = Ok (l1 ++ s :: l2) /\
      recursive_graph_bisection rnd h M dbg g (k + 1) = Ok (l1 ++ sl :: l2 ++ [sr]) /\
      Forall (fun t => sub_size t < sub_size s) l1 /\ Forall (fun t => sub_size t <= sub_size s) l2 /\
      induced_by dbg g part s /\ induced_by dbg g l sl /\ induced_by dbg g r sr /\
      ascending part /\ ascending l /\ ascending r /\
      (forall v, In v part <-> In v l \/ In v r) /\ (forall v, In v l -> In v r -> False) /\
      l <> [] /\ (1 < length part -> r <> []) /\ (1 < length part -> connected_part g part -> halved g part l r).
  Proof using Hw HM Hn Hadj Hrnd HrndM.
    intros Hk Hd. destruct (bisection_spec rnd h M dbg g Hw HM Hn Hadj Hrnd HrndM k Hk) as (ss & E & Hl & Hss & _).
    { intro Hdb. specialize (Hd Hdb). fold n. lia. }
    destruct (step_nested ss Hss) as (l1 & s & l2 & sl & sr & E1 & Es & F1 & F2 & P & Pl & Pr & Hp & N1 & N2 & N3).
    { intro Hdb. specialize (Hd Hdb). lia. }
    exists l1, s, l2, sl, sr, (s_lg s), (s_lg sl), (s_lg sr). split; [rewrite <- Es; exact E|].
    split; [rewrite bisection_S, E by exact Hk; exact E1|]. split; [exact F1|].
    split; [rewrite Es in F2; apply Forall_app in F2 as [_ F2]; inversion F2; auto|].
    split; [apply (part_induced dbg h); auto|]. split; [apply (part_induced dbg h); auto|]. split; [apply (part_induced dbg h); auto|].
    split; [apply P|]. split; [apply Pl|]. split; [apply Pr|].
    split; [intro v; rewrite <- in_app_iff; split; apply Permutation_in; auto using Permutation_sym|].
    assert (ND : NoDup (s_lg sl ++ s_lg sr)) by (apply (Permutation_NoDup (Permutation_sym Hp)), ascending_NoDup, P).
    split; [intros v H1 H2; revert H1 H2 ND; clear; generalize (s_lg sl), (s_lg sr); intros a b H1 H2 ND|].
    { induction a as [|x a IH]; [destruct H1|]. cbn in ND. inversion ND; subst. destruct H1 as [->|H1]; [apply H3, in_or_app; auto|auto]. }
    rewrite <- (part_size h g s P). auto.
  Qed.
End Step.

(* ------------------------------------------------------------------ lines *)
Definition interval (l : list nat) (a m : nat) : Prop := l = seq a m /\ 0 < m.

Section Interval.
  Variables (n : nat) (g : graph).
  Hypothesis He : forall u v, edge g u v <-> u < n /\ v < n /\ (v = u + 1 \/ u = v + 1).

  Lemma inner_line a m : a + m <= n -> forall u v, inner g (seq a m) u v <-> a <= u < a + m /\ a <= v < a + m /\ (v = u + 1 \/ u = v + 1).
  Proof. intros H u v. unfold inner, edge_inside. rewrite He, !in_seq. lia. Qed.

  Lemma inner_walk a m k u v : a + m <= n -> walk (inner g (seq a m)) k u v -> u <= v + k /\ v <= u + k.
  Proof. intros H W. induction W as [u|k u v w W IH Hvw]; [lia|]. apply (inner_line a m H) in Hvw. lia. Qed.

  Lemma inner_up a m k u : a + m <= n -> a <= u -> u + k < a + m -> walk (inner g (seq a m)) k u (u + k).
  Proof.
    intros H Hu. induction k as [|k IH]; intro L; [rewrite Nat.add_0_r; apply walk_0|].
    eapply walk_S; [apply IH; lia|]. apply inner_line; [exact H|]. lia.
  Qed.

  Lemma inner_dist a m u v : a + m <= n -> a <= u < a + m -> a <= v < a + m -> dist (inner g (seq a m)) u v (u - v + (v - u)).
  Proof.
    intros H Hu Hv. split; [|intros k Hk; apply inner_walk in Hk; lia].
    destruct (Nat.le_gt_cases u v).
    - replace (u - v + (v - u)) with (v - u) by lia. replace v with (u + (v - u)) at 2 by lia. apply inner_up; lia.
    - replace (u - v + (v - u)) with (u - v) by lia. apply walk_sym.
      + intros x y H'. apply (inner_line a m H) in H'. apply (inner_line a m H). lia.
      + replace u with (v + (u - v)) at 2 by lia. apply inner_up; lia.
  Qed.

  Lemma interval_connected a m : a + m <= n -> connected_part g (seq a m).
  Proof.
    intros H u v Hu Hv. apply in_seq in Hu, Hv. exists (u - v + (v - u)). apply (inner_dist a m u v); lia.
  Qed.

  Lemma interval_halved a m l r : a + m <= n -> 1 < m -> ascending l -> ascending r -> halved g (seq a m) l r ->
    (exists b, interval l b ((m + 1) / 2)) /\ (exists b, interval r b (m / 2)).
  Proof.
    intros H Hm Al Ar (p & q & e & Hp & Hpq & Hmx & H0 & Hl & Hr).
    pose proof (inner_dist a m) as D.
    assert (Hp' : a <= p < a + m) by (apply in_seq in Hp; lia).
    assert (Hin : forall v k, dist (inner g (seq a m)) p v k -> a <= v < a + m).
    { intros v k [W _]. revert Hp'. generalize W. clear - He H. intros W Hp. induction W as [|k u v w W IH Hx]; [exact Hp|].
      apply (inner_line a m H) in Hx. lia. }
    pose proof (Hin q e Hpq) as Hq. pose proof (dist_functional _ _ _ _ _ Hpq (D p q H Hp' Hq)) as Ee.
    replace (nth 0 (seq a m) 0) with a in H0 by (rewrite seq_nth; lia).
    pose proof (H0 (a + m - 1) _ (D a (a + m - 1) H ltac:(lia) ltac:(lia))) as Hge.
    assert (Een : e = m - 1) by lia.
    assert (Hv0 : forall v, In v l <-> a <= v < a + m /\ p - v + (v - p) <= e / 2).
    { intro v. rewrite Hl, in_seq. split.
      - intros (Hv & k & Dk & Hk). rewrite (dist_functional _ _ _ _ _ Dk (D p v H Hp' Hv)) in Hk. auto.
      - intros [Hv Hk]. split; [exact Hv|]. exists (p - v + (v - p)). split; [apply D; auto|exact Hk]. }
    assert (Hv1 : forall v, In v r <-> a <= v < a + m /\ e / 2 < p - v + (v - p)).
    { intro v. rewrite Hr, in_seq. split.
      - intros (Hv & k & Dk & Hk). rewrite (dist_functional _ _ _ _ _ Dk (D p v H Hp' Hv)) in Hk. auto.
      - intros [Hv Hk]. split; [exact Hv|]. exists (p - v + (v - p)). split; [apply D; auto|exact Hk]. }
    pose proof (Nat.div_mod_eq e 2) as Q1. pose proof (Nat.mod_upper_bound e 2 ltac:(lia)) as Q2.
    pose proof (Nat.div_mod_eq (m + 1) 2) as Q3. pose proof (Nat.mod_upper_bound (m + 1) 2 ltac:(lia)) as Q4.
    pose proof (Nat.div_mod_eq m 2) as Q5. pose proof (Nat.mod_upper_bound m 2 ltac:(lia)) as Q6.
    set (x := e / 2) in *. set (y := (m + 1) / 2) in *. set (z := m / 2) in *.
    assert (Hpp : p = a \/ p = a + m - 1) by lia. destruct Hpp as [Hpp|Hpp].
    - split; [exists a|exists (a + x + 1)]; (split; [|lia]).
      + replace y with (a + y - a) by lia. apply interval_list; [exact Al|]. intro v. rewrite Hv0. lia.
      + replace z with (a + m - (a + x + 1)) by lia. apply interval_list; [exact Ar|]. intro v. rewrite Hv1. lia.
    - split; [exists (a + m - 1 - x)|exists a]; (split; [|lia]).
      + replace y with (a + m - (a + m - 1 - x)) by lia. apply interval_list; [exact Al|]. intro v. rewrite Hv0. lia.
      + replace z with (a + z - a) by lia. apply interval_list; [exact Ar|]. intro v. rewrite Hv1. lia.
  Qed.
End Interval.

Section Lines.
  Variables (rnd h : nat -> nat) (M : nat) (dbg : bool) (n : nat) (g : graph).
  Hypothesis He : forall u v, edge g u v <-> u < n /\ v < n /\ (v = u + 1 \/ u = v + 1).
  Hypothesis Hsize : size_vertex g = n.
  Hypothesis Hw : well_formed false g.
  Hypothesis HM : n <= M.
  Hypothesis Hn : 0 < n.
  Hypothesis Hadj : n <= length (adj g).
  Hypothesis Hrnd : forall x, x < n -> rnd x = x.
  Hypothesis HrndM : rnd (M / 2) < M.

  Definition line_parts (ss : list subgraph) : Prop := Forall (fun s => exists a m, interval (s_lg s) a m) ss.

  (** One step replaces a largest size by its two halves. *)
  Lemma line_step ss : parts_ok h g ss -> line_parts ss -> length ss < n ->
    exists l1 s l2 sl sr, bisect_step rnd h M dbg g ss = Ok (l1 ++ sl :: l2 ++ [sr]) /\ ss = l1 ++ s :: l2 /\
      parts_ok h g (l1 ++ sl :: l2 ++ [sr]) /\ line_parts (l1 ++ sl :: l2 ++ [sr]) /\
      Forall (fun t => sub_size t <= sub_size s) ss /\ 1 < sub_size s /\
      sub_size sl = (sub_size s + 1) / 2 /\ sub_size sr = sub_size s / 2.
  Proof using He Hsize Hw HM Hn Hadj Hrnd HrndM.
    intros Hss Hi Hlt. rewrite <- Hsize in HM, Hn, Hadj, Hrnd, Hlt.
    destruct (step_nested rnd h M dbg g Hw HM Hn Hadj Hrnd HrndM ss Hss (fun _ => Hlt))
      as (l1 & s & l2 & sl & sr & E & Es & F1 & F2 & P & Pl & Pr & Hp & N1 & N2 & N3).
    destruct (bisect_step_spec rnd h M dbg g Hw HM Hn Hadj Hrnd HrndM ss Hss (fun _ => Hlt)) as (ss' & E' & Hss' & _).
    rewrite E in E'. injection E' as <-.
    assert (H1 : 1 < sub_size s).
    { destruct (concat_two rnd h M g HM Hn Hadj HrndM ss Hss Hlt) as (t & Ht & H4). rewrite Forall_forall in F2. specialize (F2 t Ht). lia. }
    assert (Hs : exists a m, interval (s_lg s) a m).
    { unfold line_parts in Hi. rewrite Forall_forall in Hi. apply Hi. rewrite Es. apply in_or_app. right. left. reflexivity. }
    destruct Hs as (a & m & Ei & Hm). pose proof (part_size h g s P) as Sz. rewrite Ei, seq_length in Sz.
    assert (Hb : a + m <= n).
    { destruct P as (_ & Hb & _). rewrite Hsize in Hb. specialize (Hb (a + m - 1)). rewrite Ei, in_seq in Hb. lia. }
    specialize (N3 H1). rewrite Ei in N3. specialize (N3 (interval_connected n g He a m Hb)).
    destruct (interval_halved n g He a m _ _ Hb ltac:(lia) (proj1 Pl) (proj1 Pr) N3) as [(b & Eb & Lb) (c & Ec & Lc)].
    exists l1, s, l2, sl, sr. split; [exact E|]. split; [exact Es|]. split; [exact Hss'|].
    split.
    { unfold line_parts in *. rewrite Es in Hi. apply Forall_app in Hi as [Hi1 Hi2]. apply Forall_inv_tail in Hi2. apply Forall_app. split; [exact Hi1|].
      constructor; [exists b, ((m + 1) / 2); split; auto|]. apply Forall_app. split; [assumption|]. constructor; [exists c, (m / 2); split; auto|constructor]. }
    split; [exact F2|]. split; [exact H1|].
    rewrite (part_size h g sl Pl), (part_size h g sr Pr), Eb, Ec, !seq_length, Sz. auto.
  Qed.

  Lemma line_start : exists s, recursive_graph_bisection rnd h M dbg g 1 = Ok [s] /\ parts_ok h g [s] /\ line_parts [s] /\ sub_size s = n.
  Proof using He Hsize Hw HM Hn Hadj Hrnd HrndM.
    rewrite <- Hsize in HM, Hn, Hadj, Hrnd.
    destruct (bisection_spec rnd h M dbg g Hw HM Hn Hadj Hrnd HrndM 1 ltac:(lia) ltac:(lia)) as (ss & E & Hl & Hss & _).
    destruct ss as [|s [|]]; try discriminate Hl. exists s. split; [exact E|]. split; [exact Hss|]. destruct Hss as [HF HP].
    pose proof (Forall_inv HF) as H1. cbn in HP. rewrite app_nil_r in HP.
    assert (Es : s_lg s = seq 0 (size_vertex g)).
    { apply ascending_ext; [apply H1|apply ascending_seq|]. intro v. split; apply Permutation_in; auto using Permutation_sym. }
    split; [constructor; [exists 0, (size_vertex g); split; [exact Es|exact Hn]|constructor]|].
    rewrite (part_size h g s H1), Es, seq_length. apply Hsize.
  Qed.

  Lemma line_any k : 0 < k <= n -> exists ss, recursive_graph_bisection rnd h M dbg g k = Ok ss /\ length ss = k /\ parts_ok h g ss /\ line_parts ss /\
    forall s t, In s ss -> In t ss -> sub_size s <= 2 * sub_size t + 1.
  Proof using He Hsize Hw HM Hn Hadj Hrnd HrndM.
    induction k as [|k IH]; intros [H1 H2]; [lia|]. destruct (Nat.eq_dec k 0) as [->|Hk].
    - destruct line_start as (s & E & Hss & Hi & Sz). exists [s]. split; [exact E|]. split; [reflexivity|]. split; [exact Hss|]. split; [exact Hi|].
      intros x y [<-|[]] [<-|[]]. lia.
    - destruct (IH ltac:(lia)) as (ss & E & Hl & Hss & Hi & Hb).
      destruct (line_step ss Hss Hi ltac:(lia)) as (l1 & s & l2 & sl & sr & E' & Es & Hss' & Hi' & F & Hs & S1 & S2).
      exists (l1 ++ sl :: l2 ++ [sr]). rewrite <- Nat.add_1_r, bisection_S, E by lia. cbn [bind]. split; [exact E'|].
      split; [rewrite app_length; cbn [length]; rewrite app_length; cbn; rewrite Es, app_length in Hl; cbn in Hl; lia|].
      split; [exact Hss'|]. split; [exact Hi'|].
      pose proof (Nat.div_mod_eq (sub_size s + 1) 2) as Q3. pose proof (Nat.mod_upper_bound (sub_size s + 1) 2 ltac:(lia)) as Q4.
      pose proof (Nat.div_mod_eq (sub_size s) 2) as Q5. pose proof (Nat.mod_upper_bound (sub_size s) 2 ltac:(lia)) as Q6.
      rewrite Forall_forall in F.
      assert (Hins : In s ss) by (rewrite Es; apply in_or_app; right; left; reflexivity).
      assert (Hcase : forall t, In t (l1 ++ sl :: l2 ++ [sr]) -> In t ss \/ t = sl \/ t = sr).
      { intros t Ht. apply in_app_or in Ht as [Ht|[<-|Ht]]; auto; [left; rewrite Es; apply in_or_app; auto|].
        apply in_app_or in Ht as [Ht|[<-|[]]]; auto. left. rewrite Es. apply in_or_app. right. right. exact Ht. }
      intros x y Hx Hy. assert (Lx : sub_size x <= sub_size s) by (destruct (Hcase x Hx) as [Kx|[->| ->]]; [auto|lia|lia]).
      destruct (Hcase y Hy) as [Ky|[->| ->]]; [specialize (Hb s y Hins Ky); lia|lia|lia].
  Qed.

  (** [2^j] parts: a size is the quotient or one more. *)
  Lemma line_powers j : 2 ^ j <= n -> exists ss, recursive_graph_bisection rnd h M dbg g (2 ^ j) = Ok ss /\ length ss = 2 ^ j /\
    parts_ok h g ss /\ line_parts ss /\ forall s, In s ss -> n / 2 ^ j <= sub_size s <= n / 2 ^ j + 1.
  Proof using He Hsize Hw HM Hn Hadj Hrnd HrndM.
    induction j as [|j IH]; intro Hj.
    - destruct line_start as (s & E & Hss & Hi & Sz). exists [s]. split; [exact E|]. split; [reflexivity|]. split; [exact Hss|]. split; [exact Hi|].
      cbn [Nat.pow]. rewrite Nat.div_1_r. intros x [<-|[]]. lia.
    - cbn [Nat.pow] in Hj. assert (P : 0 < 2 ^ j) by (apply Nat.neq_0_lt_0, Nat.pow_nonzero; lia).
      destruct (IH ltac:(lia)) as (ss0 & E0 & L0 & Hss0 & Hi0 & B0). set (f := n / 2 ^ j) in *.
      assert (Hf : 2 <= f) by (apply Nat.div_le_lower_bound; lia). set (c := f / 2).
      assert (Ec : n / 2 ^ S j = c) by (unfold c, f; rewrite Nat.div_div by lia; f_equal; cbn [Nat.pow]; lia). rewrite Ec.
      pose proof (Nat.div_mod_eq f 2) as Q5. pose proof (Nat.mod_upper_bound f 2 ltac:(lia)) as Q6. fold c in Q5.
      assert (K : forall i, i <= 2 ^ j -> exists ss A B, recursive_graph_bisection rnd h M dbg g (2 ^ j + i) = Ok ss /\ length ss = 2 ^ j + i /\
        parts_ok h g ss /\ line_parts ss /\ Permutation (map sub_size ss) (A ++ B) /\ length A = 2 ^ j - i /\
        Forall (fun x => f <= x <= f + 1) A /\ Forall (fun x => c <= x <= c + 1) B).
      { induction i as [|i IHi]; intro Hi.
        - exists ss0, (map sub_size ss0), []. rewrite Nat.add_0_r, app_nil_r, Nat.sub_0_r, map_length. do 6 (split; [solve [auto]|]). split; [|constructor].
          apply Forall_forall. intros x Hx. apply in_map_iff in Hx as (s & <- & Hs). apply B0, Hs.
        - destruct (IHi ltac:(lia)) as (ss & A & B & E & Hl & Hss & Hip & HP & LA & FA & FB).
          destruct (line_step ss Hss Hip ltac:(lia)) as (l1 & s & l2 & sl & sr & E' & Es & Hss' & Hi' & F & Hs & S1 & S2).
          destruct A as [|x A]; [cbn in LA; lia|].
          assert (HinA : In (sub_size s) (x :: A)).
          { assert (Hin : In (sub_size s) ((x :: A) ++ B)).
            { apply (Permutation_in _ HP). apply in_map. rewrite Es. apply in_or_app. right. left. reflexivity. }
            apply in_app_or in Hin as [Hin|Hin]; [exact Hin|]. left.
            rewrite Forall_forall in FB. specialize (FB _ Hin). inversion FA; subst.
            assert (Hx : In x (map sub_size (l1 ++ s :: l2))) by (apply (Permutation_in _ (Permutation_sym HP)); left; reflexivity).
            apply in_map_iff in Hx as (t & Et & Ht). rewrite Forall_forall in F. specialize (F t Ht). lia. }
          destruct (in_split _ _ HinA) as (a1 & a2 & Ea). rewrite Ea in *. rewrite app_length in LA. cbn [length] in LA.
          apply Forall_app in FA as [FA1 FA2]. inversion FA2 as [|? ? Fx FA3]; subst.
          exists (l1 ++ sl :: l2 ++ [sr]), (a1 ++ a2), (sub_size sl :: sub_size sr :: B).
          replace (2 ^ j + S i) with (2 ^ j + i + 1) by lia. rewrite bisection_S, E by lia. cbn [bind]. split; [exact E'|].
          split; [rewrite app_length; cbn [length]; rewrite app_length; cbn; rewrite app_length in Hl; cbn in Hl; lia|].
          split; [exact Hss'|]. split; [exact Hi'|]. split.
          { rewrite map_app in HP. cbn [map] in HP. rewrite <- app_assoc in HP. cbn [app] in HP.
            apply Permutation_app_inv in HP. rewrite map_app. cbn [map]. rewrite map_app. cbn [map].
            transitivity (sub_size sl :: sub_size sr :: map sub_size l1 ++ map sub_size l2).
            - apply Permutation_sym. etransitivity; [|apply Permutation_middle]. constructor. rewrite app_assoc. apply Permutation_cons_append.
            - rewrite HP, app_assoc. transitivity (sub_size sl :: (a1 ++ a2) ++ sub_size sr :: B); [constructor; apply Permutation_middle|apply Permutation_middle]. }
          split; [rewrite app_length; lia|]. split; [apply Forall_app; auto|].
          pose proof (Nat.div_mod_eq (sub_size s + 1) 2) as R3. pose proof (Nat.mod_upper_bound (sub_size s + 1) 2 ltac:(lia)) as R4.
          pose proof (Nat.div_mod_eq (sub_size s) 2) as R5. pose proof (Nat.mod_upper_bound (sub_size s) 2 ltac:(lia)) as R6.
          constructor; [lia|]. constructor; [lia|exact FB]. }
      destruct (K (2 ^ j) ltac:(lia)) as (ss & A & B & E & Hl & Hss & Hi & HP & LA & _ & FB).
      destruct A; [|cbn in LA; lia]. cbn [Nat.pow app] in *. replace (2 * 2 ^ j) with (2 ^ j + 2 ^ j) by lia.
      exists ss. split; [exact E|]. split; [exact Hl|]. split; [exact Hss|]. split; [exact Hi|].
      intros s Hs. rewrite Forall_forall in FB. apply FB. apply (Permutation_in _ HP). apply in_map, Hs.
  Qed.
End Lines.

Lemma line_usual M dbg n g : 2 <= n -> create_graph_line M dbg false n = Ok g ->
  (forall u v, edge g u v <-> u < n /\ v < n /\ (v = u + 1 \/ u = v + 1)) /\ size_vertex g = n /\ well_formed false g /\ n <= length (adj g).
Proof.
  intros H2 Eg. destruct (create_line_spec M dbg false n H2) as (g' & Eg' & Hw & Hs & Hse & He').
  rewrite Eg in Eg'. injection Eg' as <-. split; [intros u v; rewrite He'; intuition|]. split; [exact Hs|]. split; [exact Hw|].
  unfold size_edge in Hse. pose proof (Nat.div_mod_eq (length (adj g)) 2). lia.
Qed.

Lemma line_parts_induced dbg h g ss : parts_ok h g ss -> line_parts ss ->
  exists ab, Forall2 (fun p s => induced_by dbg g (seq (fst p) (snd p)) s /\ 0 < snd p) ab ss /\ splits (size_vertex g) (map (fun p => seq (fst p) (snd p)) ab).
Proof.
  intros [HF HP] Hi.
  assert (K : exists ab, Forall2 (fun p s => s_lg s = seq (fst p) (snd p) /\ 0 < snd p) ab ss).
  { clear HF HP. induction Hi as [|s ss (a & m & E & Hm) _ (ab & IH)]; [exists []; constructor|]. exists ((a, m) :: ab). constructor; auto. }
  destruct K as (ab & K). exists ab. split.
  - clear HP Hi. induction K as [|p s ab ss [E Hm] K IH]; [constructor|]. inversion HF; subst. constructor; [|auto]. split; [|exact Hm].
    rewrite <- E. apply (part_induced dbg h). assumption.
  - replace (map (fun p => seq (fst p) (snd p)) ab) with (map s_lg ss); [apply splits_perm, HP|].
    clear HF HP Hi. induction K as [|p s ab ss [E Hm] K IH]; [reflexivity|]. cbn. rewrite E, IH. reflexivity.
Qed.

Lemma line_balanced rnd h M dbg n g k : 2 <= n -> n <= M -> create_graph_line M dbg false n = Ok g ->
  (forall x, x < n -> rnd x = x) -> rnd (M / 2) < M -> 0 < k <= n ->
  exists ss ab, recursive_graph_bisection rnd h M dbg g k = Ok ss /\ length ss = k /\
    Forall2 (fun p s => induced_by dbg g (seq (fst p) (snd p)) s /\ 0 < snd p) ab ss /\
    splits n (map (fun p => seq (fst p) (snd p)) ab) /\
    forall s t, In s ss -> In t ss -> sub_size s <= 2 * sub_size t + 1.
Proof.
  intros H2 HM Eg Hr HrM Hk. destruct (line_usual M dbg n g H2 Eg) as (He & Hs & Hw & Ha).
  destruct (line_any rnd h M dbg n g He Hs Hw HM ltac:(lia) Ha Hr HrM k Hk) as (ss & E & Hl & Hss & Hi & Hb).
  destruct (line_parts_induced dbg h g ss Hss Hi) as (ab & F & S). rewrite Hs in S. exists ss, ab. auto.
Qed.

Lemma line_even rnd h M dbg n g j : 2 <= n -> n <= M -> create_graph_line M dbg false n = Ok g ->
  (forall x, x < n -> rnd x = x) -> rnd (M / 2) < M -> 2 ^ j <= n ->
  exists ss, recursive_graph_bisection rnd h M dbg g (2 ^ j) = Ok ss /\ length ss = 2 ^ j /\
    forall s, In s ss -> n / 2 ^ j <= sub_size s <= n / 2 ^ j + 1.
Proof.
  intros H2 HM Eg Hr HrM Hk. destruct (line_usual M dbg n g H2 Eg) as (He & Hs & Hw & Ha).
  destruct (line_powers rnd h M dbg n g He Hs Hw HM ltac:(lia) Ha Hr HrM j Hk) as (ss & E & Hl & Hss & Hi & Hb). exists ss. auto.
Qed.
