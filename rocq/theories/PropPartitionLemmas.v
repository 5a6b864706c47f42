(** Restatements and witnesses used by PropPartition.v. *)
From Verif Require Import Base ListFacts Csr GraphModel GraphSpec GraphFacts GraphInsert TraversalModel Bfs
  TraversalFacts PropTraversalLemmas SubgraphModel SubgraphFacts SubgraphLevels SubgraphUpdate SubgraphNew
  PropSubgraphLemmas PartitionModel Bisection Multinode.

(** [s] is the subgraph of [g] induced by the list [l], reported in that order. *)
Record induced_by (dbg : bool) (g : graph) (l : list nat) (s : subgraph) : Prop := {
  ind_wf : well_formed false (s_graph s);
  ind_size : sub_size s = length l;
  ind_global : forall i, i < length l -> local_global dbg s i = Ok (nth i l 0);
  ind_edge : forall i j, i < length l -> j < length l ->
    (edge (s_graph s) i j <-> edge g (nth i l 0) (nth j l 0)) }.

(** [ls] are lists of vertices with every vertex below [n] occurring exactly once in exactly one. *)
Definition splits (n : nat) (ls : list (list nat)) : Prop :=
  NoDup (concat ls) /\ forall v, In v (concat ls) <-> v < n.

Lemma part_induced dbg h g s : part_ok h g s -> induced_by dbg g (s_lg s) s.
Proof.
  intros (Ha & Hb & _ & Hs). pose proof (so_size _ _ _ _ Hs) as Hsz. constructor.
  - apply Hs.
  - exact Hsz.
  - intros i Hi. eapply local_global_spec; eauto.
  - intros i j Hi Hj. apply (so_edge _ _ _ _ Hs); apply nth_error_nth_lt; auto.
Qed.

Lemma splits_perm n ls : Permutation (concat ls) (seq 0 n) -> splits n ls.
Proof.
  intro H. split.
  - eapply Permutation_NoDup; [apply Permutation_sym; exact H|apply seq_NoDup].
  - intro v. split; intro Hv.
    + apply (Permutation_in _ H), in_seq in Hv. lia.
    + apply (Permutation_in _ (Permutation_sym H)), in_seq. lia.
Qed.

Lemma Forall2_map_lg dbg h g ss : Forall (part_ok h g) ss -> Forall2 (induced_by dbg g) (map s_lg ss) ss.
Proof. induction 1; cbn; constructor; eauto using part_induced. Qed.

Lemma nonempty_map ss : Forall (fun s => s_lg s <> []) ss -> Forall (fun l => l <> []) (map s_lg ss).
Proof. induction 1; cbn; constructor; auto. Qed.

Lemma bisection_partition rnd h M dbg g k :
  well_formed false g -> size_vertex g <= M -> 0 < size_vertex g -> size_vertex g <= length (adj g) ->
  (forall x, x < size_vertex g -> rnd x = x) -> rnd (M / 2) < M ->
  0 < k -> (dbg = true -> k <= size_vertex g) ->
  exists ss parts, recursive_graph_bisection rnd h M dbg g k = Ok ss /\
    length ss = k /\ Forall2 (induced_by dbg g) parts ss /\ splits (size_vertex g) parts /\
    (k <= size_vertex g -> Forall (fun l => l <> []) parts).
Proof.
  intros Hw HM Hn Ha Hr HrM Hk Hd.
  destruct (bisection_spec rnd h M dbg g Hw HM Hn Ha Hr HrM k Hk Hd) as (ss & E & Hl & [HF HP] & Hne).
  exists ss, (map s_lg ss). split; auto. split; auto. split; [eapply Forall2_map_lg; eauto|].
  split; [apply splits_perm; auto|]. intro H. apply nonempty_map; auto.
Qed.

Lemma bisection_empty rnd h M dbg k : 0 < k -> recursive_graph_bisection rnd h M dbg graph_default k = Undef.
Proof.
  intro Hk. unfold recursive_graph_bisection. destruct (Nat.ltb_spec 0 k); [|lia]. cbn [ASSERT bind].
  assert (E : subgraph_new h M dbg graph_default [] 0 = Undef) by (destruct dbg; reflexivity).
  change (seq 0 (size_vertex graph_default)) with (@nil nat). rewrite E. reflexivity.
Qed.

Lemma bisection_zero rnd h M dbg g : recursive_graph_bisection rnd h M dbg g 0 = Abort.
Proof. reflexivity. Qed.

(* ------------------------------------------------------------------ multinode *)
Lemma disjoint_built h M dbg g parts ss :
  well_formed false g -> size_vertex g <= M -> 0 < size_vertex g -> size_vertex g <= length (adj g) ->
  Forall2 (fun l s => ascending l /\ l <> [] /\ (forall v, In v l -> v < size_vertex g) /\
                      subgraph_new h M dbg g l 0 = Ok s) parts ss ->
  NoDup (concat parts) -> disjoint_ok h g ss.
Proof.
  intros Hw HM Hn Ha H HN.
  assert (K : Forall (fun s => part_ok h g s /\ s_lg s <> []) ss /\ map s_lg ss = parts).
  { clear HN. induction H as [|l s ls ss (H1 & H2 & H3 & H4) _ [IH1 IH2]]; cbn; auto.
    destruct (new_part (fun _ => 0) h M dbg g Hw HM Hn Ha (Nat.lt_le_trans _ _ _ Hn HM) l H1 H3) as (s' & E & El & Hp).
    rewrite E in H4. injection H4 as <-. split; [|congruence]. constructor; auto. rewrite El. auto. }
  destruct K as [K1 K2]. split; [|split].
  - apply Forall_forall. rewrite Forall_forall in K1. intros. apply K1; auto.
  - apply Forall_forall. rewrite Forall_forall in K1. intros. apply K1; auto.
  - rewrite K2. auto.
Qed.

Lemma multinode_table h M dbg g T iters parts ss :
  well_formed false g -> size_vertex g <= M -> 0 < size_vertex g -> size_vertex g <= length (adj g) ->
  connected g -> table_ok (size_vertex g) M T ->
  Forall2 (fun l s => ascending l /\ l <> [] /\ (forall v, In v l -> v < size_vertex g) /\
                      subgraph_new h M dbg g l 0 = Ok s) parts ss ->
  NoDup (concat parts) -> 1 < length ss ->
  exists ss' parts', multinode_loop (S iters) h M dbg g T (repeat 0 (length ss)) ss = Ok ss' /\
    length ss' = length ss /\ Forall2 (induced_by dbg g) parts' ss' /\ splits (size_vertex g) parts' /\
    Forall (fun l => l <> []) parts'.
Proof.
  intros Hw HM Hn Ha Hc HT H2 HN Hl.
  destruct (multinode_loop_first h M dbg g T Hw HM Hn Ha Hc HT iters ss) as (ss' & E & H3 & H4 & H5 & H6); auto.
  { exact (disjoint_built h M dbg g parts ss Hw HM Hn Ha H2 HN). }
  exists ss', (map s_lg ss'). split; auto. split; auto. split; [eapply Forall2_map_lg; eauto|].
  split; [apply splits_perm; auto|]. apply nonempty_map; auto.
Qed.

Lemma connected_edge g : connected g -> 1 < size_vertex g -> exists u v, edge g u v.
Proof.
  intros Hc H1. destruct (Hc 0 1) as (k & Hk); try lia. inversion Hk as [|? ? v ? _ He]; subst. eauto.
Qed.

Lemma multinode_refuted h M dbg g iters parts ss :
  well_formed false g -> size_vertex g <= M -> 0 < size_vertex g -> size_vertex g <= length (adj g) ->
  connected g ->
  Forall2 (fun l s => ascending l /\ l <> [] /\ (forall v, In v l -> v < size_vertex g) /\
                      subgraph_new h M dbg g l 0 = Ok s) parts ss ->
  NoDup (concat parts) -> 1 < length ss ->
  multinode_level_set_expansion false h M dbg g iters ss = Undef.
Proof.
  intros Hw HM Hn Ha Hc H2 HN Hl.
  pose proof (disjoint_built h M dbg g parts ss Hw HM Hn Ha H2 HN) as Hd.
  assert (Hle : length ss <= size_vertex g) by exact (disjoint_length h M g HM Hn Ha ss Hd).
  apply multinode_undefined; auto.
  - apply connected_edge; auto. lia.
  - intros s Hs. destruct Hd as (HF & _). rewrite Forall_forall in HF. destruct (HF s Hs) as (_ & _ & Eh & _).
    unfold is_parent. rewrite graph_hash_value, Eh by auto. cbn [bind]. rewrite Nat.eqb_refl. auto.
Qed.

(** Subgraphs built from the two halves of the path 0 - 1 - 2 - 3. *)
Definition half1 h := mkS (hash_value h path4') (mkG [1; 0] [0; 1; 2]) [0; 1] [].
Definition half2 h := mkS (hash_value h path4') (mkG [1; 0] [0; 1; 2]) [2; 3] [].

Lemma half1_new h dbg : subgraph_new h 100 dbg path4' [0; 1] 0 = Ok (half1 h).
Proof.
  unfold half1. pose proof (graph_hash_value dbg h path4' path4'_wf) as Eh.
  remember (hash_value h path4') as H eqn:X. clear X.
  unfold subgraph_new. rewrite Eh. destruct dbg; vm_compute; reflexivity.
Qed.

Lemma half2_new h dbg : subgraph_new h 100 dbg path4' [2; 3] 0 = Ok (half2 h).
Proof.
  unfold half2. pose proof (graph_hash_value dbg h path4' path4'_wf) as Eh.
  remember (hash_value h path4') as H eqn:X. clear X.
  unfold subgraph_new. rewrite Eh. destruct dbg; vm_compute; reflexivity.
Qed.

Lemma halves h dbg :
  Forall2 (fun l s => ascending l /\ l <> [] /\ (forall v, In v l -> v < size_vertex path4') /\
                      subgraph_new h 100 dbg path4' l 0 = Ok s) [[0; 1]; [2; 3]] [half1 h; half2 h].
Proof.
  constructor; [|constructor; [|constructor]].
  - split; [repeat constructor|]. split; [discriminate|]. split; [cbn; intuition lia|apply half1_new].
  - split; [repeat constructor|]. split; [discriminate|]. split; [cbn; intuition lia|apply half2_new].
Qed.

Lemma path4'_le : size_vertex path4' <= 100. Proof. change (4 <= 100). lia. Qed.
Lemma path4'_pos : 0 < size_vertex path4'. Proof. cbv. lia. Qed.
Lemma path4'_adj : size_vertex path4' <= length (adj path4'). Proof. cbv. lia. Qed.

Lemma multinode_witness : exists g parts, well_formed false g /\ connected g /\
  size_vertex g <= length (adj g) /\ splits (size_vertex g) parts /\
  forall h dbg iters, exists ss,
    Forall2 (fun l s => ascending l /\ l <> [] /\ (forall v, In v l -> v < size_vertex g) /\
                        subgraph_new h 100 dbg g l 0 = Ok s) parts ss /\
    multinode_level_set_expansion false h 100 dbg g iters ss = Undef.
Proof.
  exists path4', [[0; 1]; [2; 3]]. split; [apply path4'_wf|]. split; [exact path4_connected|].
  split; [apply path4'_adj|]. split; [apply splits_perm; apply Permutation_refl|].
  intros h dbg iters. exists [half1 h; half2 h]. split; [apply halves|].
  apply multinode_refuted with (parts := [[0; 1]; [2; 3]]);
    auto using path4'_wf, path4'_le, path4'_pos, path4'_adj, halves.
  - exact path4_connected.
  - repeat constructor; cbn; intuition lia.
Qed.

(** One subgraph is returned as it is, so its vertices stay the only ones. *)
Lemma multinode_single h M dbg lenient g iters s : is_parent h dbg s g = Ok true ->
  multinode_level_set_expansion lenient h M dbg g iters [s] = Ok [s].
Proof. intro H. unfold multinode_level_set_expansion. cbn. rewrite H. reflexivity. Qed.
