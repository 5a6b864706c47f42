(** Property theorems about the connectedness and the sizes of parts (C112). *)
From Verif Require Import Base ListFacts Csr GraphModel GraphSpec TraversalModel Bfs TraversalFacts Expansion
  SubgraphModel PropSubgraphLemmas PartitionModel Bisection Multinode PropGraphLemmas PropTraversalLemmas
  PropPartitionLemmas PropConnectedLemmas.

(** ** Classes of level_expansion *)
(** [edge_inside g A] are the edges of [g] between members of [A]. Every coloured vertex is joined to the seed of
    its colour by a shortest walk through vertices of that colour. *)
Theorem C112_expansion : forall M dbg d g seeds,
  well_formed d g -> size_vertex g <= M -> length seeds <= M -> seeds <> [] ->
  (forall s, In s seeds -> s < size_vertex g) ->
  exists C, level_expansion M dbg g seeds = Ok C /\ length C = size_vertex g /\
    forall v, v < size_vertex g -> forall c, nth_error C v = Some c ->
      (c < length seeds /\ exists k, walk (edge_inside g (fun x => nth_error C x = Some c)) k (nth c seeds 0) v /\
         dist (edge g) (nth c seeds 0) v k /\ forall s m, In s seeds -> walk (edge g) m s v -> k <= m) \/
      (c = M /\ forall s, In s seeds -> ~ reachable (edge g) s v).
Proof. exact level_expansion_inside. Qed.
Print Assumptions C112_expansion.

(** ** Multinode expansion *)
(** The subgraphs of a connected graph are connected after one iteration or more, whatever they were before. Full
    statement: the same about [multinode_level_set_expansion], whose table is never obtained (C24). *)
Theorem C112_multinode_partial : forall h M dbg g T iters parts ss,
  well_formed false g -> size_vertex g <= M -> 0 < size_vertex g -> size_vertex g <= length (adj g) ->
  connected g -> table_ok (size_vertex g) M T ->
  Forall2 (fun l s => ascending l /\ l <> [] /\ (forall v, In v l -> v < size_vertex g) /\
                      subgraph_new h M dbg g l 0 = Ok s) parts ss ->
  NoDup (concat parts) -> 1 < length ss ->
  exists ss', multinode_loop (S iters) h M dbg g T (repeat 0 (length ss)) ss = Ok ss' /\
    Forall (fun s => connected (s_graph s)) ss'.
Proof. exact multinode_connected. Qed.
Print Assumptions C112_multinode_partial.

(** ** Bisection *)
(** Two parts of a connected graph: a vertex [p] whose largest distance [e] is at least that of vertex 0, and no
    vertex at that distance has fewer neighbours; the first part are the vertices within half of that distance. *)
Theorem C112_bisection_two : forall rnd h M dbg g,
  well_formed false g -> size_vertex g <= M -> 1 < size_vertex g -> size_vertex g <= length (adj g) ->
  (forall x, x < size_vertex g -> rnd x = x) -> rnd (M / 2) < M -> connected g ->
  exists s0 s1 l0 l1 p q e, recursive_graph_bisection rnd h M dbg g 2 = Ok [s0; s1] /\
    induced_by dbg g l0 s0 /\ induced_by dbg g l1 s1 /\ ascending l0 /\ ascending l1 /\
    p < size_vertex g /\ dist (edge g) p q e /\
    (forall v k, dist (edge g) p v k -> k <= e) /\ (forall v k, dist (edge g) 0 v k -> k <= e) /\
    (forall v, dist (edge g) p v e -> length (row g p) <= length (row g v)) /\
    (forall v, In v l0 <-> exists k, dist (edge g) p v k /\ k <= e / 2) /\
    (forall v, In v l1 <-> exists k, dist (edge g) p v k /\ e / 2 < k).
Proof. exact bisection_two. Qed.
Print Assumptions C112_bisection_two.

(** The first of two or more parts is connected, of every graph. Full statement: every part of a connected graph is
    connected; the others need not be, see below. *)
Theorem C112_bisection_partial : forall rnd h M dbg g,
  well_formed false g -> size_vertex g <= M -> 0 < size_vertex g -> size_vertex g <= length (adj g) ->
  (forall x, x < size_vertex g -> rnd x = x) -> rnd (M / 2) < M ->
  forall k, 1 < k -> (dbg = true -> k <= size_vertex g) ->
  exists s ss, recursive_graph_bisection rnd h M dbg g k = Ok (s :: ss) /\ connected (s_graph s).
Proof. exact bisection_first. Qed.
Print Assumptions C112_bisection_partial.

(** Every star with three leaves or more: two vertices in the first part, all other leaves, without a single edge, in
    the second. *)
Theorem C112_bisection_refuted : forall rnd h M dbg g m,
  well_formed false g -> star m g -> 3 <= m -> m < M -> m < length (adj g) ->
  (forall x, x <= m -> rnd x = x) -> rnd (M / 2) < M ->
  exists s0 s1, recursive_graph_bisection rnd h M dbg g 2 = Ok [s0; s1] /\
    sub_size s0 = 2 /\ sub_size s1 = m - 1 /\ ~ connected (s_graph s1).
Proof. exact star_disconnected. Qed.
Print Assumptions C112_bisection_refuted.

(** Lines are cut into connected halves. *)
Theorem C112_line : forall rnd h M dbg n g, 2 <= n -> n <= M -> create_graph_line M dbg false n = Ok g ->
  (forall x, x < n -> rnd x = x) -> rnd (M / 2) < M ->
  exists s0 s1, recursive_graph_bisection rnd h M dbg g 2 = Ok [s0; s1] /\
    sub_size s0 = (n + 1) / 2 /\ sub_size s1 = n / 2 /\ connected (s_graph s0) /\ connected (s_graph s1).
Proof. exact line_bisection. Qed.
Print Assumptions C112_line.

Example C112_hypotheses : well_formed false star3 /\ star 3 star3 /\ 3 < length (adj star3) /\ 100 / 2 < 100 /\
  connected star3 /\
  (exists s0 s1, recursive_graph_bisection (fun x => x) (fun x => x) 100 true star3 2 = Ok [s0; s1] /\
     s_lg s0 = [0; 2] /\ s_lg s1 = [1; 3]) /\
  create_graph_line 100 true false 5 = Ok (mkG [1; 0; 2; 1; 3; 2; 4; 3] [0; 1; 3; 5; 7; 8]) /\
  (exists s0 s1, recursive_graph_bisection (fun x => x) (fun x => x) 100 true
     (mkG [1; 0; 2; 1; 3; 2; 4; 3] [0; 1; 3; 5; 7; 8]) 2 = Ok [s0; s1] /\ s_lg s0 = [2; 3; 4] /\ s_lg s1 = [0; 1]).
Proof.
  split; [exact star3_wf|]. split; [exact star3_star|]. split; [cbn; lia|].
  split; [change (50 < 100); lia|]. split; [exact (star_connected 3 star3 star3_star)|].
  split; [do 2 eexists; split; [vm_compute; reflexivity|split; reflexivity]|].
  split; [vm_compute; reflexivity|]. do 2 eexists. split; [vm_compute; reflexivity|split; reflexivity].
Qed.
