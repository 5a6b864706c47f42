(** Property C93: the constructors of graphs and subgraphs. [adjacent_twin l]: two consecutive entries of [l] are
    equal. The other words are those of C01 and C25. *)
From Verif Require Import Base ListFacts Csr GraphModel GraphSpec SubgraphModel PropSubgraphLemmas PropBuildLemmas.

(** ** C93 *)
Theorem C93_graph_from_list : forall dbg d es, es <> [] -> (forall e, In e es -> fst e <> snd e) ->
  exists g, graph_of_list dbg d es = Ok g /\ well_formed d g /\
    (forall u v, edge g u v <-> mem_edge d (u, v) es = true) /\
    size_edge d g = length (distinct_edges d es) /\ size_vertex g = vertex_bound es.
Proof. exact list_graph. Qed.
Print Assumptions C93_graph_from_list.

(** The empty list is read past its end. *)
Theorem C93_empty_list_refuted : forall dbg d, graph_of_list dbg d [] = Undef.
Proof. exact list_graph_empty. Qed.
Print Assumptions C93_empty_list_refuted.

Theorem C93_subgraph_checks : forall h M (dbg : bool) g part,
  well_formed false g -> size_vertex g <= M -> 0 < size_vertex g -> size_vertex g <= length (adj g) ->
  ((exists v, In v part /\ size_vertex g <= v) -> subgraph_new h M dbg g part 0 = if dbg then Abort else Undef) /\
  (adjacent_twin part \/ size_vertex g < length part -> subgraph_new h M true g part 0 = Abort) /\
  ((forall v, In v part -> v < size_vertex g) -> length part <= size_vertex g -> (dbg = true -> ~ adjacent_twin part) ->
   exists s, subgraph_new h M dbg g part 0 = Ok s /\ s_lg s = part /\ sub_size s = length (nodup Nat.eq_dec part)).
Proof. exact new_checks. Qed.
Print Assumptions C93_subgraph_checks.

(** A repeated vertex is accepted when its two entries are not next to each other; the subgraph then has
    fewer vertices than the list it maps to. *)
Theorem C93_duplicates_refuted : exists g part, well_formed false g /\ size_vertex g <= length (adj g) /\ ~ NoDup part /\
  forall h, exists s, subgraph_new h 100 true g part 0 = Ok s /\ sub_size s = 2 /\ length (s_lg s) = 3.
Proof. exact twins_accepted. Qed.
Print Assumptions C93_duplicates_refuted.

(** The graphs of generator.hpp with fixed edges are those drawn in their comments. [is_drawing n es g]: the vertices
    of [g] are those below [n], its edges those of [es] in both directions. *)
Theorem C93_example_graphs : forall dbg,
  (exists g, create_graph_hybrid dbg = Ok g /\ is_drawing 8 drawn_hybrid g) /\
  (exists g, create_graph_saad dbg = Ok g /\ is_drawing 15 drawn_saad g).
Proof. exact example_graphs. Qed.
Print Assumptions C93_example_graphs.

(** A cleared subgraph is a new one; its parent is the empty graph. *)
Theorem C93_cleared : forall h dbg s, exists s', sub_clear h dbg s = Ok s' /\ sub_size s' = 0 /\ s_lg s' = [] /\
  s_level s' = [] /\ is_parent h dbg s' graph_default = Ok true /\ s' = subgraph_default.
Proof. exact cleared. Qed.
Print Assumptions C93_cleared.

Example C93_hypotheses :
  graph_of_list true false [(0, 2); (2, 1); (1, 2)] = Ok (mkG [2; 2; 0; 1] [0; 1; 2; 4]) /\
  well_formed false path4' /\ size_vertex path4' <= 100 /\ 0 < size_vertex path4' /\ size_vertex path4' <= length (adj path4') /\
  adjacent_twin [1; 1] /\ (exists v, In v [0; 4] /\ size_vertex path4' <= v) /\
  subgraph_new (fun x => x) 100 true path4' [1; 1] 0 = Abort /\ subgraph_new (fun x => x) 100 false path4' [0; 4] 0 = Undef.
Proof.
  split; [reflexivity|]. split; [exact path4'_wf|]. split; [change (4 <= 100); lia|]. split; [cbn; lia|]. split; [cbn; lia|].
  split; [exists 0, 1; split; reflexivity|]. split; [exists 4; cbn; intuition lia|]. split; vm_compute; reflexivity.
Qed.
