(** Property theorems about partitioning (C23, C24). *)
From Verif Require Import Base ListFacts Csr GraphModel GraphSpec TraversalModel Bfs TraversalFacts
  PropTraversalLemmas SubgraphModel PropSubgraphLemmas PartitionModel Bisection Multinode PropPartitionLemmas.

(** ** C23 *)
(** [rnd] is the conversion to double and back of the middle level; exact for the levels of the graph (true
    up to 2^53 vertices) and below the no-data value for half of it. Full statement: the same without the
    assumptions [0 < size_vertex g] and [dbg = true -> k <= size_vertex g]; both are needed, see below. *)
Theorem C23_bisection_partial : forall rnd h M dbg g k,
  well_formed false g -> size_vertex g <= M -> 0 < size_vertex g -> size_vertex g <= length (adj g) ->
  (forall x, x < size_vertex g -> rnd x = x) -> rnd (M / 2) < M ->
  0 < k -> (dbg = true -> k <= size_vertex g) ->
  exists ss parts, recursive_graph_bisection rnd h M dbg g k = Ok ss /\
    length ss = k /\ Forall2 (induced_by dbg g) parts ss /\ splits (size_vertex g) parts /\
    (k <= size_vertex g -> Forall (fun l => l <> []) parts).
Proof. exact bisection_partition. Qed.
Print Assumptions C23_bisection_partial.

(** More parts than vertices: a debug build always terminates the program. *)
Theorem C23_bisection_debug_refuted : forall rnd h M g k,
  well_formed false g -> size_vertex g <= M -> 0 < size_vertex g -> size_vertex g <= length (adj g) ->
  (forall x, x < size_vertex g -> rnd x = x) -> rnd (M / 2) < M -> size_vertex g < k ->
  recursive_graph_bisection rnd h M true g k = Abort.
Proof. exact bisection_aborts. Qed.
Print Assumptions C23_bisection_debug_refuted.

(** The empty graph: undefined behaviour in both build modes. *)
Theorem C23_bisection_empty_refuted : forall rnd h M dbg k, 0 < k ->
  recursive_graph_bisection rnd h M dbg graph_default k = Undef.
Proof. exact bisection_empty. Qed.
Print Assumptions C23_bisection_empty_refuted.

Example C23_hypotheses : well_formed false path4' /\ size_vertex path4' <= 100 /\ 0 < size_vertex path4' /\
  size_vertex path4' <= length (adj path4') /\ 100 / 2 < 100 /\
  (exists ss, recursive_graph_bisection (fun x => x) (fun x => x) 100 true path4' 3 = Ok ss /\
     map s_lg ss = [[3]; [0; 1]; [2]]) /\
  recursive_graph_bisection (fun x => x) (fun x => x) 100 true path4' 5 = Abort.
Proof.
  split; [exact path4'_wf|]. split; [exact path4'_le|]. split; [exact path4'_pos|]. split; [exact path4'_adj|].
  split; [change (50 < 100); lia|]. split; [eexists; split; vm_compute; reflexivity|vm_compute; reflexivity].
Qed.

(** ** C24 *)
(** Every call with two or more disjoint non-empty subgraphs reads out of range, in eccentricity_graph. *)
Theorem C24_multinode_undefined_refuted : forall h M dbg g iters parts ss,
  well_formed false g -> size_vertex g <= M -> 0 < size_vertex g -> size_vertex g <= length (adj g) ->
  connected g ->
  Forall2 (fun l s => ascending l /\ l <> [] /\ (forall v, In v l -> v < size_vertex g) /\
                      subgraph_new h M dbg g l 0 = Ok s) parts ss ->
  NoDup (concat parts) -> 1 < length ss ->
  multinode_level_set_expansion false h M dbg g iters ss = Undef.
Proof. exact multinode_refuted. Qed.
Print Assumptions C24_multinode_undefined_refuted.

Theorem C24_multinode_refuted : exists g parts, well_formed false g /\ connected g /\
  size_vertex g <= length (adj g) /\ splits (size_vertex g) parts /\
  forall h dbg iters, exists ss,
    Forall2 (fun l s => ascending l /\ l <> [] /\ (forall v, In v l -> v < size_vertex g) /\
                        subgraph_new h 100 dbg g l 0 = Ok s) parts ss /\
    multinode_level_set_expansion false h 100 dbg g iters ss = Undef.
Proof. exact multinode_witness. Qed.
Print Assumptions C24_multinode_refuted.

(** The iteration itself is right for any table of eccentricities that can be read. Full statement: the same
    about [multinode_level_set_expansion false h M dbg g (S iters) ss], whose table is never obtained. *)
Theorem C24_multinode_partial : forall h M dbg g T iters parts ss,
  well_formed false g -> size_vertex g <= M -> 0 < size_vertex g -> size_vertex g <= length (adj g) ->
  connected g -> table_ok (size_vertex g) M T ->
  Forall2 (fun l s => ascending l /\ l <> [] /\ (forall v, In v l -> v < size_vertex g) /\
                      subgraph_new h M dbg g l 0 = Ok s) parts ss ->
  NoDup (concat parts) -> 1 < length ss ->
  exists ss' parts', multinode_loop (S iters) h M dbg g T (repeat 0 (length ss)) ss = Ok ss' /\
    length ss' = length ss /\ Forall2 (induced_by dbg g) parts' ss' /\ splits (size_vertex g) parts' /\
    Forall (fun l => l <> []) parts'.
Proof. exact multinode_table. Qed.
Print Assumptions C24_multinode_partial.

(** A single subgraph is handed back unchanged, whether or not it covers the graph. *)
Theorem C24_multinode_single_partial : forall h M dbg lenient g iters s, is_parent h dbg s g = Ok true ->
  multinode_level_set_expansion lenient h M dbg g iters [s] = Ok [s].
Proof. exact multinode_single. Qed.
Print Assumptions C24_multinode_single_partial.

Example C24_hypotheses : table_ok (size_vertex path4') 100 [[0]; [1; 0]; [2; 1; 0]; [3; 2; 1; 0]] /\
  (forall h dbg, Forall2 (fun l s => ascending l /\ l <> [] /\
      (forall v, In v l -> v < size_vertex path4') /\ subgraph_new h 100 dbg path4' l 0 = Ok s)
      [[0; 1]; [2; 3]] [half1 h; half2 h]) /\
  NoDup (concat [[0; 1]; [2; 3]]) /\
  exists ss, multinode_loop 3 (fun x => x) 100 true path4' [[0]; [1; 0]; [2; 1; 0]; [3; 2; 1; 0]] [0; 0]
    [half1 (fun x => x); half2 (fun x => x)] = Ok ss /\ map s_lg ss = [[0; 1]; [2; 3]].
Proof.
  split; [|split; [|split]].
  - split; [reflexivity|]. change (size_vertex path4') with 4. intros u v Hv Hu.
    destruct u as [|[|[|[|u]]]]; [| | | |lia]; destruct v as [|[|[|[|v]]]]; try lia;
      eexists; (split; [reflexivity|]); lia.
  - exact halves.
  - repeat constructor; cbn; intuition lia.
  - eexists. split; vm_compute; reflexivity.
Qed.
