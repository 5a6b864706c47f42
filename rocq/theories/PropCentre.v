(** Property C97: what the iterations of multinode_level_set_expansion do, and the checks of the partitioners.
    [centre T l v]: the first vertex of [l] with the smallest largest table entry; [nearest_parts g seeds parts]: parts
    of the vertices of [g] in which every vertex is with a nearest seed; [improve g T p q]: [q] are the nearest parts of
    the centres of [p]; [improved g T k p q]: [k] times in a row. *)
From Verif Require Import Base ListFacts Csr GraphModel GraphSpec TraversalModel Bfs TraversalFacts PropTraversalLemmas
  SubgraphModel PropSubgraphLemmas PartitionModel Bisection Multinode PropPartitionLemmas MultinodeCentre.

(** ** C97 *)
(** As in C24 for any table that can be read; the table of the code cannot (C16). Full statement: the same about
    [multinode_level_set_expansion false h M dbg g (S iters) ss]. *)
Theorem C97_centres_partial : forall h M dbg g T iters parts ss,
  well_formed false g -> size_vertex g <= M -> 0 < size_vertex g -> size_vertex g <= length (adj g) ->
  connected g -> table_ok (size_vertex g) M T ->
  Forall2 (fun l s => ascending l /\ l <> [] /\ (forall v, In v l -> v < size_vertex g) /\
                      subgraph_new h M dbg g l 0 = Ok s) parts ss ->
  NoDup (concat parts) -> 1 < length ss ->
  exists ss' parts' k, multinode_loop (S iters) h M dbg g T (repeat 0 (length ss)) ss = Ok ss' /\
    Forall2 (induced_by dbg g) parts' ss' /\ 0 < k <= S iters /\ improved g T k parts parts' /\
    (k < S iters -> improve g T parts' parts').
Proof. exact multinode_improves. Qed.
Print Assumptions C97_centres_partial.

(** Both build types refuse a list without subgraphs, subgraphs of other graphs, and zero parts. *)
Theorem C97_no_subgraphs : forall h M dbg lenient g iters, multinode_level_set_expansion lenient h M dbg g iters [] = Abort.
Proof. exact multinode_no_parts. Qed.
Print Assumptions C97_no_subgraphs.

Theorem C97_other_parent : forall h M dbg lenient g iters ss, well_formed false g ->
  (exists s, In s ss /\ is_parent h dbg s g = Ok false) ->
  multinode_level_set_expansion lenient h M dbg g iters ss = Abort.
Proof. exact multinode_strangers. Qed.
Print Assumptions C97_other_parent.

Theorem C97_zero_parts : forall rnd h M dbg g, recursive_graph_bisection rnd h M dbg g 0 = Abort.
Proof. exact bisection_zero. Qed.
Print Assumptions C97_zero_parts.

Example C97_hypotheses : table_ok 4 100 [[0]; [1; 0]; [2; 1; 0]; [3; 2; 1; 0]] /\
  centre [[0]; [1; 0]; [2; 1; 0]; [3; 2; 1; 0]] [0; 1; 3] 1 /\ radius [[0]; [1; 0]; [2; 1; 0]; [3; 2; 1; 0]] [0; 1; 3] 0 = 3 /\
  (forall h dbg, Forall2 (fun l s => ascending l /\ l <> [] /\
      (forall v, In v l -> v < size_vertex path4') /\ subgraph_new h 100 dbg path4' l 0 = Ok s)
      [[0; 1]; [2; 3]] [half1 h; half2 h]) /\
  is_parent (fun x => x) true (mkS 8 graph_default [] []) path4' = Ok false.
Proof.
  split; [|split; [|split; [|split]]].
  - split; [reflexivity|]. intros u v Hv Hu.
    destruct u as [|[|[|[|u]]]]; [| | | |lia]; destruct v as [|[|[|[|v]]]]; try lia;
      eexists; (split; [reflexivity|]); lia.
  - split; [cbn; auto|]. intros w [<-|[<-|[<-|[]]]]; vm_compute; lia.
  - reflexivity.
  - exact halves.
  - reflexivity.
Qed.
