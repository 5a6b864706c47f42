(** Property theorems about Adjacency_Subgraph (C25 - C29, C63 - C65). *)
From Verif Require Import Base ListFacts Csr GraphModel GraphSpec PermFacts TraversalModel Bfs TraversalFacts
  SubgraphModel PropTraversalLemmas PropSubgraphLemmas.

(** ** C25 *)
Theorem C25_subgraph_induced : forall h M dbg g part,
  well_formed false g -> size_vertex g <= M -> 0 < size_vertex g ->
  size_vertex g <= length (adj g) -> ascending part -> (forall v, In v part -> v < size_vertex g) ->
  exists s, subgraph_new h M dbg g part 0 = Ok s /\ well_formed false (s_graph s) /\
    sub_size s = length part /\
    (forall i, i < length part -> local_global dbg s i = Ok (nth i part 0)) /\
    (forall i j, i < length part -> j < length part ->
       (edge (s_graph s) i j <-> edge g (nth i part 0) (nth j part 0))).
Proof. exact new_induced. Qed.
Print Assumptions C25_subgraph_induced.

(** Without the bound on the adjacency entries construction can read out of range; it does so exactly
    in these cases. *)
Theorem C25_subgraph_undefined : forall h M dbg g part,
  well_formed false g -> size_vertex g <= M -> 0 < M ->
  ascending part -> (forall v, In v part -> v < size_vertex g) ->
  (subgraph_new h M dbg g part 0 = Undef <->
   off g = [] \/ exists v, In v part /\ length (adj g) <= v).
Proof. exact new_undefined. Qed.
Print Assumptions C25_subgraph_undefined.

Example C25_hypotheses : well_formed false path4' /\ size_vertex path4' <= 100 /\ 0 < size_vertex path4' /\
  size_vertex path4' <= length (adj path4') /\ ascending [0; 1; 3] /\
  (forall v, In v [0; 1; 3] -> v < size_vertex path4') /\
  subgraph_new (fun x => x) 100 true path4' [0; 1; 3] 0 = Ok (mkS 7 (mkG [1; 0] [0; 1; 2; 2]) [0; 1; 3] []).
Proof.
  split; [exact path4'_wf|]. split; [change (4 <= 100); lia|]. split; [cbv; lia|]. split; [cbv; lia|].
  split; [repeat constructor|]. split; [cbn; intuition lia|]. reflexivity.
Qed.

(** The single edge 2 - 3 of a graph with four vertices: keeping vertex 3 reads past the end. *)
Example C25_undefined_hypotheses : let g := mkG [3; 2] [0; 0; 0; 1; 2] in
  well_formed false g /\ ascending [2; 3] /\ (forall v, In v [2; 3] -> v < size_vertex g) /\
  subgraph_new (fun x => x) 100 true g [2; 3] 0 = Undef.
Proof.
  split; [wf_rows [@nil nat; []; [3]; [2]]|]. split; [repeat constructor|]. split; [cbn; intuition lia|].
  reflexivity.
Qed.

(** ** C26 *)
(** Path 0 - 1 - 2 - 3 with the list 2, 0, 1: local vertices 0 and 1 stand for 2 and 0 and are joined. *)
Theorem C26_any_order_refuted : exists g part, well_formed false g /\ size_vertex g <= length (adj g) /\
  NoDup part /\ (forall v, In v part -> v < size_vertex g) /\
  forall h dbg, exists s, subgraph_new h 100 dbg g part 0 = Ok s /\
    local_global dbg s 0 = Ok 2 /\ local_global dbg s 1 = Ok 0 /\
    edge (s_graph s) 0 1 /\ ~ edge g 2 0.
Proof. exact new_order_refuted. Qed.
Print Assumptions C26_any_order_refuted.

(** What holds instead: the edges follow the sorted list while local_global follows the given one. Full
    statement: [edge (s_graph s) i j <-> edge g (nth i part 0) (nth j part 0)], false by the theorem
    above for lists that are not ascending. *)
Theorem C26_any_order_partial : forall h M dbg g part,
  well_formed false g -> size_vertex g <= M -> 0 < size_vertex g ->
  size_vertex g <= length (adj g) -> NoDup part -> (forall v, In v part -> v < size_vertex g) ->
  exists s, subgraph_new h M dbg g part 0 = Ok s /\ sub_size s = length part /\
    (forall i, i < length part -> local_global dbg s i = Ok (nth i part 0)) /\
    (forall i j, i < length part -> j < length part ->
       (edge (s_graph s) i j <-> edge g (nth i (sort_nat part) 0) (nth j (sort_nat part) 0))).
Proof. exact new_any_order. Qed.
Print Assumptions C26_any_order_partial.

Example C26_hypotheses : well_formed false path4' /\ size_vertex path4' <= length (adj path4') /\
  NoDup [3; 1; 0] /\ (forall v, In v [3; 1; 0] -> v < size_vertex path4') /\ sort_nat [3; 1; 0] = [0; 1; 3].
Proof.
  split; [exact path4'_wf|]. split; [cbn; lia|].
  split; [repeat constructor; cbn; intuition lia|]. split; [cbn; intuition lia|]. reflexivity.
Qed.

(** ** C27 *)
(** [sub_state h M dbg g part k s]: [s] was built from parent [g] and primary partition [part] by the
    constructor, update_levels and reorder calls that returned, [k] being the level count asked for
    last. [halo] is the specification: the subgraph induced by the vertices within distance [k]. *)
Theorem C27_levels : forall h M dbg g part k s,
  well_formed false g -> 0 < size_vertex g -> size_vertex g <= M -> ascending part ->
  (forall v, In v part -> v < size_vertex g) ->
  sub_state h M dbg g part k s -> halo dbg g part k s.
Proof. exact sub_state_halo. Qed.
Print Assumptions C27_levels.

Theorem C27_levels_direct : forall h M dbg g part k s1 s2,
  well_formed false g -> 0 < size_vertex g -> size_vertex g <= M -> ascending part ->
  (forall v, In v part -> v < size_vertex g) ->
  sub_state h M dbg g part k s1 -> sub_state h M dbg g part k s2 ->
  Permutation (s_lg s1) (s_lg s2).
Proof. exact sub_state_unique. Qed.
Print Assumptions C27_levels_direct.

(** Exactly when update_levels returns, aborts and has undefined behaviour. *)
Theorem C27_update_levels_outcome : forall h M dbg g part k0 k s gl,
  well_formed false g -> 0 < size_vertex g -> size_vertex g <= M -> ascending part ->
  (forall v, In v part -> v < size_vertex g) ->
  sub_state h M dbg g part k0 s -> k < M ->
  let c := list_max (s_level s) in
  ((exists s' gl', update_levels h M dbg g k s gl = Ok (s', gl')) /\
     ((c < k /\ (dbg = true -> 0 < sub_size s -> c + 1 < size_vertex g)) \/
      (k <= c /\ forall i l, i < sub_size s -> vertex_level dbg s i = Ok l -> l <= k ->
                   i < length (adj (s_graph s))))) \/
  (update_levels h M dbg g k s gl = Abort /\
     c < k /\ dbg = true /\ 0 < sub_size s /\ size_vertex g <= c + 1) \/
  (update_levels h M dbg g k s gl = Undef /\
     k <= c /\ exists i l, i < sub_size s /\ vertex_level dbg s i = Ok l /\ l <= k /\
                 length (adj (s_graph s)) <= i).
Proof. exact update_total. Qed.
Print Assumptions C27_update_levels_outcome.

Theorem C27_update_levels_returns : forall h M dbg g part k0 k s gl,
  well_formed false g -> 0 < size_vertex g -> size_vertex g <= M -> ascending part ->
  (forall v, In v part -> v < size_vertex g) ->
  sub_state h M dbg g part k0 s -> k < M ->
  (dbg = true -> list_max (s_level s) + 1 < size_vertex g) ->
  sub_size s <= length (adj (s_graph s)) ->
  exists s' gl', update_levels h M dbg g k s gl = Ok (s', gl') /\ halo dbg g part k s'.
Proof. exact update_returns. Qed.
Print Assumptions C27_update_levels_returns.

(** Partition {0} of the path 0 - 1 - 2. In a debug build, two extra levels followed by a request for a
    third one trips the range assertion of level_traversal. *)
Theorem C27_update_levels_refuted : exists g part, well_formed false g /\ connected g /\ ascending part /\
  (forall v, In v part -> v < size_vertex g) /\
  forall h, exists s, subgraph_new h 100 true g part 2 = Ok s /\
    forall gl, update_levels h 100 true g 3 s gl = Abort.
Proof. exact update_abort_witness. Qed.
Print Assumptions C27_update_levels_refuted.

(** The same partition without extra levels: asking again for none reads past the end of the adjacency. *)
Theorem C27_remove_levels_refuted : exists g part, well_formed false g /\ connected g /\ ascending part /\
  (forall v, In v part -> v < size_vertex g) /\
  forall h dbg, exists s, subgraph_new h 100 dbg g part 0 = Ok s /\
    forall gl, update_levels h 100 dbg g 0 s gl = Undef.
Proof. exact update_undef_witness. Qed.
Print Assumptions C27_remove_levels_refuted.

Example C27_hypotheses : well_formed false path3' /\ ascending [0] /\
  (forall v, In v [0] -> v < size_vertex path3') /\
  sub_state (fun x => x) 100 false path3' [0] 2 (path3_sub2 1) /\
  sub_state (fun x => x) 100 false path3' [0] 1 (mkS 1 (mkG [1; 0] [0; 1; 2]) [0; 1] [0; 1]).
Proof.
  assert (H : sub_state (fun x => x) 100 false path3' [0] 2 (path3_sub2 1)).
  { apply state_new; [lia|]. exact (path3_new2 (fun x => x) false). }
  split; [exact path3'_wf|]. split; [exact one0_asc|]. split; [exact one0_lt|]. split; [exact H|].
  eapply state_update with (gl := None); [exact H|lia|]. vm_compute. reflexivity.
Qed.

Example C27_returns_hypotheses : sub_state (fun x => x) 100 true path4' [1; 2] 0
    (mkS 7 (mkG [1; 0] [0; 1; 2]) [1; 2] []) /\
  update_levels (fun x => x) 100 true path4' 1 (mkS 7 (mkG [1; 0] [0; 1; 2]) [1; 2] []) None =
    Ok (mkS 7 (mkG [1; 2; 0; 3; 0; 1] [0; 2; 4; 5; 6]) [1; 2; 0; 3] [0; 0; 1; 1], None).
Proof. split; [apply state_new; [lia|]|]; vm_compute; reflexivity. Qed.

(** ** C28 *)
(** Full statement: in addition [is_parent h dbg o g = Ok true] for the returned subgraph [o]; that part is
    false, see below. *)
Theorem C28_subgraph_reorder_partial : forall h M dbg g part k s p,
  well_formed false g -> 0 < size_vertex g -> size_vertex g <= M -> ascending part ->
  (forall v, In v part -> v < size_vertex g) ->
  sub_state h M dbg g part k s -> is_perm (sub_size s) p ->
  sub_reorder_correct h M dbg g part k s p.
Proof. exact sub_reorder_state. Qed.
Print Assumptions C28_subgraph_reorder_partial.

(** The returned subgraph no longer reports the parent. *)
Theorem C28_subgraph_reorder_refuted :
  exists g part s p s' o, well_formed false g /\ connected g /\ ascending part /\
    (forall v, In v part -> v < size_vertex g) /\
    subgraph_new (fun x => x) 100 false g part 2 = Ok s /\ is_perm (sub_size s) p /\
    sub_reorder false s p = Ok (s', o) /\
    is_parent (fun x => x) false s g = Ok true /\ is_parent (fun x => x) false o g = Ok false.
Proof. exact sub_reorder_returned_refuted. Qed.
Print Assumptions C28_subgraph_reorder_refuted.

Example C28_hypotheses : sub_state (fun x => x) 100 false path3' [0] 2 (path3_sub2 1) /\
  is_perm (sub_size (path3_sub2 1)) [1; 2; 0] /\
  sub_reorder false (path3_sub2 1) [1; 2; 0] =
    Ok (mkS 1 (mkG [2; 2; 0; 1] [0; 1; 2; 4]) [2; 0; 1] [2; 0; 1], mkS 0 path3' [0; 1; 2] [0; 1; 2]).
Proof.
  split; [apply state_new; [lia|]; exact (path3_new2 (fun x => x) false)|].
  split; [|reflexivity].
  apply Permutation_sym. change (Permutation [0; 1; 2] ([1; 2] ++ [0])). apply Permutation_cons_append.
Qed.

(** ** C29 *)
(** Full statement: in addition [is_parent h dbg s g2 = Ok false] for every other graph [g2]; that part is
    false, see below. *)
Theorem C29_is_parent_partial : forall h M dbg g part k s,
  well_formed false g -> 0 < size_vertex g -> size_vertex g <= M -> ascending part ->
  (forall v, In v part -> v < size_vertex g) ->
  sub_state h M dbg g part k s -> is_parent h dbg s g = Ok true.
Proof. exact is_parent_self. Qed.
Print Assumptions C29_is_parent_partial.

(** With an injective std::hash, graphs that agree in edge count and in the degrees of the first and last
    vertex but differ in vertex count are told apart. *)
Theorem C29_is_parent_counts_partial : forall h M dbg g g2 part k s,
  (forall x y, h x = h y -> x = y) ->
  well_formed false g -> 0 < size_vertex g -> size_vertex g <= M -> ascending part ->
  (forall v, In v part -> v < size_vertex g) -> sub_state h M dbg g part k s ->
  well_formed false g2 -> 0 < size_vertex g2 ->
  size_edge false g2 = size_edge false g ->
  length (row g2 0) = length (row g 0) ->
  length (row g2 (size_vertex g2 - 1)) = length (row g (size_vertex g - 1)) ->
  size_vertex g2 <> size_vertex g -> is_parent h dbg s g2 = Ok false.
Proof. exact is_parent_counts. Qed.
Print Assumptions C29_is_parent_counts_partial.

(** The paths 0 - 1 - 2 - 3 and 0 - 2 - 1 - 3 are confused, whatever std::hash<std::size_t> is. *)
Theorem C29_is_parent_refuted : exists g1 g2 part, well_formed false g1 /\ well_formed false g2 /\
  size_vertex g1 = size_vertex g2 /\ edge g1 0 1 /\ ~ edge g2 0 1 /\
  forall h dbg, exists s, subgraph_new h 100 dbg g1 part 0 = Ok s /\
    is_parent h dbg s g1 = Ok true /\ is_parent h dbg s g2 = Ok true.
Proof. exact is_parent_refuted. Qed.
Print Assumptions C29_is_parent_refuted.

Example C29_hypotheses : sub_state (fun x => x) 100 false path3' [0] 2 (path3_sub2 1) /\
  let g2 := mkG [1; 0; 3; 2] [0; 1; 2; 3; 4] in
  well_formed false g2 /\ size_edge false g2 = size_edge false path3' /\
  length (row g2 0) = length (row path3' 0) /\
  length (row g2 (size_vertex g2 - 1)) = length (row path3' (size_vertex path3' - 1)) /\
  size_vertex g2 <> size_vertex path3'.
Proof.
  split; [apply state_new; [lia|]; exact (path3_new2 (fun x => x) false)|].
  split; [wf_rows [[1]; [0]; [3]; [2]]|]. repeat split; cbn; lia.
Qed.

(** ** C63 *)
Theorem C63_global_to_local : forall h M dbg g part k0 k s gl0 s' gl',
  well_formed false g -> 0 < size_vertex g -> size_vertex g <= M -> ascending part ->
  (forall v, In v part -> v < size_vertex g) ->
  sub_state h M dbg g part k0 s -> k < M ->
  update_levels h M dbg g k s (Some gl0) = Ok (s', gl') ->
  exists m, gl' = Some m /\ length m = size_vertex g /\
    (forall i v, i < sub_size s' -> local_global dbg s' i = Ok v -> nth_error m v = Some i) /\
    (forall v, v < size_vertex g -> (forall i, i < sub_size s' -> local_global dbg s' i <> Ok v) ->
       nth_error m v = Some M).
Proof. exact update_map. Qed.
Print Assumptions C63_global_to_local.

Example C63_hypotheses : sub_state (fun x => x) 100 true path4' [1] 0
    (mkS 7 (mkG [] [0; 0]) [1] []) /\
  update_levels (fun x => x) 100 true path4' 1 (mkS 7 (mkG [] [0; 0]) [1] []) (Some [9; 9]) =
    Ok (mkS 7 (mkG [1; 2; 0; 0] [0; 2; 3; 4]) [1; 0; 2] [0; 1; 1], Some [1; 0; 2; 100]).
Proof. split; [apply state_new; [lia|]|]; vm_compute; reflexivity. Qed.

(** ** C64 *)
(** Full statement: [sub_at dbg s i = Abort] for every [dbg] when [sub_size s <= i]; a release build does
    not check, see below. *)
Theorem C64_subgraph_at_partial : forall dbg s i, well_formed false (s_graph s) -> off (s_graph s) <> [] ->
  (i < sub_size s -> sub_at dbg s i = Ok (row (s_graph s) i)) /\
  (sub_size s <= i -> sub_at dbg s i = if dbg then Abort else Undef).
Proof. exact sub_at_cases. Qed.
Print Assumptions C64_subgraph_at_partial.

Theorem C64_subgraph_at_refuted : exists s i, well_formed false (s_graph s) /\ sub_size s <= i /\
  sub_at false s i = Undef.
Proof. exact sub_at_refuted. Qed.
Print Assumptions C64_subgraph_at_refuted.

Example C64_hypotheses : well_formed false (s_graph (path3_sub2 1)) /\ off (s_graph (path3_sub2 1)) <> [] /\
  sub_at false (path3_sub2 1) 1 = Ok [0; 2].
Proof. split; [exact path3'_wf|]. split; [discriminate|reflexivity]. Qed.

(** ** C65 *)
Theorem C65_subgraph_shrink : forall h M dbg g part k s n,
  well_formed false g -> 0 < size_vertex g -> size_vertex g <= M -> ascending part ->
  (forall v, In v part -> v < size_vertex g) ->
  sub_state h M dbg g part k s -> n <= sub_size s ->
  exists s', sub_resize h false dbg s n = Ok s' /\ is_parent h dbg s' g = Ok true /\ shrunk dbg s s' n.
Proof. exact sub_resize_state. Qed.
Print Assumptions C65_subgraph_shrink.

Theorem C65_subgraph_grow : forall h dbg s n, well_formed false (s_graph s) -> sub_size s < n ->
  exists s', sub_resize h false dbg s n = Ok s' /\ sub_size s' = n /\ s_hash s' = 0 /\
    (forall i j, edge (s_graph s') i j <-> edge (s_graph s) i j).
Proof. exact sub_resize_grow. Qed.
Print Assumptions C65_subgraph_grow.

Example C65_hypotheses : sub_state (fun x => x) 100 false path3' [0] 2 (path3_sub2 1) /\
  sub_resize (fun x => x) false false (path3_sub2 1) 2 = Ok (mkS 1 (mkG [1; 0] [0; 1; 2]) [0; 1] [0; 1]).
Proof. split; [apply state_new; [lia|]; exact (path3_new2 (fun x => x) false)|reflexivity]. Qed.
