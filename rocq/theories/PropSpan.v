(** C120. Writing through the rows of a graph, and the subgraph's own view of its rows, degrees and edges. *)
From Verif Require Import Base ListFacts GraphModel GraphSpec TraversalModel SubgraphModel StorageModel SpanModel
  PropTraversalLemmas PropSubgraphLemmas PropStorageLemmas PropSpanLemmas.

(** [graph[i][k] = w] replaces that entry and nothing else, whatever the entries are. *)
Theorem C120_write : forall dbg g i k w, laid_out g -> i < size_vertex g -> k < length (row g i) ->
  exists g', row_write dbg g i k w = Ok g' /\ laid_out g' /\
    size_vertex g' = size_vertex g /\ (forall d, size_edge d g' = size_edge d g) /\
    (forall j, nth_error (row g' i) j = if j =? k then Some w else nth_error (row g i) j) /\
    (forall j, j < size_vertex g -> j <> i -> row g' j = row g j).
Proof. exact row_changed. Qed.
Print Assumptions C120_write.

(** Outside the row it is undefined; a vertex that does not exist is refused by a debug build only. *)
Theorem C120_write_outside : forall dbg g i k w, laid_out g ->
  (i < size_vertex g -> length (row g i) <= k -> row_write dbg g i k w = Undef) /\
  (size_vertex g <= i -> row_write dbg g i k w = if dbg then Abort else Undef).
Proof. exact row_outside. Qed.
Print Assumptions C120_write_outside.

(** Through front() and back(): the first and the last row. *)
Theorem C120_write_ends : forall dbg g k w, laid_out g -> 0 < size_vertex g ->
  front_write dbg g k w = row_write dbg g 0 k w /\ back_write dbg g k w = row_write dbg g (size_vertex g - 1) k w.
Proof. exact row_both. Qed.
Print Assumptions C120_write_ends.

(** Exactly when a directed graph stays valid. *)
Theorem C120_write_directed : forall dbg g i k w g', well_formed true g -> row_write dbg g i k w = Ok g' ->
  (well_formed true g' <-> w < size_vertex g /\ w <> i /\
     (0 < k -> nth (k - 1) (row g i) 0 < w) /\ (k + 1 < length (row g i) -> w < nth (k + 1) (row g i) 0)).
Proof. exact directed_write. Qed.
Print Assumptions C120_write_directed.

(** An undirected graph stays valid only when the entry keeps its value: no assignment through a row changes it into
    another valid graph. *)
Theorem C120_write_undirected : forall dbg g i k w g', well_formed false g -> row_write dbg g i k w = Ok g' ->
  (well_formed false g' <-> nth k (row g i) 0 = w).
Proof. exact undirected_write. Qed.
Print Assumptions C120_write_undirected.

(** What is left when the row stays ascending and in range: the new edge and the old one are each there in one direction
    only, as contains() reports. *)
Theorem C120_write_one_sided : forall dbg g i k w g', well_formed false g -> row_write dbg g i k w = Ok g' -> well_formed true g' ->
  let o := nth k (row g i) 0 in o <> w ->
  contains dbg g' (i, w) = Ok true /\ contains dbg g' (w, i) = Ok false /\
  contains dbg g' (i, o) = Ok false /\ contains dbg g' (o, i) = Ok true.
Proof. exact one_sided. Qed.
Print Assumptions C120_write_one_sided.

(** Any number of assignments: the vertices, the number of edges and every degree stay. *)
Theorem C120_writes : forall dbg ws g g', laid_out g -> row_writes dbg ws g = Ok g' ->
  laid_out g' /\ size_vertex g' = size_vertex g /\ (forall d, size_edge d g' = size_edge d g) /\
  (forall i, i < size_vertex g -> degree dbg g' i = degree dbg g i).
Proof. exact many_writes. Qed.
Print Assumptions C120_writes.

(** The path 0 - 1 - 2 - 3. *)
Example path4'_write : well_formed false path4' /\ laid_out path4' /\ 1 < size_vertex path4' /\ 1 < length (row path4' 1) /\
  row_write true path4' 1 1 3 = Ok (mkG [1; 0; 3; 1; 3; 2] [0; 1; 3; 5; 6]) /\ nth 1 (row path4' 1) 0 = 2 /\
  well_formed true (mkG [1; 0; 3; 1; 3; 2] [0; 1; 3; 5; 6]) /\
  row_write true path4' 1 2 3 = Undef /\ row_write true path4' 4 0 3 = Abort.
Proof.
  split; [exact path4'_wf|]. split; [exact (wf_laid_out _ _ path4'_wf)|]. split; [cbn; lia|]. split; [cbn; lia|].
  split; [reflexivity|]. split; [reflexivity|]. split; [|split; reflexivity].
  wf_rows [[1]; [0; 3]; [1; 3]; [2]].
Qed.

(** Four assignments exchange the ends of two edges: 0 - 1 and 2 - 3 become 0 - 2 and 1 - 3. *)
Example pairs_write : let g := mkG [1; 0; 3; 2] [0; 1; 2; 3; 4] in
  row_writes true [(0, 0, 2); (1, 0, 3); (2, 0, 0); (3, 0, 1)] g = Ok (mkG [2; 3; 0; 1] [0; 1; 2; 3; 4]) /\
  well_formed false g /\ well_formed false (mkG [2; 3; 0; 1] [0; 1; 2; 3; 4]).
Proof.
  split; [reflexivity|]. split; [wf_rows [[1]; [0]; [3]; [2]]|wf_rows [[2]; [3]; [0]; [1]]].
Qed.

(** Through a row of a subgraph: the members that do not concern the rows answer as before. *)
Theorem C120_sub_write : forall h dbg s i k w s', sub_write dbg s i k w = Ok s' -> laid_out (s_graph s) ->
  row_write dbg (s_graph s) i k w = Ok (s_graph s') /\ sub_size s' = sub_size s /\
  (forall g, is_parent h dbg s' g = is_parent h dbg s g) /\
  (forall j, local_global dbg s' j = local_global dbg s j /\ vertex_level dbg s' j = vertex_level dbg s j /\
             is_local dbg s' j = is_local dbg s j).
Proof. exact sub_write_members. Qed.
Print Assumptions C120_sub_write.

(** So a subgraph whose rows have been changed still claims its parent, and is no longer the subgraph of that parent. *)
Theorem C120_sub_write_stale : forall h M dbg g part n s i k w s',
  well_formed false g -> 0 < size_vertex g -> size_vertex g <= M -> ascending part ->
  (forall v, In v part -> v < size_vertex g) -> sub_state h M dbg g part n s ->
  sub_write dbg s i k w = Ok s' -> nth k (row (s_graph s) i) 0 <> w ->
  is_parent h dbg s' g = Ok true /\ ~ halo dbg g part n s'.
Proof. exact sub_write_stale. Qed.
Print Assumptions C120_sub_write_stale.

(** contains(): the edges of the parent between the vertices that are there. *)
Theorem C120_sub_contains : forall dbg g part n s i j u v, halo dbg g part n s -> i < sub_size s -> j < sub_size s -> i <> j ->
  local_global dbg s i = Ok u -> local_global dbg s j = Ok v ->
  exists b, sub_contains dbg s (i, j) = Ok b /\ (b = true <-> edge g u v).
Proof. exact sub_lookup. Qed.
Print Assumptions C120_sub_contains.

(** degree(): the number of neighbours in the parent that are in the subgraph. *)
Theorem C120_sub_degree : forall dbg g part n s i v, well_formed false g -> halo dbg g part n s -> i < sub_size s ->
  local_global dbg s i = Ok v ->
  exists l, kept_neighbours g part n v l /\ sub_degree dbg s i = Ok (length l).
Proof. exact sub_degree_kept. Qed.
Print Assumptions C120_sub_degree.

(** It is at most the degree in the parent, and less exactly when a neighbour is missing. *)
Theorem C120_sub_degree_parent : forall dbg g part n s i v, well_formed false g -> halo dbg g part n s -> i < sub_size s ->
  local_global dbg s i = Ok v -> v < size_vertex g ->
  exists a b, sub_degree dbg s i = Ok a /\ degree dbg g v = Ok b /\ a <= b /\
    (a = b <-> forall x, edge g v x -> exists j, j < sub_size s /\ local_global dbg s j = Ok x).
Proof. exact sub_degree_parent. Qed.
Print Assumptions C120_sub_degree_parent.

(** No neighbour is missing below the outermost level. *)
Theorem C120_sub_degree_inner : forall dbg g part n s i v l, well_formed false g -> halo dbg g part n s -> i < sub_size s ->
  local_global dbg s i = Ok v -> v < size_vertex g -> vertex_level dbg s i = Ok l -> l < n ->
  sub_degree dbg s i = degree dbg g v.
Proof. exact sub_degree_inner. Qed.
Print Assumptions C120_sub_degree_inner.

(** empty(), size(), size_edge(), front(), back(), at() and degree() in terms of the rows. *)
Theorem C120_sub_members : forall dbg s, laid_out (s_graph s) ->
  (sub_empty s = true <-> sub_size s = 0) /\ sub_sizes s = (sub_size s, sub_size_edge s) /\
  2 * sub_size_edge s <= length (concat (rows (s_graph s))) <= 2 * sub_size_edge s + 1 /\
  (0 < sub_size s -> sub_front dbg s = Ok (row (s_graph s) 0) /\ sub_back dbg s = Ok (row (s_graph s) (sub_size s - 1))) /\
  (forall i, i < sub_size s -> sub_at dbg s i = Ok (row (s_graph s) i) /\ sub_degree dbg s i = Ok (length (row (s_graph s) i))).
Proof. exact sub_ends. Qed.
Print Assumptions C120_sub_members.

(** swap() exchanges two subgraphs. *)
Theorem C120_sub_swap : forall s o, sub_swap s o = (o, s).
Proof. exact sub_exchange. Qed.
Print Assumptions C120_sub_swap.

(** shrink_to_fit() keeps the contents and never enlarges; when every request is followed the capacities are the
    sizes. *)
Theorem C120_sub_shrink : forall oa oo ol ov x, sub_roomy x ->
  let y := ss_shrink oa oo ol ov x in
  sub_roomy y /\ ss_sub y = ss_sub x /\ sg_graph (ss_graph y) = sg_graph (ss_graph x) /\
  (let '(c1, c2, c3, c4) := ss_capacity x in let '(d1, d2, d3, d4) := ss_capacity y in
   d1 <= c1 /\ d2 <= c2 /\ d3 <= c3 /\ d4 <= c4) /\
  (oa = true -> oo = true -> ol = true -> ov = true ->
   ss_capacity y = (size_vertex (sg_graph (ss_graph x)), size_edge false (sg_graph (ss_graph x)),
                    length (s_lg (ss_sub x)), length (s_level (ss_sub x)))).
Proof. exact sub_trimmed. Qed.
Print Assumptions C120_sub_shrink.

(** Vertex 1 of the path 0 - 1 - 2 - 3 with one level: vertices 1, 0 and 2. Vertex 2 has lost its neighbour 3. *)
Definition middle : subgraph := mkS 7 (mkG [1; 2; 0; 0] [0; 2; 3; 4]) [1; 0; 2] [0; 1; 1].

Example middle_meets : subgraph_new (fun x => x) 100 true path4' [1] 1 = Ok middle /\
  sub_state (fun x => x) 100 true path4' [1] 1 middle /\ halo true path4' [1] 1 middle /\
  local_global true middle 2 = Ok 2 /\ sub_degree true middle 2 = Ok 1 /\ degree true path4' 2 = Ok 2 /\
  vertex_level true middle 0 = Ok 0 /\ sub_degree true middle 0 = Ok 2 /\ degree true path4' 1 = Ok 2 /\
  sub_write true middle 1 0 2 = Ok (mkS 7 (mkG [1; 2; 2; 0] [0; 2; 3; 4]) [1; 0; 2] [0; 1; 1]) /\
  nth 0 (row (s_graph middle) 1) 0 = 0 /\ sub_contains true middle (0, 2) = Ok true /\ sub_contains true middle (1, 2) = Ok false.
Proof.
  assert (E : subgraph_new (fun x => x) 100 true path4' [1] 1 = Ok middle) by reflexivity.
  assert (S : sub_state (fun x => x) 100 true path4' [1] 1 middle).
  { apply state_new; [apply Nat.ltb_lt; reflexivity|exact E]. }
  split; [exact E|]. split; [exact S|]. split; [|repeat split; reflexivity].
  apply (sub_state_halo (fun x => x) 100); [exact path4'_wf|cbn; lia|apply Nat.leb_le; reflexivity| | |exact S].
  - repeat constructor.
  - intros v [<-|[]]. cbn. lia.
Qed.

Example room_meets : let x := mkSS (mkSG (s_graph middle) (mkStore 10 0) (mkStore 8 0)) middle (mkStore 5 0) (mkStore 5 0) in
  sub_roomy x /\ ss_capacity x = (7, 5, 5, 5) /\ ss_capacity (ss_shrink true true true true x) = (3, 2, 3, 3).
Proof. split; [|split; reflexivity]. unfold sub_roomy, roomy. cbn. lia. Qed.
