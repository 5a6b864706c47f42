(** The unit tests of graphs, traversals, orderings and partitions (test/graph/) replayed on the model with the
    data of the tests. The tests are built with DISA_DEBUG (CMakeLists.txt 37); a death test is [Abort].
    Where the code strays outside a vector the lenient reading is replayed, and said so. Left out: the null pointer given to
    order_edge_vertex (test_edge.cpp 40), pointers not being modelled. Where a test runs on a subgraph made of every vertex of
    a graph in order, the graph may stand for it. *)
From Verif Require Import Base GraphModel TraversalModel ReorderModel SubgraphModel PartitionModel StorageModel SpanModel.

(** Stands for the largest std::size_t. *)
Definition top : nat := 1000.

(** The rows graph[0], graph[1], ... *)
Definition rows (g : graph) : res (list (list nat)) := mapM (subscript true g) (seq 0 (size_vertex g)).
Definition built (d : bool) (es : list (nat * nat)) : res graph := graph_of_list true d es.
Definition rows_of (r : res graph) : res (list (list nat)) := do g <- r; rows g.
Definition sizes (d : bool) (r : res graph) : res (nat * nat) := do g <- r; Ok (size_vertex g, size_edge d g).

(** test/graph/test_adjacency_graph.cpp 34-81: edge_list_construction. *)
Example edge_list_construction :
  sizes false (create_graph_hybrid true) = Ok (8, 12) /\
  rows_of (create_graph_hybrid true) =
    Ok [[1; 3]; [0; 2; 4]; [1; 5]; [0; 4; 6]; [1; 3; 5; 6; 7]; [2; 4; 7]; [3; 4; 7]; [4; 5; 6]].
Proof. vm_compute. auto. Qed.

(** test_adjacency_graph.cpp 87-117: at, access_operator. *)
Example at_and_access :
  let g := built false [(0, 1); (2, 1); (2, 3); (3, 0)] in
  rows_of g = Ok [[1; 3]; [0; 2]; [1; 3]; [0; 2]] /\
  (do g <- g; subscript true g top) = Abort /\ (do g <- g; subscript true g 4) = Abort /\
  (do g <- g; g_at true g 4) = Abort.
Proof. vm_compute. auto. Qed.

(** test_adjacency_graph.cpp 133-144: front, back. *)
Example front_and_back :
  (do g <- built true [(0, 1); (1, 2); (3, 2); (3, 0)]; g_front true g) = Ok [1] /\
  (do g <- built false [(0, 1); (2, 1); (2, 3); (3, 0)]; g_back true g) = Ok [0; 2].
Proof. vm_compute. auto. Qed.

(** test_adjacency_graph.cpp 154-216: empty, size_directed, size_undirected. *)
Example sizes_while_inserting : forall d,
  g_empty graph_default = true /\ sizes d (Ok graph_default) = Ok (0, 0) /\
  (do g <- built d [(0, 1)]; Ok (g_empty g)) = Ok false /\
  sizes d (built d [(0, 1)]) = Ok (2, 1) /\ sizes d (built d [(0, 1); (1, 2)]) = Ok (3, 2) /\
  sizes d (built d [(0, 1); (1, 2); (5, 6)]) = Ok (7, 3).
Proof. intros [|]; vm_compute; auto 10. Qed.

(** test_adjacency_graph.cpp 264-284: clear; the capacities are in ReplaySubgraph.v. *)
Example cleared : forall d, (do g <- built d [(0, 1); (2, 1); (2, 3); (3, 0)];
  let c := g_clear g in Ok (g_empty c, size_edge d c, size_vertex c)) = Ok (true, 0, 0).
Proof. intros [|]; reflexivity. Qed.

(** test_adjacency_graph.cpp 286-336: insert_directed. *)
Example insert_directed :
  let r := insert_all true true [(0, 1); (3, 4); (0, 4); (2, 3); (1, 2); (3, 6); (5, 6); (6, 0)] graph_default in
  let q := do x <- r; insert_all true true [(1, 2); (0, 3); (0, 2)] (fst x) in
  (do x <- r; Ok (snd x)) = Ok (repeat true 8) /\ sizes true (do x <- r; Ok (fst x)) = Ok (7, 8) /\
  (do x <- q; Ok (snd x)) = Ok [false; true; true] /\ sizes true (do x <- q; Ok (fst x)) = Ok (7, 10) /\
  rows_of (do x <- q; Ok (fst x)) = Ok [[1; 2; 3; 4]; [2]; [3]; [4; 6]; []; [6]; [0]] /\
  (do x <- q; insert true true (fst x) (1, 1)) = Abort.
Proof. vm_compute. auto 10. Qed.

(** test_adjacency_graph.cpp 338-395: insert_undirected. *)
Example insert_undirected :
  let r := insert_all true false [(0, 1); (3, 4); (0, 4); (2, 3); (1, 2); (3, 6); (5, 6)] graph_default in
  let q := do x <- r; insert_all true false [(1, 2); (0, 3); (0, 2)] (fst x) in
  (do x <- r; Ok (snd x)) = Ok (repeat true 7) /\ sizes false (do x <- r; Ok (fst x)) = Ok (7, 7) /\
  (do x <- q; Ok (snd x)) = Ok [false; true; true] /\ sizes false (do x <- q; Ok (fst x)) = Ok (7, 9) /\
  rows_of (do x <- q; Ok (fst x)) = Ok [[1; 2; 3; 4]; [0; 2]; [0; 1; 3]; [0; 2; 4; 6]; [0; 3]; [6]; [3; 5]] /\
  (do x <- q; insert true false (fst x) (1, 1)) = Abort.
Proof. vm_compute. auto 10. Qed.

(** test_adjacency_graph.cpp 397-411: erase_if_directed. The answer is built the way the test builds it; resize to the
    present size is the lenient reading. *)
Example erase_if_directed :
  rows_of (do g <- create_graph_structured true true 4; erase_if top Nat.even g) =
  rows_of (do a <- built true [(0, 2); (1, 3); (2, 4); (3, 5); (4, 6); (5, 7)]; resize false a 8).
Proof. vm_compute. reflexivity. Qed.

(** test_adjacency_graph.cpp 413-425: erase_if_undirected. The test compares the rows of its answer, one less than there
    are. *)
Example erase_if_undirected :
  (do l <- rows_of (do g <- create_graph_saad true; erase_if top Nat.odd g); Ok (firstn 7 l)) =
  rows_of (do a <- built false [(0, 3); (0, 4); (1, 3); (2, 5); (3, 4); (5, 6)]; resize false a 7).
Proof. vm_compute. reflexivity. Qed.

(** test_adjacency_graph.cpp 427-451: resize_directed; sizing down is the lenient reading. *)
Example resize_directed :
  sizes true (resize true graph_default 5) = Ok (5, 0) /\
  let g := do g <- create_graph_structured true true 4; resize false g 8 in
  sizes true g = Ok (8, 10) /\
  rows_of g = rows_of (do a <- built true [(0, 1); (0, 4); (1, 2); (1, 5); (2, 3); (2, 6); (3, 7); (4, 5); (5, 6); (6, 7)];
                       resize false a 8) /\
  sizes true (do g <- g; resize true g 0) = Ok (0, 0).
Proof. vm_compute. auto. Qed.

(** test_adjacency_graph.cpp 453-481: resize_undirected. *)
Example resize_undirected :
  sizes false (resize true graph_default 5) = Ok (5, 0) /\
  let g := do g <- built false [(0, 1); (1, 2); (2, 3); (3, 4); (0, 4); (0, 2); (0, 3); (1, 3); (1, 4); (2, 4)];
           resize false g 3 in
  sizes false g = Ok (3, 3) /\ rows_of g = Ok [[1; 2]; [0; 2]; [0; 1]] /\
  sizes false (do g <- g; resize true g 0) = Ok (0, 0).
Proof. vm_compute. auto. Qed.

(** test_adjacency_graph.cpp 483-507: swap. *)
Example swapped :
  let r := do x <- built false [(0, 1); (1, 2); (2, 3); (0, 3)]; do y <- built false [(0, 1); (1, 2); (0, 2)];
           Ok (g_swap x y) in
  let x := do r <- r; Ok (fst r) in let y := do r <- r; Ok (snd r) in
  sizes false x = Ok (3, 3) /\ sizes false y = Ok (4, 4) /\
  rows_of x = Ok [[1; 2]; [0; 2]; [0; 1]] /\ rows_of y = Ok [[1; 3]; [0; 2]; [1; 3]; [0; 2]].
Proof. vm_compute. auto. Qed.

(** test_adjacency_graph.cpp 513-545: contains_directed, contains_undirected. *)
Example contains_edges :
  (do g <- built true [(0, 1); (1, 0); (2, 1); (2, 3); (0, 3); (3, 1)];
   mapM (contains true g) [(0, 1); (1, 0); (1, 2); (2, 1); (2, 3); (3, 2); (0, 3); (3, 0); (1, 3); (3, 1); (0, 2); (2, 0)]) =
    Ok [true; true; false; true; true; false; true; false; false; true; false; false] /\
  (do g <- built false [(0, 1); (1, 2); (2, 3); (0, 3); (1, 3)];
   mapM (contains true g) [(0, 1); (1, 0); (1, 2); (2, 1); (2, 3); (3, 2); (0, 3); (3, 0); (1, 3); (3, 1); (0, 2); (2, 0)]) =
    Ok (repeat true 10 ++ [false; false]).
Proof. vm_compute. auto. Qed.

(** test_adjacency_graph.cpp 551-559: degree. *)
Example degrees :
  (do g <- create_graph_hybrid true; mapM (degree true g) [0; 3; 4]) = Ok [2; 3; 5] /\
  (do g <- create_graph_hybrid true; degree true g 50) = Abort.
Proof. vm_compute. auto. Qed.

(** test_adjacency_graph.cpp 561-655: reorder_directed, reorder_undirected. *)
Definition reordered (d : bool) (perm : list nat) : res graph :=
  do g <- built d [(0, 1); (1, 2); (2, 3); (3, 4); (0, 3); (0, 4)]; do r <- reorder true g perm; Ok (fst r).

Example reorder_refused : forall d,
  rows_of (do r <- reorder true graph_default []; Ok (fst r)) = Ok [] /\ reorder true graph_default [0; 1] = Abort /\
  reordered d [0; 1] = Abort /\ reordered d [1; 0; 3; 2; 5; 4] = Abort /\ reordered d [1; 3; 3; 2; 4] = Abort /\
  reordered d [1; 3; 9; 2; 4] = Abort.
Proof. intros [|]; vm_compute; auto 10. Qed.

Example reorder_values :
  sizes true (reordered true [2; 3; 4; 0; 1]) = Ok (5, 6) /\
  rows_of (reordered true [2; 3; 4; 0; 1]) = Ok [[1]; []; [0; 1; 3]; [4]; [0]] /\
  sizes false (reordered false [2; 3; 4; 0; 1]) = Ok (5, 6) /\
  rows_of (reordered false [2; 3; 4; 0; 1]) = Ok [[1; 2; 4]; [0; 2]; [0; 1; 3]; [2; 4]; [0; 3]].
Proof. vm_compute. auto. Qed.

(** test/graph/test_edge.cpp 31-39. *)
Example ordered_edges : order_edge_vertex (0, 1) = (0, 1) /\ order_edge_vertex (3, 2) = (2, 3).
Proof. auto. Qed.

(** *** test/graph/test_graph_utilities.cpp *)

(** 30-38: level_traversal_single_start_vertex. *)
Example level_traversal_single :
  (do g <- create_graph_saad true; level_traversal top true g 0 top) = Ok [0; 2; 2; 4; 4; 6; 1; 2; 1; 3; 3; 4; 3; 5; 5] /\
  (do g <- create_graph_saad true; level_traversal top true g 12 top) = Ok [3; 1; 3; 1; 2; 3; 3; 2; 2; 2; 1; 1; 0; 2; 2].
Proof. vm_compute. auto. Qed.

(** 40-68: level_traversal_multi_start_vertex, level_traversal_end_at_level. *)
Definition three_starts : list nat := upd (upd (upd (repeat top 15) 0 0) 1 0) 3 0.

Example level_traversal_several :
  (do g <- create_graph_saad true; level_traversal_queue top true g [0; 1; 3] three_starts top) =
    Ok [0; 0; 2; 0; 2; 2; 1; 1; 1; 2; 1; 1; 1; 2; 1] /\
  (do g <- create_graph_saad true; level_traversal top true g 0 5) = Ok [0; 2; 2; 4; 4; top; 1; 2; 1; 3; 3; 4; 3; 5; 5] /\
  (do g <- create_graph_saad true; level_traversal_queue top true g [0; 1; 3] three_starts 1) =
    Ok [0; 0; top; 0; top; top; 1; 1; 1; top; 1; 1; 1; top; 1].
Proof. vm_compute. auto. Qed.

(** 70-87: level_traversal_death. *)
Example level_traversal_death :
  level_traversal top true graph_default 1 top = Abort /\
  (do g <- create_graph_saad true; level_traversal top true g 50 top) = Abort /\
  level_traversal_queue top true graph_default [] (repeat top 15) top = Abort /\
  (do g <- create_graph_saad true; level_traversal_queue top true g [] (repeat top 14) top) = Abort /\
  (do g <- create_graph_saad true; level_traversal_queue top true g [] (upd (repeat top 15) 0 (top - 1)) top) = Abort.
Proof. vm_compute. auto 10. Qed.

(** 89-111: level_expansion. *)
Definition grid5 : res graph := create_graph_structured true false 5.

Example level_expansion_test :
  (do g <- grid5; level_expansion top true g [6; 8; 16; 18]) =
    Ok [0; 0; 1; 1; 1; 0; 0; 0; 1; 1; 2; 0; 2; 1; 3; 2; 2; 2; 3; 3; 2; 2; 3; 3; 3] /\
  (do g <- grid5; do s <- subgraph_new (fun x => x) top true g (seq 0 25) 0; level_expansion top true (s_graph s) [20; 12; 4]) =
    Ok [1; 1; 2; 2; 2; 1; 1; 1; 2; 2; 1; 1; 1; 1; 2; 0; 1; 1; 1; 1; 0; 0; 1; 1; 1] /\
  level_expansion top true graph_default [6; 8; 16; 18] = Abort /\
  (do g <- grid5; level_expansion top true g []) = Abort /\ (do g <- grid5; level_expansion top true g [36]) = Abort.
Proof. vm_compute. auto 10. Qed.

(** 113-128: pseudo_peripheral_vertex. *)
Example pseudo_peripheral_test :
  let longer := do g <- create_graph_saad true; do r <- insert true false g (0, 15); Ok (fst r) in
  (do g <- create_graph_saad true; pseudo_peripheral_vertex top true g 11) = Ok 5 /\
  (do g <- create_graph_saad true; pseudo_peripheral_vertex top true g 2) = Ok 0 /\
  (do g <- longer; pseudo_peripheral_vertex top true g 5) = Ok 15 /\
  pseudo_peripheral_vertex top true graph_default 0 = Abort /\
  (do g <- longer; pseudo_peripheral_vertex top true g 16) = Abort.
Proof. vm_compute. auto 10. Qed.

(** 130-141: eccentricity_graph. The code reads past the end (C16); with the lenient reading the rows are those of the
    single calls, as the test expects. *)
Example eccentricity_graph_test :
  (do g <- grid5; eccentricity_graph true top true g []) =
  (do g <- grid5; mapM (fun i => eccentricity_vertex true top true g i [] (i + 1)) (seq 0 25)).
Proof. vm_compute. reflexivity. Qed.

(** 143-165: eccentricity_vertex_breadth_first; the second call is the lenient reading, of which the test sees the first 15
    elements. *)
Example eccentricity_vertex_test :
  (do g <- grid5; eccentricity_vertex false top true g 0 [] top) =
    Ok [0; 1; 2; 3; 4; 1; 2; 3; 4; 5; 2; 3; 4; 5; 6; 3; 4; 5; 6; 7; 4; 5; 6; 7; 8] /\
  (do g <- grid5; do l <- eccentricity_vertex true top true g 12 [] 15; Ok (firstn 15 l)) =
    Ok [4; 3; 2; 3; 4; 3; 2; 1; 2; 3; 2; 1; 0; 1; 2] /\
  eccentricity_vertex false top true graph_default 0 [] top = Abort /\
  (do g <- grid5; eccentricity_vertex false top true g 1500 [] top) = Abort /\
  (do g <- grid5; eccentricity_vertex false top true g 2 [] 900) = Abort /\
  (do g <- grid5; eccentricity_vertex false top true g 10 [] 1) = Abort.
Proof. vm_compute. auto 10. Qed.

(** *** test/graph/test_reorder.cpp *)

(** 43-69: breadth_first. *)
Example breadth_first_test :
  let g := built false [(0, 1); (0, 3); (1, 2); (1, 4); (2, 5); (3, 4); (3, 6); (4, 5); (4, 6); (4, 7); (5, 7); (6, 7)] in
  (do g <- g; breadth_first top true g 5) = Ok [7; 4; 1; 5; 2; 0; 6; 3] /\
  (do g <- g; breadth_first top true g 10) = Abort /\ breadth_first top true graph_default 0 = Ok [].
Proof. vm_compute. auto. Qed.

(** std::sort of the few neighbours of a vertex: an insertion sort by degree, stable. *)
Fixpoint by_degree_insert (x : nat * nat) (l : list (nat * nat)) : list (nat * nat) :=
  match l with
  | [] => [x]
  | y :: r => if snd x <=? snd y then x :: l else y :: by_degree_insert x r
  end.
Definition by_degree (l : list (nat * nat)) : list (nat * nat) := fold_right by_degree_insert [] l.

(** 71-117: cuthill_mckee. *)
Example cuthill_mckee_test :
  (do g <- create_graph_saad true; cuthill_mckee by_degree top true g top) =
    Ok [0; 5; 3; 11; 9; 14; 1; 4; 2; 6; 7; 10; 8; 12; 13] /\
  (do g <- create_graph_saad true; cuthill_mckee by_degree top true g 2) =
    Ok [4; 8; 0; 14; 6; 12; 1; 3; 5; 2; 7; 10; 11; 9; 13] /\
  (do g <- create_graph_saad true; cuthill_mckee_reverse by_degree top true g 36) = Abort /\
  cuthill_mckee_reverse by_degree top true graph_default top = Ok [].
Proof. vm_compute. auto. Qed.

(** 119-165: cuthill_mckee_reverse. *)
Example cuthill_mckee_reverse_test :
  (do g <- create_graph_saad true; cuthill_mckee_reverse by_degree top true g top) =
    Ok [14; 9; 11; 3; 5; 0; 13; 10; 12; 8; 7; 4; 6; 2; 1] /\
  (do g <- create_graph_saad true; cuthill_mckee_reverse by_degree top true g 2) =
    Ok [10; 6; 14; 0; 8; 2; 13; 11; 9; 12; 7; 4; 3; 5; 1] /\
  greedy_multicolouring true graph_default = Ok [].
Proof. vm_compute. auto. Qed.

(** 171-195: greedy_multicolouring. *)
Example greedy_multicolouring_test :
  (do g <- create_graph_saad true; greedy_multicolouring true g) =
    Ok [0; 1; 2; 3; 4; 5; 6; 9; 12; 7; 13; 8; 10; 11; 14].
Proof. vm_compute. reflexivity. Qed.

(** *** test/graph/test_partition.cpp *)

Definition split_line (a b : list nat) : res (list subgraph) :=
  do g <- create_graph_line top true false 10;
  do x <- subgraph_new (fun x => x) top true g a 0; do y <- subgraph_new (fun x => x) top true g b 0;
  multinode_level_set_expansion true (fun x => x) top true g 2 [x; y].

(** The test asks that some vertex is in a part; here every vertex is in exactly one. *)
Definition covered (n : nat) (l : list subgraph) : bool :=
  forallb (fun v => length (filter (Nat.eqb v) (flat_map s_lg l)) =? 1) (seq 0 n).
Definition four_to_six (s : subgraph) : bool :=
  let n := sub_size s in let e := size_edge false (s_graph s) in
  ((n =? 4) || (n =? 5) || (n =? 6)) && ((e =? 3) || (e =? 4) || (e =? 5)).

(** 30-76: multinode_level_set_expansion, with the lenient table of distances (C24). *)
Example multinode_test :
  (do l <- split_line [0; 1; 2; 3; 4; 5; 6] [7; 8; 9]; Ok (length l, forallb four_to_six l, covered 10 l)) = Ok (2, true, true) /\
  (do l <- split_line [0; 1; 2] [3; 4; 5; 6; 7; 8; 9]; Ok (length l, forallb four_to_six l, covered 10 l)) = Ok (2, true, true) /\
  (do g <- create_graph_line top true false 10; multinode_level_set_expansion true (fun x => x) top true g 4 []) = Abort /\
  (do l <- split_line [0; 1; 2] [3; 4; 5; 6; 7; 8; 9];
   multinode_level_set_expansion true (fun x => x) top true graph_default 4 l) = Abort.
Proof. vm_compute. auto. Qed.

(** 78-140: recursive_graph_bisection of the line of 40 vertices; the middle level is a small number, which a double holds exactly. *)
Definition bisected (rnd : nat -> nat) (n : nat) : res (list (nat * nat)) :=
  do g <- create_graph_line top true false 40; do l <- recursive_graph_bisection rnd (fun x => x) top true g n;
  Ok (map (fun s => (sub_size s, size_edge false (s_graph s))) l).

Example bisection_test :
  bisected (fun x => x) 2 = Ok [(20, 19); (20, 19)] /\
  bisected (fun x => x) 3 = Ok [(10, 9); (20, 19); (10, 9)] /\
  bisected (fun x => x) 4 = Ok [(10, 9); (10, 9); (10, 9); (10, 9)] /\
  bisected (fun x => x) 5 = Ok [(5, 4); (10, 9); (10, 9); (10, 9); (5, 4)] /\
  (do g <- create_graph_line top true false 40;
   mapM (fun n => do l <- recursive_graph_bisection (fun x => x) (fun x => x) top true g n; Ok (covered 40 l)) [2; 3; 4; 5]) =
    Ok (repeat true 4).
Proof. vm_compute. auto. Qed.
