(** Model of the rows handed out for writing by Adjacency_Graph and Adjacency_Subgraph, and of the members of
    Adjacency_Subgraph that pass a call on to the graph or exchange and trim its members. A row is a std::span: it has no
    range check, and an assignment outside it is undefined behaviour. *)
From Verif Require Import Base GraphModel SubgraphModel StorageModel.

(** [graph[i][k] = w]: the mutable operator[] of adjacency_graph.hpp 131-136. *)
Definition row_write (dbg : bool) (g : graph) (i k w : nat) : res graph :=
  do _ <- ASSERT_DEBUG dbg (i <? size_vertex g);
  do r <- adjacency_iter g i;
  if k <? snd r - fst r then do a <- vset (adj g) (fst r + k) w; Ok (mkG a (off g)) else Undef.

(** [graph.front()[k] = w]: adjacency_graph.hpp 151-154. *)
Definition front_write (dbg : bool) (g : graph) (k w : nat) : res graph :=
  do _ <- ASSERT_DEBUG dbg (negb (g_empty g));
  row_write dbg g 0 k w.

(** [graph.back()[k] = w]: adjacency_graph.hpp 169-172. *)
Definition back_write (dbg : bool) (g : graph) (k w : nat) : res graph :=
  do _ <- ASSERT_DEBUG dbg (negb (g_empty g));
  if size_vertex g =? 0 then Undef   (* index wraps to the largest std::size_t *)
  else row_write dbg g (size_vertex g - 1) k w.

(** One assignment after another, each [((i, k), w)]: adjacency_graph.hpp 131-136. *)
Definition row_writes (dbg : bool) (ws : list (nat * nat * nat)) (g : graph) : res graph :=
  forM ws (fun x g => row_write dbg g (fst (fst x)) (snd (fst x)) (snd x)) g.

(** [subgraph[i][k] = w]: adjacency_subgraph.hpp 125. *)
Definition sub_write (dbg : bool) (s : subgraph) (i k w : nat) : res subgraph :=
  do g <- row_write dbg (s_graph s) i k w; Ok (mkS (s_hash s) g (s_lg s) (s_level s)).

(** front(), back(): adjacency_subgraph.hpp 131-149. *)
Definition sub_front (dbg : bool) (s : subgraph) : res (list nat) := g_front dbg (s_graph s).
Definition sub_back (dbg : bool) (s : subgraph) : res (list nat) := g_back dbg (s_graph s).

(** empty(), size_edge(), size(): adjacency_subgraph.hpp 174, 186, 192. *)
Definition sub_empty (s : subgraph) : bool := g_empty (s_graph s).
Definition sub_size_edge (s : subgraph) : nat := size_edge false (s_graph s).
Definition sub_sizes (s : subgraph) : nat * nat := (size_vertex (s_graph s), size_edge false (s_graph s)).

(** contains(edge), degree(i): adjacency_subgraph.hpp 270, 281. *)
Definition sub_contains (dbg : bool) (s : subgraph) (e : nat * nat) : res bool := contains dbg (s_graph s) e.
Definition sub_degree (dbg : bool) (s : subgraph) (i : nat) : res nat := degree dbg (s_graph s) i.

(** swap(graph_other) of the graphs and of the subgraphs, member by member: adjacency_graph.hpp 288-291 and
    adjacency_subgraph.hpp 254-259. *)
Definition g_swap (g o : graph) : graph * graph := (mkG (adj o) (off o), mkG (adj g) (off g)).
Definition sub_swap (s o : subgraph) : subgraph * subgraph :=
  let '(g, g') := g_swap (s_graph s) (s_graph o) in
  (mkS (s_hash o) g (s_lg o) (s_level o), mkS (s_hash s) g' (s_lg s) (s_level s)).

(** shrink_to_fit() of a subgraph: adjacency_subgraph.hpp 216-220; [oa], [oo], [ol] and [ov] say which of the requests
    are followed. *)
Definition ss_shrink (oa oo ol ov : bool) (x : ssub) : ssub :=
  mkSS (sg_shrink oa oo (ss_graph x)) (ss_sub x) (v_shrink ol (length (s_lg (ss_sub x))) (ss_lg x))
    (v_shrink ov (length (s_level (ss_sub x))) (ss_lev x)).
