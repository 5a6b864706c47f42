(** Model of src/graph/partition.cpp. [h] is std::hash<std::size_t>, [M] the largest std::size_t, [dbg]
    the macro DISA_DEBUG. *)
From Verif Require Import Base GraphModel TraversalModel SubgraphModel.

(** std::max_element over the subgraphs with the size comparison: partition.cpp 129-131. Position of the
    first largest element; [best] is the position found so far and [size] its size. *)
Fixpoint largest (i best size : nat) (ss : list subgraph) : nat :=
  match ss with
  | [] => best
  | s :: r => if size <? sub_size s then largest (i + 1) i (sub_size s) r else largest (i + 1) best size r
  end.

Definition max_subgraph (ss : list subgraph) : nat :=
  match ss with
  | [] => 0
  | s :: r => largest 1 0 (sub_size s) r
  end.

(** Distribution of the vertices over left_partition and right_partition: partition.cpp 138-140. *)
Definition split_step (dbg : bool) (s : subgraph) (levels : list nat) (middle : nat) (i : nat)
    (lr : list nat * list nat) : res (list nat * list nat) :=
  let '(l, r) := lr in
  do k <- vget levels i;
  do v <- local_global dbg s i;
  if k <=? middle then Ok (l ++ [v], r) else Ok (l, r ++ [v]).

(** Body of the while loop: partition.cpp 127-148. [rnd] is the conversion of an integer to double and back
    around std::ceil in line 135. The levels are those of the graph inside the subgraph; the functions of
    graph_utilities.hpp only use its size_vertex(), empty(), degree() and operator[]. *)
Definition bisect_step (rnd h : nat -> nat) (M : nat) (dbg : bool) (g : graph) (ss : list subgraph)
    : res (list subgraph) :=
  let k := max_subgraph ss in
  do split <- vget ss k;
  do p <- pseudo_peripheral_vertex M dbg (s_graph split) 0;
  do levels <- level_traversal M dbg (s_graph split) p M;
  do top <- vmax levels;
  do lr <- FOR (length levels) (split_step dbg split levels (rnd (top / 2))) ([], []);
  do sl <- subgraph_new h M dbg g (fst lr) 0;
  do ss' <- vset ss k sl;
  do sr <- subgraph_new h M dbg g (snd lr) 0;
  Ok (ss' ++ [sr]).

(** recursive_graph_bisection(graph, number_partitions): partition.cpp 113-150. The while loop counts
    [number_partitions - 1] down to zero. *)
Definition recursive_graph_bisection (rnd h : nat -> nat) (M : nat) (dbg : bool) (g : graph) (n : nat)
    : res (list subgraph) :=
  do _ <- ASSERT (0 <? n);
  do s <- subgraph_new h M dbg g (seq 0 (size_vertex g)) 0;
  FOR (n - 1) (fun _ ss => bisect_step rnd h M dbg g ss) [s].

(** vertex_eccentricity[upper][lower]: partition.cpp 82. *)
Definition ecc_get (T : list (list nat)) (u v : nat) : res nat :=
  do r <- vget T (if u <? v then v else u);
  vget r (if u <? v then u else v).

(** Largest table entry of local vertex [i0] against the others: partition.cpp 73-83. *)
Definition local_ecc (dbg : bool) (T : list (list nat)) (s : subgraph) (i0 : nat) : res nat :=
  FOR (sub_size s) (fun i1 e =>
    if i0 =? i1 then Ok e
    else
      do u <- local_global dbg s i0;
      do v <- local_global dbg s i1;
      do x <- ecc_get T u v;
      Ok (Nat.max x e)) 0.

(** Seed of one subgraph: partition.cpp 69-89. State: (seed, min_eccentricity). *)
Definition find_seed (M : nat) (dbg : bool) (T : list (list nat)) (s : subgraph) : res nat :=
  do r <- FOR (sub_size s) (fun i0 x =>
    let '(seed, mn) := x in
    do e <- local_ecc dbg T s i0;
    if e <? mn then do v <- local_global dbg s i0; Ok (v, e) else Ok (seed, mn)) (M, M);
  Ok (fst r).

(** vertex_subgraph[vertex_colors[i]].push_back(i): partition.cpp 99-100. *)
Definition collect (m : nat) (colors : list nat) : res (list (list nat)) :=
  FOR (length colors) (fun i vs =>
    do c <- vget colors i;
    do l <- vget vs c;
    vset vs c (l ++ [i])) (repeat [] m).

(** Iterations: partition.cpp 65-105. [iters] is the number of iterations left. *)
Fixpoint multinode_loop (iters : nat) (h : nat -> nat) (M : nat) (dbg : bool) (g : graph)
    (T : list (list nat)) (previous : list nat) (ss : list subgraph) : res (list subgraph) :=
  match iters with
  | 0 => Ok ss
  | S k =>
    do seed <- mapM (find_seed M dbg T) ss;
    if list_eq_dec Nat.eq_dec previous seed then Ok ss
    else
      do colors <- level_expansion M dbg g seed;
      do vs <- collect (length ss) colors;
      do ss' <- mapM (fun l => subgraph_new h M dbg g l 0) vs;
      multinode_loop k h M dbg g T seed ss'
  end.

(** multinode_level_set_expansion(graph, max_iter, subgraph_list): partition.cpp 46-106. The result is the
    new content of subgraph_list. [lenient] as in [eccentricity_graph]; the code is [lenient = false]. *)
Definition multinode_level_set_expansion (lenient : bool) (h : nat -> nat) (M : nat) (dbg : bool)
    (g : graph) (max_iter : nat) (ss : list subgraph) : res (list subgraph) :=
  do _ <- ASSERT (negb (is_nil ss));
  do b <- forM ss (fun s (b : bool) => if b then is_parent h dbg s g else Ok false) true;
  do _ <- ASSERT b;
  if length ss =? 1 then Ok ss
  else
    do T <- eccentricity_graph lenient M dbg g [];
    multinode_loop max_iter h M dbg g T (repeat 0 (length ss)) ss.
