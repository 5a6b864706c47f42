(** The unit tests of subgraphs (test/graph/test_adjacency_subgraph.cpp) and of the storage of graphs replayed on the model;
    see ReplayGraph.v. The hash of a number is taken as a multiple of it. *)
From Verif Require Import Base GraphModel SubgraphModel StorageModel SpanModel ReplayGraph.

Definition hash (n : nat) : nat := 3 * n + 1.
Definition sub (g : res graph) (part : list nat) (levels : nat) : res subgraph :=
  do g <- g; subgraph_new hash top true g part levels.
Definition saad : res graph := create_graph_saad true.
Definition grid (n : nat) : res graph := create_graph_structured true false n.
Definition sub_sizes (r : res subgraph) : res (nat * nat) := do s <- r; Ok (sub_size s, size_edge false (s_graph s)).
Definition sub_rows (r : res subgraph) : res (list (list nat)) := do s <- r; mapM (sub_at true s) (seq 0 (sub_size s)).
Definition globals (r : res subgraph) : res (list nat) := do s <- r; mapM (local_global true s) (seq 0 (sub_size s)).
Definition locals (r : res subgraph) : res (list bool) := do s <- r; mapM (is_local true s) (seq 0 (sub_size s)).
Definition levels_of (r : res subgraph) : res (list nat) := do s <- r; mapM (vertex_level true s) (seq 0 (sub_size s)).
Definition degrees_of (r : res subgraph) : res (list nat) := do s <- r; mapM (degree true (s_graph s)) (seq 0 (sub_size s)).
Definition parent (r : res subgraph) (g : res graph) : res bool := do s <- r; do g <- g; is_parent hash true s g.

(** 28-62: constructor_no_level. *)
Example constructor_no_level :
  let s := sub saad [0; 6; 8; 13; 14] 0 in
  sub_rows s = Ok [[1; 2]; [0; 2]; [0; 1]; [4]; [3]] /\ locals s = Ok (repeat true 5) /\ globals s = Ok [0; 6; 8; 13; 14].
Proof. vm_compute. auto. Qed.

(** 64-155: constructor_level. *)
Example constructor_level :
  let s := sub saad [0; 6; 8] 2 in
  parent s saad = Ok true /\ parent s (Ok graph_default) = Ok false /\
  globals s = Ok [0; 6; 8; 1; 2; 7; 9; 10; 12] /\ levels_of s = Ok [0; 0; 0; 1; 1; 1; 2; 2; 2] /\
  locals s = Ok (repeat true 3 ++ repeat false 6) /\
  sub_rows s = Ok [[1; 2]; [0; 2; 4; 5]; [0; 1; 3; 5]; [2; 5; 7; 8]; [1; 5; 6]; [1; 2; 3; 4; 6; 7]; [4; 5; 7]; [3; 5; 6; 8]; [3; 7]].
Proof. vm_compute. auto 10. Qed.

(** 157-162: constructor_death. *)
Example constructor_death :
  sub (grid 2) [0; 1; 2; 3; 4] 0 = Abort /\ sub (grid 2) [0; 0; 1] 0 = Abort /\ sub (grid 2) [0; 5] 0 = Abort.
Proof. vm_compute. auto. Qed.

(** 207-220: clear; 222-260: resize, sizing down is the lenient reading. *)
Example cleared_subgraph :
  let s := do s <- sub saad [0; 6; 8; 13; 14] 0; sub_clear hash true s in
  sub_sizes s = Ok (0, 0) /\ parent s (Ok graph_default) = Ok true.
Proof. vm_compute. auto. Qed.

Example resized_subgraph :
  let s := sub saad [0; 6; 8; 13; 14] 0 in
  let larger := do s <- s; sub_resize hash true true s 7 in
  let same := do s <- s; sub_resize hash false true s 5 in
  let smaller := do s <- same; sub_resize hash false true s 3 in
  sub_sizes s = Ok (5, 4) /\
  parent larger saad = Ok false /\ sub_sizes larger = Ok (7, 4) /\ (do l <- globals larger; Ok (firstn 5 l)) = Ok [0; 6; 8; 13; 14] /\
  parent same saad = Ok true /\ sub_sizes same = Ok (5, 4) /\ globals same = Ok [0; 6; 8; 13; 14] /\
  parent smaller saad = Ok true /\ sub_sizes smaller = Ok (3, 3) /\ globals smaller = Ok [0; 6; 8].
Proof. vm_compute. auto 15. Qed.

(** 262-285: swap. *)
Example swapped_subgraphs :
  let r := do x <- sub saad [0; 6; 8; 1; 7] 0; do y <- sub (grid 3) [4; 5; 7; 8] 0; Ok (sub_swap x y) in
  let x := do r <- r; Ok (fst r) in let y := do r <- r; Ok (snd r) in
  parent x (grid 3) = Ok true /\ sub_sizes x = Ok (4, 4) /\ globals x = Ok [4; 5; 7; 8] /\
  parent y saad = Ok true /\ sub_sizes y = Ok (5, 7) /\ globals y = Ok [0; 6; 8; 1; 7].
Proof. vm_compute. auto 10. Qed.

(** 291-364: degree, is_local, is_parent, local_global. *)
Example queries :
  let s := sub (grid 3) [1; 3; 4; 5; 7] 0 in let t := sub (grid 3) [4] 1 in
  degrees_of s = Ok [1; 1; 4; 1; 1] /\ degrees_of t = Ok [4; 1; 1; 1; 1] /\
  locals s = Ok (repeat true 5) /\ locals t = Ok (true :: repeat false 4) /\
  (do s <- t; is_local true s 10) = Abort /\
  parent (Ok subgraph_default) (Ok graph_default) = Ok true /\ parent (Ok subgraph_default) (grid 3) = Ok false /\
  parent s (Ok graph_default) = Ok false /\ parent s (grid 3) = Ok true /\
  globals s = Ok [1; 3; 4; 5; 7] /\ globals t = Ok [4; 1; 3; 5; 7] /\ (do s <- t; local_global true s 7) = Abort.
Proof. vm_compute. auto 15. Qed.

(** 366-462: reorder. *)
Definition two_levels : res subgraph :=
  do g <- grid 3; do s <- sub (grid 3) [4] 1; do r <- update_levels hash top true g 2 s None; Ok (fst r).

Example reorder_subgraph_refused :
  (do r <- sub_reorder true subgraph_default []; Ok (sub_size (fst r))) = Ok 0 /\ sub_reorder true subgraph_default [0; 1] = Abort /\
  (do s <- two_levels; sub_reorder true s [0; 1]) = Abort /\
  (do s <- two_levels; sub_reorder true s [10; 9; 8; 7; 6; 5; 4; 3; 2; 1; 0]) = Abort /\
  (do s <- two_levels; sub_reorder true s [9; 8; 7; 6; 5; 4; 8; 2; 1; 0]) = Abort /\
  (do s <- two_levels; sub_reorder true s [9; 8; 7; 6; 5; 4; 3; 10; 1; 0]) = Abort.
Proof. vm_compute. auto 10. Qed.

Example reorder_subgraph_values :
  let s := do s <- two_levels; do r <- sub_reorder true s [4; 1; 3; 5; 7; 0; 2; 6; 8]; Ok (fst r) in
  parent s (grid 3) = Ok true /\ sub_sizes s = Ok (9, 12) /\
  sub_rows s = Ok [[1; 3]; [0; 2; 4]; [1; 5]; [0; 4; 6]; [1; 3; 5; 7]; [2; 4; 8]; [3; 7]; [4; 6; 8]; [5; 7]] /\
  levels_of s = Ok [2; 1; 2; 1; 0; 1; 2; 1; 2] /\ globals s = Ok [0; 1; 2; 3; 4; 5; 6; 7; 8].
Proof. vm_compute. auto 10. Qed.

(** 464-509: update_levels_add. *)
Definition updated (s : res subgraph) (n : nat) : res (subgraph * option (list nat)) :=
  do g <- grid 3; do s <- s; update_levels hash top true g n s (Some []).
Definition subgraph_of (r : res (subgraph * option (list nat))) : res subgraph := do x <- r; Ok (fst x).
Definition map_of (r : res (subgraph * option (list nat))) : res (option (list nat)) := do x <- r; Ok (snd x).

Example update_levels_add :
  let a := updated (sub (grid 3) [4] 0) 1 in let b := updated (subgraph_of a) 2 in
  parent (subgraph_of a) (grid 3) = Ok true /\ sub_sizes (subgraph_of a) = Ok (5, 4) /\
  levels_of (subgraph_of a) = Ok [0; 1; 1; 1; 1] /\ globals (subgraph_of a) = Ok [4; 1; 3; 5; 7] /\
  map_of a = Ok (Some [top; 1; top; 2; 0; 3; top; 4; top]) /\
  parent (subgraph_of b) (grid 3) = Ok true /\ sub_sizes (subgraph_of b) = Ok (9, 12) /\
  levels_of (subgraph_of b) = Ok [0; 1; 1; 1; 1; 2; 2; 2; 2] /\ globals (subgraph_of b) = Ok [4; 1; 3; 5; 7; 0; 2; 6; 8] /\
  map_of b = Ok (Some [5; 1; 6; 2; 0; 3; 7; 4; 8]) /\
  (do s <- subgraph_of b; update_levels hash top true graph_default 1 s (Some [])) = Abort /\
  sub_sizes (do g <- grid 3; do s <- sub (grid 3) [4] 0; do r <- update_levels hash top true g 1 s None; Ok (fst r)) = Ok (5, 4).
Proof. vm_compute. auto 15. Qed.

(** 511-547: update_levels_remove. *)
Example update_levels_remove :
  let a := updated (sub (grid 3) [4] 2) 1 in
  let b := do g <- grid 3; do s <- subgraph_of a; update_levels hash top true g 0 s None in
  parent (subgraph_of a) (grid 3) = Ok true /\ sub_sizes (subgraph_of a) = Ok (5, 4) /\
  levels_of (subgraph_of a) = Ok [0; 1; 1; 1; 1] /\ globals (subgraph_of a) = Ok [4; 1; 3; 5; 7] /\
  map_of a = Ok (Some [top; 1; top; 2; 0; 3; top; 4; top]) /\
  parent (subgraph_of b) (grid 3) = Ok true /\ sub_sizes (subgraph_of b) = Ok (1, 0) /\
  levels_of (subgraph_of b) = Ok [0] /\ globals (subgraph_of b) = Ok [4] /\
  (do s <- subgraph_of b; update_levels hash top true graph_default 1 s (Some [])) = Abort /\
  sub_sizes (do g <- grid 3; do s <- sub (grid 3) [4] 2; do r <- update_levels hash top true g 1 s None; Ok (fst r)) = Ok (5, 4).
Proof. vm_compute. auto 15. Qed.

(** 549-574: vertex_level. *)
Example vertex_level_test :
  levels_of (sub (grid 3) [1; 3; 4; 5; 7] 0) = Ok (repeat 0 5) /\
  (let a := updated (sub (grid 3) [4] 0) 2 in
   do s <- subgraph_of a; do m <- map_of a;
   match m with Some m => mapM (vertex_level true s) m | None => Undef end) = Ok [2; 1; 2; 1; 0; 1; 2; 1; 2] /\
  (do s <- subgraph_of (updated (sub (grid 3) [4] 0) 2); vertex_level true s 10) = Abort.
Proof. vm_compute. auto. Qed.

(** *** Storage: test_adjacency_graph.cpp 119-131 (data), 218-258 (reserve, shrink_to_fit), 264-284 (clear); libstdc++
    grows to twice the size or to what is needed. *)
Definition doubled (c n : nat) : nat := Nat.max (2 * c) n.

Example reserved_capacity : forall d,
  let x := sg_reserve (fun _ n => n) top top d sg_default 5 0 in
  let y := do x <- x; sg_reserve (fun _ n => n) top top d x 10 40 in
  sg_capacity d sg_default = (0, 0) /\ (do x <- x; Ok (sg_capacity d x)) = Ok (5, 0) /\
  (do y <- y; Ok (sg_capacity d y)) = Ok (10, 40) /\
  (do x <- x; Ok (sg_capacity d (sg_shrink true true x))) = Ok (0, 0).
Proof. intros [|]; vm_compute; auto. Qed.

Example data_pointers :
  sg_data sg_default = (None, None) /\
  (do g <- resize true graph_default 4; Ok (sg_data (mkSG g (mkStore 0 0) (mkStore 5 1)))) = Ok (None, Some 1) /\
  (do g <- resize true graph_default 4; do r <- sg_insert doubled true false (mkSG g (mkStore 0 0) (mkStore 5 1)) (0, 1);
   Ok (match sg_data (fst r) with (Some _, Some _) => true | _ => false end)) = Ok true.
Proof. vm_compute. auto. Qed.

(** The constructor ends with shrink_to_fit (adjacency_graph.hpp 398). *)
Example capacity_after_clear :
  (do r <- sg_of_list doubled top top true false [(0, 1); (2, 1); (2, 3); (3, 0)];
   let x := sg_shrink true true (snd r) in
   Ok (sg_capacity false (mkSG (g_clear (sg_graph x)) (sg_adj x) (sg_off x)))) = Ok (4, 4).
Proof. vm_compute. auto. Qed.

(** test_adjacency_subgraph.cpp 168-201: data, of any arrays; 207-220: clear keeps every array, so the capacities. *)
Definition nulls (r : res subgraph) (a b c d : nat) : res (list bool) :=
  do s <- r;
  let '(p, q, r, t) := ss_data (mkSS (mkSG (s_graph s) (mkStore 50 a) (mkStore 50 b)) s (mkStore 50 c) (mkStore 50 d)) in
  Ok (map (fun x : option nat => match x with None => true | Some _ => false end) [p; q; r; t]).

Example subgraph_data : forall a b c d,
  nulls (Ok subgraph_default) a b c d = Ok [true; true; true; true] /\
  nulls (sub saad [0; 8; 6] 0) a b c d = Ok [false; false; false; true] /\
  nulls (sub saad [0; 8; 6] 1) a b c d = Ok [false; false; false; false].
Proof. intros. vm_compute. auto. Qed.
