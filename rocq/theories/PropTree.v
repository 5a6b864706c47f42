(** Property C118: the traversals and the numbering on trees, lines and grids. [tree g]: connected, with one edge less than
    vertices. [gap a b] is the distance of two numbers, [city n u v] the distance of two points of the n by n grid along its rows
    and columns, [corner n v]: [v] is one of the four corners. *)
From Coq Require Import ZArith Field QArith Qcanon.
From Verif Require Import Base GraphModel GraphSpec TraversalModel ReorderModel Ordering OrderingSpec DenseModel DenseFacts ScalarModel
  LuModel LuFacts PropGraphLemmas PropReorderLemmas PropLuLemmas PropTreeLemmas.
Local Open Scope nat_scope.

(** ** C118: on a tree the search finds an end of a longest path, from every start. *)
Theorem C118_tree_diameter : forall M dbg g s, well_formed false g -> tree g -> size_vertex g <= M -> s < size_vertex g ->
  1 < size_vertex g ->
  exists p q k, pseudo_peripheral_vertex M dbg g s = Ok p /\ p < size_vertex g /\ q < size_vertex g /\ dist (edge g) p q k /\
    forall u v m, u < size_vertex g -> v < size_vertex g -> dist (edge g) u v m -> m <= k.
Proof. exact tree_diameter. Qed.
Print Assumptions C118_tree_diameter.

(** The line: its levels, its ends, and its numberings. *)
Theorem C118_line : forall M dbg n g, 2 <= n -> create_graph_line M dbg false n = Ok g -> n <= M -> forall s, s < n ->
  tree g /\ level_traversal M dbg g s M = Ok (map (gap s) (seq 0 n)) /\
  exists p, pseudo_peripheral_vertex M dbg g s = Ok p /\ (p = 0 \/ p = n - 1).
Proof.
  exact (fun M dbg n g Hn Hg HM s Hs =>
    conj (line_tree M dbg n g Hn Hg) (conj (line_levels M dbg n g Hn Hg s HM Hs) (line_end M dbg n g Hn Hg s HM Hs))).
Qed.
Print Assumptions C118_line.

Theorem C118_line_numbering : forall M dbg n g, 2 <= n -> create_graph_line M dbg false n = Ok g ->
  forall sortf, sorts_by_second sortf -> n <= M -> n <> M ->
  cuthill_mckee sortf M dbg g 0 = Ok (seq 0 n) /\ cuthill_mckee sortf M dbg g (n - 1) = Ok (rev (seq 0 n)) /\
  cuthill_mckee sortf M dbg g M = Ok (seq 0 n).
Proof. exact line_cuthill_mckee. Qed.
Print Assumptions C118_line_numbering.

(** The grid: the levels are distances along rows and columns, and the search ends in a corner. *)
Theorem C118_grid : forall dbg n g, 2 <= n -> create_graph_structured dbg false n = Ok g -> forall M s, n * n <= M -> s < n * n ->
  connected g /\ level_traversal M dbg g s M = Ok (map (city n s) (seq 0 (n * n))) /\
  exists p, pseudo_peripheral_vertex M dbg g s = Ok p /\ corner n p.
Proof.
  exact (fun dbg n g Hn Hg M s HM Hs =>
    conj (grid_connected dbg n g Hn Hg) (conj (grid_levels dbg n g Hn Hg M s HM Hs) (grid_corner dbg n g Hn Hg M s HM Hs))).
Qed.
Print Assumptions C118_grid.

(** Numbered from where the search ends, neighbours are less than 2 n - 1 apart. *)
Theorem C118_grid_band : forall dbg n g, 2 <= n -> create_graph_structured dbg false n = Ok g ->
  forall sortf M s, sorts_by_second sortf -> n * n <= M -> s < n * n ->
  exists c p, pseudo_peripheral_vertex M dbg g s = Ok c /\ corner n c /\ cuthill_mckee sortf M dbg g c = Ok p /\
    forall u v, edge g u v -> gap (nth u p 0) (nth v p 0) < 2 * n - 1.
Proof. exact grid_band. Qed.
Print Assumptions C118_grid_band.

(** A matrix coupling neighbours of the grid only, so numbered: the factors of the direct solver keep that band. *)
Theorem C118_grid_factors : forall {S} (O : sops S) (opp inv : S -> S),
  field_theory (sc_zero O) (sc_one O) (sc_add O) (sc_mul O) (sc_sub O) opp (sc_div O) inv eq ->
  forall dbg, tol_default O dbg -> forall sortf M n g c p st a A st', 2 <= n -> n * n <= M -> sorts_by_second sortf ->
  create_graph_structured dbg false n = Ok g -> corner n c -> cuthill_mckee sortf M dbg g c = Ok p ->
  is_mat (n * n) (n * n) a A ->
  (forall u v, u < n * n -> v < n * n -> 2 <= city n u v -> A (nth u p 0) (nth v p 0) = sc_zero O) ->
  factorise O dbg false st a = Ok (st', true) ->
  exists F, is_mat (n * n) (n * n) (lu_matrix st') F /\
    forall i j, i < n * n -> j < n * n -> i + (2 * n - 1) <= j \/ j + (2 * n - 1) <= i -> F i j = sc_zero O.
Proof. exact @grid_factors. Qed.
Print Assumptions C118_grid_factors.

(** A tree of five vertices, where the search from the middle ends at distance three from another vertex; a line; the 3 by 3 grid,
    searched from its middle and numbered from a corner. *)
Example C118_hypotheses :
  (let g := mkG [1; 0; 2; 3; 1; 1; 4; 3] [0; 1; 4; 5; 7; 8] in
   (well_formed false g /\ tree g) /\ pseudo_peripheral_vertex 100 true g 1 = Ok 0 /\
   level_traversal 100 true g 0 100 = Ok [0; 1; 2; 2; 3]) /\
  create_graph_line 100 true false 3 = Ok (mkG [1; 0; 2; 1] [0; 1; 3; 4]) /\
  create_graph_structured true false 3 = Ok grid3 /\ level_traversal 100 true grid3 4 100 = Ok [2; 1; 2; 1; 0; 1; 2; 1; 2] /\
  pseudo_peripheral_vertex 100 true grid3 4 = Ok 8 /\ cuthill_mckee pair_sort 100 true grid3 0 = Ok [0; 1; 3; 2; 4; 6; 5; 7; 8] /\
  sorts_by_second pair_sort /\ corner 3 6 /\
  (let a := [[q 4; q 1; q 1; q 0]; [q 1; q 4; q 0; q 1]; [q 1; q 0; q 4; q 1]; [q 0; q 1; q 1; q 4]] in
   (exists g, create_graph_structured true false 2 = Ok g /\ cuthill_mckee pair_sort 100 true g 0 = Ok [0; 1; 2; 3]) /\
   exists st', factorise qops true false (lu_default qops) a = Ok (st', true) /\
     map (map this) (lu_matrix st') =
       [[4#1; 1#1; 1#1; 0#1]; [1#4; 15#4; -1#4; 1#1]; [1#4; -1#15; 56#15; 16#15]; [0#1; 4#15; 2#7; 24#7]]%Q).
Proof.
  split; [split; [exact tree5|split; vm_compute; reflexivity]|]. do 5 (split; [vm_compute; reflexivity|]).
  split; [exact pair_sort_sorts|]. split; [vm_compute; repeat split; auto|]. cbv zeta. split.
  - eexists. split; [vm_compute; reflexivity|vm_compute; reflexivity].
  - eexists. split; [vm_compute; reflexivity|vm_compute; reflexivity].
Qed.
