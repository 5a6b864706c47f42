(** Property theorems C17 - C22, C62, C83 and C84: reordering algorithms. [level_order] (Ordering.v) is the
    specification: a permutation sending the start to 0, numbering by distance from it, and vertices
    other than the start by their first numbered neighbour, ties by [key]. *)
From Verif Require Import Base ListFacts Csr GraphModel GraphSpec GraphFacts PermFacts TraversalModel
  Bfs TraversalFacts Peripheral ReorderModel Ordering OrderingSpec Colouring PropGraphLemmas
  PropTraversalLemmas Envelope PropReorderLemmas PropGraph.

(** ** C17 *)
Theorem C17_breadth_first : forall M dbg g s,
  well_formed false g -> s < size_vertex g -> connected g ->
  exists p, breadth_first M dbg g s = Ok p /\ level_order g (fun v => v) s p.
Proof. exact breadth_first_spec. Qed.
Print Assumptions C17_breadth_first.

Theorem C17_breadth_first_disconnected : forall M dbg g s,
  well_formed false g -> s < size_vertex g -> ~ connected g -> breadth_first M dbg g s = Abort.
Proof. exact breadth_first_abort. Qed.
Print Assumptions C17_breadth_first_disconnected.

Example C17_hypotheses : well_formed false path4 /\ 1 < size_vertex path4 /\ connected path4 /\
  breadth_first 100 true path4 1 = Ok [1; 0; 2; 3].
Proof.
  split; [exact path4_well_formed|split; [cbn; lia|split; [exact path4_connected|reflexivity]]].
Qed.

Example C17_disconnected : breadth_first 100 true (mkG [1; 0; 3; 2] [0; 1; 2; 3; 4]) 1 = Abort.
Proof. reflexivity. Qed.

(** ** C18 *)
Theorem C18_cuthill_mckee : forall sortf M dbg g s,
  well_formed false g -> sorts_by_second sortf ->
  size_vertex g <= M -> s < size_vertex g -> connected g ->
  exists p, cuthill_mckee sortf M dbg g s = Ok p /\ level_order g (fun v => length (row g v)) s p.
Proof. exact cmk_spec. Qed.
Print Assumptions C18_cuthill_mckee.

Theorem C18_cuthill_mckee_default_start : forall sortf M dbg g,
  well_formed false g -> sorts_by_second sortf ->
  size_vertex g <= M -> 0 < size_vertex g -> connected g -> (dbg = true -> 1 < size_vertex g) ->
  exists s p, cuthill_mckee sortf M dbg g M = Ok p /\ first_minimum g s /\
    level_order g (fun v => length (row g v)) s p.
Proof. exact cmk_default_spec. Qed.
Print Assumptions C18_cuthill_mckee_default_start.

Theorem C18_cuthill_mckee_disconnected : forall sortf M dbg g s,
  well_formed false g -> sorts_by_second sortf ->
  size_vertex g <= M -> s < size_vertex g -> ~ connected g ->
  cuthill_mckee sortf M dbg g s = Abort.
Proof. exact cmk_abort. Qed.
Print Assumptions C18_cuthill_mckee_disconnected.

(** A star with an extra leaf: 1 - 0 - 2, 0 - 3, 2 - 3. *)
Example C18_hypotheses : sorts_by_second pair_sort /\
  cuthill_mckee pair_sort 100 true (mkG [1; 2; 3; 0; 0; 3; 0; 2] [0; 3; 4; 6; 8]) 2 = Ok [2; 3; 0; 1] /\
  cuthill_mckee pair_sort 100 true (mkG [1; 2; 3; 0; 0; 3; 0; 2] [0; 3; 4; 6; 8]) 100 = Ok [1; 0; 2; 3].
Proof. split; [exact pair_sort_sorts|split; reflexivity]. Qed.

(** ** C19 *)
Theorem C19_cuthill_mckee_reverse : forall sortf M dbg g s,
  well_formed false g -> sorts_by_second sortf ->
  size_vertex g <= M -> s < size_vertex g -> connected g ->
  exists p q, cuthill_mckee sortf M dbg g s = Ok p /\ cuthill_mckee_reverse sortf M dbg g s = Ok q /\
    is_perm (size_vertex g) q /\ nth s q 0 = size_vertex g - 1 /\
    forall v, v < size_vertex g -> nth v q 0 = size_vertex g - 1 - nth v p 0.
Proof. exact cmk_reverse_start. Qed.
Print Assumptions C19_cuthill_mckee_reverse.

Example C19_hypotheses : sorts_by_second pair_sort /\ connected path4 /\
  cuthill_mckee_reverse pair_sort 100 true path4 100 = Ok [3; 2; 1; 0].
Proof. split; [exact pair_sort_sorts|split; [exact path4_connected|reflexivity]]. Qed.

(** ** C20: [colour_lt c] orders by colour, ties by index. *)
Theorem C20_greedy_blocks : forall dbg g,
  well_formed false g -> (exists u v, edge g u v) ->
  exists p c, greedy_multicolouring dbg g = Ok p /\ is_perm (size_vertex g) p /\
    (forall v, v < size_vertex g -> 1 <= c v) /\
    (forall u v, edge g u v -> c u <> c v) /\
    (forall u v, u < size_vertex g -> v < size_vertex g -> colour_lt c u v -> nth u p 0 < nth v p 0) /\
    (forall v, v < size_vertex g -> colour_rule g c v).
Proof. exact greedy_spec. Qed.
Print Assumptions C20_greedy_blocks.

Example C20_hypotheses : well_formed false path021 /\ (exists u v, edge path021 u v) /\
  greedy_multicolouring true path021 = Ok [0; 1; 2].
Proof.
  split; [exact path021_wf|split; [exists 1, 2; apply edgeb_ok; reflexivity|reflexivity]].
Qed.

(** ** C21: violated by graphs without edges. *)
Theorem C21_greedy_permutation_refuted : exists g, well_formed false g /\
  greedy_multicolouring true g = Ok [0; 0] /\ ~ is_perm (size_vertex g) [0; 0].
Proof. exact edgeless_greedy_witness. Qed.
Print Assumptions C21_greedy_permutation_refuted.

(** The full property drops the right hand side of the equivalence. *)
Theorem C21_greedy_permutation_partial : forall dbg g,
  well_formed false g ->
  exists p, greedy_multicolouring dbg g = Ok p /\
    (is_perm (size_vertex g) p <-> size_vertex g <= 1 \/ exists u v, edge g u v).
Proof. exact greedy_perm_iff. Qed.
Print Assumptions C21_greedy_permutation_partial.

Example C21_hypotheses : well_formed false path021.
Proof. exact path021_wf. Qed.

(** ** C22: violated. On a path of n vertices, where two colours suffice and no vertex has more than
    two neighbours, every colouring consistent with the returned numbering uses n colours. *)
Theorem C22_greedy_lowest_colour_refuted : forall dbg g,
  well_formed false g -> is_path g -> 2 <= size_vertex g ->
  exists p, greedy_multicolouring dbg g = Ok p /\
    forall c, (forall u v, edge g u v -> c u <> c v) ->
      (forall u v, u < size_vertex g -> v < size_vertex g -> c u < c v -> nth u p 0 < nth v p 0) ->
      NoDup (map c (seq 0 (size_vertex g))).
Proof. exact greedy_path. Qed.
Print Assumptions C22_greedy_lowest_colour_refuted.

Example C22_witness : well_formed false path4 /\ is_path path4 /\ 2 <= size_vertex path4 /\
  greedy_multicolouring true path4 = Ok [0; 1; 2; 3].
Proof.
  split; [exact path4_well_formed|split; [exact path4_is_path|split; [cbn; lia|reflexivity]]].
Qed.

(** What the search does find: the lowest free colour above the smallest neighbouring colour
    ([colour_rule]), where the property asks for the lowest free colour. *)
Theorem C22_greedy_colour_rule_partial : forall dbg g,
  well_formed false g -> (exists u v, edge g u v) ->
  exists p c, greedy_multicolouring dbg g = Ok p /\ is_perm (size_vertex g) p /\
    (forall v, v < size_vertex g -> 1 <= c v) /\
    (forall u v, edge g u v -> c u <> c v) /\
    (forall u v, u < size_vertex g -> v < size_vertex g -> colour_lt c u v -> nth u p 0 < nth v p 0) /\
    (forall v, v < size_vertex g -> colour_rule g c v).
Proof. exact greedy_spec. Qed.
Print Assumptions C22_greedy_colour_rule_partial.

(** ** C62: violated by the graph with one vertex in a debug build. *)
Theorem C62_cuthill_mckee_accepts_refuted : exists g,
  well_formed false g /\ connected g /\ size_vertex g = 1 /\
  forall sortf M, 1 <= M -> cuthill_mckee sortf M true g M = Abort.
Proof. exact cmk_default_refused. Qed.
Print Assumptions C62_cuthill_mckee_accepts_refuted.

Theorem C62_cuthill_mckee_accepts_partial : forall sortf M dbg g,
  well_formed false g -> sorts_by_second sortf ->
  size_vertex g <= M -> 0 < size_vertex g -> connected g ->
  (cuthill_mckee sortf M dbg g M = Abort <-> dbg = true /\ size_vertex g = 1).
Proof. exact cmk_default_accepts. Qed.
Print Assumptions C62_cuthill_mckee_accepts_partial.

Example C62_hypotheses : well_formed false path4 /\ connected path4 /\ sorts_by_second pair_sort.
Proof. split; [exact path4_well_formed|split; [exact path4_connected|exact pair_sort_sorts]]. Qed.

(** ** C83: [profile] (Envelope.v) adds up, over the vertices, the distance in the numbering to the lowest
    neighbour. *)
Theorem C83_reverse_profile : forall sortf M dbg g s,
  well_formed false g -> sorts_by_second sortf ->
  size_vertex g <= M -> s < size_vertex g -> connected g ->
  exists p q h1 h2, cuthill_mckee sortf M dbg g s = Ok p /\ cuthill_mckee_reverse sortf M dbg g s = Ok q /\
    reorder dbg g p = Ok (h1, g) /\ reorder dbg g q = Ok (h2, g) /\ profile h2 <= profile h1.
Proof. exact reverse_profile. Qed.
Print Assumptions C83_reverse_profile.

(** The two profiles differ on the star. *)
Example C83_hypotheses : well_formed false star4 /\ sorts_by_second pair_sort /\ connected star4 /\
  (exists h1 h2, cuthill_mckee pair_sort 100 true star4 1 = Ok [1; 0; 2; 3] /\
     cuthill_mckee_reverse pair_sort 100 true star4 1 = Ok [2; 3; 1; 0] /\
     reorder true star4 [1; 0; 2; 3] = Ok (h1, star4) /\ reorder true star4 [2; 3; 1; 0] = Ok (h2, star4) /\
     profile h1 = 4 /\ profile h2 = 3).
Proof.
  split; [exact star4_well_formed|]. split; [exact pair_sort_sorts|]. split; [exact star4_connected|].
  do 2 eexists. repeat (split; [reflexivity|]). reflexivity.
Qed.

(** ** C84: the numbers of neighbours differ by less than the number of vertices in their levels. *)
Theorem C84_bandwidth : forall sortf M dbg g s D,
  well_formed false g -> sorts_by_second sortf ->
  size_vertex g <= M -> s < size_vertex g -> (forall v, v < size_vertex g -> dist (edge g) s v (D v)) ->
  exists p, cuthill_mckee sortf M dbg g s = Ok p /\
    forall u v, edge g u v -> D u <= D v ->
      nth u p 0 - nth v p 0 < two_levels (size_vertex g) D (D u) (D v) /\
      nth v p 0 - nth u p 0 < two_levels (size_vertex g) D (D u) (D v).
Proof. exact cmk_band. Qed.
Print Assumptions C84_bandwidth.

Example C84_hypotheses : well_formed false star4 /\ sorts_by_second pair_sort /\
  (forall v, v < size_vertex star4 -> dist (edge star4) 1 v (nth v [1; 0; 2; 2] 0)) /\
  two_levels (size_vertex star4) (fun v => nth v [1; 0; 2; 2] 0) 1 2 = 3 /\
  cuthill_mckee pair_sort 100 true star4 1 = Ok [1; 0; 2; 3].
Proof.
  split; [exact star4_well_formed|]. split; [exact pair_sort_sorts|]. split; [exact star4_dist|]. split; reflexivity.
Qed.
