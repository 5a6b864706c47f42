(** Property theorems C09 - C16: traversals of graph_utilities.hpp. [M] is the largest std::size_t,
    used by the code as "no data". Distances are defined by walks in GraphSpec.v. *)
From Verif Require Import Base ListFacts Csr GraphModel GraphSpec GraphFacts TraversalModel Bfs
  TraversalFacts Expansion Peripheral Eccentricity PropGraphLemmas PropTraversalLemmas PropGraph.

(** ** C09 *)
Theorem C09_level_traversal_exact : forall M dbg d g s,
  well_formed d g -> size_vertex g <= M -> s < size_vertex g -> (dbg = true -> 1 < size_vertex g) ->
  exists L, level_traversal M dbg g s M = Ok L /\ length L = size_vertex g /\
    forall v, v < size_vertex g -> forall k, nth_error L v = Some k <->
      dist (edge g) s v k \/ (k = M /\ ~ reachable (edge g) s v).
Proof. exact level_traversal_spec. Qed.
Print Assumptions C09_level_traversal_exact.

(** Distances never collide with the no-data value. *)
Theorem C09_distance_below_no_data : forall d g u v k,
  well_formed d g -> u < size_vertex g -> dist (edge g) u v k -> k < size_vertex g.
Proof. exact dist_lt. Qed.
Print Assumptions C09_distance_below_no_data.

Example C09_hypotheses : well_formed false path4 /\ size_vertex path4 <= 100 /\
  level_traversal 100 true path4 1 100 = Ok [1; 0; 1; 2].
Proof. split; [exact path4_well_formed|split; [cbn; lia|reflexivity]]. Qed.

(** ** C10 *)
Theorem C10_level_traversal_queue : forall M dbg d g Q L e,
  well_formed d g -> size_vertex g <= M -> 0 < size_vertex g -> (dbg = true -> 1 < size_vertex g) ->
  e <= M -> length L = size_vertex g -> (forall v, In v Q -> v < size_vertex g) ->
  (forall v, v < size_vertex g -> nth_error L v = Some (if in_dec Nat.eq_dec v Q then 0 else M)) ->
  exists L', level_traversal_queue M dbg g Q L e = Ok L' /\ length L' = size_vertex g /\
    forall v, v < size_vertex g -> forall k, nth_error L' v = Some k <->
      (dist_from (edge g) (fun x => In x Q) v k /\ k <= e) \/
      (k = M /\ forall s m, In s Q -> walk (edge g) m s v -> e < m).
Proof. exact level_traversal_multi. Qed.
Print Assumptions C10_level_traversal_queue.

Example C10_hypotheses :
  (forall v, v < size_vertex path4 ->
     nth_error [0; 100; 100; 100] v = Some (if in_dec Nat.eq_dec v [0] then 0 else 100)) /\
  level_traversal_queue 100 true path4 [0] [0; 100; 100; 100] 2 = Ok [0; 1; 2; 100].
Proof.
  split; [|reflexivity]. intros v Hv. change (v < 4) in Hv.
  do 4 (destruct v as [|v]; [reflexivity|]). lia.
Qed.

(** ** C11: violated by the graph with one vertex. *)
Theorem C11_level_traversal_accepts_refuted : exists g,
  well_formed false g /\ size_vertex g = 1 /\ forall M, 1 <= M -> level_traversal M true g 0 M = Abort.
Proof. exact traversal_one_vertex. Qed.
Print Assumptions C11_level_traversal_accepts_refuted.

(** Exactly which calls are refused; the full property says none. *)
Theorem C11_level_traversal_accepts_partial : forall M dbg d g s,
  well_formed d g -> size_vertex g <= M -> s < size_vertex g ->
  (level_traversal M dbg g s M = Abort <-> dbg = true /\ size_vertex g = 1).
Proof. exact traversal_accepts. Qed.
Print Assumptions C11_level_traversal_accepts_partial.

Example C11_hypotheses : well_formed false path4 /\ size_vertex path4 <= 4 /\ 3 < size_vertex path4.
Proof. split; [exact path4_well_formed|cbn; lia]. Qed.

(** ** C12 *)
Theorem C12_level_expansion_nearest : forall M dbg d g seeds,
  well_formed d g -> size_vertex g <= M -> length seeds <= M -> seeds <> [] ->
  (forall s, In s seeds -> s < size_vertex g) ->
  exists C, level_expansion M dbg g seeds = Ok C /\ length C = size_vertex g /\
    forall v, v < size_vertex g -> forall c, nth_error C v = Some c ->
      (c < length seeds /\ exists k, dist (edge g) (nth c seeds 0) v k /\
         forall s m, In s seeds -> walk (edge g) m s v -> k <= m) \/
      (c = M /\ forall s, In s seeds -> ~ reachable (edge g) s v).
Proof. exact level_expansion_spec. Qed.
Print Assumptions C12_level_expansion_nearest.

Example C12_hypotheses : (forall s, In s [3; 3; 0] -> s < size_vertex path4) /\
  level_expansion 100 true path4 [3; 3; 0] = Ok [2; 2; 1; 1].
Proof.
  split; [|reflexivity]. intros s Hs. change (s < 4). simpl in Hs. intuition lia.
Qed.

(** ** C13: violated. The iteration assertion never fires, whether the graph is connected or not. *)
Theorem C13_level_expansion_disconnected_refuted : exists g seeds v,
  well_formed false g /\ v < size_vertex g /\ (forall s, In s seeds -> ~ reachable (edge g) s v) /\
  level_expansion 100 true g seeds = Ok [0; 0; 100; 100].
Proof. exact expansion_disconnected_witness. Qed.
Print Assumptions C13_level_expansion_disconnected_refuted.

Theorem C13_level_expansion_never_aborts_refuted : forall M dbg d g seeds,
  well_formed d g -> size_vertex g <= M -> length seeds <= M -> seeds <> [] ->
  (forall s, In s seeds -> s < size_vertex g) -> exists C, level_expansion M dbg g seeds = Ok C.
Proof. exact expansion_never_aborts. Qed.
Print Assumptions C13_level_expansion_never_aborts_refuted.

(** ** C14 *)
Theorem C14_pseudo_peripheral_terminates : forall M dbg d g s,
  well_formed d g -> size_vertex g <= M -> s < size_vertex g ->
  exists p, pseudo_peripheral_vertex M dbg g s = Ok p /\ p < size_vertex g.
Proof. exact pseudo_peripheral_terminates. Qed.
Print Assumptions C14_pseudo_peripheral_terminates.

Theorem C14_pseudo_peripheral_vertex : forall M dbg g s,
  well_formed false g -> size_vertex g <= M -> s < size_vertex g ->
  1 < size_vertex g -> connected g ->
  exists p k q, pseudo_peripheral_vertex M dbg g s = Ok p /\
    p < size_vertex g /\ q < size_vertex g /\ dist (edge g) p q k /\
    (forall v m, v < size_vertex g -> dist (edge g) p v m -> m <= k) /\
    (forall v m, v < size_vertex g -> dist (edge g) s v m -> m <= k) /\
    (forall v, v < size_vertex g -> dist (edge g) p v k -> length (row g p) <= length (row g v)).
Proof. exact pseudo_peripheral_spec. Qed.
Print Assumptions C14_pseudo_peripheral_vertex.

Example C14_hypotheses : well_formed false path4 /\ connected path4 /\
  pseudo_peripheral_vertex 100 true path4 1 = Ok 0.
Proof. split; [exact path4_well_formed|split; [exact path4_connected|reflexivity]]. Qed.

(** ** C15 *)
Theorem C15_eccentricity_vertex_exact : forall M dbg d g s dist0,
  well_formed d g -> size_vertex g <= M -> s < size_vertex g ->
  exists L, eccentricity_vertex false M dbg g s dist0 M = Ok L /\ length L = size_vertex g /\
    forall v, v < size_vertex g -> forall k, nth_error L v = Some k <->
      dist (edge g) s v k \/ (k = M /\ ~ reachable (edge g) s v).
Proof. exact eccentricity_vertex_spec. Qed.
Print Assumptions C15_eccentricity_vertex_exact.

Example C15_hypotheses :
  eccentricity_vertex false 100 true path4 2 [7; 7; 7; 7; 7; 7] 100 = Ok [2; 1; 0; 1].
Proof. reflexivity. Qed.

(** ** C16: violated. Undefined behaviour for every undirected graph that has an edge. *)
Theorem C16_eccentricity_graph_refuted : forall M dbg g ecc,
  well_formed false g -> size_vertex g <= M -> (exists u v, edge g u v) ->
  eccentricity_graph false M dbg g ecc = Undef.
Proof. exact eccentricity_graph_undef. Qed.
Print Assumptions C16_eccentricity_graph_refuted.

Example C16_witness : well_formed false path021 /\ (exists u v, edge path021 u v).
Proof. split; [exact path021_wf|exists 1, 2; apply edgeb_ok; reflexivity]. Qed.

(** Even if the out of range elements behaved like elements of a longer vector, entries of the table
    would be wrong: on the path 0 - 2 - 1 the distance 2 between 1 and 0 is reported as no-data. *)
Theorem C16_eccentricity_graph_values_refuted : exists T,
  eccentricity_graph true 100 true path021 [] = Ok T /\
  dist (edge path021) 1 0 2 /\ nth 0 (nth 1 T []) 0 = 100.
Proof. exact eccentricity_lenient_wrong. Qed.
Print Assumptions C16_eccentricity_graph_values_refuted.

(** What remains of the property: graphs without edges. *)
Theorem C16_eccentricity_graph_partial : forall M dbg d g ecc,
  well_formed d g -> size_vertex g <= M -> (forall u v, ~ edge g u v) ->
  exists T, eccentricity_graph false M dbg g ecc = Ok T /\ length T = size_vertex g /\
    forall u v, v <= u -> u < size_vertex g ->
      nth_error (nth u T []) v = Some (if v =? u then 0 else M).
Proof. exact eccentricity_graph_edgeless. Qed.
Print Assumptions C16_eccentricity_graph_partial.

Theorem C16_eccentricity_graph_defined_partial : forall M dbg g ecc,
  well_formed false g -> size_vertex g <= M ->
  (eccentricity_graph false M dbg g ecc = Undef <-> exists u v, edge g u v).
Proof. exact eccentricity_defined. Qed.
Print Assumptions C16_eccentricity_graph_defined_partial.
