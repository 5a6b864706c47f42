(** Property C126: the levels of traversals are distances: a metric, and how they change with the graph.
    [level M dbg g s v k]: level_traversal from [s] succeeds and reports [k] at [v]; [M] is "not reached". *)
From Verif Require Import Base GraphModel GraphSpec TraversalModel PropGraphLemmas PropGraph PropTraversalLemmas PropMetricLemmas.

(** ** C126 *)

Theorem C126_levels : forall M dbg d g, well_formed d g -> size_vertex g <= M -> (dbg = true -> 1 < size_vertex g) ->
  forall s v, s < size_vertex g -> v < size_vertex g -> exists k, level M dbg g s v k /\ k <= M.
Proof. exact level_total. Qed.
Print Assumptions C126_levels.

Theorem C126_zero : forall M dbg d g, well_formed d g -> size_vertex g <= M -> (dbg = true -> 1 < size_vertex g) ->
  forall s v, s < size_vertex g -> v < size_vertex g -> (level M dbg g s v 0 <-> v = s).
Proof. exact level_zero. Qed.
Print Assumptions C126_zero.

Theorem C126_symmetric : forall M dbg g u v k, well_formed false g -> size_vertex g <= M -> (dbg = true -> 1 < size_vertex g) ->
  u < size_vertex g -> v < size_vertex g -> level M dbg g u v k -> level M dbg g v u k.
Proof. exact level_symmetric. Qed.
Print Assumptions C126_symmetric.

Theorem C126_triangle : forall M dbg d g, well_formed d g -> size_vertex g <= M -> (dbg = true -> 1 < size_vertex g) ->
  forall u v w a b c, u < size_vertex g -> v < size_vertex g -> w < size_vertex g ->
  level M dbg g u v a -> level M dbg g v w b -> level M dbg g u w c -> a < M -> b < M -> c <= a + b.
Proof. exact level_triangle. Qed.
Print Assumptions C126_triangle.

(** Along an edge the level grows by one at most. *)
Theorem C126_edge : forall M dbg d g, well_formed d g -> size_vertex g <= M -> (dbg = true -> 1 < size_vertex g) ->
  forall s u v a b, s < size_vertex g -> edge g u v -> level M dbg g s u a -> level M dbg g s v b -> a < M -> b <= a + 1.
Proof. exact level_edge. Qed.
Print Assumptions C126_edge.

Example C126_hypotheses : well_formed false path4 /\ size_vertex path4 <= 100 /\ 1 < size_vertex path4 /\
  level 100 true path4 1 3 2 /\ level 100 true path4 3 1 2 /\ level 100 true path4 3 0 3 /\ level 100 true path4 1 0 1 /\ edge path4 3 2.
Proof.
  destruct path4_levels as (H1 & H2 & H3 & H4 & _).
  split; [exact path4_well_formed|]. split; [cbn; lia|]. split; [cbn; lia|]. repeat split; auto. apply edgeb_ok. reflexivity.
Qed.

(** From several sources: the smallest of the levels from each, cut off beyond the end level. *)
Theorem C126_sources : forall M dbg d g, well_formed d g -> size_vertex g <= M -> (dbg = true -> 1 < size_vertex g) ->
  forall Q L e L', length L = size_vertex g -> 0 < size_vertex g -> e <= M -> Q <> [] -> (forall v, In v Q -> v < size_vertex g) ->
  (forall v, v < size_vertex g -> nth_error L v = Some (if in_dec Nat.eq_dec v Q then 0 else M)) ->
  level_traversal_queue M dbg g Q L e = Ok L' ->
  forall v, v < size_vertex g -> exists s k, In s Q /\ level M dbg g s v k /\
    (forall s' k', In s' Q -> level M dbg g s' v k' -> k <= k') /\
    nth_error L' v = Some (if k <=? e then k else M).
Proof. exact level_sources. Qed.
Print Assumptions C126_sources.

Example C126_sources_hypotheses : level_traversal_queue 100 true path4 [0; 3] [0; 100; 100; 0] 100 = Ok [0; 1; 1; 0] /\
  forall v, v < size_vertex path4 -> nth_error [0; 100; 100; 0] v = Some (if in_dec Nat.eq_dec v [0; 3] then 0 else 100).
Proof.
  split; [reflexivity|]. intros v Hv. change (v < 4) in Hv. do 4 (destruct v as [|v]; [reflexivity|]). lia.
Qed.

(** Inserting the edge [(a, b)] gives the shorter of the old way and the ways along the new edge. *)
Theorem C126_insert : forall M dbg d g a b s v x sa bv sb av, well_formed d g -> size_vertex g <= M -> (dbg = true -> 1 < size_vertex g) ->
  a <> b -> a < size_vertex g -> b < size_vertex g -> s < size_vertex g -> v < size_vertex g ->
  level M dbg g s v x -> level M dbg g s a sa -> level M dbg g b v bv -> level M dbg g s b sb -> level M dbg g a v av ->
  exists h fresh, insert dbg d g (a, b) = Ok (h, fresh) /\ size_vertex h = size_vertex g /\
    level M dbg h s v (Nat.min x (if d then sa + 1 + bv else Nat.min (sa + 1 + bv) (sb + 1 + av))).
Proof. exact level_insert. Qed.
Print Assumptions C126_insert.

(** The path closed to a cycle: from 1 to 3 there are still two edges, from 0 to 3 there is one. *)
Example C126_insert_hypotheses : exists h, insert true false path4 (0, 3) = Ok (h, true) /\ level 100 true h 1 3 2 /\ level 100 true h 0 3 1 /\
  level 100 true path4 0 3 3 /\ level 100 true path4 0 0 0 /\ level 100 true path4 3 3 0.
Proof.
  destruct path4_levels as (_ & _ & _ & _ & H5 & H6 & H7).
  eexists. split; [reflexivity|]. split; [eexists; split; [vm_compute; reflexivity|reflexivity]|].
  split; [eexists; split; [vm_compute; reflexivity|reflexivity]|]. auto.
Qed.

(** Removing vertices never brings the others closer. *)
Theorem C126_erase : forall M dbg d del g g' u v a b, well_formed d g -> size_vertex g <= M ->
  (dbg = true -> 1 < size_vertex g') -> erase_if M del g = Ok g' ->
  u < size_vertex g -> v < size_vertex g -> del u = false -> del v = false ->
  level M dbg g u v a -> level M dbg g' (rank del u) (rank del v) b -> a <= b.
Proof. exact level_erase. Qed.
Print Assumptions C126_erase.

Example C126_erase_hypotheses : exists g', erase_if 100 (fun i => i =? 0) six = Ok g' /\ 1 < size_vertex g' /\
  level 100 true six 1 5 2 /\ rank (fun i => i =? 0) 1 = 0 /\ rank (fun i => i =? 0) 5 = 4 /\ level 100 true g' 0 4 3.
Proof.
  eexists. split; [vm_compute; reflexivity|]. split; [cbn; lia|]. split; [eexists; split; [vm_compute; reflexivity|reflexivity]|].
  split; [reflexivity|]. split; [reflexivity|]. eexists; split; [vm_compute; reflexivity|reflexivity].
Qed.

(** No two vertices are further apart than twice the eccentricity of the pseudo-peripheral vertex, which is at least that
    of the start. *)
Theorem C126_diameter : forall M dbg g s, well_formed false g -> size_vertex g <= M -> s < size_vertex g -> 1 < size_vertex g -> connected g ->
  exists p q k, pseudo_peripheral_vertex M dbg g s = Ok p /\ p < size_vertex g /\ q < size_vertex g /\ level M dbg g p q k /\
    (forall v m, v < size_vertex g -> level M dbg g p v m -> m <= k) /\
    (forall v m, v < size_vertex g -> level M dbg g s v m -> m <= k) /\
    (forall u v m, u < size_vertex g -> v < size_vertex g -> level M dbg g u v m -> m <= 2 * k).
Proof. exact pseudo_two. Qed.
Print Assumptions C126_diameter.

(** It need not be peripheral: here the result, 3, has levels up to 2, while 4 and 5 are three edges apart. *)
Theorem C126_peripheral_refuted : well_formed false six /\ connected six /\ forall dbg,
  pseudo_peripheral_vertex 100 dbg six 0 = Ok 3 /\ level_traversal 100 dbg six 3 100 = Ok [2; 2; 1; 0; 2; 1] /\
  level_traversal 100 dbg six 4 100 = Ok [2; 1; 1; 2; 0; 3].
Proof. exact not_peripheral. Qed.
Print Assumptions C126_peripheral_refuted.
