(** Property theorems C115: sequences of graph operations.
    Proofs are in PropComposeLemmas.v; specification vocabulary is in GraphSpec.v and in
    [compose] and [kept] of PropComposeLemmas.v. *)
From Verif Require Import Base ListFacts Csr GraphModel GraphSpec GraphFacts PermFacts GraphInsert GraphResize GraphErase GraphReorder
  GraphSeq GraphGen PropGraphLemmas TraversalModel SubgraphModel PropBuildLemmas PropComposeLemmas.

(** ** C115: renumbering twice is renumbering once, by the composed permutation. *)
Theorem C115_reorder_compose : forall (dbg d : bool) (g : graph) (p q : list nat),
  well_formed d g -> 0 < size_vertex g -> is_perm (size_vertex g) p -> is_perm (size_vertex g) q ->
  exists h k, reorder dbg g p = Ok (h, g) /\ reorder dbg h q = Ok (k, h) /\
    reorder dbg g (compose p q) = Ok (k, g).
Proof. exact reorder_compose. Qed.
Print Assumptions C115_reorder_compose.

(** Renumbering keeps every distance: the traversal of the renumbered graph is the renumbered traversal. *)
Theorem C115_reorder_distances : forall (M : nat) (dbg d : bool) (g : graph) (p : list nat) (s : nat),
  well_formed d g -> size_vertex g <= M -> s < size_vertex g -> (dbg = true -> 1 < size_vertex g) ->
  is_perm (size_vertex g) p ->
  exists h L L', reorder dbg g p = Ok (h, g) /\ level_traversal M dbg g s M = Ok L /\
    level_traversal M dbg h (nth s p 0) M = Ok L' /\
    forall v, v < size_vertex g -> nth_error L' (nth v p 0) = nth_error L v.
Proof. exact reorder_distances. Qed.
Print Assumptions C115_reorder_distances.

(** Two lists with the same edges make the same graph, whatever the order and the repetitions. *)
Theorem C115_insertion_order : forall (dbg d : bool) (es es' : list (nat * nat)),
  es <> [] -> (forall e, In e es -> fst e <> snd e) -> (forall e, In e es' -> fst e <> snd e) ->
  (forall u v, mem_edge d (u, v) es = mem_edge d (u, v) es') ->
  exists g, graph_of_list dbg d es = Ok g /\ graph_of_list dbg d es' = Ok g.
Proof. exact order_irrelevant. Qed.
Print Assumptions C115_insertion_order.

Theorem C115_insert_commute : forall (dbg d : bool) (g : graph) (e f : nat * nat),
  well_formed d g -> fst e <> snd e -> fst f <> snd f ->
  exists a b h x y x' y', insert dbg d g e = Ok (a, x) /\ insert dbg d a f = Ok (h, y) /\
    insert dbg d g f = Ok (b, y') /\ insert dbg d b e = Ok (h, x').
Proof. exact insert_commute. Qed.
Print Assumptions C115_insert_commute.

(** Inserting and renumbering commute, the edge being renumbered too; the answer of insert is the same. *)
Theorem C115_insert_reorder : forall (dbg d : bool) (g : graph) (p : list nat) (e : nat * nat),
  well_formed d g -> is_perm (size_vertex g) p -> fst e <> snd e ->
  fst e < size_vertex g -> snd e < size_vertex g ->
  exists a b h x, insert dbg d g e = Ok (a, x) /\ reorder dbg a p = Ok (h, a) /\
    reorder dbg g p = Ok (b, g) /\ insert dbg d b (nth (fst e) p 0, nth (snd e) p 0) = Ok (h, x).
Proof. exact insert_reorder. Qed.
Print Assumptions C115_insert_reorder.

(** Erasing twice is erasing once, the second set being read in the old numbers.  The premise that both
    calls return is needed: see C115_erase_twice_refuted. *)
Theorem C115_erase_twice_partial : forall (M : nat) (d : bool) (g : graph) (del1 del2 : nat -> bool) (g1 g2 : graph),
  well_formed d g -> erase_if M del1 g = Ok g1 -> erase_if M del2 g1 = Ok g2 -> 0 < size_vertex g2 ->
  erase_if M (fun u => del1 u || del2 (rank del1 u)) g = Ok g2.
Proof. exact erase_twice. Qed.
Print Assumptions C115_erase_twice_partial.

(** The path 0 - 1 - 2: erasing 1 and then 0 is undefined, erasing both at once is not. *)
Theorem C115_erase_twice_refuted : exists (M : nat) (g : graph) (del1 del2 : nat -> bool) (g1 g2 : graph),
  well_formed false g /\ erase_if M del1 g = Ok g1 /\ erase_if M del2 g1 = Undef /\
  erase_if M (fun u => del1 u || del2 (rank del1 u)) g = Ok g2 /\ size_vertex g2 = 1.
Proof. exact erase_twice_refuted. Qed.
Print Assumptions C115_erase_twice_refuted.

(** Erasing a tail of the vertices is resizing. *)
Theorem C115_erase_resize : forall (M : nat) (d : bool) (g : graph) (n : nat) (g' : graph),
  well_formed d g -> 0 < n <= size_vertex g -> erase_if M (fun i => n <=? i) g = Ok g' ->
  resize false g n = Ok g'.
Proof. exact erase_resize. Qed.
Print Assumptions C115_erase_resize.

(** Erasing leaves the graph of the subgraph on the vertices that remain. *)
Theorem C115_erase_subgraph : forall (h : nat -> nat) (M : nat) (dbg : bool) (del : nat -> bool) (g g' : graph),
  well_formed false g -> size_vertex g <= M -> size_vertex g <= length (adj g) ->
  erase_if M del g = Ok g' -> 0 < size_vertex g' ->
  exists s, subgraph_new h M dbg g (kept del (size_vertex g)) 0 = Ok s /\ s_graph s = g'.
Proof. exact erase_subgraph. Qed.
Print Assumptions C115_erase_subgraph.

(** A subgraph of a subgraph is a subgraph.  The last premise is the one under which the inner
    constructor is defined (C06, C25). *)
Theorem C115_subgraph_of_subgraph_partial : forall (h : nat -> nat) (M : nat) (dbg : bool) (g : graph) (part part2 : list nat),
  well_formed false g -> size_vertex g <= M -> size_vertex g <= length (adj g) ->
  ascending part -> (forall v, In v part -> v < size_vertex g) ->
  ascending part2 -> (forall v, In v part2 -> v < length part) -> part2 <> [] ->
  exists s s', subgraph_new h M dbg g part 0 = Ok s /\
    subgraph_new h M dbg g (map (fun i => nth i part 0) part2) 0 = Ok s' /\
    (size_vertex (s_graph s) <= length (adj (s_graph s)) ->
     exists s2, subgraph_new h M dbg (s_graph s) part2 0 = Ok s2 /\ s_graph s2 = s_graph s').
Proof. exact nested. Qed.
Print Assumptions C115_subgraph_of_subgraph_partial.

(** The graph 0-1, 0-2, 1-2, 2-3, 3-4. *)
Example C115_hypotheses :
  let g := mkG [1; 2; 0; 2; 0; 1; 3; 2; 4; 3] [0; 2; 4; 7; 9; 10] in
  let p := [4; 0; 3; 1; 2] in let q := [1; 2; 3; 4; 0] in
  graph_of_list true false [(3, 4); (0, 2); (1, 2); (0, 1); (3, 2)] = Ok g /\
  graph_of_list true false [(2, 3); (1, 0); (2, 0); (0, 1); (4, 3); (2, 1)] = Ok g /\
  well_formed false g /\ is_perm 5 p /\ is_perm 5 q /\ compose p q = [0; 1; 4; 2; 3] /\
  (exists h, reorder true g p = Ok (h, g) /\
     level_traversal 100 true g 3 100 = Ok [2; 2; 1; 0; 1] /\
     level_traversal 100 true h 1 100 = Ok [2; 0; 1; 1; 2]) /\
  erase_if 100 (fun i => i =? 1) g = Ok (mkG [1; 0; 2; 1; 3; 2] [0; 1; 3; 5; 6]) /\
  erase_if 100 (fun i => i =? 0) (mkG [1; 0; 2; 1; 3; 2] [0; 1; 3; 5; 6]) = Ok (mkG [1; 0; 2; 1] [0; 1; 3; 4]) /\
  erase_if 100 (fun u => (u =? 1) || (rank (fun i => i =? 1) u =? 0)) g = Ok (mkG [1; 0; 2; 1] [0; 1; 3; 4]) /\
  kept (fun i => i =? 1) 5 = [0; 2; 3; 4] /\
  resize false g 3 = Ok (mkG [1; 2; 0; 2; 0; 1] [0; 2; 4; 6]) /\
  erase_if 100 (fun i => 3 <=? i) g = Ok (mkG [1; 2; 0; 2; 0; 1] [0; 2; 4; 6]) /\
  graph_of (subgraph_new (fun x => x) 100 true g [0; 2; 3; 4] 0) = Ok (mkG [1; 0; 2; 1; 3; 2] [0; 1; 3; 5; 6]) /\
  graph_of (subgraph_new (fun x => x) 100 true (mkG [1; 0; 2; 1; 3; 2] [0; 1; 3; 5; 6]) [1; 2] 0) = Ok (mkG [1; 0] [0; 1; 2]) /\
  graph_of (subgraph_new (fun x => x) 100 true g [2; 3] 0) = Ok (mkG [1; 0] [0; 1; 2]).
Proof.
  cbv zeta. repeat match goal with |- _ /\ _ => split end; try (vm_compute; reflexivity).
  - destruct (list_graph true false [(3, 4); (0, 2); (1, 2); (0, 1); (3, 2)]) as (k & E & W & _); [discriminate| |].
    + intros e H. cbn in H. intuition (subst; discriminate).
    + vm_compute in E. injection E as <-. exact W.
  - apply perm_intro; [reflexivity| |]; [repeat constructor; cbn; intuition lia|cbn; intuition lia].
  - apply perm_intro; [reflexivity| |]; [repeat constructor; cbn; intuition lia|cbn; intuition lia].
  - exists (mkG [3; 4; 2; 3; 1; 0; 1; 4; 0; 3] [0; 2; 4; 5; 8; 10]). vm_compute. auto.
Qed.
