(** Property theorems C01 - C08, C30, C31: Adjacency_Graph and its generators.
    Proofs are in the files imported below; specification vocabulary is in GraphSpec.v. *)
From Verif Require Import Base ListFacts Csr GraphModel GraphSpec GraphFacts PermFacts
  GraphInsert GraphResize GraphErase GraphReorder GraphSeq GraphGen PropGraphLemmas.

(** ** C01 *)
Theorem C01_insert_sequence : forall (dbg d : bool) (es : list (nat * nat)),
  (forall e, In e es -> fst e <> snd e) ->
  exists g bs,
    insert_all dbg d es graph_default = Ok (g, bs) /\
    (forall u v, u <> v -> contains dbg g (u, v) = Ok (mem_edge d (u, v) es)) /\
    length bs = length es /\
    (forall k e, nth_error es k = Some e ->
       nth_error bs k = Some (negb (mem_edge d e (firstn k es)))) /\
    size_edge d g = length (distinct_edges d es) /\
    size_vertex g = vertex_bound es.
Proof. exact insert_sequence. Qed.
Print Assumptions C01_insert_sequence.

(** One insertion into any well formed graph: what changes and what does not. *)
Theorem C01_insert_one : forall (dbg d : bool) (g : graph) (e : nat * nat),
  well_formed d g -> fst e <> snd e ->
  exists g' b,
    insert dbg d g e = Ok (g', b) /\ well_formed d g' /\
    (b = false <-> edge g (fst e) (snd e)) /\
    (b = false -> g' = g) /\
    (forall u v, edge g' u v <-> edge g u v \/ same_edge d (u, v) e = true) /\
    length (adj g') = length (adj g) + (if b then if d then 1 else 2 else 0) /\
    size_vertex g' = Nat.max (size_vertex g) (Nat.max (fst e) (snd e) + 1).
Proof. exact insert_spec. Qed.
Print Assumptions C01_insert_one.

Example C01_hypotheses :
  let es := [(2, 0); (0, 1); (1, 0); (4, 2); (0, 2)] in
  (forall e, In e es -> fst e <> snd e) /\
  insert_all true false es graph_default =
    Ok (mkG [1; 2; 0; 0; 4; 2] [0; 2; 3; 5; 5; 6], [true; true; false; true; false]) /\
  insert_all true true es graph_default =
    Ok (mkG [1; 2; 0; 0; 2] [0; 2; 3; 4; 4; 5], [true; true; true; true; true]).
Proof.
  split; [|split; reflexivity]. intros e H. simpl in H.
  repeat (destruct H as [<-|H]; [discriminate|]). destruct H.
Qed.

(** ** C02 *)
Theorem C02_reachable_well_formed : forall M strict dbg d g,
  reachable_graph M strict dbg d g -> well_formed d g.
Proof. exact reachable_well_formed. Qed.
Print Assumptions C02_reachable_well_formed.

Theorem C02_graph_invariant : forall M strict dbg d g,
  reachable_graph M strict dbg d g ->
  (forall u, u < size_vertex g ->
     exists r, subscript dbg g u = Ok r /\ degree dbg g u = Ok (length r) /\
       StronglySorted lt r /\ (forall v, In v r <-> edge g u v) /\
       (forall v, In v r -> v < size_vertex g /\ v <> u)) /\
  (d = false -> forall u v, edge g u v -> edge g v u) /\
  (exists ds, mapM (degree dbg g) (seq 0 (size_vertex g)) = Ok ds /\
     vsum ds = (if d then 1 else 2) * size_edge d g).
Proof. exact reachable_invariant. Qed.
Print Assumptions C02_graph_invariant.

Example C02_hypotheses : exists g,
  reachable_graph 100 false true false g /\ size_vertex g = 3 /\ size_edge false g = 2.
Proof. exact reachable_example. Qed.

(** ** C03 *)
Theorem C03_resize_keeps_surviving_edges : forall d g n, well_formed d g ->
  exists g', resize false g n = Ok g' /\ well_formed d g' /\ size_vertex g' = n /\
    forall u v, edge g' u v <-> edge g u v /\ u < n /\ v < n.
Proof. exact resize_spec. Qed.
Print Assumptions C03_resize_keeps_surviving_edges.

Definition path4 : graph := mkG [1; 0; 2; 1; 3; 2] [0; 1; 3; 5; 6].

Example C03_hypotheses : well_formed false path4 /\
  resize false path4 2 = Ok (mkG [1; 0] [0; 1; 2]) /\
  resize false path4 5 = Ok (mkG [1; 0; 2; 1; 3; 2] [0; 1; 3; 5; 6; 6]).
Proof. split; [exact path4_well_formed|split; reflexivity]. Qed.

(** ** C04: violated. resize(n) subscripts one past the end of the offsets whenever
    1 <= n <= size_vertex(). *)
Theorem C04_resize_memory_safe_refuted : exists d g n,
  well_formed d g /\ resize true g n = Undef.
Proof. exact resize_undefined_witness. Qed.
Print Assumptions C04_resize_memory_safe_refuted.

(** The exact set of calls that stay inside the storage. The full property would have [resize true
    g n <> Undef] for every n; missing are all n with 1 <= n <= size_vertex(). *)
Theorem C04_resize_memory_safe_partial : forall d g n, well_formed d g ->
  (0 < n <= size_vertex g -> resize true g n = Undef) /\
  (n = 0 \/ size_vertex g < n -> resize true g n = resize false g n).
Proof. exact resize_strict. Qed.
Print Assumptions C04_resize_memory_safe_partial.

Example C04_hypotheses : well_formed false path4 /\ 0 < 3 <= size_vertex path4.
Proof. split; [exact path4_well_formed|cbn; lia]. Qed.

(** ** C05 *)
Theorem C05_erase_if_induced : forall M d del g, well_formed d g -> off g <> [] ->
  (forall i, i < size_vertex g -> del i = false -> i < length (adj g)) ->
  exists g', erase_if M del g = Ok g' /\ well_formed d g' /\
    size_vertex g' = rank del (size_vertex g) /\
    (forall u v, u < size_vertex g -> v < size_vertex g -> del u = false -> del v = false ->
       (edge g' (rank del u) (rank del v) <-> edge g u v)).
Proof. exact erase_if_spec. Qed.
Print Assumptions C05_erase_if_induced.

(** [rank del] enumerates the kept vertices in order: strictly increasing on them and onto. *)
Theorem C05_rank_monotone : forall del u v, del u = false -> u < v -> rank del u < rank del v.
Proof. exact rank_lt. Qed.
Print Assumptions C05_rank_monotone.

Theorem C05_rank_onto : forall del n k, k < rank del n ->
  exists u, u < n /\ del u = false /\ rank del u = k.
Proof. exact rank_surj. Qed.
Print Assumptions C05_rank_onto.

Example C05_hypotheses :
  well_formed false path4 /\ off path4 <> [] /\
  (forall i, i < size_vertex path4 -> (i =? 1) = false -> i < length (adj path4)) /\
  erase_if 100 (fun i => i =? 1) path4 = Ok (mkG [2; 1] [0; 0; 1; 2]).
Proof.
  split; [exact path4_well_formed|split; [discriminate|split; [|reflexivity]]].
  intros i Hi _. cbn in *. lia.
Qed.

(** ** C06: violated, by an isolated last vertex and by the empty graph. *)
Theorem C06_erase_if_defined_refuted : exists d g del,
  well_formed d g /\ size_vertex g = 3 /\ forall M, erase_if M del g = Undef.
Proof. exact erase_if_undefined_witness. Qed.
Print Assumptions C06_erase_if_defined_refuted.

(** Exactly which calls are undefined; the full property says none. *)
Theorem C06_erase_if_defined_partial : forall M d del g, well_formed d g ->
  (erase_if M del g = Undef <->
   off g = [] \/ exists i, i < size_vertex g /\ del i = false /\ length (adj g) <= i).
Proof. exact erase_if_undefined. Qed.
Print Assumptions C06_erase_if_defined_partial.

Example C06_hypotheses : well_formed false path4 /\ erase_if 9 (fun _ => false) path4 = Ok path4.
Proof. split; [exact path4_well_formed|reflexivity]. Qed.

(** ** C07 *)
Theorem C07_reorder_isomorphism : forall dbg d g p,
  well_formed d g -> is_perm (size_vertex g) p ->
  exists h, reorder dbg g p = Ok (h, g) /\ well_formed d h /\
    size_vertex h = size_vertex g /\ length (adj h) = length (adj g) /\
    (forall u v, u < size_vertex g -> v < size_vertex g ->
       (edge h (nth u p 0) (nth v p 0) <-> edge g u v)) /\
    (forall u, u < size_vertex g -> degree dbg h (nth u p 0) = degree dbg g u).
Proof. exact reorder_spec. Qed.
Print Assumptions C07_reorder_isomorphism.

Theorem C07_reorder_inverse : forall dbg d g p q,
  well_formed d g -> is_perm (size_vertex g) p -> length q = size_vertex g ->
  (forall i, i < size_vertex g -> nth (nth i p 0) q 0 = i) ->
  exists h, reorder dbg g p = Ok (h, g) /\ reorder dbg h q = Ok (g, h).
Proof. exact reorder_inverse. Qed.
Print Assumptions C07_reorder_inverse.

Example C07_hypotheses : is_perm (size_vertex path4) [2; 0; 3; 1] /\
  (forall i, i < size_vertex path4 -> nth (nth i [2; 0; 3; 1] 0) [1; 3; 0; 2] 0 = i) /\
  reorder true path4 [2; 0; 3; 1] = Ok (mkG [2; 3; 3; 0; 0; 1] [0; 2; 3; 4; 6], path4).
Proof.
  split; [|split; [|reflexivity]].
  - apply perm_intro; [reflexivity|repeat constructor; simpl; intuition discriminate|].
    intros x Hx. simpl in Hx. change (size_vertex path4) with 4. intuition lia.
  - intros i Hi. change (i < 4) in Hi. do 4 (destruct i as [|i]; [reflexivity|]). lia.
Qed.

(** ** C08: violated. A vector of the right length and sum passes both assertions. *)
Theorem C08_reorder_rejects_refuted : exists g p h,
  well_formed false g /\ length p = size_vertex g /\ ~ is_perm (size_vertex g) p /\
  reorder true g p = Ok h /\ ~ well_formed false (fst h).
Proof. exact reorder_accepts_witness. Qed.
Print Assumptions C08_reorder_rejects_refuted.

(** What the assertions do catch: a wrong length or a wrong sum. Missing: every other
    non-permutation. *)
Theorem C08_reorder_rejects_partial : forall g p,
  (length p <> size_vertex g \/ 2 * vsum p <> (size_vertex g - 1) * size_vertex g) ->
  reorder true g p = Abort.
Proof. exact reorder_rejects. Qed.
Print Assumptions C08_reorder_rejects_partial.

Example C08_hypotheses : 2 * vsum [0; 1; 2; 2] <> (size_vertex path4 - 1) * size_vertex path4.
Proof. cbv. discriminate. Qed.

(** ** C30 *)
Theorem C30_create_graph_line : forall M dbg d n, 2 <= n ->
  exists g, create_graph_line M dbg d n = Ok g /\ well_formed d g /\
    size_vertex g = n /\ size_edge d g = n - 1 /\
    forall u v, edge g u v <->
      u < n /\ v < n /\ (v = u + 1 \/ (d = false /\ u = v + 1)).
Proof. exact create_line_spec. Qed.
Print Assumptions C30_create_graph_line.

Example C30_hypotheses : create_graph_line 100 true false 4 = Ok path4.
Proof. reflexivity. Qed.

(** Violated for n = 1 (no vertex instead of one) and n = 0 (the count wraps and M edges are
    inserted). *)
Theorem C30_create_graph_line_refuted : forall M dbg d,
  (exists g, create_graph_line M dbg d 1 = Ok g /\ size_vertex g = 0) /\
  (0 < M -> exists g, create_graph_line M dbg d 0 = Ok g /\ size_vertex g = M + 1).
Proof. exact create_line_small. Qed.
Print Assumptions C30_create_graph_line_refuted.

(** ** C31 *)
Theorem C31_create_graph_structured : forall dbg d n, n <> 1 ->
  exists g, create_graph_structured dbg d n = Ok g /\ well_formed d g /\
    size_vertex g = n * n /\ size_edge d g = 2 * n * (n - 1) /\
    forall x1 y1 x2 y2, x1 < n -> y1 < n -> x2 < n -> y2 < n ->
      (edge g (y1 * n + x1) (y2 * n + x2) <->
       (y1 = y2 /\ x2 = x1 + 1) \/ (x1 = x2 /\ y2 = y1 + 1) \/
       (d = false /\ ((y1 = y2 /\ x1 = x2 + 1) \/ (x1 = x2 /\ y1 = y2 + 1)))).
Proof. exact grid_spec. Qed.
Print Assumptions C31_create_graph_structured.

Example C31_hypotheses :
  create_graph_structured true false 2 = Ok (mkG [1; 2; 0; 3; 0; 3; 1; 2] [0; 2; 4; 6; 8]).
Proof. reflexivity. Qed.

(** Violated for n = 1: the grid of one point has no vertex. *)
Theorem C31_create_graph_structured_refuted : forall dbg d,
  create_graph_structured dbg d 1 = Ok graph_default.
Proof. exact grid_one. Qed.
Print Assumptions C31_create_graph_structured_refuted.
