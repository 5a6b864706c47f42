(** Property C99: reserve, capacity, data, swap and shrink_to_fit, and which insertions leave pointers and references
    into a graph or matrix valid. A vector's array is told by its number [sto_block]; it stays the same exactly when no
    new array replaced it. [roomy], [sub_roomy] and [mat_roomy] say that every vector's capacity is at least its size,
    [grows grow] that a new array has room for what it was made for, [factor d] is the number of entries an edge takes. *)
From Coq Require Import Lia List.
From Verif Require Import Base GraphModel GraphSpec GraphInsert SubgraphModel SparseModel SparseSpec SparseFacts StorageModel PropStorageLemmas.
Import ListNotations.

(** ** C99 *)

(** Full property: reserve leaves room for what was asked, keeps the contents and what is there already, and moves
    only an array that is too small, for all sizes (or ends the program). It fails when twice the number of edges
    exceeds the largest std::size_t (below); up to there it holds. *)
Theorem C99_reserve_partial : forall grow M vmax d x nv ne, grows grow -> roomy x -> nv < M -> factor d * ne <= M ->
  nv + 1 <= vmax -> factor d * ne <= vmax ->
  exists y, sg_reserve grow M vmax d x nv ne = Ok y /\ sg_graph y = sg_graph x /\ roomy y /\
    nv <= fst (sg_capacity d y) /\ ne <= snd (sg_capacity d y) /\
    fst (sg_capacity d x) <= fst (sg_capacity d y) /\ snd (sg_capacity d x) <= snd (sg_capacity d y) /\
    (nv < fst (sg_capacity d x) \/ nv = fst (sg_capacity d x) /\ sto_cap (sg_off x) <> 0 -> sg_off y = sg_off x) /\
    (ne <= snd (sg_capacity d x) -> sg_adj y = sg_adj x).
Proof. exact reserve_room. Qed.
Print Assumptions C99_reserve_partial.

(** The number of entries wraps around: reserve returns, and there is no room. *)
Theorem C99_reserve_wrap_refuted : forall grow k vmax x nv, grows grow -> nv < 2 * k + 1 -> nv + 1 <= vmax ->
  snd (sg_capacity false x) <= k ->
  exists y, sg_reserve grow (2 * k + 1) vmax false x nv (k + 1) = Ok y /\ snd (sg_capacity false y) < k + 1.
Proof. exact reserve_wraps_room. Qed.
Print Assumptions C99_reserve_wrap_refuted.

(** The sizes never exceed the capacities. *)
Theorem C99_sizes : forall d x, well_formed d (sg_graph x) -> roomy x ->
  size_vertex (sg_graph x) <= fst (sg_capacity d x) /\ size_edge d (sg_graph x) <= snd (sg_capacity d x).
Proof. exact sizes_fit. Qed.
Print Assumptions C99_sizes.

(** Insertions leave an array where it is exactly when the resulting sizes fit the capacity before. *)
Theorem C99_insert_in_place : forall grow dbg d es x, grows grow -> well_formed d (sg_graph x) -> roomy x ->
  (forall e, In e es -> fst e <> snd e) ->
  exists y bs, sg_insert_all grow dbg d es x = Ok y /\ insert_all dbg d es (sg_graph x) = Ok (sg_graph y, bs) /\ roomy y /\
    (sto_block (sg_off y) = sto_block (sg_off x) <-> size_vertex (sg_graph y) <= fst (sg_capacity d x)) /\
    (sto_block (sg_adj y) = sto_block (sg_adj x) <-> size_edge d (sg_graph y) <= snd (sg_capacity d x)).
Proof. exact insert_in_place. Qed.
Print Assumptions C99_insert_in_place.

(** So reserving for the final graph is enough. *)
Theorem C99_reserved_inserts : forall grow M vmax dbg d x nv ne es, grows grow -> well_formed d (sg_graph x) -> roomy x ->
  nv < M -> factor d * ne <= M -> nv + 1 <= vmax -> factor d * ne <= vmax -> (forall e, In e es -> fst e <> snd e) ->
  exists y z bs, sg_reserve grow M vmax d x nv ne = Ok y /\ sg_insert_all grow dbg d es y = Ok z /\
    insert_all dbg d es (sg_graph x) = Ok (sg_graph z, bs) /\
    (size_vertex (sg_graph z) <= nv -> sto_block (sg_off z) = sto_block (sg_off y)) /\
    (size_edge d (sg_graph z) <= ne -> sto_block (sg_adj z) = sto_block (sg_adj y)).
Proof. exact reserved_inserts. Qed.
Print Assumptions C99_reserved_inserts.

(** data() gives the same pointers as long as no array moved. *)
Theorem C99_data : forall x y, sto_block (sg_adj y) = sto_block (sg_adj x) -> sto_block (sg_off y) = sto_block (sg_off x) ->
  adj (sg_graph x) <> [] -> g_empty (sg_graph x) = false -> adj (sg_graph y) <> [] -> g_empty (sg_graph y) = false ->
  sg_data y = sg_data x.
Proof. exact data_pointers. Qed.
Print Assumptions C99_data.

(** data() gives no pointers for a graph without vertices and no pointer to the edges for one without edges. *)
Theorem C99_data_cases : forall x, let g := sg_graph x in
  (size_vertex g = 0 -> sg_data x = (None, None)) /\
  (size_vertex g <> 0 -> adj g = [] -> sg_data x = (None, Some (sto_block (sg_off x)))) /\
  (size_vertex g <> 0 -> adj g <> [] -> sg_data x = (Some (sto_block (sg_adj x)), Some (sto_block (sg_off x)))).
Proof. exact data_cases. Qed.
Print Assumptions C99_data_cases.

Example C99_data_cases_example : sg_data (mkSG (mkG [] [0; 0]) (mkStore 0 0) (mkStore 4 7)) = (None, Some 7) /\
  sg_data (mkSG (mkG [] [0]) (mkStore 0 0) (mkStore 4 7)) = (None, None).
Proof. split; reflexivity. Qed.

(** data() of a subgraph adds a pointer to the map to the parent, null without vertices, and one to the levels, null
    without levels. *)
Theorem C99_sub_data : forall x,
  fst (fst (ss_data x)) = sg_data (ss_graph x) /\
  (snd (fst (ss_data x)) = None <-> s_lg (ss_sub x) = []) /\ (snd (ss_data x) = None <-> s_level (ss_sub x) = []) /\
  (s_lg (ss_sub x) <> [] -> snd (fst (ss_data x)) = Some (sto_block (ss_lg x))) /\
  (s_level (ss_sub x) <> [] -> snd (ss_data x) = Some (sto_block (ss_lev x))).
Proof. exact sub_data_cases. Qed.
Print Assumptions C99_sub_data.

(** Refuted: the documentation promises that without edges only the pointer to the offsets is not null. Vertices 0 and 2
    of a path: the pointer to the map is not null either. *)
Theorem C99_sub_data_refuted : exists s g, subgraph_new (fun x => x) 100 true (mkG [1; 0; 2; 1] [0; 1; 3; 4]) [0; 2] 0 = Ok s /\
  s_graph s = g /\ adj g = [] /\
  forall ga go lg lev, ss_data (mkSS (mkSG g ga go) s lg lev) = (None, Some (sto_block go), Some (sto_block lg), None).
Proof. do 2 eexists. split; [vm_compute; reflexivity|]. repeat split. Qed.
Print Assumptions C99_sub_data_refuted.

Example C99_sub_data_example : exists s, subgraph_new (fun x => x) 100 true (mkG [1; 0; 2; 1] [0; 1; 3; 4]) [0] 1 = Ok s /\
  ss_data (mkSS (mkSG (s_graph s) (mkStore 2 1) (mkStore 3 2)) s (mkStore 2 3) (mkStore 2 4)) = (Some 1, Some 2, Some 3, Some 4).
Proof. eexists. split; vm_compute; reflexivity. Qed.

(** swap exchanges contents, capacities and arrays. *)
Theorem C99_swap : forall x y, sg_swap x y = (y, x).
Proof. exact swap_exchanges. Qed.
Print Assumptions C99_swap.

(** shrink_to_fit keeps the contents; where the request is obeyed the capacity becomes the size. *)
Theorem C99_shrink : forall oa oo x, roomy x -> roomy (sg_shrink oa oo x) /\ sg_graph (sg_shrink oa oo x) = sg_graph x /\
  (oa = true -> sto_cap (sg_adj (sg_shrink oa oo x)) = length (adj (sg_graph x))) /\
  (oo = true -> sto_cap (sg_off (sg_shrink oa oo x)) = length (off (sg_graph x))).
Proof. exact shrink_keeps. Qed.
Print Assumptions C99_shrink.

(** The constructor from a list of edges reserves before it inserts, and would then insert in place. It reserves one
    offset too few: where reserve allocates just what it is asked for, the offsets always move, while the list of
    adjacent vertices never does. *)
Theorem C99_constructor_refuted : forall grow M vmax dbg d es, grows grow -> (forall n, grow 0 n = n) -> es <> [] ->
  (forall e, In e es -> fst e <> snd e /\ fst e < M /\ snd e < M) -> factor d * length es <= M -> M <= vmax ->
  exists x y bs, sg_of_list grow M vmax dbg d es = Ok (x, y) /\ insert_all dbg d es graph_default = Ok (sg_graph y, bs) /\
    sto_block (sg_off y) <> sto_block (sg_off x) /\ sto_block (sg_adj y) = sto_block (sg_adj x).
Proof. exact list_moves. Qed.
Print Assumptions C99_constructor_refuted.

(** How many offsets it reserves: undirected exactly one too few, directed a number that depends on one edge only,
    the first vertex of an edge whose second is largest. *)
Theorem C99_constructor_hint_refuted : forall grow M vmax dbg d es x y, (forall n, grow 0 n = n) ->
  (forall e, In e es -> fst e < M /\ snd e < M) -> sg_of_list grow M vmax dbg d es = Ok (x, y) ->
  (d = false -> sto_cap (sg_off x) = vertex_bound es) /\
  (d = true -> exists e, In e es /\ (forall e', In e' es -> snd e' <= snd e) /\ sto_cap (sg_off x) = fst e + 1).
Proof. exact list_hint. Qed.
Print Assumptions C99_constructor_hint_refuted.

Example C99_hint_hypotheses : exists x y x' y',
  sg_of_list (fun _ n => n) 30 20 true true [(5, 1); (0, 4); (3, 2)] = Ok (x, y) /\ sto_cap (sg_off x) = 1 /\
  size_vertex (sg_graph y) = 6 /\
  sg_of_list (fun _ n => n) 30 20 true false [(5, 1); (0, 4); (3, 2)] = Ok (x', y') /\ sto_cap (sg_off x') = 6.
Proof. do 4 eexists. repeat (split; [vm_compute; reflexivity|]). vm_compute; reflexivity. Qed.

(** reserve of a subgraph leaves room in all four vectors. *)
Theorem C99_subgraph_reserve : forall grow M vmax x nv ne, grows grow -> sub_roomy x -> nv < M -> 2 * ne <= M ->
  nv + 1 <= vmax -> 2 * ne <= vmax ->
  exists y, ss_reserve grow M vmax x nv ne = Ok y /\ ss_sub y = ss_sub x /\ sg_graph (ss_graph y) = sg_graph (ss_graph x) /\ sub_roomy y /\
    let '(c1, c2, c3, c4) := ss_capacity y in nv <= c1 /\ ne <= c2 /\ nv <= c3 /\ nv <= c4.
Proof. exact sub_reserve_room. Qed.
Print Assumptions C99_subgraph_reserve.

(** Sparse matrices: insertions leave an array where it is exactly when rows and non-zeros fit the capacity before,
    the offsets' capacity counting one more than the rows. *)
Theorem C99_matrix_in_place : forall V (vzero : V) stray M dbg grow es (x : smatrix (V := V)), grows grow ->
  swf (sm_matrix x) -> mat_roomy x -> es <> [] ->
  exists y, sm_insert_all grow M vzero stray dbg es x = Ok y /\ inserts vzero stray M dbg es (sm_matrix x) = Ok (sm_matrix y) /\
    mat_roomy y /\
    (sto_block (sm_rnz y) = sto_block (sm_rnz x) <-> s_rows (sm_matrix y) + 1 <= fst (sm_capacity x)) /\
    (sto_block (sm_col y) = sto_block (sm_col x) <-> s_nnz (sm_matrix y) <= snd (sm_capacity x)) /\
    (sto_block (sm_val y) = sto_block (sm_val x) <-> s_nnz (sm_matrix y) <= sto_cap (sm_val x)).
Proof. exact @mat_in_place. Qed.
Print Assumptions C99_matrix_in_place.

Theorem C99_matrix_reserved : forall V (vzero : V) stray M dbg grow vmax (x : smatrix (V := V)) r nz es, grows grow ->
  swf (sm_matrix x) -> mat_roomy x -> r < M -> r + 1 <= vmax -> nz <= vmax ->
  exists y z, sm_reserve grow M vmax x r nz = Ok y /\ sm_insert_all grow M vzero stray dbg es y = Ok z /\
    inserts vzero stray M dbg es (sm_matrix x) = Ok (sm_matrix z) /\
    (s_rows (sm_matrix z) <= r -> sto_block (sm_rnz z) = sto_block (sm_rnz y)) /\
    (s_nnz (sm_matrix z) <= nz -> sto_block (sm_col z) = sto_block (sm_col y) /\ sto_block (sm_val z) = sto_block (sm_val y)).
Proof. exact @mat_reserved_inserts. Qed.
Print Assumptions C99_matrix_reserved.

(* ------------------------------------------------------------------ Examples *)

(** Growth by doubling. *)
Definition doubling (c n : nat) : nat := Nat.max (2 * c) n.

Example C99_example_grows : grows doubling /\ roomy sg_default /\ well_formed false (sg_graph sg_default) /\
  forall n, doubling 0 n = n.
Proof.
  split; [intros c n; unfold doubling; lia|]. split; [split; cbn; lia|]. split; [exact (well_formed_default false)|reflexivity].
Qed.

(** A path of three vertices with a repeated edge, after reserving for three vertices and two edges: nothing moves; the
    fourth vertex and third edge then move both arrays. *)
Example C99_example_path : exists y z t, sg_reserve doubling 30 20 false sg_default 3 2 = Ok y /\
  sg_insert_all doubling true false [(0, 1); (1, 2); (2, 1)] y = Ok z /\ sg_insert_all doubling true false [(2, 3)] z = Ok t /\
  sg_capacity false y = (3, 2) /\ sg_data z = (Some 1, Some 1) /\ sg_data t = (Some 2, Some 2) /\ sg_capacity false t = (7, 4).
Proof. do 3 eexists. repeat (split; [vm_compute; reflexivity|]). vm_compute; reflexivity. Qed.

(** The same path by the constructor: the offsets move once, whatever the order of the edges. *)
Example C99_example_list : exists x y, sg_of_list doubling 30 20 true false [(1, 2); (0, 1)] = Ok (x, y) /\
  sto_block (sg_off x) = 1 /\ sto_block (sg_off y) = 2 /\ sto_block (sg_adj y) = 1.
Proof. do 2 eexists. repeat (split; [vm_compute; reflexivity|]). vm_compute; reflexivity. Qed.

(** With std::size_t of three bits, room for four edges is no room at all. *)
Example C99_example_wrap : exists y, sg_reserve doubling 7 20 false sg_default 2 4 = Ok y /\ sg_capacity false y = (2, 0).
Proof. eexists. split; reflexivity. Qed.

(** A matrix: room for two rows and two non-zeros takes an entry twice assigned and one more, the third moves. *)
Example C99_example_matrix : exists x y z t,
  sm_reserve doubling 30 20 (mkSM (mkS [] [] [] 0) (mkStore 0 0) (mkStore 0 0) (mkStore 0 0)) 2 2 = Ok x /\
  sm_insert_all doubling 30 0 None true [(1, 1, 5); (1, 1, 6); (0, 1, 7)] x = Ok y /\
  sm_insert_all doubling 30 0 None true [(0, 0, 8)] y = Ok z /\ sm_insert_all doubling 30 0 None true [(2, 0, 9)] z = Ok t /\
  sm_capacity x = (3, 2) /\ (sto_block (sm_rnz y), sto_block (sm_col y), sto_block (sm_val y)) = (1, 1, 1) /\
  (sto_block (sm_rnz z), sto_block (sm_col z)) = (1, 2) /\ (sto_block (sm_rnz t), sto_block (sm_col t)) = (2, 2).
Proof. do 4 eexists. repeat (split; [vm_compute; reflexivity|]). vm_compute; reflexivity. Qed.

(** shrink_to_fit on the reserved path. *)
Example C99_example_shrink : forall x, sg_graph x = mkG [1; 0] [0; 1; 2] -> sg_adj x = mkStore 8 3 -> sg_off x = mkStore 3 1 ->
  sg_shrink true true x = mkSG (mkG [1; 0] [0; 1; 2]) (mkStore 2 4) (mkStore 3 1) /\ sg_capacity false (sg_shrink true false x) = (2, 1).
Proof. intros [g a o]; cbn [sg_graph sg_adj sg_off]; intros -> -> ->. split; reflexivity. Qed.
