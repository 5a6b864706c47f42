(** Property theorems C89, C90: element access and stream output of the graphs. *)
From Coq Require Import String Ascii.
From Verif Require Import Base ListFacts Csr GraphModel GraphSpec GraphFacts GraphSeq PropGraphLemmas
  SubgraphModel GraphAccess TextModel TextFacts PropAccessLemmas.

(** ** C89 *)
(** at() is checked in every build; operator[], degree(), front() and back() in debug builds only. *)
Theorem C89_access : forall (dbg d : bool) (g : graph), well_formed d g ->
  (g_empty g = true <-> size_vertex g = 0) /\
  (forall i, i < size_vertex g -> exists r, neighbours g i r /\
     g_at dbg g i = Ok r /\ subscript dbg g i = Ok r /\ degree dbg g i = Ok (length r) /\
     (i = 0 -> g_front dbg g = Ok r) /\ (i + 1 = size_vertex g -> g_back dbg g = Ok r)) /\
  (forall i, size_vertex g <= i ->
     g_at dbg g i = Abort /\
     subscript dbg g i = (if dbg then Abort else Undef) /\
     degree dbg g i = (if dbg then Abort else Undef)) /\
  (size_vertex g = 0 ->
     g_front dbg g = (if dbg then Abort else Undef) /\
     g_back dbg g = (if dbg then Abort else Undef)).
Proof. exact access_spec. Qed.
Print Assumptions C89_access.

Example C89_hypotheses :
  let g := mkG [1; 0; 2; 1; 3; 2] [0; 1; 3; 5; 6] in
  well_formed false g /\ g_at false g 1 = Ok [0; 2] /\ g_at false g 4 = Abort /\
  subscript false g 4 = Undef /\ g_back true g = Ok [2].
Proof. exact access_example. Qed.

(** ** C90 *)
(** The documented layout: one line per vertex, neighbours separated by ", ", a full stop for none. *)
Theorem C90_graph_text : forall (dbg d : bool) (g : graph) (o : text), well_formed d g ->
  write_graph dbg g o = Ok (o ++ join newline (map line (rows g))).
Proof. exact write_graph_ok. Qed.
Print Assumptions C90_graph_text.

Theorem C90_graph_text_determines_graph : forall (dbg d : bool) (g1 g2 : graph),
  well_formed d g1 -> well_formed d g2 ->
  write_graph dbg g1 [] = write_graph dbg g2 [] ->
  size_vertex g1 = size_vertex g2 /\ forall u v, edge g1 u v <-> edge g2 u v.
Proof. exact write_graph_inj. Qed.
Print Assumptions C90_graph_text_determines_graph.

Theorem C90_subgraph_text : forall (dbg : bool) (s : subgraph) (o : text) (lg lv : nat -> nat),
  well_formed false (s_graph s) ->
  (forall i, i < sub_size s -> local_global dbg s i = Ok (lg i) /\ vertex_level dbg s i = Ok (lv i)) ->
  write_subgraph dbg s o =
  Ok (o ++ join newline (map line (rows (s_graph s)) ++
                         map (fun i => entry i (lg i) (lv i)) (seq 0 (sub_size s)))).
Proof. exact write_subgraph_ok. Qed.
Print Assumptions C90_subgraph_text.

Theorem C90_subgraph_text_determines_subgraph : forall (dbg : bool) (s1 s2 : subgraph),
  well_formed false (s_graph s1) -> well_formed false (s_graph s2) ->
  (forall s i, s = s1 \/ s = s2 -> i < sub_size s ->
     exists a l, local_global dbg s i = Ok a /\ vertex_level dbg s i = Ok l) ->
  write_subgraph dbg s1 [] = write_subgraph dbg s2 [] ->
  sub_size s1 = sub_size s2 /\ (forall u v, edge (s_graph s1) u v <-> edge (s_graph s2) u v) /\
  (forall i, i < sub_size s1 -> local_global dbg s1 i = local_global dbg s2 i /\
                                vertex_level dbg s1 i = vertex_level dbg s2 i).
Proof. exact write_subgraph_inj. Qed.
Print Assumptions C90_subgraph_text_determines_subgraph.

Example C90_hypotheses :
  let g := mkG [1; 12; 0; 0] [0; 2; 3; 3; 3; 3; 3; 3; 3; 3; 3; 3; 3; 4] in
  let nl := string_of_list_ascii newline in
  well_formed false g /\
  write_graph true g [] =
    Ok (chars ("1, 12" ++ nl ++ "0" ++ nl ++ "." ++ nl ++ "." ++ nl ++ "." ++ nl ++ "." ++ nl ++ "." ++ nl ++
               "." ++ nl ++ "." ++ nl ++ "." ++ nl ++ "." ++ nl ++ "." ++ nl ++ "0")%string).
Proof. split; [exact mixed_well_formed|vm_compute; reflexivity]. Qed.

Example C90_subgraph_hypotheses :
  let s := mkS 7 (mkG [1; 0] [0; 1; 2]) [4; 15] [0; 1] in
  let nl := string_of_list_ascii newline in
  well_formed false (s_graph s) /\
  (forall i, i < sub_size s -> exists a l, local_global true s i = Ok a /\ vertex_level true s i = Ok l) /\
  write_subgraph true s [] =
    Ok (chars ("1" ++ nl ++ "0" ++ nl ++ "0 -> 4 (0)" ++ nl ++ "1 -> 15 (1)")%string).
Proof.
  split; [apply (of_rows_well_formed false [[1]; [0]]), rows_okb_ok; reflexivity|].
  split; [|vm_compute; reflexivity].
  intros [|[|i]] Hi; [exists 4, 0; auto|exists 15, 1; auto|cbn in Hi; lia].
Qed.
