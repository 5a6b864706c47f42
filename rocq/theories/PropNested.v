(** C128: successive bisections and the parts of a line. *)
From Verif Require Import Base ListFacts Csr GraphModel GraphSpec TraversalModel Bfs TraversalFacts Expansion
  SubgraphModel PropSubgraphLemmas PartitionModel Bisection PropGraphLemmas PropPartitionLemmas PropConnectedLemmas
  PropNestedLemmas.

(** One part more: the first of the largest parts is replaced by its first half and the other half is appended; all
    other parts stay. Both halves have vertices when the part has two or more. [halved]: the first half are the vertices
    within half of the largest distance of a vertex whose largest distance is at least that of the part's first vertex. *)
Theorem C128_nested : forall rnd h M dbg g,
  well_formed false g -> size_vertex g <= M -> 0 < size_vertex g -> size_vertex g <= length (adj g) ->
  (forall x, x < size_vertex g -> rnd x = x) -> rnd (M / 2) < M ->
  forall k, 0 < k -> (dbg = true -> k < size_vertex g) ->
  exists l1 s l2 sl sr part l r,
    recursive_graph_bisection rnd h M dbg g k = Ok (l1 ++ s :: l2) /\
    recursive_graph_bisection rnd h M dbg g (k + 1) = Ok (l1 ++ sl :: l2 ++ [sr]) /\
    Forall (fun t => sub_size t < sub_size s) l1 /\ Forall (fun t => sub_size t <= sub_size s) l2 /\
    induced_by dbg g part s /\ induced_by dbg g l sl /\ induced_by dbg g r sr /\
    ascending part /\ ascending l /\ ascending r /\
    (forall v, In v part <-> In v l \/ In v r) /\ (forall v, In v l -> In v r -> False) /\
    l <> [] /\ (1 < length part -> r <> []) /\ (1 < length part -> connected_part g part -> halved g part l r).
Proof. exact bisection_nested. Qed.
Print Assumptions C128_nested.

(** Any number of parts of a line: consecutive vertices, and no part has more than twice the vertices of another and
    one more. *)
Theorem C128_line : forall rnd h M dbg n g k, 2 <= n -> n <= M -> create_graph_line M dbg false n = Ok g ->
  (forall x, x < n -> rnd x = x) -> rnd (M / 2) < M -> 0 < k <= n ->
  exists ss ab, recursive_graph_bisection rnd h M dbg g k = Ok ss /\ length ss = k /\
    Forall2 (fun p s => induced_by dbg g (seq (fst p) (snd p)) s /\ 0 < snd p) ab ss /\
    splits n (map (fun p => seq (fst p) (snd p)) ab) /\
    forall s t, In s ss -> In t ss -> sub_size s <= 2 * sub_size t + 1.
Proof. exact line_balanced. Qed.
Print Assumptions C128_line.

(** A power of two parts of a line: the sizes differ by at most one. *)
Theorem C128_line_powers : forall rnd h M dbg n g j, 2 <= n -> n <= M -> create_graph_line M dbg false n = Ok g ->
  (forall x, x < n -> rnd x = x) -> rnd (M / 2) < M -> 2 ^ j <= n ->
  exists ss, recursive_graph_bisection rnd h M dbg g (2 ^ j) = Ok ss /\ length ss = 2 ^ j /\
    forall s, In s ss -> n / 2 ^ j <= sub_size s <= n / 2 ^ j + 1.
Proof. exact line_even. Qed.
Print Assumptions C128_line_powers.

(** Five vertices in a line, cut into two, three and four. *)
Example C128_hypotheses : exists g, create_graph_line 100 true false 5 = Ok g /\ well_formed false g /\ size_vertex g = 5 /\
  5 <= length (adj g) /\ 100 / 2 < 100 /\ connected_part g [0; 1; 2; 3; 4] /\
  (exists ss, recursive_graph_bisection (fun x => x) (fun x => x) 100 true g 2 = Ok ss /\ map s_lg ss = [[2; 3; 4]; [0; 1]]) /\
  (exists ss, recursive_graph_bisection (fun x => x) (fun x => x) 100 true g 3 = Ok ss /\ map s_lg ss = [[3; 4]; [0; 1]; [2]]) /\
  (exists ss, recursive_graph_bisection (fun x => x) (fun x => x) 100 true g 4 = Ok ss /\ map s_lg ss = [[4]; [0; 1]; [2]; [3]]).
Proof.
  destruct (create_line_spec 100 true false 5) as (g & E & Hw & Hs & Hse & He); [repeat constructor|]. exists g. split; [exact E|].
  split; [exact Hw|]. split; [exact Hs|]. destruct (line_usual 100 true 5 g ltac:(lia) E) as (He' & _ & _ & Ha).
  split; [exact Ha|]. split; [change (50 < 100); lia|].
  split; [exact (interval_connected 5 g He' 0 5 ltac:(lia))|].
  assert (Eg : g = mkG [1; 0; 2; 1; 3; 2; 4; 3] [0; 1; 3; 5; 7; 8]) by (vm_compute in E; congruence). rewrite Eg.
  split; [|split]; eexists; (split; [vm_compute; reflexivity|reflexivity]).
Qed.
