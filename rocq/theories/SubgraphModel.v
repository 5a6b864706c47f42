(** Model of Adjacency_Subgraph: include/graph/adjacency_subgraph.hpp and
    src/graph/adjacency_subgraph.cpp. [h] is std::hash<std::size_t>, [M] the largest std::size_t,
    [dbg] the macro DISA_DEBUG. *)
From Verif Require Import Base GraphModel TraversalModel.

(** Data members: adjacency_subgraph.hpp 347-352. *)
Record subgraph := mkS {
  s_hash : nat;            (* hash_parent *)
  s_graph : graph;         (* graph *)
  s_lg : list nat;         (* i_local_global *)
  s_level : list nat       (* level_set_value *)
}.

(** Default constructor: adjacency_subgraph.hpp 81; the hash of an empty graph is 0. *)
Definition subgraph_default : subgraph := mkS 0 graph_default [] [].

Definition is_nil {A : Type} (l : list A) : bool := match l with [] => true | _ => false end.

(** std::unique_copy: adjacency_subgraph.cpp 45. *)
Fixpoint unique_copy (l : list nat) : list nat :=
  match l with
  | [] => []
  | x :: r =>
    match r with
    | [] => [x]
    | y :: _ => if x =? y then unique_copy r else x :: unique_copy r
    end
  end.

(** size_vertex(), at(), operator[]: adjacency_subgraph.hpp 180, 109, 116-125; they forward to the graph,
    and at() calls operator[] of the graph, not its at(). *)
Definition sub_size (s : subgraph) : nat := size_vertex (s_graph s).
Definition sub_at (dbg : bool) (s : subgraph) (i : nat) : res (list nat) := subscript dbg (s_graph s) i.

(** local_global(i): adjacency_subgraph.hpp 308-312. *)
Definition local_global (dbg : bool) (s : subgraph) (i : nat) : res nat :=
  do _ <- ASSERT_DEBUG dbg (i <? sub_size s);
  vget (s_lg s) i.

(** vertex_level(i): adjacency_subgraph.hpp 340-344. *)
Definition vertex_level (dbg : bool) (s : subgraph) (i : nat) : res nat :=
  do _ <- ASSERT_DEBUG dbg (i <? sub_size s);
  if is_nil (s_level s) then Ok 0 else vget (s_level s) i.

(** is_local(i): adjacency_subgraph.hpp 288-292. *)
Definition is_local (dbg : bool) (s : subgraph) (i : nat) : res bool :=
  do _ <- ASSERT_DEBUG dbg (i <? sub_size s);
  if is_nil (s_level s) then Ok true else do l <- vget (s_level s) i; Ok (l =? 0).

(** is_parent(graph): adjacency_subgraph.hpp 299-301. *)
Definition is_parent (h : nat -> nat) (dbg : bool) (s : subgraph) (g : graph) : res bool :=
  do x <- graph_hash dbg false h g;
  Ok (x =? s_hash s).

(** clear(): adjacency_subgraph.hpp 229-234. *)
Definition sub_clear (h : nat -> nat) (dbg : bool) (s : subgraph) : res subgraph :=
  do x <- graph_hash dbg false h (g_clear (s_graph s));
  Ok (mkS x (g_clear (s_graph s)) [] []).

(** resize(size): adjacency_subgraph.hpp 243-248. *)
Definition sub_resize (h : nat -> nat) (strict dbg : bool) (s : subgraph) (n : nat) : res subgraph :=
  do x <- (if sub_size s <? n then graph_hash dbg false h graph_default else Ok (s_hash s));
  do g <- resize strict (s_graph s) n;
  Ok (mkS x g (vresize (s_lg s) n 0)
          (if is_nil (s_level s) then [] else vresize (s_level s) n 0)).

(** First loop of add_levels: adjacency_subgraph.cpp 148-154. State: (start_vertices, levels,
    *i_global_local). *)
Definition load_step (lg lv : list nat) (current_max i : nat) (s : list nat * list nat * list nat)
    : res (list nat * list nat * list nat) :=
  let '(Q, L, gl) := s in
  do l <- vget lv i;
  do v <- vget lg i;
  let Q' := if l =? current_max then Q ++ [v] else Q in
  do L' <- vset L v l;
  do gl' <- vset gl v i;
  Ok (Q', L', gl').

(** Condition [current_max < levels[i] && levels[i] <= max_level]: adjacency_subgraph.cpp 160, 168. *)
Definition is_new (current_max max_level l : nat) : bool := (current_max <? l) && (l <=? max_level).

(** Second loop of add_levels: adjacency_subgraph.cpp 159-164. State: (i_local_global,
    level_set_value, *i_global_local). *)
Definition append_step (L : list nat) (current_max max_level i : nat)
    (s : list nat * list nat * list nat) : res (list nat * list nat * list nat) :=
  let '(lg, lv, gl) := s in
  do l <- vget L i;
  if is_new current_max max_level l then
    do gl' <- vset gl i (length lg);
    Ok (lg ++ [i], lv ++ [l], gl')
  else Ok s.

(** Third loop of add_levels: adjacency_subgraph.cpp 167-177. *)
Definition connect_step (M : nat) (dbg : bool) (g : graph) (L gl : list nat)
    (current_max max_level i : nat) (G : graph) : res graph :=
  do l <- vget L i;
  if is_new current_max max_level l then
    do il <- vget gl i;
    do r <- subscript dbg g i;
    forM r (fun a G =>
      do ia <- vget gl a;
      if negb (ia =? M) then do x <- insert dbg false G (il, ia); Ok (fst x) else Ok G) G
  else Ok G.

(** add_levels: adjacency_subgraph.cpp 136-179. Whatever vector [i_global_local] points to is resized
    and filled first, so it is not an argument; the second component of the result is its final
    content. *)
Definition add_levels (M : nat) (dbg : bool) (g : graph) (max_level current_max : nat) (s : subgraph)
    : res (subgraph * list nat) :=
  let n := size_vertex g in
  do x <- FOR (sub_size s) (load_step (s_lg s) (s_level s) current_max) ([], repeat M n, repeat M n);
  let '(Q, L, gl) := x in
  do L' <- level_traversal_queue M dbg g Q L max_level;
  do y <- FOR (length L') (append_step L' current_max max_level) (s_lg s, s_level s, gl);
  let '(lg', lv', gl') := y in
  do G <- FOR (length L') (connect_step M dbg g L' gl' current_max max_level) (s_graph s);
  Ok (mkS (s_hash s) G lg' lv', gl').

(** remove_levels: adjacency_subgraph.cpp 185-209. std::remove_if applies the counting predicate to
    the elements in order. [gl] tells whether a vector was passed. *)
Definition remove_levels (M : nat) (dbg : bool) (g : graph) (max_level : nat) (s : subgraph)
    (gl : option (list nat)) : res (subgraph * option (list nat)) :=
  let del v := max_level <? nth v (s_level s) 0 in
  do G <- erase_if M del (s_graph s);
  let s' := mkS (s_hash s) G (remove_at del 0 (s_lg s))
                (if max_level =? 0 then [] else filter (fun l => negb (max_level <? l)) (s_level s)) in
  match gl with
  | None => Ok (s', None)
  | Some _ =>
    do gl' <- FOR (sub_size s') (fun i gl => do v <- local_global dbg s' i; vset gl v i)
                  (repeat M (size_vertex g));
    Ok (s', Some gl')
  end.

(** update_levels(parent_graph, max_level, i_global_local): adjacency_subgraph.cpp 110-123. The
    second component of the result is the content of the vector passed by the caller, if any. *)
Definition update_levels (h : nat -> nat) (M : nat) (dbg : bool) (g : graph) (max_level : nat)
    (s : subgraph) (gl : option (list nat)) : res (subgraph * option (list nat)) :=
  do x <- graph_hash dbg false h g;
  do _ <- ASSERT (s_hash s =? x);
  do current_max <- (if is_nil (s_level s) then Ok 0 else vmax (s_level s));
  let s1 := mkS (s_hash s) (s_graph s) (s_lg s)
                (if is_nil (s_level s) then repeat 0 (sub_size s) else s_level s) in
  if current_max <? max_level then
    do r <- add_levels M dbg g max_level current_max s1;
    Ok (fst r, match gl with None => None | Some _ => Some (snd r) end)
  else remove_levels M dbg g max_level s1 gl.

(** Constructor: adjacency_subgraph.cpp 40-77. reserve() has no visible effect. *)
Definition subgraph_new (h : nat -> nat) (M : nat) (dbg : bool) (g : graph) (part : list nat)
    (extra_levels : nat) : res subgraph :=
  do _ <- (if dbg then
             do _ <- ASSERT (length (unique_copy part) =? length part);
             do _ <- ASSERT (length part <=? size_vertex g);
             ASSERT (negb (existsb (fun v => size_vertex g <=? v) part))
           else Ok tt);
  do x <- graph_hash dbg false h g;
  do s <- forM part (fun v s => let '(gl, i) := s in do gl' <- vset gl v i; Ok (gl', i + 1))
                (repeat M (size_vertex g), 0);
  do G <- erase_if M (fun v => nth v (fst s) M =? M) g;
  let s0 := mkS x G part [] in
  if extra_levels =? 0 then Ok s0
  else do r <- update_levels h M dbg g extra_levels s0 (Some (fst s)); Ok (fst r).

(** reorder(permutation): adjacency_subgraph.cpp 88-102. Result: (this afterwards, returned
    subgraph). *)
Definition sub_reorder (dbg : bool) (s : subgraph) (perm : list nat) : res (subgraph * subgraph) :=
  do r <- reorder dbg (s_graph s) perm;
  let lg0 := repeat 0 (length perm) in
  let lv0 := if is_nil (s_level s) then [] else repeat 0 (length perm) in
  do x <- FOR (size_vertex (fst r)) (fun i x =>
    let '(lg, lv) := x in
    do p <- vget perm i;
    do v <- vget (s_lg s) i;
    do lg' <- vset lg p v;
    if is_nil (s_level s) then Ok (lg', lv)
    else do l <- vget (s_level s) i; do lv' <- vset lv p l; Ok (lg', lv')) (lg0, lv0);
  Ok (mkS (s_hash s) (fst r) (fst x) (snd x), mkS 0 (snd r) (s_lg s) (s_level s)).
