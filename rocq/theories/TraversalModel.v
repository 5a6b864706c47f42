(** Model of include/graph/graph_utilities.hpp. [M] is std::numeric_limits<std::size_t>::max(). *)
From Verif Require Import Base GraphModel.

(** [++x] and [--x] on std::size_t. *)
Definition wrap_inc (M x : nat) : nat := if x =? M then 0 else x + 1.
Definition wrap_dec (M x : nat) : nat := if x =? 0 then M else x - 1.

(** Greatest element of a vector, *std::max_element(begin, end): undefined on an empty range. *)
Definition vmax (l : list nat) : res nat :=
  match l with
  | [] => Undef
  | x :: r => Ok (fold_left Nat.max r x)
  end.

(** Body of the loops over [graph[front]]: graph_utilities.hpp 87-90 ([none = 0]) and 240-243
    ([none = M]). State: level vector and queue. *)
Definition bfs_visit (M none front v : nat) (s : list nat * list nat) : res (list nat * list nat) :=
  let '(L, Q) := s in
  do lv <- vget L v;
  if lv =? none then
    do lf <- vget L front;
    do L' <- vset L v (wrap_inc M lf);
    Ok (L', Q ++ [v])
  else Ok (L, Q).

(** while(!queue.empty()) loops: graph_utilities.hpp 83-92 and 235-245. [stop] is the condition of
    the [continue] statement. *)
Fixpoint bfs_loop (fuel : nat) (M : nat) (dbg : bool) (g : graph) (none : nat)
    (stop : list nat -> nat -> res bool) (L Q : list nat) : res (list nat) :=
  match Q with
  | [] => Ok L
  | front :: Q' =>
    match fuel with
    | 0 => Diverge
    | S f =>
      do b <- stop L front;
      if b : bool then bfs_loop f M dbg g none stop L Q'
      else
        do r <- subscript dbg g front;
        do s <- forM r (bfs_visit M none front) (L, Q');
        bfs_loop f M dbg g none stop (fst s) (snd s)
    end
  end.

(** level_traversal(graph, vertex_queue, vertex_level, end_level): graph_utilities.hpp 73-94.
    Result: the level vector; the queue is empty afterwards. *)
Definition level_traversal_queue (M : nat) (dbg : bool) (g : graph) (Q L : list nat)
    (end_level : nat) : res (list nat) :=
  do _ <- ASSERT_DEBUG dbg (negb (g_empty g));
  do _ <- ASSERT_DEBUG dbg (length L =? size_vertex g);
  let L1 := map (wrap_inc M) L in
  do _ <- (if dbg then do m <- vmax L1; ASSERT (m <? size_vertex g) else Ok tt);
  do L2 <- bfs_loop (length Q + length L) M dbg g 0
             (fun L front => do lf <- vget L front; Ok (lf =? wrap_inc M end_level)) L1 Q;
  Ok (map (wrap_dec M) L2).

(** level_traversal(graph, i_start, end_level): graph_utilities.hpp 49-61. *)
Definition level_traversal (M : nat) (dbg : bool) (g : graph) (i_start end_level : nat)
    : res (list nat) :=
  do _ <- ASSERT_DEBUG dbg (negb (g_empty g));
  do _ <- ASSERT_DEBUG dbg (i_start <? size_vertex g);
  do L <- vset (repeat M (size_vertex g)) i_start 0;
  level_traversal_queue M dbg g [i_start] L end_level.

(** Body of the loop over [graph[front]] in level_expansion: graph_utilities.hpp 134-139. *)
Definition expand_visit (M front v : nat) (s : list nat * list nat) : res (list nat * list nat) :=
  let '(C, new) := s in
  do cv <- vget C v;
  if cv =? M then
    do cf <- vget C front;
    do C' <- vset C v cf;
    Ok (C', new ++ [v])
  else Ok (C, new).

(** Draining one queue: graph_utilities.hpp 130-141. *)
Definition expand_drain (M : nat) (dbg : bool) (g : graph) (q : list nat) (C : list nat)
    : res (list nat * list nat) :=
  forM q (fun front s => do r <- subscript dbg g front; forM r (expand_visit M front) s) (C, []).

(** One forward or backward sweep over the queues: graph_utilities.hpp 124-142. *)
Definition expand_round (M : nat) (dbg : bool) (g : graph) (iteration : nat)
    (s : list nat * list (list nat)) : res (list nat * list (list nat)) :=
  let m := length (snd s) in
  FOR m (fun i s =>
    let '(C, qs) := s in
    let k := if iteration mod 2 =? 0 then i else m - i - 1 in
    do q <- vget qs k;
    do r <- expand_drain M dbg g q C;
    do qs' <- vset qs k (snd r);
    Ok (fst r, qs')) s.

Definition queue_nonempty (q : list nat) : bool :=
  match q with [] => false | _ => true end.

(** while(any_of(queues, nonempty)): graph_utilities.hpp 123-145. *)
Fixpoint expand_loop (fuel : nat) (M : nat) (dbg : bool) (g : graph) (iteration : nat)
    (s : list nat * list (list nat)) : res (list nat) :=
  if existsb queue_nonempty (snd s) then
    match fuel with
    | 0 => Diverge
    | S f =>
      do s' <- expand_round M dbg g iteration s;
      do _ <- ASSERT (iteration <? size_vertex g);
      expand_loop f M dbg g (iteration + 1) s'
    end
  else Ok (fst s).

(** level_expansion(graph, seeds, vertex_color): graph_utilities.hpp 105-146. The former content of
    vertex_color is overwritten, so it is not an argument; the result is its new content. *)
Definition level_expansion (M : nat) (dbg : bool) (g : graph) (seeds : list nat)
    : res (list nat) :=
  do _ <- ASSERT_DEBUG dbg (negb (g_empty g));
  do _ <- ASSERT_DEBUG dbg (negb (match seeds with [] => true | _ => false end));
  do _ <- (if dbg then do m <- vmax seeds; ASSERT (m <? size_vertex g) else Ok tt);
  do s <- FOR (length seeds) (fun i s =>
            let '(C, qs) := s in
            do x <- vget seeds i;
            do q <- vget qs i;
            do qs' <- vset qs i (q ++ [x]);
            do C' <- vset C x i;
            Ok (C', qs')) (repeat M (size_vertex g), repeat [] (length seeds));
  expand_loop (size_vertex g + 2) M dbg g 0 s.

(** Body of the loop over the vertices in pseudo_peripheral_vertex: graph_utilities.hpp 175-182.
    State: (pseudo_peripheral_node, max_distance, found). *)
Definition peripheral_step (dbg : bool) (g : graph) (D : list nat) (i : nat) (s : nat * nat * bool)
    : res (nat * nat * bool) :=
  let '(node, maxd, found) := s in
  do di <- vget D i;
  if maxd <? di then Ok (i, di, false)
  else if di =? maxd then
    do a <- degree dbg g i;
    do b <- degree dbg g node;
    if a <? b then Ok (i, di, false) else Ok s
  else Ok s.

(** while(!found): graph_utilities.hpp 172-183. *)
Fixpoint peripheral_loop (fuel : nat) (M : nat) (dbg : bool) (g : graph) (node maxd : nat)
    : res nat :=
  match fuel with
  | 0 => Diverge
  | S f =>
    do D <- level_traversal M dbg g node M;
    do s <- FOR (size_vertex g) (peripheral_step dbg g D) (node, maxd, true);
    let '(node', maxd', found) := s in
    if found : bool then Ok node' else peripheral_loop f M dbg g node' maxd'
  end.

(** pseudo_peripheral_vertex(graph, i_start): graph_utilities.hpp 156-185. *)
Definition pseudo_peripheral_vertex (M : nat) (dbg : bool) (g : graph) (i_start : nat) : res nat :=
  do _ <- ASSERT_DEBUG dbg (negb (g_empty g));
  do _ <- ASSERT_DEBUG dbg (i_start <? size_vertex g);
  do k <- degree dbg g i_start;
  if k =? 0 then Ok i_start
  else peripheral_loop ((size_vertex g + 1) * (size_vertex g + 1) + 1) M dbg g i_start 0.

(** eccentricity_vertex_breadth_first(graph, i_start, distance, i_stop): graph_utilities.hpp 215-246.
    [lenient = false] is the code. [lenient = true] is used only to show that the table is wrong even
    when the accesses past the end of [distance] happen to behave like accesses to a longer vector. *)
Definition eccentricity_vertex (lenient : bool) (M : nat) (dbg : bool) (g : graph) (i_start : nat)
    (distance : list nat) (i_stop : nat) : res (list nat) :=
  let n := size_vertex g in
  do _ <- ASSERT_DEBUG dbg (negb (g_empty g));
  do _ <- ASSERT_DEBUG dbg (i_start <? n);
  do _ <- ASSERT_DEBUG dbg (i_start <=? i_stop);
  do _ <- ASSERT_DEBUG dbg ((i_stop =? M) || (i_stop <=? n));
  let len := if (n <=? i_stop) || lenient then n else i_stop in
  let D0 := vresize (repeat M (length distance)) len M in
  do D1 <- vset D0 i_start 0;
  bfs_loop (1 + length D1) M dbg g M (fun _ front => Ok (i_stop <=? front)) D1 [i_start].

(** eccentricity_graph(graph, eccentricity): graph_utilities.hpp 194-200. *)
Definition eccentricity_graph (lenient : bool) (M : nat) (dbg : bool) (g : graph)
    (ecc : list (list nat)) : res (list (list nat)) :=
  let n := size_vertex g in
  FOR n (fun i ecc =>
    let start := n - i - 1 in
    do dist <- vget ecc start;
    do dist' <- eccentricity_vertex lenient M dbg g start dist (start + 1);
    vset ecc start dist') (vresize ecc n []).
