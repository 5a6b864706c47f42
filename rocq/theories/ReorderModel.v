(** Model of src/graph/reorder.cpp and include/graph/reorder.hpp: permutation vectors for an
    Adjacency_Graph<false>. [M] is std::numeric_limits<std::size_t>::max(). *)
From Verif Require Import Base GraphModel.

(** while(!queue.empty()) of breadth_first (reorder.cpp 68-81) and of cuthill_mckee (125-147).
    [next front visited queue] is the part of the body after queue.pop(). Result: permutation and
    new_index. *)
Fixpoint order_loop (fuel : nat)
    (next : nat -> list bool -> list nat -> res (list bool * list nat))
    (perm : list nat) (new_index : nat) (V : list bool) (Q : list nat) : res (list nat * nat) :=
  match Q with
  | [] => Ok (perm, new_index)
  | front :: Q' =>
    match fuel with
    | 0 => Diverge
    | S f =>
      do perm' <- vset perm front new_index;
      do s <- next front V Q';
      order_loop f next perm' (new_index + 1) (fst s) (snd s)
    end
  end.

(** Loop over the neighbours in breadth_first: reorder.cpp 71, 75-80. *)
Definition bf_next (dbg : bool) (g : graph) (front : nat) (V : list bool) (Q : list nat)
    : res (list bool * list nat) :=
  do r <- subscript dbg g front;
  forM r (fun v s =>
    let '(V, Q) := s in
    do b <- vget V v;
    if b : bool then Ok (V, Q)
    else do V' <- vset V v true; Ok (V', Q ++ [v])) (V, Q).

(** breadth_first(graph, start_vertex): reorder.cpp 50-84. *)
Definition breadth_first (M : nat) (dbg : bool) (g : graph) (start : nat) : res (list nat) :=
  if g_empty g then Ok []
  else
    do _ <- ASSERT_DEBUG dbg (start <? size_vertex g);
    do V <- vset (repeat false (size_vertex g)) start true;
    do s <- order_loop (size_vertex g) (bf_next dbg g) (repeat M (size_vertex g)) 0 V [start];
    do _ <- ASSERT (snd s =? size_vertex g);
    Ok (fst s).

(** Loop over the neighbours and sort in cuthill_mckee: reorder.cpp 128, 132-146. [sortf] is
    std::sort with the comparison of the second components. *)
Definition cmk_next (sortf : list (nat * nat) -> list (nat * nat)) (dbg : bool) (g : graph)
    (front : nat) (V : list bool) (Q : list nat) : res (list bool * list nat) :=
  do r <- subscript dbg g front;
  do s <- forM r (fun v s =>
    let '(V, A) := s in
    do b <- vget V v;
    if b : bool then Ok (V, A)
    else
      do V' <- vset V v true;
      do k <- degree dbg g v;
      Ok (V', A ++ [(v, k)])) (V, []);
  match snd s with
  | [] => Ok (fst s, Q)
  | A => Ok (fst s, Q ++ map fst (sortf A))
  end.

(** Search for a vertex of minimum degree: reorder.cpp 112-120. State: (start_vertex,
    minimum_degree). *)
Definition cmk_start (M : nat) (dbg : bool) (g : graph) : res nat :=
  do s <- FOR (size_vertex g) (fun i s =>
    let '(start, minimum) := s in
    do k <- degree dbg g i;
    if k <? minimum then
      do _ <- ASSERT_DEBUG dbg (negb (k =? 0));
      Ok (i, k)
    else Ok (start, minimum)) (M, M);
  do _ <- ASSERT (negb (fst s =? M));
  Ok (fst s).

(** cuthill_mckee(graph, start_vertex): reorder.cpp 98-150. *)
Definition cuthill_mckee (sortf : list (nat * nat) -> list (nat * nat)) (M : nat) (dbg : bool)
    (g : graph) (start : nat) : res (list nat) :=
  if g_empty g then Ok []
  else
    do _ <- ASSERT_DEBUG dbg ((start <? size_vertex g) || (start =? M));
    do s0 <- (if start =? M then cmk_start M dbg g else Ok start);
    do V <- vset (repeat false (size_vertex g)) s0 true;
    do s <- order_loop (size_vertex g) (cmk_next sortf dbg g) (repeat M (size_vertex g)) 0 V [s0];
    do _ <- ASSERT (snd s =? size_vertex g);
    Ok (fst s).

(** cuthill_mckee_reverse(graph, root_vertex): reorder.hpp 58-65. *)
Definition cuthill_mckee_reverse (sortf : list (nat * nat) -> list (nat * nat)) (M : nat)
    (dbg : bool) (g : graph) (start : nat) : res (list nat) :=
  do p <- cuthill_mckee sortf M dbg g start;
  Ok (map (fun t => length p - t - 1) p).

(** Search for the next colour with its fall back: reorder.cpp 196-204. [ac] is the sorted vector
    adjacent_color, not empty. *)
Fixpoint next_colour (ac : list nat) : nat :=
  match ac with
  | [] => 0
  | current :: r =>
    match r with
    | [] => current + 1
    | next :: _ =>
      if negb (current =? next) && negb (current + 1 =? next) then current + 1 else next_colour r
    end
  end.

(** Body of the loop over the vertices: reorder.cpp 179-206. State: (colour, max_color). *)
Definition colour_step (dbg : bool) (g : graph) (i : nat) (s : list nat * nat)
    : res (list nat * nat) :=
  let '(colour, max_color) := s in
  do r <- subscript dbg g i;
  do cs <- mapM (vget colour) r;
  let ac := sort_nat (filter (fun c => negb (c =? 0)) cs) in
  match ac with
  | [] => do colour' <- vset colour i 1; Ok (colour', max_color)
  | _ =>
    do colour' <- vset colour i (next_colour ac);
    Ok (colour', Nat.max max_color (next_colour ac))
  end.

(** Colours computed by greedy_multicolouring: reorder.cpp 173-206. *)
Definition greedy_colours (dbg : bool) (g : graph) : res (list nat * nat) :=
  FOR (size_vertex g) (colour_step dbg g) (repeat 0 (size_vertex g), 0).

(** Permutation from the colours: reorder.cpp 208-214. State: (permutation, new_index). *)
Definition colour_permutation (colour : list nat) (max_color n : nat) : res (list nat) :=
  do s <- FOR (max_color + 1) (fun c s =>
    FOR (length colour) (fun v s =>
      let '(perm, new_index) := s in
      do cv <- vget colour v;
      if cv =? c then do perm' <- vset perm v new_index; Ok (perm', new_index + 1)
      else Ok (perm, new_index)) s) (repeat 0 n, 0);
  Ok (fst s).

(** greedy_multicolouring(graph): reorder.cpp 168-216. *)
Definition greedy_multicolouring (dbg : bool) (g : graph) : res (list nat) :=
  if g_empty g then Ok []
  else
    do s <- greedy_colours dbg g;
    colour_permutation (fst s) (snd s) (size_vertex g).
