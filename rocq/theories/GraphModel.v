(** Model of Adjacency_Graph<_directed> (include/graph/adjacency_graph.hpp).
    [dbg] is the macro DISA_DEBUG, [d] the template argument _directed. *)
From Verif Require Import Base.

(** Data members: adjacency_graph.hpp 331-332. *)
Record graph := mkG { adj : list nat; off : list nat }.

(** Default constructor: adjacency_graph.hpp 84. *)
Definition graph_default : graph := mkG [] [].

(** empty(): adjacency_graph.hpp 196. *)
Definition g_empty (g : graph) : bool := length (off g) <? 2.

(** size_vertex(): adjacency_graph.hpp 202. *)
Definition size_vertex (g : graph) : nat :=
  match off g with
  | [] => 0
  | _ => length (off g) - 1
  end.

(** size_edge(): adjacency_graph.hpp 208-210. *)
Definition size_edge (d : bool) (g : graph) : nat :=
  if d then length (adj g) else length (adj g) / 2.

(** vertex_adjacency_iter(i): adjacency_graph.hpp 343-347. The two iterators are returned as
    positions in [adj]; positions that do not delimit a range of [adj] are undefined behaviour. *)
Definition adjacency_iter (g : graph) (i : nat) : res (nat * nat) :=
  do b <- vget (off g) i;
  do e <- vget (off g) (i + 1);
  if (b <=? e) && (e <=? length (adj g)) then Ok (b, e) else Undef.

(** operator[](i): adjacency_graph.hpp 119-136. *)
Definition subscript (dbg : bool) (g : graph) (i : nat) : res (list nat) :=
  do _ <- ASSERT_DEBUG dbg (i <? size_vertex g);
  do r <- adjacency_iter g i;
  Ok (slice (adj g) (fst r) (snd r)).

(** at(i): adjacency_graph.hpp 108-112. *)
Definition g_at (dbg : bool) (g : graph) (i : nat) : res (list nat) :=
  do _ <- ASSERT (i <? size_vertex g);
  subscript dbg g i.

(** front(), back(): adjacency_graph.hpp 142-172. *)
Definition g_front (dbg : bool) (g : graph) : res (list nat) :=
  do _ <- ASSERT_DEBUG dbg (negb (g_empty g));
  subscript dbg g 0.

Definition g_back (dbg : bool) (g : graph) : res (list nat) :=
  do _ <- ASSERT_DEBUG dbg (negb (g_empty g));
  if size_vertex g =? 0 then Undef   (* index wraps to the largest std::size_t *)
  else subscript dbg g (size_vertex g - 1).

(** degree(i): adjacency_graph.hpp 313-317. *)
Definition degree (dbg : bool) (g : graph) (i : nat) : res nat :=
  do _ <- ASSERT_DEBUG dbg (i <? size_vertex g);
  do e <- vget (off g) (i + 1);
  do b <- vget (off g) i;
  Ok (e - b).

(** clear(): adjacency_graph.hpp 254-257. *)
Definition g_clear (g : graph) : graph := mkG [] [].

(** order_edge_vertex: include/graph/edge.hpp 42-46. *)
Definition order_edge_vertex (e : nat * nat) : nat * nat :=
  if fst e <? snd e then (fst e, snd e) else (snd e, fst e).

(** contains(edge): adjacency_graph.hpp 536-544. *)
Definition contains (dbg : bool) (g : graph) (e : nat * nat) : res bool :=
  do _ <- ASSERT_DEBUG dbg (negb (fst e =? snd e));
  if g_empty g then Ok false
  else if size_vertex g <=? Nat.max (fst e) (snd e) then Ok false
  else
    do r <- subscript dbg g (fst e);
    match nth_error r (lbound r (snd e)) with
    | Some x => Ok (x =? snd e)
    | None => Ok false
    end.

(** Body of the shrinking loop of resize: adjacency_graph.hpp 513-523. The subscript
    [i_vertex + 2] of line 522 is one past the end in the last iteration. [strict = true] is the
    language semantics (undefined behaviour); [strict = false] describes the compiled code when the
    stray access falls into spare capacity: nothing that belongs to the vector changes. *)
Definition resize_step (strict : bool) (n i : nat) (s : graph * nat) : res (graph * nat) :=
  let '(g, carry) := s in
  do r <- adjacency_iter g i;
  let '(b, e) := r in
  let p := b + lbound (slice (adj g) b e) n in
  do s' <- (if p =? e then Ok (g, carry)
            else
              let current := e - p in
              do adj' <- verase (adj g) p e;
              do off' <- vsub (off g) (i + 1) current;
              Ok (mkG adj' off', carry + current));
  let '(g', carry') := s' in
  if i + 2 <? length (off g')
  then do off' <- vsub (off g') (i + 2) carry'; Ok (mkG (adj g') off', carry')
  else if strict then Undef else Ok (g', carry').

(** resize(size): adjacency_graph.hpp 501-525. *)
Definition resize (strict : bool) (g : graph) (n : nat) : res graph :=
  if size_vertex g <? n then
    do d <- (match off g with [] => Ok 0 | _ => vback (off g) end);
    Ok (mkG (adj g) (vresize (off g) (n + 1) d))
  else
    let off1 := vresize (off g) (n + 1) 0 in
    do last <- vback off1;
    let g1 := mkG (vresize (adj g) last 0) off1 in
    do s <- FOR (size_vertex g1) (resize_step strict n) (g1, 0);
    Ok (fst s).

(** insert_vertex_adjacent_list: adjacency_graph.hpp 604-609. *)
Definition insert_vertex_adjacent_list (g : graph) (v w : nat) : res graph :=
  do r <- adjacency_iter g v;
  let '(b, e) := r in
  do adj' <- vinsert (adj g) (b + lbound (slice (adj g) b e) w) w;
  Ok (mkG adj' (off g)).

(** insert(edge): adjacency_graph.hpp 413-437. *)
Definition insert (dbg d : bool) (g : graph) (e : nat * nat) : res (graph * bool) :=
  do _ <- ASSERT_DEBUG dbg (negb (fst e =? snd e));
  do c <- contains dbg g e;
  if c then Ok (g, false)
  else
    let '(u, v) := if d then e else order_edge_vertex e in
    do g1 <- (if size_vertex g <=? Nat.max u v then resize true g (Nat.max u v + 1) else Ok g);
    do g2 <- insert_vertex_adjacent_list g1 u v;
    do off2 <- vadd_range (off g2) (u + 1) (if d then length (off g2) else v + 2) 1;
    let g3 := mkG (adj g2) off2 in
    if d then Ok (g3, true)
    else
      do g4 <- insert_vertex_adjacent_list g3 v u;
      do off5 <- vadd_range (off g4) (v + 1) (v + 2) 1;
      do off6 <- vadd_range off5 (v + 2) (length off5) 2;
      Ok (mkG (adj g4) off6, true).

(** Adjacency_Graph(initializer_list): adjacency_graph.hpp 387-399. The maximum element only sets
    a reserve, but it is dereferenced, which is undefined for an empty list. *)
Definition graph_of_list (dbg d : bool) (es : list (nat * nat)) : res graph :=
  match es with
  | [] => Undef
  | _ => forM es (fun e g => do r <- insert dbg d g e; Ok (fst r)) graph_default
  end.

(** A sequence of insert calls, collecting the returned flags (a client loop, no library code). *)
Fixpoint insert_all (dbg d : bool) (es : list (nat * nat)) (g : graph) : res (graph * list bool) :=
  match es with
  | [] => Ok (g, [])
  | e :: r =>
      do gb <- insert dbg d g e;
      do gbs <- insert_all dbg d r (fst gb);
      Ok (fst gbs, snd gb :: snd gbs)
  end.

(** std::remove_if with a predicate that looks at the position: keeps the elements at the positions
    for which [del] is false. *)
Fixpoint remove_at {A : Type} (del : nat -> bool) (k : nat) (l : list A) : list A :=
  match l with
  | [] => []
  | x :: r => if del k then remove_at del (S k) r else x :: remove_at del (S k) r
  end.

(** Local variables of erase_if. *)
Record erase_state := mkE {
  e_off : list nat;           (* offset *)
  e_removed : nat;            (* removed *)
  e_next : nat;               (* i_vertex *)
  e_delete : list bool;       (* adjacency_delete *)
  e_index : list nat          (* new_indexes *)
}.

(** Body of the first loop of erase_if: adjacency_graph.hpp 455-471. *)
Definition erase_step (del : nat -> bool) (l : list nat) (i : nat) (s : erase_state)
  : res erase_state :=
  do r <- adjacency_iter (mkG l (e_off s)) i;
  let '(b, e) := r in
  do off' <- vsub (e_off s) i (e_removed s);
  if negb (del i) then
    do index' <- vset (e_index s) i (e_next s);
    let row := slice l b e in
    do delete' <- vwrite (e_delete s) b (map del row);
    Ok (mkE off' (e_removed s + length (filter del row)) (e_next s + 1) delete' index')
  else
    do delete' <- vwrite (e_delete s) b (repeat true (e - b));
    Ok (mkE off' (e_removed s + (e - b)) (e_next s) delete' (e_index s)).

(** erase_if(delete_vertex): adjacency_graph.hpp 447-492. [M] is the largest std::size_t. The
    predicate is assumed to be pure. *)
Definition erase_if (M : nat) (del : nat -> bool) (g : graph) : res graph :=
  let n := size_vertex g in
  do s <- FOR n (erase_step del (adj g))
            (mkE (off g) 0 0 (repeat false (length (adj g))) (repeat M (length (adj g))));
  do last <- vback (e_off s);
  do off1 <- vsub (e_off s) (length (e_off s) - 1) (e_removed s);
  let off2 := remove_at (fun k => if k <? n then del k else false) 0 off1 in
  let adj1 := remove_at (fun k => nth k (e_delete s) false) 0 (adj g) in
  do adj2 <- mapM (fun v => vget (e_index s) v) adj1;
  do last2 <- vback off2;
  do _ <- ASSERT (last2 =? length adj2);
  Ok (mkG adj2 off2).

(** Sum of a vector, std::accumulate. *)
Definition vsum (l : list nat) : nat := fold_left Nat.add l 0.

(** Body of the populating loop of reorder: adjacency_graph.hpp 580-587. *)
Definition reorder_step (g : graph) (perm : list nat) (i : nat) (h : graph) : res graph :=
  do i_new <- vget perm i;
  do r <- adjacency_iter g i;
  do row <- mapM (fun v => vget perm v) (slice (adj g) (fst r) (snd r));
  do p <- vget (off h) i_new;
  do adj' <- vwrite (adj h) p row;
  do r' <- adjacency_iter (mkG adj' (off h)) i_new;
  do adj'' <- vwrite adj' (fst r') (sort_nat (slice adj' (fst r') (snd r')));
  Ok (mkG adj'' (off h)).

(** reorder(permutation): adjacency_graph.hpp 559-593. Result: (this afterwards, returned graph).
    The checksum is compared in double precision by the code, here exactly (they agree below 2^53). *)
Definition reorder (dbg : bool) (g : graph) (perm : list nat) : res (graph * graph) :=
  let n := size_vertex g in
  do _ <- ASSERT_DEBUG dbg (length perm =? n);
  do _ <- ASSERT_DEBUG dbg (2 * vsum perm =? (n - 1) * n);
  let off0 := repeat 0 (length (off g)) in
  let adj0 := repeat 0 (length (adj g)) in
  do off2 <- (if g_empty g then Ok off0
              else
                do o <- vset off0 0 0;
                do o1 <- FOR n (fun i o =>
                           do p <- vget perm i;
                           do e <- vget (off g) (i + 1);
                           do b <- vget (off g) i;
                           vset o (p + 1) (e - b)) o;
                FOR n (fun i o =>
                  do x <- vget o (i + 1);
                  do y <- vget o i;
                  vset o (i + 1) (x + y)) o1);
  do h <- FOR n (reorder_step g perm) (mkG adj0 off2);
  Ok (h, g).

(** std::hash<Adjacency_Graph>: adjacency_graph.hpp 667-676, for any [h : std::hash<size_t>]. *)
Definition graph_hash (dbg d : bool) (h : nat -> nat) (g : graph) : res nat :=
  if g_empty g then Ok 0
  else
    do f <- g_front dbg g;
    do b <- g_back dbg g;
    Ok (Nat.lxor (Nat.lxor (Nat.lxor (Nat.lxor 0 (h (size_vertex g))) (h (size_edge d g)))
                           (h (length f))) (h (length b))).

(** create_graph_line<_directed>: include/graph/generator.hpp 48-53; [number_vertices - 1] wraps to
    [M] for 0. *)
Definition create_graph_line (M : nat) (dbg d : bool) (n : nat) : res graph :=
  FOR (if n =? 0 then M else n - 1)
      (fun i g => do r <- insert dbg d g (i, i + 1); Ok (fst r)) graph_default.

(** create_graph_structured<_directed>: include/graph/generator.hpp 82-94. *)
Definition create_graph_structured (dbg d : bool) (n : nat) : res graph :=
  let ins e (g : graph) := do r <- insert dbg d g e; Ok (fst r) in
  let when (c : bool) (e : nat * nat) (g : graph) := if c then ins e g else Ok g in
  FOR n (fun iy =>
    FOR n (fun ix g =>
      let v := iy * n + ix in
      do g1 <- when (negb d && negb (ix =? 0)) (v - 1, v) g;
      do g2 <- when (negb (ix =? n - 1)) (v, v + 1) g1;
      do g3 <- when (negb d && negb (iy =? 0)) (v - n, v) g2;
      when (iy <? n - 1) (v, v + n) g3)) graph_default.

(** create_graph_hybrid, create_graph_saad: include/graph/generator.hpp 112-115 and 137-142. *)
Definition create_graph_hybrid (dbg : bool) : res graph :=
  graph_of_list dbg false
    [(3,0);(0,1);(7,4);(6,7);(2,5);(3,4);(6,3);(4,5);(4,6);(7,4);(5,7);(2,1);(1,4)].

Definition create_graph_saad (dbg : bool) : res graph :=
  graph_of_list dbg false
    [(0,6);(0,8);(1,7);(1,8);(1,10);(1,12);(2,6);(2,7);(2,9);(3,11);(3,12);(3,14);(4,9);(4,10);
     (4,11);(4,13);(5,13);(5,14);(6,7);(6,8);(7,8);(7,9);(7,10);(9,10);(10,11);(10,12);(11,12);
     (11,13);(11,14);(13,14)].
