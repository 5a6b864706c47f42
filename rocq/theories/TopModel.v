(** Growing to and beyond the largest index: resize and insert of Adjacency_Graph, and the constructor from a shape, resize and
    insert of Matrix_Sparse with [+ 1] as std::size_t computes it. [M] is numeric_limits<std::size_t>::max(), which the library
    uses as the index of nothing. Everywhere else in the model [+ 1] is exact. *)
From Verif Require Import Base GraphModel SparseModel.

(** x + 1 of std::size_t. *)
Definition up (M x : nat) : nat := if x =? M then 0 else x + 1.

(** Adjacency_Graph::resize(size): adjacency_graph.hpp 501-525; the sums of lines 505 and 508. *)
Definition resize_top (M : nat) (strict : bool) (g : graph) (n : nat) : res graph :=
  if size_vertex g <? n then
    do d <- (match off g with [] => Ok 0 | _ => vback (off g) end);
    Ok (mkG (adj g) (vresize (off g) (up M n) d))
  else
    let off1 := vresize (off g) (up M n) 0 in
    do last <- vback off1;
    let g1 := mkG (vresize (adj g) last 0) off1 in
    do s <- FOR (size_vertex g1) (resize_step strict n) (g1, 0);
    Ok (fst s).

(** Adjacency_Graph::insert(edge): adjacency_graph.hpp 413-437; the sums of lines 421, 425, 426 and 432. *)
Definition insert_top (M : nat) (dbg d : bool) (g : graph) (e : nat * nat) : res (graph * bool) :=
  do _ <- ASSERT_DEBUG dbg (negb (fst e =? snd e));
  do c <- contains dbg g e;
  if c then Ok (g, false)
  else
    let '(u, v) := if d then e else order_edge_vertex e in
    do g1 <- (if size_vertex g <=? Nat.max u v then resize_top M true g (up M (Nat.max u v)) else Ok g);
    do g2 <- insert_vertex_adjacent_list g1 u v;
    do off2 <- vadd_range (off g2) (up M u) (if d then length (off g2) else up M (up M v)) 1;
    let g3 := mkG (adj g2) off2 in
    if d then Ok (g3, true)
    else
      do g4 <- insert_vertex_adjacent_list g3 v u;
      do off5 <- vadd_range (off g4) (up M v) (up M (up M v)) 1;
      do off6 <- vadd_range off5 (up M (up M v)) (length off5) 2;
      Ok (mkG (adj g4) off6, true).

Section SparseTop.
  Context {V : Type}.
  Variables (vzero : V) (M : nat) (dbg : bool) (stray : option nat).
  Implicit Types (m : smat V).

  (** Matrix_Sparse(row, column): matrix_sparse.hpp 116. *)
  Definition shape_top (r c : nat) : smat V := mkS (repeat 0 (up M r)) [] [] c.

  (** Matrix_Sparse::resize(row, column): matrix_sparse.cpp 243-271; the sum of line 250. The subscripts [i_row + 1] of lines 257
      and 267 are those of existing rows. *)
  Definition s_resize_top m (r c : nat) : res (smat V) :=
    do m1 <- (if r <? s_rows m then
                do n <- vget (rnz m) r;
                Ok (mkS (rnz m) (vresize (cidx m) n 0) (vresize (vals m) n vzero) (csize m))
              else Ok m);
    do d <- (match rnz m1 with [] => Ok 0 | _ => vback (rnz m1) end);
    let m2 := mkS (vresize (rnz m1) (up M r) d) (cidx m1) (vals m1) (csize m1) in
    do m3 <- (if c <? csize m2 then
                do s <- FOR (s_rows m2) (resize_col_step M c) (m2, 0);
                Ok (fst s)
              else Ok m2);
    Ok (mkS (rnz m3) (cidx m3) (vals m3) c).

  (** Matrix_Sparse_Row::end(): matrix_sparse.cpp 438-441. *)
  Definition row_end_top m (i : nat) : res eit :=
    if up M i <? length (rnz m) then
      do p <- vget (rnz m) (up M i);
      Ok (i, p)
    else
      match stray with
      | Some x => Ok (i, x)
      | None => Undef
      end.

  (** Matrix_Sparse::insert(i_row, i_column, value): matrix_sparse.cpp 187-203; the sums of lines 191, 192 and 196. *)
  Definition s_insert_top m (i j : nat) (v : V) : res (smat V * eit * bool) :=
    do m1 <- (if s_rows m <=? i then s_resize_top m (up M i) (csize m) else Ok m);
    do m2 <- (if csize m1 <=? j then s_resize_top m1 (s_rows m1) (up M j) else Ok m1);
    do it <- s_lower_bound stray m2 i j;
    do _ <- row_check dbg m2 i;
    do e <- row_end_top m2 i;
    do new <- (if eit_eqb it e then Ok true
               else do c <- i_column m2 it; Ok (negb (c =? j)));
    if new then
      do z <- vadd_range (rnz m2) (up M (fst it)) (length (rnz m2)) 1;
      do ci <- vinsert (cidx m2) (snd it) j;
      do vs <- vinsert (vals m2) (snd it) v;
      Ok (mkS z ci vs (csize m2), (i, snd it), true)
    else Ok (m2, it, false).
End SparseTop.
