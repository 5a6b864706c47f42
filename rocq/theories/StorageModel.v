(** Model of the storage of graphs, subgraphs and sparse matrices: reserve, capacity, shrink_to_fit, data, swap, and
    when an insertion moves the arrays. A std::vector is its elements, its capacity and the number of its current
    array: a new array gets a new number, and pointers, references and iterators into the old one are invalid.
    [grow c n] is the capacity of the array which replaces one of capacity [c] when [n] elements are needed, [vmax]
    is max_size() and [M] the largest std::size_t. Exceptions thrown by members that are not noexcept (no memory, or
    more than max_size() elements) are not modelled. *)
From Verif Require Import Base GraphModel SubgraphModel SparseModel.

(** Capacity and number of the array of a std::vector. *)
Record store := mkStore { sto_cap : nat; sto_block : nat }.

Section Storage.
  Variable grow : nat -> nat -> nat.
  Variables M vmax : nat.

  (** A std::vector that has to hold [n] elements: resize and insert. *)
  Definition fit (n : nat) (s : store) : store :=
    if n <=? sto_cap s then s else mkStore (grow (sto_cap s) n) (sto_block s + 1).

  (** reserve(n) of std::vector in a noexcept function: std::length_error ends the program. *)
  Definition v_reserve (n : nat) (s : store) : res store :=
    if vmax <? n then Abort else Ok (fit n s).

  (** shrink_to_fit() of std::vector, a request that may be refused ([obey]). *)
  Definition v_shrink (obey : bool) (len : nat) (s : store) : store :=
    if obey && (len <? sto_cap s) then mkStore len (sto_block s + 1) else s.

  (** Arithmetic of std::size_t. *)
  Definition wrap (n : nat) : nat := n mod (M + 1).

  (* ---------------------------------------------------------------- graphs *)
  Record sgraph := mkSG { sg_graph : graph; sg_adj : store; sg_off : store }.

  Definition sg_default : sgraph := mkSG graph_default (mkStore 0 0) (mkStore 0 0).

  (** reserve(size_vertex, size_edge): adjacency_graph.hpp 225-228. *)
  Definition sg_reserve (d : bool) (x : sgraph) (nv ne : nat) : res sgraph :=
    do so <- v_reserve (wrap (nv + 1)) (sg_off x);
    do sa <- v_reserve (wrap (ne * if negb d then 2 else 1)) (sg_adj x);
    Ok (mkSG (sg_graph x) sa so).

  (** capacity(): adjacency_graph.hpp 234-237. *)
  Definition sg_capacity (d : bool) (x : sgraph) : nat * nat :=
    (if sto_cap (sg_off x) =? 0 then 0 else sto_cap (sg_off x) - 1,
     if negb d then sto_cap (sg_adj x) / 2 else sto_cap (sg_adj x)).

  (** shrink_to_fit(): adjacency_graph.hpp 242-245. *)
  Definition sg_shrink (oa oo : bool) (x : sgraph) : sgraph :=
    mkSG (sg_graph x) (v_shrink oa (length (adj (sg_graph x))) (sg_adj x))
      (v_shrink oo (length (off (sg_graph x))) (sg_off x)).

  (** data(): adjacency_graph.hpp 182-186; the number of an array stands for the pointer to its first element. *)
  Definition sg_data (x : sgraph) : option nat * option nat :=
    if g_empty (sg_graph x) then (None, None)
    else match adj (sg_graph x) with
         | [] => (None, Some (sto_block (sg_off x)))
         | _ => (Some (sto_block (sg_adj x)), Some (sto_block (sg_off x)))
         end.

  (** swap(graph_other): adjacency_graph.hpp 288-291. *)
  Definition sg_swap (x y : sgraph) : sgraph * sgraph :=
    (mkSG (mkG (adj (sg_graph y)) (off (sg_graph y))) (sg_adj y) (sg_off y),
     mkSG (mkG (adj (sg_graph x)) (off (sg_graph x))) (sg_adj x) (sg_off x)).

  (** insert(edge): adjacency_graph.hpp 413-437; [insert] says what happens to the elements, here the arrays: resize of
      the offsets in line 421, one or two insertions in lines 424 and 431. *)
  Definition sg_insert (dbg d : bool) (x : sgraph) (e : nat * nat) : res (sgraph * bool) :=
    let g := sg_graph x in
    do r <- insert dbg d g e;
    let '(g', b) := r in
    if b then
      let m := Nat.max (fst e) (snd e) in
      let so := if size_vertex g <=? m then fit (m + 1 + 1) (sg_off x) else sg_off x in
      let sa := fit (length (adj g) + 1) (sg_adj x) in
      let sa' := if d then sa else fit (length (adj g) + 1 + 1) sa in
      Ok (mkSG g' sa' so, true)
    else Ok (mkSG g' (sg_adj x) (sg_off x), false).

  Fixpoint sg_insert_all (dbg d : bool) (es : list (nat * nat)) (x : sgraph) : res sgraph :=
    match es with
    | [] => Ok x
    | e :: es' => do r <- sg_insert dbg d x e; sg_insert_all dbg d es' (fst r)
    end.

  (** The element std::max_element picks first among the largest: adjacency_graph.hpp 388-394. *)
  Definition edge_key (d : bool) (e : nat * nat) : nat := if negb d then snd (order_edge_vertex e) else snd e.

  Fixpoint max_edge (d : bool) (best : nat * nat) (es : list (nat * nat)) : nat * nat :=
    match es with
    | [] => best
    | e :: es' => max_edge d (if edge_key d best <? edge_key d e then e else best) es'
    end.

  (** Adjacency_Graph(initializer_list): adjacency_graph.hpp 387-399, before shrink_to_fit(): the state after the
      reserve and the state after the insertions. *)
  Definition sg_of_list (dbg d : bool) (es : list (nat * nat)) : res (sgraph * sgraph) :=
    match es with
    | [] => Undef
    | e :: es' =>
      let m := max_edge d e es' in
      do x <- sg_reserve d sg_default (if negb d then Nat.max (fst m) (snd m) else fst m) (length es);
      do y <- sg_insert_all dbg d es x;
      Ok (x, y)
    end.

  (* ---------------------------------------------------------------- subgraphs *)
  Record ssub := mkSS { ss_graph : sgraph; ss_sub : subgraph; ss_lg : store; ss_lev : store }.

  (** reserve(size_vertex, size_edge): adjacency_subgraph.hpp 199-203. *)
  Definition ss_reserve (x : ssub) (nv ne : nat) : res ssub :=
    do g <- sg_reserve false (ss_graph x) nv ne;
    do l <- v_reserve nv (ss_lg x);
    do v <- v_reserve nv (ss_lev x);
    Ok (mkSS g (ss_sub x) l v).

  (** capacity(): adjacency_subgraph.hpp 209-211. *)
  Definition ss_capacity (x : ssub) : nat * nat * nat * nat :=
    (fst (sg_capacity false (ss_graph x)), snd (sg_capacity false (ss_graph x)), sto_cap (ss_lg x), sto_cap (ss_lev x)).

  (** data(): adjacency_subgraph.hpp 159-164. *)
  Definition ss_data (x : ssub) : option nat * option nat * option nat * option nat :=
    (fst (sg_data (ss_graph x)), snd (sg_data (ss_graph x)),
     match s_lg (ss_sub x) with [] => None | _ => Some (sto_block (ss_lg x)) end,
     match s_level (ss_sub x) with [] => None | _ => Some (sto_block (ss_lev x)) end).

  (* ---------------------------------------------------------------- sparse matrices *)
  Section Matrix.
    Context {V : Type}.
    Variables (vzero : V) (stray : option nat).

    Record smatrix := mkSM { sm_matrix : smat V; sm_rnz : store; sm_col : store; sm_val : store }.

    (** reserve(row, non_zero): matrix_sparse.hpp 274-278. *)
    Definition sm_reserve (x : smatrix) (r nz : nat) : res smatrix :=
      do a <- v_reserve (wrap (r + 1)) (sm_rnz x);
      do b <- v_reserve nz (sm_col x);
      do c <- v_reserve nz (sm_val x);
      Ok (mkSM (sm_matrix x) a b c).

    (** capacity(): matrix_sparse.hpp 286-288. *)
    Definition sm_capacity (x : smatrix) : nat * nat := (sto_cap (sm_rnz x), sto_cap (sm_col x)).

    (** insert(i_row, i_column, value): matrix_sparse.cpp 187-203; [s_insert] for the elements, here the arrays: the
        two calls of resize grow the offsets (matrix_sparse.cpp 243-271), then one insertion into each of the
        other arrays. *)
    Definition sm_insert (dbg : bool) (x : smatrix) (i j : nat) (v : V) : res (smatrix * bool) :=
      let m := sm_matrix x in
      do r <- s_insert vzero M dbg stray m i j v;
      let '(m', _, b) := r in
      let a1 := if s_rows m <=? i then fit (i + 1 + 1) (sm_rnz x) else sm_rnz x in
      let a := if csize m <=? j then fit (Nat.max (s_rows m) (i + 1) + 1) a1 else a1 in
      if b then Ok (mkSM m' a (fit (length (cidx m) + 1) (sm_col x)) (fit (length (vals m) + 1) (sm_val x)), true)
      else Ok (mkSM m' a (sm_col x) (sm_val x), false).

    Fixpoint sm_insert_all (dbg : bool) (es : list (nat * nat * V)) (x : smatrix) : res smatrix :=
      match es with
      | [] => Ok x
      | (i, j, v) :: es' => do r <- sm_insert dbg x i j v; sm_insert_all dbg es' (fst r)
      end.
  End Matrix.
End Storage.
