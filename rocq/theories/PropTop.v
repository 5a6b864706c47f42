(** C130: indices at the top of std::size_t. The sums [+ 1] of resize and insert wrap at numeric_limits<std::size_t>::max(), written
    [M]. *)
From Verif Require Import Base GraphModel GraphSpec SparseModel SparseSpec TopModel PropTopLemmas.
From Coq Require Import List Lia Arith ZArith.
Import ListNotations.

(** Below the top the sums are exact: resize to fewer than [M] vertices and insert of an edge whose end points are below [M - 1] are
    the functions proved about elsewhere. *)
Theorem C130_graph_below M strict dbg d g u v n : n < M -> Nat.max u v + 1 < M ->
  resize_top M strict g n = resize strict g n /\ insert_top M dbg d g (u, v) = insert dbg d g (u, v).
Proof. exact (fun Hn Hm => conj (resize_agrees M strict g n Hn) (insert_agrees M dbg d g u v Hm)). Qed.
Print Assumptions C130_graph_below.

(** A std::size_t of three bits: [M] is 7. *)
Example C130_graph_below_example : insert_top 7 true false (mkG [1; 0] [0; 1; 2]) (0, 5) = Ok (mkG [1; 5; 0; 0] [0; 2; 3; 3; 3; 3; 4], true).
Proof. reflexivity. Qed.

(** What one expects: inserting an edge either adds it or fails by an exception, and leaves the graph well formed. For the two largest
    indices the edge goes through a pointer to nothing, in both build modes: the vertices and edges of the graph are erased
    (largest index) or its offsets are (the one below) before the adjacency list of a vertex that does not exist is taken. *)
Theorem C130_insert_refuted M dbg d g u v : 0 < M -> well_formed d g -> u <> v -> size_vertex g <= Nat.max u v ->
  Nat.max u v = M \/ Nat.max u v + 1 = M -> insert_top M dbg d g (u, v) = Undef.
Proof. exact (insert_at_top M dbg d g u v). Qed.
Print Assumptions C130_insert_refuted.

Theorem C130_insert_erases_refuted M strict g d : 0 < M -> well_formed d g -> resize_top M strict g (up M M) = Ok (mkG [] [0]).
Proof. exact (insert_erases M strict g d). Qed.
Print Assumptions C130_insert_erases_refuted.

(** resize(M), which by its interface makes a graph of [M] vertices, makes one of none whose adjacency is still there. *)
Theorem C130_resize_refuted M strict g : size_vertex g < M ->
  resize_top M strict g M = Ok (mkG (adj g) []) /\ size_vertex (mkG (adj g) []) = 0 /\
  (adj g <> [] -> forall d, ~ well_formed d (mkG (adj g) [])).
Proof. exact (resize_top_facts M strict g). Qed.
Print Assumptions C130_resize_refuted.

Example C130_insert_example :
  well_formed false (mkG [1; 0] [0; 1; 2]) /\
  insert_top 7 true false (mkG [1; 0] [0; 1; 2]) (7, 0) = Undef /\
  insert_top 7 true true (mkG [1; 0] [0; 1; 2]) (6, 0) = Undef /\
  resize_top 7 true (mkG [1; 0] [0; 1; 2]) (up 7 7) = Ok (mkG [] [0]) /\
  resize_top 7 true (mkG [1; 0] [0; 1; 2]) 7 = Ok (mkG [1; 0] []).
Proof.
  split; [|repeat split; reflexivity]. exists [[1]; [0]]. split; [left; split; reflexivity|].
  intros i Hi. destruct i as [|[|i]]; cbn in *; [| |lia]; 
    (split; [repeat constructor|]); split; try (intros _); intros j [<-|[]]; cbn; auto; lia.
Qed.

(** The same for matrices: below the top the sums are exact. *)
Theorem C130_matrix_below {V} (vzero : V) M dbg stray m i j v r c : swf m -> s_rows m < M -> i + 1 < M -> j < M -> r < M ->
  s_insert_top vzero M dbg stray m i j v = s_insert vzero M dbg stray m i j v /\
  s_resize_top vzero M m r c = s_resize vzero M m r c /\
  s_rows (shape_top (V := V) M r c) = r.
Proof. exact (matrix_below vzero M dbg stray m i j v r c). Qed.
Print Assumptions C130_matrix_below.

(** A column is fine up to [M - 1]; the two largest rows are not. Whatever the stray pointer of the row that is not there holds, no
    entry is left where the call returns at all; in debug mode it never returns. *)
Theorem C130_row_refuted {V} (vzero : V) M dbg stray m i j v : 0 < M -> swf m -> s_rows m <= i -> i = M \/ i + 1 = M ->
  (stray = None -> s_insert_top vzero M dbg stray m i j v = Undef) /\
  (dbg = true -> s_insert_top vzero M dbg stray m i j v = Undef \/ s_insert_top vzero M dbg stray m i j v = Abort) /\
  (forall m' it b, s_insert_top vzero M dbg stray m i j v = Ok (m', it, b) -> forall p q x, ~ stored m' p q x).
Proof. exact (s_insert_top_row vzero M dbg stray m i j v). Qed.
Print Assumptions C130_row_refuted.

(** A column of the largest index is stored, and the matrix then has no columns: all its entries lie outside it. *)
Theorem C130_column_refuted {V} (vzero : V) M dbg stray m i v : 0 < M -> swf m -> s_rows m < M -> i < s_rows m -> csize m <= M ->
  exists m' it, s_insert_top vzero M dbg stray m i M v = Ok (m', it, true) /\ csize m' = 0 /\ s_rows m' = s_rows m /\
    (forall p q x, stored m' p q x <-> stored m p q x \/ p = i /\ q = M /\ x = v) /\ ~ swf m'.
Proof. exact (s_insert_top_column vzero M dbg stray m i v). Qed.
Print Assumptions C130_column_refuted.

(** A matrix constructed with, or resized to, [M] rows has none; after resize the arrays of entries are still there. *)
Theorem C130_shape_refuted {V} (vzero : V) M m c : s_rows m < M -> csize m <= c ->
  s_rows (shape_top (V := V) M M c) = 0 /\
  s_resize_top vzero M m M c = Ok (mkS [] (cidx m) (vals m) c) /\
  (cidx m <> [] -> ~ csr_invariant (mkS [] (cidx m) (vals m) c)).
Proof. exact (shape_top_facts vzero M m c). Qed.
Print Assumptions C130_shape_refuted.

Example C130_matrix_example :
  swf (mkS [0; 1; 2] [0; 1] [5%Z; 6%Z] 2) /\
  s_insert_top 0%Z 7 true None (mkS [0; 1; 2] [0; 1] [5%Z; 6%Z] 2) 0 7 9%Z = Ok (mkS [0; 2; 3] [0; 7; 1] [5%Z; 9%Z; 6%Z] 0, (0, 1), true) /\
  s_insert_top 0%Z 7 true None (mkS [0; 1; 2] [0; 1] [5%Z; 6%Z] 2) 0 6 9%Z = Ok (mkS [0; 2; 3] [0; 6; 1] [5%Z; 9%Z; 6%Z] 7, (0, 1), true) /\
  s_insert_top 0%Z 7 false (Some 0) (mkS [0; 1; 2] [0; 1] [5%Z; 6%Z] 2) 7 0 9%Z = Undef /\
  s_insert_top 0%Z 7 true (Some 0) (mkS [0; 1; 2] [0; 1] [5%Z; 6%Z] 2) 7 0 9%Z = Abort /\
  s_insert_top 0%Z 7 false (Some 0) (mkS [0; 1; 2] [0; 1] [5%Z; 6%Z] 2) 6 0 9%Z = Ok (mkS [] [0; 1] [5%Z; 6%Z] 2, (0, 0), false).
Proof.
  split; [|repeat split; reflexivity]. exists [[(0, 5%Z)]; [(1, 6%Z)]]. split; [repeat split; auto; left; reflexivity|].
  intros i Hi. destruct i as [|[|i]]; cbn in *; [| |lia]; (split; [repeat constructor|intros j [<-|[]]; lia]).
Qed.
