(** C144: calls which break a precondition. A debug build ([dbg] = true) ends the program with a message ([Abort]); a release
    build ([dbg] = false) goes on, mostly into undefined behaviour ([Undef]). *)
From Coq Require Import ZArith SpecFloat.
From Verif Require Import Base GraphModel GraphSpec TraversalModel ReorderModel SubgraphModel SpanModel SparseModel SparseSpec
  DenseModel ScalarModel GeometryModel IterModel LuModel IntModel SingleModel SingleOps Refused.

(** ** Edges from a vertex to itself *)
Theorem C144_contains : forall dbg g e, contains dbg g e = Abort <-> dbg = true /\ fst e = snd e.
Proof. exact contains_refused. Qed.
Print Assumptions C144_contains.

Theorem C144_insert : forall dbg d g e, well_formed d g -> (insert dbg d g e = Abort <-> dbg = true /\ fst e = snd e).
Proof. exact insert_refused. Qed.
Print Assumptions C144_insert.

(** Full statement: no graph ever holds an edge from a vertex to itself. A release build stores it, twice when undirected,
    and reports it as inserted. *)
Theorem C144_self_edge_refuted : forall d g v, well_formed d g -> exists g', insert false d g (v, v) = Ok (g', true) /\
  size_vertex g' = Nat.max (size_vertex g) (v + 1) /\
  (forall x, count_occ Nat.eq_dec (row g' v) x = (if x =? v then (if d then 1 else 2) else 0) + count_occ Nat.eq_dec (row g v) x) /\
  (forall u, u <> v -> u < size_vertex g' -> row g' u = if u <? size_vertex g then row g u else []) /\ ~ well_formed d g'.
Proof. exact insert_self. Qed.
Print Assumptions C144_self_edge_refuted.

Example C144_self_edge_example : insert true false (mkG [1; 0] [0; 1; 2]) (1, 1) = Abort /\
  insert false false (mkG [1; 0] [0; 1; 2]) (1, 1) = Ok (mkG [1; 0; 1; 1] [0; 1; 4], true) /\
  insert false true (mkG [1] [0; 1; 1]) (2, 2) = Ok (mkG [1; 2] [0; 1; 1; 2], true).
Proof. repeat split. Qed.

(** ** Traversals and orderings *)
Theorem C144_start : forall M dbg g s e, size_vertex g <= s ->
  level_traversal M dbg g s e = (if dbg then Abort else Undef) /\ pseudo_peripheral_vertex M dbg g s = (if dbg then Abort else Undef) /\
  (forall D, eccentricity_vertex false M true g s D e = Abort) /\
  (size_vertex g <> 0 -> breadth_first M dbg g s = if dbg then Abort else Undef) /\
  (size_vertex g <> 0 -> s <> M -> forall sortf, cuthill_mckee sortf M dbg g s = if dbg then Abort else Undef).
Proof. exact start_refused. Qed.
Print Assumptions C144_start.

Theorem C144_empty_graph : forall M g, size_vertex g = 0 ->
  (forall s e, level_traversal M true g s e = Abort) /\ (forall Q L e, level_traversal_queue M true g Q L e = Abort) /\
  (forall seeds, level_expansion M true g seeds = Abort) /\ (forall s, pseudo_peripheral_vertex M true g s = Abort) /\
  (forall s D e, eccentricity_vertex false M true g s D e = Abort).
Proof. exact empty_refused. Qed.
Print Assumptions C144_empty_graph.

Theorem C144_levels : forall M g Q L e, length L <> size_vertex g -> level_traversal_queue M true g Q L e = Abort.
Proof. exact levels_refused. Qed.
Print Assumptions C144_levels.

Theorem C144_seeds : forall M dbg g seeds, size_vertex g <> 0 -> (exists s, In s seeds /\ size_vertex g <= s) ->
  level_expansion M dbg g seeds = if dbg then Abort else Undef.
Proof. exact seeds_refused. Qed.
Print Assumptions C144_seeds.

(** Without seeds a release build returns every vertex as not reached. *)
Theorem C144_no_seeds : forall M g, size_vertex g <> 0 ->
  level_expansion M true g [] = Abort /\ level_expansion M false g [] = Ok (repeat M (size_vertex g)).
Proof. exact no_seeds. Qed.
Print Assumptions C144_no_seeds.

Theorem C144_stop : forall M g s D e, s < size_vertex g -> e < s \/ (size_vertex g < e /\ e <> M) -> eccentricity_vertex false M true g s D e = Abort.
Proof. exact stop_refused. Qed.
Print Assumptions C144_stop.

Example C144_traversal_example : let g := mkG [1; 0; 2; 1] [0; 1; 3; 4] in size_vertex g = 3 /\
  level_traversal 99 false g 3 99 = Undef /\ breadth_first 99 true g 3 = Abort /\ level_expansion 99 false g [1; 5] = Undef /\
  level_expansion 99 false g [] = Ok [99; 99; 99] /\ eccentricity_vertex false 99 true g 2 [] 1 = Abort /\
  eccentricity_vertex false 99 true g 2 [] 4 = Abort /\ level_traversal_queue 99 true g [0] [0; 99] 99 = Abort.
Proof. repeat split. Qed.

(** ** Rows and members *)
Theorem C144_writes : forall dbg g k w, size_vertex g = 0 ->
  front_write dbg g k w = (if dbg then Abort else Undef) /\ back_write dbg g k w = (if dbg then Abort else Undef).
Proof. exact writes_refused. Qed.
Print Assumptions C144_writes.

(** A release build answers for vertices which the subgraph does not have, as long as it has no levels. *)
Theorem C144_members : forall s i, sub_size s <= i -> length (s_lg s) = sub_size s -> s_level s = [] \/ length (s_level s) = sub_size s ->
  local_global true s i = Abort /\ vertex_level true s i = Abort /\ is_local true s i = Abort /\ local_global false s i = Undef /\
  (s_level s = [] -> vertex_level false s i = Ok 0 /\ is_local false s i = Ok true) /\
  (s_level s <> [] -> vertex_level false s i = Undef /\ is_local false s i = Undef).
Proof. exact members_refused. Qed.
Print Assumptions C144_members.

Example C144_members_example : let s := SubgraphModel.mkS 0 (mkG [1; 0] [0; 1; 2]) [4; 7] [] in
  sub_size s = 2 /\ local_global true s 1 = Ok 7 /\ local_global true s 2 = Abort /\ is_local false s 9 = Ok true.
Proof. repeat split. Qed.

(** ** Sparse matrices *)
Theorem C144_sparse_row : forall V vzero vadd M stray (m : smat V) i j v, s_rows m <= i ->
  s_subscript vzero M true stray m i j = Abort /\ s_subscript_assign vzero M true stray m i j v = Abort /\
  s_subscript_add vzero vadd M true stray m i j v = Abort /\ s_subscript_const true stray m i j = Abort.
Proof. exact @row_refused. Qed.
Print Assumptions C144_sparse_row.

Theorem C144_sparse_entry : forall V stray (m : smat V) i j, swf m -> i < s_rows m ->
  (s_subscript_const true stray m i j = Abort <-> forall v, ~ stored m i j v) /\
  forall dbg v, stored m i j v -> s_subscript_const dbg stray m i j = Ok v.
Proof. exact @entry_refused. Qed.
Print Assumptions C144_sparse_entry.

Theorem C144_sparse_sums : forall V vzero vadd vopp M stray (m o : smat V), s_rows m <> s_rows o \/ csize m <> csize o ->
  s_add_assign vzero vadd vopp M true stray m o = Abort /\ s_sub_assign vzero vadd vopp M true stray m o = Abort /\
  s_plus vzero vadd vopp M true stray m o = Abort /\ s_minus vzero vadd vopp M true stray m o = Abort.
Proof. exact @sums_refused. Qed.
Print Assumptions C144_sparse_sums.

Theorem C144_sparse_products : forall V vzero vadd vmul M stray (m : smat V),
  (forall o, csize m <> s_rows o -> s_mul_assign vzero vadd vmul M true stray m o = Abort /\ s_times vzero vadd vmul M true stray m o = Abort) /\
  forall x, csize m <> length x -> s_mat_vec vzero vadd vmul true stray m x = Abort.
Proof. exact @products_refused. Qed.
Print Assumptions C144_sparse_products.

Example C144_sparse_example : let m := SparseModel.mkS [0; 1; 2] [1; 0] [5; 6]%Z 3 in s_rows m = 2 /\
  s_subscript_assign 0%Z 99 true None m 2 0 7%Z = Abort /\ s_subscript_const true None m 0 0 = Abort /\
  s_subscript_const true None m 0 1 = Ok 5%Z /\ s_plus 0%Z Z.add Z.opp 99 true None m (SparseModel.mkS [0; 1; 2] [1; 0] [5; 6]%Z 2) = Abort /\
  s_mat_vec 0%Z Z.add Z.mul true None m [1; 2]%Z = Abort.
Proof. repeat split. Qed.

(** ** Vectors, comparisons and solvers *)
Theorem C144_angles : forall A (O : sops A) junk power root arccos pi radians n0 n1 v w,
  length v <> length w \/ (length v <> 2 /\ length v <> 3) ->
  angle O true power root arccos pi radians v w = Abort /\ cross_product O true junk n0 n1 v w = Abort.
Proof. exact @angles_refused. Qed.
Print Assumptions C144_angles.

Theorem C144_projections : forall A (O : sops A) junk power root n0 n1 v w, length v <> length w ->
  projection_tangent O true junk power root n0 n1 v w = Abort /\ projection_orthogonal O true junk power root n0 n1 v w = Abort.
Proof. exact @projections_refused. Qed.
Print Assumptions C144_projections.

Theorem C144_onto_zero : forall A (O : sops A) junk power root n0 n1 v w l, lp_norm O power root 2 w = Ok l -> sc_eq O l (sc_zero O) = true ->
  projection_tangent O true junk power root n0 n1 v w = Abort.
Proof. exact @onto_zero_refused. Qed.
Print Assumptions C144_onto_zero.

(** The relative tolerance has to lie between the rounding unit of the type and one; a comparison which is decided before the
    tolerance is used does not look at it. *)
Theorem C144_tolerance : forall A (O : sops A) dbg a b rel abs,
  (is_nearly_equal O dbg a b rel abs = Abort <-> dbg = true /\ (sc_le O (sc_eps O) rel = false \/ sc_le O rel (sc_one O) = false)) /\
  (is_nearly_greater_equal O dbg a b rel abs = Abort <-> sc_lt O b a = false /\ is_nearly_equal O dbg a b rel abs = Abort) /\
  (is_nearly_less_equal O dbg a b rel abs = Abort <-> sc_lt O a b = false /\ is_nearly_equal O dbg a b rel abs = Abort) /\
  (is_nearly_greater O dbg a b rel abs = Abort <-> sc_lt O a b = false /\ is_nearly_equal O dbg a b rel abs = Abort) /\
  (is_nearly_less O dbg a b rel abs = Abort <-> sc_lt O b a = false /\ is_nearly_equal O dbg a b rel abs = Abort).
Proof. exact @tolerance_refused. Qed.
Print Assumptions C144_tolerance.

Theorem C144_residual : forall A (O : sops A) stray m x b, x = [] \/ b = [] \/ s_rows m <> length x \/ csize m <> length b ->
  compute_residual O true stray m x b = Abort.
Proof. exact @residual_refused. Qed.
Print Assumptions C144_residual.

Theorem C144_lu : forall A (O : sops A) pivot (st : lu_state A),
  (forall x b, length b <> m_rows (lu_matrix st) -> lu_solve O true pivot st x (Some b) = Abort) /\
  (forall x, length x <> m_rows (lu_matrix st) -> lu_solve O true pivot st x None = Abort) /\
  forall ok p tol, (lu_initialise pivot st ok p tol = Abort <-> ok = false \/ p <> pivot).
Proof. exact @lu_refused. Qed.
Print Assumptions C144_lu.

Theorem C144_integers : forall t arccos pi radians v w, length v <> length w \/ (length v <> 2 /\ length v <> 3) ->
  i_angle t true arccos pi radians v w = Abort.
Proof. exact integers_refused. Qed.
Print Assumptions C144_integers.

Theorem C144_floats : forall junk,
  (forall arccos pi radians v w n0 n1, length v <> length w \/ (length v <> 2 /\ length v <> 3) ->
     s_angle true arccos pi radians v w = Abort /\ s_cross true junk n0 n1 v w = Abort) /\
  (forall s n m v, m_cols m <> length v -> sm_vec true junk s n m v = Abort) /\
  (forall s0 s1 m o, m_cols m <> m_rows o -> sm_times true s0 s1 m o = Abort) /\
  (forall op s0 s1 m o, m_rows m <> m_rows o \/ m_cols m <> m_cols o -> sm_op true op s0 s1 m o = Abort).
Proof. exact floats_refused. Qed.
Print Assumptions C144_floats.

Example C144_scalars_example : let v := map f_of_Z [1; 2]%Z in let w := map f_of_Z [3; 4; 5; 6]%Z in
  cross_product fops true (fun _ => S754_nan) 0 0 w w = Abort /\
  projection_tangent fops true (fun _ => S754_nan) (fun x _ => x) (fun _ x => x) 0 0 v (map f_of_Z [0; 0]%Z) = Abort /\
  is_nearly_equal fops true (f_of_Z 1) (f_of_Z 1) (f_of_Z 2) (f_of_Z 0) = Abort /\
  is_nearly_less_equal fops true (f_of_Z 1) (f_of_Z 2) (f_of_Z 2) (f_of_Z 0) = Ok true /\
  is_nearly_less_equal fops true (f_of_Z 2) (f_of_Z 1) (f_of_Z 2) (f_of_Z 0) = Abort /\
  compute_residual fops true None (SparseModel.mkS [0; 1] [0] (map f_of_Z [1]%Z) 1) [] [] = Abort.
Proof. repeat split. Qed.
