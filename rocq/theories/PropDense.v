(** Properties C44 - C47: dense vectors and matrices. The statements use [is_vec] and [is_mat] (components
    of a list of numbers, of a list of rows), [asum] (sum in ascending order), [vtyped] and [mtyped] (the
    template sizes are 0 or the sizes of the object), [gives] and [mgives] (the run ends normally with these
    components). *)
From Coq Require Import ZArith.
From Verif Require Import Base ListFacts DenseModel DenseFacts DenseOps DenseSizes PropDenseLemmas.

(** ** C44 *)

Theorem C44_vector : forall {V} (vzero : V) (vadd vsub vmul vdiv : V -> V -> V) dbg junk n0 n1 n v f w g s,
  is_vec n v f -> is_vec n w g -> vtyped n0 v -> vtyped n1 w ->
  gives (v_add_assign vadd dbg v (Some w)) n (fun i => vadd (f i) (g i)) /\
  gives (v_sub_assign vsub dbg v (Some w)) n (fun i => vsub (f i) (g i)) /\
  gives (v_add_assign vadd dbg v None) n (fun i => vadd (f i) (f i)) /\
  gives (v_sub_assign vsub dbg v None) n (fun i => vsub (f i) (f i)) /\
  gives (v_plus vzero vadd dbg junk n0 n1 v w) n (fun i => vadd (f i) (g i)) /\
  gives (v_minus vzero vsub dbg junk n0 n1 v w) n (fun i => vsub (f i) (g i)) /\
  gives (v_times vmul s v) n (fun i => vmul (f i) s) /\
  gives (v_over vdiv v s) n (fun i => vdiv (f i) s).
Proof. exact @vector_elementwise. Qed.
Print Assumptions C44_vector.

Theorem C44_vector_mismatch : forall {V} (vzero : V) (vadd vsub : V -> V -> V) junk n0 n1 v w,
  length v <> length w ->
  v_add_assign vadd true v (Some w) = Abort /\
  v_sub_assign vsub true v (Some w) = Abort /\
  v_plus vzero vadd true junk n0 n1 v w = Abort /\
  v_minus vzero vsub true junk n0 n1 v w = Abort.
Proof. exact @vector_mismatch. Qed.
Print Assumptions C44_vector_mismatch.

Theorem C44_matrix : forall {V} (vzero : V) (vadd vsub vmul vdiv : V -> V -> V) dbg s0 s1 r c m f o g s,
  is_mat r c m f -> is_mat r c o g -> mtyped s0 r c -> mtyped s1 r c ->
  mgives (m_add_assign vadd dbg m (Some o)) r c (fun i j => vadd (f i j) (g i j)) /\
  mgives (m_sub_assign vsub dbg m (Some o)) r c (fun i j => vsub (f i j) (g i j)) /\
  mgives (m_add_assign vadd dbg m None) r c (fun i j => vadd (f i j) (f i j)) /\
  mgives (m_sub_assign vsub dbg m None) r c (fun i j => vsub (f i j) (f i j)) /\
  mgives (m_plus vzero vadd dbg s0 s1 m o) r c (fun i j => vadd (f i j) (g i j)) /\
  mgives (m_minus vzero vsub dbg s0 s1 m o) r c (fun i j => vsub (f i j) (g i j)) /\
  mgives (m_times_scalar vmul s m) r c (fun i j => vmul (f i j) s) /\
  mgives (m_over_scalar vdiv m s) r c (fun i j => vdiv (f i j) s).
Proof. exact @matrix_elementwise. Qed.
Print Assumptions C44_matrix.

Theorem C44_matrix_mismatch : forall {V} (vzero : V) (vadd vsub : V -> V -> V) s0 s1 r c r' c' m f o g,
  is_mat r c m f -> is_mat r' c' o g -> r <> r' \/ (0 < r /\ c <> c') ->
  m_add_assign vadd true m (Some o) = Abort /\
  m_sub_assign vsub true m (Some o) = Abort /\
  m_plus vzero vadd true s0 s1 m o = Abort /\
  m_minus vzero vsub true s0 s1 m o = Abort.
Proof. exact @matrix_mismatch. Qed.
Print Assumptions C44_matrix_mismatch.

Example C44_hypotheses :
  is_vec 3 [1; 2; 3]%Z (fun i => nth i [1; 2; 3]%Z 0%Z) /\ vtyped 3 [1; 2; 3]%Z /\ vtyped 0 [4; 5; 6]%Z /\
  v_plus 0%Z Z.add true (fun _ => 7%Z) 0 3 [1; 2; 3]%Z [4; 5; 6]%Z = Ok [5; 7; 9]%Z /\
  is_mat 2 3 [[1; 2; 3]; [4; 5; 6]]%Z (fun i j => nth j (nth i [[1; 2; 3]; [4; 5; 6]]%Z []) 0%Z) /\
  mtyped (2, 3) 2 3 /\ mtyped (0, 0) 2 3 /\
  m_minus 0%Z Z.sub true (0, 0) (2, 3) [[1; 2; 3]; [4; 5; 6]]%Z [[1; 1; 1]; [0; 0; 2]]%Z =
    Ok [[0; 1; 2]; [4; 5; 4]]%Z.
Proof.
  split; [exact (is_vec_list 0%Z [1; 2; 3]%Z)|]. split; [right; reflexivity|]. split; [left; reflexivity|].
  split; [reflexivity|]. split; [apply (is_mat_list 0%Z 3); repeat constructor|].
  split; [right; repeat split; auto|]. split; [left; reflexivity|]. reflexivity.
Qed.

(** ** C45

    Full statement: [C45_dense_mat_vec_partial] without its last hypothesis. It fails for dynamic matrices
    with fewer rows than columns (undefined behaviour), with more rows than columns (components missing) and
    for static matrices that are not square with assertions enabled (refused). *)

Theorem C45_dense_mat_vec_partial : forall {V} (vzero : V) (vadd vmul : V -> V -> V) dbg junk r n R C m g v f,
  is_mat R C m g -> (R = 0 -> C = 0) -> is_vec C v f -> r = 0 \/ r = R -> vtyped n v ->
  R = C \/ (dbg = false /\ 0 < r) ->
  gives (m_vec vzero vadd vmul dbg junk r n m v) R
        (fun i => asum vzero vadd C (fun j => vmul (g i j) (f j))).
Proof. exact @mat_vec_square. Qed.
Print Assumptions C45_dense_mat_vec_partial.

Theorem C45_wide_refuted : forall {V} (vzero : V) (vadd vmul : V -> V -> V) dbg junk R C m g v f,
  is_mat R C m g -> is_vec C v f -> 0 < R -> R < C ->
  m_vec vzero vadd vmul dbg junk 0 0 m v = Undef.
Proof. exact @m_vec_undef. Qed.
Print Assumptions C45_wide_refuted.

Theorem C45_tall_refuted : forall {V} (vzero : V) (vadd vmul : V -> V -> V) dbg junk R C m g v f,
  is_mat R C m g -> is_vec C v f -> 0 < C -> C < R ->
  gives (m_vec vzero vadd vmul dbg junk 0 0 m v) C
        (fun i => asum vzero vadd C (fun j => vmul (g i j) (f j))).
Proof. exact @mat_vec_tall. Qed.
Print Assumptions C45_tall_refuted.

Theorem C45_static_refuted : forall {V} (vzero : V) (vadd vmul : V -> V -> V) dbg junk n R C m g v f,
  dbg = true -> is_mat R C m g -> is_vec C v f -> 0 < R -> R <> C ->
  m_vec vzero vadd vmul dbg junk R n m v = Abort.
Proof. exact @m_vec_abort. Qed.
Print Assumptions C45_static_refuted.

(** Sizes that do not match are refused with assertions enabled; without them a scalar product reads past the end of a
    second vector that is too short and leaves out what a longer one has left. *)
Theorem C45_dot_sizes : forall {V} (vzero : V) (vadd vmul : V -> V -> V) v w, length v <> length w ->
  dot vzero vadd vmul true v w = Abort /\
  (length w < length v -> dot vzero vadd vmul false v w = Undef) /\
  (length v < length w -> dot vzero vadd vmul false v w = dot vzero vadd vmul true v (firstn (length v) w)).
Proof. exact @dot_sizes. Qed.
Print Assumptions C45_dot_sizes.

Theorem C45_vector_sizes : forall {V} (vzero : V) (vadd vmul : V -> V -> V) junk r n m v,
  m_cols m <> length v -> m_vec vzero vadd vmul true junk r n m v = Abort.
Proof. exact @vec_sizes. Qed.
Print Assumptions C45_vector_sizes.

Example C45_sizes_example : dot 0%Z Z.add Z.mul false [1; 2]%Z [3]%Z = Undef /\ dot 0%Z Z.add Z.mul false [2]%Z [3; 4]%Z = Ok 6%Z /\
  m_vec 0%Z Z.add Z.mul true (fun _ => 0%Z) 0 0 [[1; 2]; [3; 4]]%Z [5; 6; 7]%Z = Abort.
Proof. repeat split. Qed.

Example C45_hypotheses :
  m_vec 0%Z Z.add Z.mul true (fun _ => 0%Z) 0 2 [[1; 2]; [3; 4]]%Z [5; 6]%Z = Ok [17; 39]%Z /\
  m_vec 0%Z Z.add Z.mul false (fun _ => 0%Z) 1 0 [[1; 2]]%Z [5; 6]%Z = Ok [17]%Z /\
  m_vec 0%Z Z.add Z.mul true (fun _ => 0%Z) 0 0 [[1; 2]; [3; 4]; [5; 6]]%Z [5; 6]%Z = Ok [17; 39]%Z /\
  m_vec 0%Z Z.add Z.mul true (fun _ => 0%Z) 0 0 [[1; 2]]%Z [5; 6]%Z = Undef /\
  m_vec 0%Z Z.add Z.mul true (fun _ => 0%Z) 1 2 [[1; 2]]%Z [5; 6]%Z = Abort /\
  is_mat 1 2 [[1; 2]]%Z (fun i j => nth j (nth i [[1; 2]]%Z []) 0%Z) /\
  is_vec 2 [5; 6]%Z (fun i => nth i [5; 6]%Z 0%Z).
Proof.
  do 5 (split; [reflexivity|]). split; [apply (is_mat_list 0%Z 2); repeat constructor|].
  exact (is_vec_list 0%Z [5; 6]%Z).
Qed.

(** ** C46

    Full statement: the product is right and [A *= A] is the product of [A] with itself; the second half
    fails, the result is the zero matrix. Two static matrices are multiplied only when they are square. *)

Theorem C46_dense_product_partial : forall {V} (vzero : V) (vadd vmul : V -> V -> V) dbg s0 s1 r k c m a o b,
  is_mat r k m a -> (r = 0 -> k = 0) -> is_mat k c o b -> (k = 0 -> c = 0) ->
  mtyped s0 r k -> mtyped s1 k c -> (s0 = (0, 0) \/ s1 = (0, 0) \/ (r = k /\ k = c)) ->
  mgives (m_times vzero vadd vmul dbg s0 s1 m o) r c
         (fun i j => asum vzero vadd k (fun l => vmul (a i l) (b l j))).
Proof. exact @m_times_ok. Qed.
Print Assumptions C46_dense_product_partial.

Theorem C46_dense_product_assign_partial : forall {V} (vzero : V) (vadd vmul : V -> V -> V) dbg s r k c m a o b,
  is_mat r k m a -> (r = 0 -> k = 0) -> is_mat k c o b -> (k = 0 -> c = 0) ->
  s = (0, 0) \/ (s = (r, k) /\ r = k /\ k = c /\ 0 < c) ->
  mgives (m_mul_assign vzero vadd vmul dbg s m (Some o)) r c
         (fun i j => asum vzero vadd k (fun l => vmul (a i l) (b l j))).
Proof. exact @m_mul_assign_ok. Qed.
Print Assumptions C46_dense_product_assign_partial.

Theorem C46_alias_refuted : forall {V} (vzero : V) (vadd vmul : V -> V -> V) dbg s n m a,
  is_mat n n m a -> mtyped s n n -> (forall x, vadd vzero (vmul x vzero) = vzero) ->
  mgives (m_mul_assign vzero vadd vmul dbg s m None) n n (fun _ _ => vzero).
Proof. exact @m_mul_self_zero. Qed.
Print Assumptions C46_alias_refuted.

Theorem C46_alias_witness_refuted : exists u,
  m_mul_assign 0%Z Z.add Z.mul true (0, 0) [[1%Z]] None = Ok u /\
  forall w, m_times 0%Z Z.add Z.mul true (0, 0) (0, 0) [[1%Z]] [[1%Z]] = Ok w -> u <> w.
Proof. exact alias_witness. Qed.
Print Assumptions C46_alias_witness_refuted.

Theorem C46_static_refuted : forall {V} (vzero : V) (vadd vmul : V -> V -> V) dbg r k c m a o b,
  dbg = true -> is_mat r k m a -> is_mat k c o b -> 0 < r -> 0 < k -> ~ (r = k /\ k = c) ->
  m_times vzero vadd vmul dbg (r, k) (k, c) m o = Abort.
Proof. exact @m_times_static_abort. Qed.
Print Assumptions C46_static_refuted.

(** Sizes that do not match are refused with assertions enabled. *)
Theorem C46_sizes : forall {V} (vzero : V) (vadd vmul : V -> V -> V),
  (forall s0 s1 m o, m_cols m <> m_rows o -> m_times vzero vadd vmul true s0 s1 m o = Abort) /\
  (forall m o, m_cols m <> m_rows o -> m_mul_assign vzero vadd vmul true (0, 0) m (Some o) = Abort) /\
  (forall m, m_cols m <> m_rows m -> m_mul_assign vzero vadd vmul true (0, 0) m None = Abort) /\
  (forall r c m o, 0 < r -> m_rows m <> m_rows o \/ m_cols m <> m_cols o -> m_mul_assign vzero vadd vmul true (r, c) m (Some o) = Abort).
Proof. exact @product_sizes. Qed.
Print Assumptions C46_sizes.

Example C46_sizes_example : m_times 0%Z Z.add Z.mul true (0, 0) (0, 0) [[1; 2]]%Z [[1; 2]]%Z = Abort /\
  m_times 0%Z Z.add Z.mul true (0, 0) (0, 0) [[1; 2]]%Z [[1]; [2]]%Z = Ok [[5%Z]].
Proof. split; reflexivity. Qed.

Example C46_hypotheses :
  m_times 0%Z Z.add Z.mul true (2, 3) (0, 0) [[1; 2; 3]; [4; 5; 6]]%Z [[1]; [0]; [2]]%Z =
    Ok [[7]; [16]]%Z /\
  is_mat 3 1 [[1]; [0]; [2]]%Z (fun i j => nth j (nth i [[1]; [0]; [2]]%Z []) 0%Z) /\
  mtyped (2, 3) 2 3 /\ (forall x, Z.add 0 (Z.mul x 0) = 0)%Z /\
  m_mul_assign 0%Z Z.add Z.mul true (0, 0) [[1; 2]; [3; 4]]%Z None = Ok [[0; 0]; [0; 0]]%Z.
Proof.
  split; [reflexivity|]. split; [apply (is_mat_list 0%Z 1); repeat constructor|].
  split; [right; repeat split; auto|]. split; [intro x; rewrite Z.mul_0_r; reflexivity|reflexivity].
Qed.

(** ** C47

    Full statement: the same with [s = Own k] and [x = f k] for every component [k]. It holds for the last
    component only; the components after [k] are scaled by the already scaled value. *)

Theorem C47_scale_vector_partial : forall {V} (op : V -> V -> V) n v f (s : sref V) x,
  is_vec n v f -> s = Ext x \/ (0 < n /\ s = Own (n - 1) /\ x = f (n - 1)) ->
  gives (v_scale op v s) n (fun i => op (f i) x).
Proof. exact @scale_vector. Qed.
Print Assumptions C47_scale_vector_partial.

Theorem C47_scale_matrix_partial : forall {V} (op : V -> V -> V) r c m f (s : mref V) x,
  is_mat r c m f ->
  s = MExt x \/ (0 < r /\ 0 < c /\ s = MOwn (r - 1) (c - 1) /\ x = f (r - 1) (c - 1)) ->
  mgives (m_scale op m s) r c (fun i j => op (f i j) x).
Proof. exact @scale_matrix. Qed.
Print Assumptions C47_scale_matrix_partial.

Theorem C47_scale_vector_own_refuted : forall {V} (op : V -> V -> V) n v f k,
  is_vec n v f -> k < n ->
  gives (v_scale op v (Own k)) n (fun i => op (f i) (if i <=? k then f k else op (f k) (f k))).
Proof. exact @v_scale_own. Qed.
Print Assumptions C47_scale_vector_own_refuted.

Theorem C47_scale_matrix_own_refuted : forall {V} (op : V -> V -> V) r c m g p q,
  is_mat r c m g -> p < r -> q < c ->
  mgives (m_scale op m (MOwn p q)) r c
         (fun i j => op (g i j) (if (i <? p) || ((i =? p) && (j <=? q)) then g p q else op (g p q) (g p q))).
Proof. exact @m_scale_own. Qed.
Print Assumptions C47_scale_matrix_own_refuted.

(** [2; 3] scaled by its first component should be [4; 6]. *)
Theorem C47_scale_witness_refuted : v_mul_assign Z.mul [2%Z; 3%Z] (Own 0) = Ok [4%Z; 12%Z].
Proof. exact scale_witness. Qed.
Print Assumptions C47_scale_witness_refuted.

Example C47_hypotheses :
  is_vec 3 [1; 2; 3]%Z (fun i => nth i [1; 2; 3]%Z 0%Z) /\
  v_mul_assign Z.mul [1; 2; 3]%Z (Ext 5%Z) = Ok [5; 10; 15]%Z /\
  v_mul_assign Z.mul [1; 2; 3]%Z (Own 2) = Ok [3; 6; 9]%Z /\
  m_mul_scalar Z.mul [[1; 2]; [3; 4]]%Z (MOwn 1 1) = Ok [[4; 8]; [12; 16]]%Z /\
  m_mul_scalar Z.mul [[1; 2]; [3; 4]]%Z (MOwn 0 1) = Ok [[2; 4]; [12; 16]]%Z.
Proof. split; [exact (is_vec_list 0%Z [1; 2; 3]%Z)|]. repeat split. Qed.
