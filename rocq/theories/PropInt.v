(** Dense vectors and matrices of integers, C111. *)
From Coq Require Import ZArith Reals SpecFloat.
From Verif Require Import Base DenseModel DenseFacts ScalarModel MacroModel PropMacroLemmas FloatFacts IntModel PropIntLemmas DotSizes.
Local Open Scope Z_scope.

(** Sums and differences of vectors: the exact integers wrapped into the type, undefined exactly when a signed sum
    overflows. *)
Theorem C111_vector_sum : forall t dbg junk op e n0 n1 n v f w g, builtin t -> additive op e ->
  is_vec n v f -> is_vec n w g -> vtyped n0 v -> vtyped n1 w ->
  ((forall i, (i < n)%nat -> computable t (e (f i) (g i))) -> exists u h,
     iv_op t dbg junk op n0 n1 v w = Ok u /\ iv_op_assign t dbg op v w = Ok u /\ is_vec n u h /\
     forall i, (i < n)%nat -> wraps t (e (f i) (g i)) (h i)) /\
  ((exists i, (i < n)%nat /\ ~ computable t (e (f i) (g i))) ->
     iv_op t dbg junk op n0 n1 v w = Undef /\ iv_op_assign t dbg op v w = Undef).
Proof. exact sums_outcome. Qed.
Print Assumptions C111_vector_sum.

(** Multiples and (truncated) quotients of vectors. *)
Theorem C111_vector_scale : forall t n v f s, builtin t -> is_vec n v f ->
  ((forall i, (i < n)%nat -> computable t (f i * s)) -> exists u h, iv_scale t i_mul v s = Ok u /\ is_vec n u h /\
     forall i, (i < n)%nat -> wraps t (f i * s) (h i)) /\
  ((exists i, (i < n)%nat /\ ~ computable t (f i * s)) -> iv_scale t i_mul v s = Undef) /\
  (s <> 0 -> (forall i, (i < n)%nat -> computable t (Z.quot (f i) s)) -> exists u h, iv_scale t i_quot v s = Ok u /\
     is_vec n u h /\ forall i, (i < n)%nat -> wraps t (Z.quot (f i) s) (h i)) /\
  (s <> 0 -> (exists i, (i < n)%nat /\ ~ computable t (Z.quot (f i) s)) -> iv_scale t i_quot v s = Undef) /\
  (s = 0 -> (0 < n)%nat -> iv_scale t i_quot v s = Undef).
Proof. exact scales_outcome. Qed.
Print Assumptions C111_vector_scale.

(** A value of the type is its own wrapped value, and there is no other. *)
Theorem C111_wraps : forall t x y, builtin t -> fits t x -> wraps t x y -> y = x.
Proof. exact wraps_fits. Qed.
Print Assumptions C111_wraps.

(** The inner product is exact while the sum of the magnitudes is at most 2^53; the full claim has no bound and fails for
    64 bits, see the refuted part. *)
Theorem C111_dot_partial : forall t dbg n v f w g, builtin t -> is_vec n v f -> is_vec n w g ->
  (forall i, (i < n)%nat -> fits (promoted t) (f i * g i)) -> zsum n (fun i => Z.abs (f i * g i)) <= 2 ^ 53 ->
  i_dot t dbg v w = Ok (f_of_Z (zsum n (fun i => f i * g i))).
Proof. exact dot_exact. Qed.
Print Assumptions C111_dot_partial.

(** Vectors of different sizes are refused by the debug build; the release build reads past the end of the second vector or
    leaves the rest of it out. *)
Theorem C111_dot_sizes : forall t v w, length v <> length w -> i_dot t true v w = Abort /\
  ((length w < length v)%nat -> i_dot t false v w = Undef) /\
  ((length v < length w)%nat -> i_dot t false v w = i_dot t false v (firstn (length v) w)).
Proof. exact integer_sizes. Qed.
Print Assumptions C111_dot_sizes.

Example C111_dot_sizes_example : i_dot int_t false [1; 2] [3] = Undef /\ i_dot int_t false [2] [3; 4] = Ok (f_of_Z 6).
Proof. vm_compute. auto. Qed.

(** Operands whose sizes do not match are refused by the debug build. *)
Theorem C111_refused_sizes : forall t junk op,
  (forall v w, length v <> length w -> iv_op_assign t true op v w = Abort /\ forall n0 n1, iv_op t true junk op n0 n1 v w = Abort) /\
  (forall m o, m_rows m <> m_rows o \/ m_cols m <> m_cols o ->
     im_op_assign t true op m o = Abort /\ forall s0 s1, im_op t true op s0 s1 m o = Abort) /\
  (forall s n m v, m_cols m <> length v -> im_vec t true junk s n m v = Abort) /\
  (forall m o, m_cols m <> m_rows o ->
     (forall s0 s1, im_times t true s0 s1 m o = Abort) /\ forall s, im_mul_assign t true s m o = Abort \/ fst s <> O) /\
  (forall r c m o, m_rows m <> m_rows o \/ m_cols m <> m_cols o -> im_mul_assign t true (S r, c) m o = Abort).
Proof. exact refused_sizes. Qed.
Print Assumptions C111_refused_sizes.

Example C111_refused_sizes_example : iv_op_assign int_t true i_add [1; 2] [3] = Abort /\
  iv_op_assign int_t false i_add [1] [2; 3] = Ok [3] /\ im_mul_assign int_t true (1, 2)%nat [[1; 2]] [[1; 2]; [3; 4]] = Abort.
Proof. vm_compute. auto. Qed.

(** The mean is the quotient of the exact sum, rounded once; the norm of the sum of the magnitudes is exact. *)
Theorem C111_mean_partial : forall dbg n v, vtyped n v -> v <> [] -> total (map Z.abs v) <= 2 ^ 53 ->
  i_mean dbg n v = Ok (SFdiv 53 1024 (f_of_Z (total v)) (f_of_Z (Z.of_nat (length v)))).
Proof. exact mean_exact. Qed.
Print Assumptions C111_mean_partial.

(** The mean of no elements: refused in debug builds, otherwise a NaN. *)
Theorem C111_mean_none : forall dbg n,
  i_mean dbg 0 [] = (if dbg then Abort else Ok S754_nan) /\ ((0 < n)%nat -> i_mean dbg n [] = Ok S754_nan).
Proof. exact mean_none. Qed.
Print Assumptions C111_mean_none.

Theorem C111_norm_partial : forall power root t v, total (map Z.abs v) <= 2 ^ 53 ->
  i_norm t power root 1 v = Ok (f_of_Z (total (map Z.abs v))).
Proof. exact norm_one_exact. Qed.
Print Assumptions C111_norm_partial.

(** The maximum norm, with its undefined case. *)
Theorem C111_maximum_norm : forall power root t v, builtin t -> v <> [] -> (forall y, In y v -> Z.abs y <= 2 ^ 53) ->
  exists x, In x v /\ (forall y, In y v -> Z.abs y <= Z.abs x) /\
    (fits (promoted t) (Z.abs x) -> i_norm t power root 0 v = Ok (f_of_Z (Z.abs x))) /\
    (~ fits (promoted t) (Z.abs x) -> i_norm t power root 0 v = Undef).
Proof. exact norm_max_exact. Qed.
Print Assumptions C111_maximum_norm.

(** The maximum norm of the vector without elements reads past its end. *)
Theorem C111_maximum_norm_empty : forall power root t, i_norm t power root 0 [] = Undef.
Proof. exact norm_max_empty. Qed.
Print Assumptions C111_maximum_norm_empty.

Theorem C111_maximum_norm_refuted :
  i_norm int_t (fun x _ => x) (fun _ x => x) 0 [- 2 ^ 31; 5] = Undef /\
  i_norm int_t (fun x _ => x) (fun _ x => x) 0 [-7; 5] = Ok (f_of_Z 7) /\
  ~ computable int_t (2 ^ 31 - 1 + 1) /\ iv_op int_t true (fun _ => 0) i_add 0 0 [2 ^ 31 - 1] [1] = Undef /\
  iv_op size_t true (fun _ => 0) i_sub 0 0 [3] [5] = Ok [2 ^ 64 - 2].
Proof. exact ex_max. Qed.
Print Assumptions C111_maximum_norm_refuted.

(** The unit vector: only the vectors of length one have one, all others become zero. *)
Theorem C111_unit_refuted : forall t v, builtin t -> (forall x, In x v -> fits t x) ->
  i_unit t v = Ok (if squares v =? 1 then v else repeat 0 (length v)).
Proof. exact unit_integers. Qed.
Print Assumptions C111_unit_refuted.

(** The angle of a vector not of length one with any vector, also with itself, is the one of cosine zero. *)
Theorem C111_angle_refuted : forall t dbg arccos pi radians v w, builtin t -> (forall x, In x v -> fits t x) ->
  (forall x, In x w -> fits t x) -> length v = length w -> (length v = 2 \/ length v = 3)%nat -> squares v <> 1 ->
  i_angle t dbg arccos pi radians v w =
    i_of_double t (SFdiv 53 1024 (arccos (f_of_Z 0)) (if radians then f_of_Z 1 else SFdiv 53 1024 pi (f_of_Z 180))).
Proof. exact angle_integers. Qed.
Print Assumptions C111_angle_refuted.

(** Sums of matrices: in place always, as a new matrix up to 2^53 because the lambda returns a double. *)
Theorem C111_matrix_sum_partial : forall t, builtin t -> forall dbg op e s0 s1 r c m g o h, exactly op e ->
  is_mat r c m g -> is_mat r c o h -> mtyped s0 r c -> mtyped s1 r c ->
  (forall i j, (i < r)%nat -> (j < c)%nat -> fits t (e (g i j) (h i j)) /\ Z.abs (e (g i j) (h i j)) <= 2 ^ 53) ->
  exists u, im_op t dbg op s0 s1 m o = Ok u /\ is_mat r c u (fun i j => e (g i j) (h i j)).
Proof. exact matrix_op_exact. Qed.
Print Assumptions C111_matrix_sum_partial.

Theorem C111_matrix_sum_in_place : forall t, builtin t -> forall dbg op e r c m g o h, exactly op e ->
  is_mat r c m g -> is_mat r c o h ->
  (forall i j, (i < r)%nat -> (j < c)%nat -> fits t (e (g i j) (h i j))) ->
  exists u, im_op_assign t dbg op m o = Ok u /\ is_mat r c u (fun i j => e (g i j) (h i j)).
Proof. exact matrix_op_assign_exact. Qed.
Print Assumptions C111_matrix_sum_in_place.

(** A matrix of 64 bit integers: sum, product with a vector and product with a matrix lose the last bit of 2^53 + 1,
    although every result is a value of the type; adding zero to the largest value is undefined. *)
Theorem C111_long_refuted : forall dbg,
  im_op long_t dbg i_add (0, 0)%nat (0, 0)%nat [[2 ^ 53 + 1]] [[0]] = Ok [[2 ^ 53]] /\
  im_op long_t dbg i_add (0, 0)%nat (0, 0)%nat [[2 ^ 63 - 1]] [[0]] = Undef /\
  im_op_assign long_t dbg i_add [[2 ^ 53 + 1]] [[0]] = Ok [[2 ^ 53 + 1]] /\
  im_vec long_t dbg (fun _ => 0) (0, 0)%nat 0 [[2 ^ 53 + 1]] [1] = Ok [2 ^ 53] /\
  im_times long_t dbg (0, 0)%nat (0, 0)%nat [[2 ^ 53 + 1]] [[1]] = Ok [[2 ^ 53]].
Proof. exact ex_long. Qed.
Print Assumptions C111_long_refuted.

(** Multiplying and dividing a matrix by a double uses the integral part of the double only. *)
Theorem C111_matrix_scale_partial : forall t r c m g s k, builtin t -> is_mat r c m g -> f_finite s = true ->
  truncated (f_real s) k -> fits t k ->
  ((forall i j, (i < r)%nat -> (j < c)%nat -> fits t (g i j * k)) ->
     exists u, im_scale t i_mul m s = Ok u /\ is_mat r c u (fun i j => g i j * k)) /\
  (k <> 0 -> (forall i j, (i < r)%nat -> (j < c)%nat -> fits t (Z.quot (g i j) k)) ->
     exists u, im_scale t i_quot m s = Ok u /\ is_mat r c u (fun i j => Z.quot (g i j) k)).
Proof. exact multiplying. Qed.
Print Assumptions C111_matrix_scale_partial.

Theorem C111_matrix_scale_refuted :
  im_scale int_t i_mul [[4; 6]] half = Ok [[0; 0]] /\ im_scale int_t i_quot [[4; 6]] half = Undef /\
  im_scale int_t i_mul [[4; 6]] (SFadd 53 1024 (f_of_Z 2) half) = Ok [[8; 12]].
Proof. exact ex_scale. Qed.
Print Assumptions C111_matrix_scale_refuted.

(** Dividing by any double between -1 and 1 is undefined. *)
Theorem C111_matrix_divide_refuted : forall t, builtin t -> forall r c m g s, is_mat r c m g -> (0 < r)%nat -> (0 < c)%nat ->
  f_finite s = true -> (-1 < f_real s < 1)%R -> fits t 0 -> im_scale t i_quot m s = Undef.
Proof. exact matrix_divide_small. Qed.
Print Assumptions C111_matrix_divide_refuted.

(** Products: exact while the magnitudes stay below 2^53 and in the type. *)
Theorem C111_matrix_vector_partial : forall t, builtin t -> forall dbg junk s n0 n m g v f,
  is_mat n n m g -> is_vec n v f -> mtyped s n n -> vtyped n0 v ->
  (forall i j, (i < n)%nat -> (j < n)%nat -> fits (promoted t) (g i j * f j)) ->
  (forall i, (i < n)%nat -> zsum n (fun j => Z.abs (g i j * f j)) <= 2 ^ 53 /\ fits t (zsum n (fun j => g i j * f j))) ->
  exists u, im_vec t dbg junk s n0 m v = Ok u /\ is_vec n u (fun i => zsum n (fun j => g i j * f j)).
Proof. exact matrix_vector_exact. Qed.
Print Assumptions C111_matrix_vector_partial.

Theorem C111_matrix_product_partial : forall t, builtin t -> forall dbg s0 s1 r k c m a o b,
  is_mat r k m a -> (r = 0 -> k = 0)%nat -> is_mat k c o b -> (k = 0 -> c = 0)%nat ->
  mtyped s0 r k -> mtyped s1 k c -> (s0 = (0, 0) \/ s1 = (0, 0) \/ (r = k /\ k = c))%nat ->
  (forall i l, (i < r)%nat -> (l < k)%nat -> fits t (a i l) /\ Z.abs (a i l) <= 2 ^ 53) ->
  (forall l j, (l < k)%nat -> (j < c)%nat -> fits t (b l j)) ->
  (forall i j, (i < r)%nat -> (j < c)%nat -> fits t (zsum k (fun l => Z.abs (a i l * b l j)))) ->
  exists u, im_times t dbg s0 s1 m o = Ok u /\ is_mat r c u (fun i j => zsum k (fun l => a i l * b l j)).
Proof. exact matrix_product_exact. Qed.
Print Assumptions C111_matrix_product_partial.

Example C111_hypotheses : let m := [[1; -2]; [3; 4]] in let g := fun i j => nth j (nth i m []) 0 in
  is_mat 2 2 m g /\ mtyped (2, 2)%nat 2 2 /\ builtin int_t /\
  (forall i j, (i < 2)%nat -> (j < 2)%nat -> fits int_t (zsum 2 (fun l => Z.abs (g i l * g l j)))) /\
  im_times int_t true (2, 2)%nat (0, 0)%nat m m = Ok [[-5; -10]; [15; 10]] /\
  im_vec int_t true (fun _ => 0) (0, 0)%nat 0 m [5; 6] = Ok [-7; 39] /\
  im_op int_t true i_sub (0, 0)%nat (0, 0)%nat m m = Ok [[0; 0]; [0; 0]] /\
  i_dot int_t true [1; -2] [5; 6] = Ok (f_of_Z (-7)) /\ i_mean true 0 [1; -2; 4] = Ok (f_of_Z 1).
Proof. exact ex_matrix. Qed.

Example C111_unit_hypotheses : forall dbg arccos pi, i_unit int_t [3; 4] = Ok [0; 0] /\ i_unit int_t [0; -1] = Ok [0; -1] /\
  i_angle int_t dbg arccos pi true [3; 4] [3; 4] = i_of_double int_t (sc_div fops (arccos (f_of_Z 0)) (f_of_Z 1)).
Proof. exact ex_unit. Qed.

Example C111_half : f_real half = (1 / 2)%R.
Proof. exact half_real. Qed.
