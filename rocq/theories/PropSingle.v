(** C136: vectors and matrices of floats. *)
From Coq Require Import List ZArith Reals Lra Lia SpecFloat.
From Verif Require Import Base DenseModel DenseFacts DenseOps ScalarModel GeometryReal FloatFacts FloatError PropFloatLemmas
  SingleModel SingleFacts PropSingleLemmas DotSizes.
Import ListNotations.
Local Open Scope R_scope.

(** The Euclidean norm of a vector that is not zero is a positive finite double, whatever the exponents of the elements. *)
Theorem C136_norm power root n v f : is_vec n v f -> singles n f -> INR n * f_u <= / 4 ->
  (exists i, (i < n)%nat /\ f_real (f i) <> 0) ->
  exists N, s_norm power root 2 v = Ok N /\ f_valid N /\ f_finite N = true /\ 0 < f_real N /\
    f_real N <= (1 + f_u) ^ (n + 2) * length2 n f /\ length2 n f <= (1 + f_u) ^ (n + 3) * f_real N.
Proof. exact (single_norm power root n v f). Qed.
Print Assumptions C136_norm.

Theorem C136_norm_zero power root n v f : is_vec n v f -> singles n f -> (forall i, (i < n)%nat -> f_real (f i) = 0) ->
  s_norm power root 2 v = Ok (S754_zero false).
Proof. exact (zero_norm power root n v f). Qed.
Print Assumptions C136_norm_zero.

(** So are the sum of the absolute values and the mean; the largest absolute value is exact. *)
Theorem C136_norm_one power root n v f : is_vec n v f -> singles n f -> INR n * f_u <= / 4 ->
  exists N, s_norm power root 1 v = Ok N /\ f_finite N = true /\
    Rabs (f_real N - rsum n (fun i => Rabs (f_real (f i)))) <= f_gamma n * rsum n (fun i => Rabs (f_real (f i))).
Proof. exact (single_norm_one power root n v f). Qed.
Print Assumptions C136_norm_one.

Theorem C136_mean dbg t n v f : is_vec n v f -> singles n f -> INR n * f_u <= / 4 -> (0 < n)%nat ->
  exists m, s_mean dbg t v = Ok m /\ f_finite m = true /\
    Rabs (f_real m - rsum n (fun i => f_real (f i)) / INR n) <=
      f_gamma (n + 1) * (rsum n (fun i => Rabs (f_real (f i))) / INR n) + f_eta.
Proof. exact (single_mean dbg t n v f). Qed.
Print Assumptions C136_mean.

Theorem C136_norm_max power root n v f : is_vec n v f -> singles n f -> (0 < n)%nat ->
  exists N, s_norm power root 0 v = Ok N /\ f_finite N = true /\
    (forall i, (i < n)%nat -> Rabs (f_real (f i)) <= f_real N) /\ exists i, (i < n)%nat /\ f_real N = Rabs (f_real (f i)).
Proof. exact (single_norm_max power root n v f). Qed.
Print Assumptions C136_norm_max.

(** The inner product rounds its products to floats. *)
Theorem C136_dot dbg n v w f g : is_vec n v f -> is_vec n w g -> singles n f -> singles n g -> INR n * f_u <= / 4 ->
  (forall i, (i < n)%nat -> Rabs (f_real (f i) * f_real (g i)) <= 2 ^ 127) ->
  let A := rsum n (fun i => Rabs (f_real (f i) * f_real (g i))) in
  exists d, s_dot dbg v w = Ok d /\ f_valid d /\ f_finite d = true /\
    Rabs (f_real d - rsum n (fun i => f_real (f i) * f_real (g i))) <= mixed_gamma 1 n * A + INR n * (1 + f_u) ^ n * s_eta.
Proof. exact (single_dot dbg n v w f g). Qed.
Print Assumptions C136_dot.

(** Vectors of different sizes are refused by the debug build; the release build reads past the end of the second vector or
    leaves the rest of it out. *)
Theorem C136_dot_sizes v w : length v <> length w -> s_dot true v w = Abort /\
  ((length w < length v)%nat -> s_dot false v w = Undef) /\
  ((length v < length w)%nat -> s_dot false v w = s_dot false v (firstn (length v) w)).
Proof. exact (single_sizes v w). Qed.
Print Assumptions C136_dot_sizes.

Example C136_dot_sizes_example : s_dot false v345 [sf 1 0] = Undef /\ s_dot false [sf 2 0] v345 = Ok (f_of_Z 6).
Proof. vm_compute. auto. Qed.

(** So the square of a length, which is a double, may come out infinite or zero. *)
Theorem C136_dot_overflow dbg n v f k : is_vec n v f -> singles n f -> (k < n)%nat -> 2 ^ 64 <= Rabs (f_real (f k)) ->
  s_dot dbg v v = Ok (S754_infinity false).
Proof. exact (dot_overflow dbg n v f k). Qed.
Print Assumptions C136_dot_overflow.

Theorem C136_dot_underflow dbg n v f : is_vec n v f -> singles n f -> (forall i, (i < n)%nat -> Rabs (f_real (f i)) < / 2 ^ 75) ->
  s_dot dbg v v = Ok (S754_zero false).
Proof. exact (dot_underflow dbg n v f). Qed.
Print Assumptions C136_dot_underflow.

Theorem C136_dot_refuted : (exists x, single x /\ f_real x = 2 ^ 64 /\
    s_norm (fun x _ => x) (fun _ x => x) 2 [x] = Ok (widen x) /\ forall dbg, s_dot dbg [x] [x] = Ok (S754_infinity false)) /\
  (exists x, single x /\ f_real x = / 2 ^ 76 /\
    s_norm (fun x _ => x) (fun _ x => x) 2 [x] = Ok (widen x) /\ forall dbg, s_dot dbg [x] [x] = Ok (S754_zero false)).
Proof. exact dot_refuted. Qed.
Print Assumptions C136_dot_refuted.

(** A vector that is not shorter than 2^-126 is scaled to unit length. *)
Theorem C136_unit n v f : is_vec n v f -> singles n f -> INR n * f_u <= / 4 -> let L := length2 n f in / 2 ^ 126 <= L ->
  exists w g, s_unit v = Ok w /\ is_vec n w g /\ singles n g /\
    forall i, (i < n)%nat -> Rabs (f_real (g i) - f_real (f i) / L) <=
      (mixed_gamma 2 (n + 4) + 2 * L * s_eta) * Rabs (f_real (f i) / L) + s_eta.
Proof. exact (single_unit n v f). Qed.
Print Assumptions C136_unit.

Theorem C136_unit_zero n v f : is_vec n v f -> singles n f -> (forall i, (i < n)%nat -> f_real (f i) = 0) ->
  exists w g, s_unit v = Ok w /\ is_vec n w g /\ forall i, (i < n)%nat -> single (g i) /\ f_real (g i) = 0.
Proof. exact (zero_unit n v f). Qed.
Print Assumptions C136_unit_zero.

(** A shorter one is not: the inverse of its length is no float, though the test for infinity, on the double, passes it. *)
Theorem C136_unit_tiny n v f : is_vec n v f -> singles n f -> INR n * f_u <= / 4 -> 0 < length2 n f <= / 2 ^ 129 ->
  exists w g, s_unit v = Ok w /\ is_vec n w g /\ forall i, (i < n)%nat ->
    g i = match f i with S754_finite s _ _ => S754_infinity s | _ => S754_nan end.
Proof. exact (unit_tiny n v f). Qed.
Print Assumptions C136_unit_tiny.

Theorem C136_unit_refuted : exists v f w, is_vec 2 v f /\ singles 2 f /\ 0 < length2 2 f /\ s_unit v = Ok w /\
  forall x, In x w -> f_finite x = false.
Proof. exact unit_refuted. Qed.
Print Assumptions C136_unit_refuted.

(** Scaling a matrix by a double. *)
Theorem C136_scale r c m g s : is_mat r c m g -> (forall i j, (i < r)%nat -> (j < c)%nat -> single (g i j)) ->
  f_valid s -> f_finite s = true -> Rabs (f_real s) <= 2 ^ 127 ->
  (forall i j, (i < r)%nat -> (j < c)%nat -> 2 * Rabs (f_real (g i j) * f_real s) + Rabs (f_real (g i j)) <= 2 ^ 127) ->
  exists u h, sm_scale s_mul m s = Ok u /\ is_mat r c u h /\ forall i j, (i < r)%nat -> (j < c)%nat ->
    single (h i j) /\ Rabs (f_real (h i j) - f_real (g i j) * f_real s) <=
      mixed_gamma 2 0 * Rabs (f_real (g i j) * f_real s) + (1 + s_u) * Rabs (f_real (g i j)) * s_eta + s_eta.
Proof. exact (single_scale r c m g s). Qed.
Print Assumptions C136_scale.

(** The factor is rounded to a float first: too large a factor leaves no number, too small a one leaves zeros. *)
Theorem C136_scale_large r c m g s : is_mat r c m g -> (forall i j, (i < r)%nat -> (j < c)%nat -> single (g i j)) ->
  f_valid s -> f_finite s = true -> 2 ^ 128 <= Rabs (f_real s) ->
  exists u h, sm_scale s_mul m s = Ok u /\ is_mat r c u h /\ forall i j, (i < r)%nat -> (j < c)%nat -> f_finite (h i j) = false.
Proof. exact (scale_large r c m g s). Qed.
Print Assumptions C136_scale_large.

Theorem C136_scale_small r c m g s : is_mat r c m g -> (forall i j, (i < r)%nat -> (j < c)%nat -> single (g i j)) ->
  f_valid s -> f_finite s = true -> Rabs (f_real s) < / 2 ^ 150 ->
  (exists u h, sm_scale s_mul m s = Ok u /\ is_mat r c u h /\ forall i j, (i < r)%nat -> (j < c)%nat -> f_finite (h i j) = true /\ f_real (h i j) = 0) /\
  (exists u h, sm_scale s_div m s = Ok u /\ is_mat r c u h /\ forall i j, (i < r)%nat -> (j < c)%nat -> f_finite (h i j) = false).
Proof. exact (scale_small r c m g s). Qed.
Print Assumptions C136_scale_small.

Theorem C136_scale_refuted : exists x s, single x /\ f_real x = / 2 ^ 100 /\ f_valid s /\ f_finite s = true /\ f_real s = 2 ^ 130 /\
  sm_scale s_mul [[x]] s = Ok [[S754_infinity false]].
Proof. exact scale_refuted. Qed.
Print Assumptions C136_scale_refuted.

(** The lambda constructor of a matrix keeps its elements, though they pass through doubles. *)
Theorem C136_lambda dbg s F r c g : mtyped s r c -> (forall i j, (i < r)%nat -> (j < c)%nat -> F i j = Ok (g i j) /\ s_valid (g i j)) ->
  exists m, sm_lambda dbg s F r c = Ok m /\ is_mat r c m g.
Proof. exact (lambda_exact dbg s F r c g). Qed.
Print Assumptions C136_lambda.

(** The product of a square matrix and a vector. *)
Theorem C136_product dbg junk s n0 n m g v f : is_mat n n m g -> is_vec n v f -> mtyped s n n -> vtyped n0 v ->
  (forall i j, (i < n)%nat -> (j < n)%nat -> single (g i j)) -> singles n f -> INR n * f_u <= / 4 ->
  (forall i, (i < n)%nat -> rsum n (fun j => Rabs (f_real (g i j) * f_real (f j))) <= 2 ^ 126) ->
  exists u h, sm_vec dbg junk s n0 m v = Ok u /\ is_vec n u h /\ forall i, (i < n)%nat -> single (h i) /\
    Rabs (f_real (h i) - rsum n (fun j => f_real (g i j) * f_real (f j))) <=
      mixed_gamma 2 n * rsum n (fun j => Rabs (f_real (g i j) * f_real (f j))) + (1 + s_u) * (INR n * (1 + f_u) ^ n * s_eta) + s_eta.
Proof. exact (single_product dbg junk s n0 n m g v f). Qed.
Print Assumptions C136_product.

(** The vector (3, -4), which is long enough, and what the functions give. *)
Example C136_hypotheses : is_vec 2 v345 f345 /\ singles 2 f345 /\ INR 2 * f_u <= / 4 /\ length2 2 f345 = 5.
Proof. exact is_345. Qed.

Example C136_values dbg : s_norm (fun x _ => x) (fun _ x => x) 2 v345 = Ok (f_of_Z 5) /\ s_dot dbg v345 v345 = Ok (f_of_Z 25) /\
  s_mean dbg 0 v345 = Ok (SFdiv 53 1024 (f_of_Z (-1)) (f_of_Z 2)) /\ s_unit v345 = Ok [sf 10066330 (-24); sf (-13421773) (-24)].
Proof. exact (values_345 dbg). Qed.

(** A short vector. *)
Example C136_tiny : s_unit [sf 1 (-140); s_zero] = Ok [S754_infinity false; S754_nan].
Proof. exact values_tiny. Qed.

(** A matrix, its multiples and its product with (3, -4). *)
Example C136_matrix dbg : let m := [[sf 1 0; sf 2 0]; [sf (-1) (-1); s_zero]] in
  sm_scale s_mul m (f_of_Z 3) = Ok [[sf 3 0; sf 6 0]; [sf (-3) (-1); s_zero]] /\
  sm_vec dbg (fun _ => s_zero) (0, 0)%nat 0 m v345 = Ok [sf (-5) 0; sf (-3) (-1)] /\
  sm_vec dbg (fun _ => s_zero) (2, 2)%nat 2 m v345 = Ok [sf (-5) 0; sf (-3) (-1)] /\
  sm_lambda dbg (0, 0)%nat (fun i j => Ok (nth j (nth i m []) s_zero)) 2 2 = Ok m.
Proof. destruct dbg; vm_compute; auto. Qed.
