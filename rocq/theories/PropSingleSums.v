(** C136: sums, products, cross products and angles of vectors and matrices of floats. *)
From Coq Require Import List ZArith Reals Lra Lia SpecFloat.
From Verif Require Import Base DenseModel DenseFacts DenseOps ScalarModel GeometryReal FloatFacts FloatError PropFloatLemmas
  SingleModel SingleFacts PropSingleLemmas SingleOps SingleSums SingleProducts.
Import ListNotations.
Local Open Scope R_scope.

(** Sums and differences of vectors are rounded once, without an error from underflow; they overflow exactly as binary32
    demands (at half the way from the largest float to 2^128). The operators with and without assignment agree. *)
Theorem C136_sums dbg junk op exact n0 n1 n v f w g : op = s_add /\ exact = Rplus \/ op = s_sub /\ exact = Rminus ->
  is_vec n v f -> is_vec n w g -> vtyped n0 v -> vtyped n1 w -> singles n f -> singles n g ->
  exists u h, v_op s_zero dbg junk op n0 n1 v w = Ok u /\ v_op_assign dbg op v (Some w) = Ok u /\ is_vec n u h /\
    forall i, (i < n)%nat -> let z := exact (f_real (f i)) (f_real (g i)) in
      (Rabs z < 2 ^ 128 - 2 ^ 103 -> single (h i) /\ Rabs (f_real (h i) - z) <= s_u * Rabs z) /\
      (2 ^ 128 - 2 ^ 103 < z -> h i = S754_infinity false) /\ (z < - (2 ^ 128 - 2 ^ 103) -> h i = S754_infinity true).
Proof. exact (single_sums dbg junk op exact n0 n1 n v f w g). Qed.
Print Assumptions C136_sums.

(** The difference of numbers that are close to each other is exact. *)
Theorem C136_difference x y : single x -> single y -> f_real y / 2 <= f_real x <= 2 * f_real y ->
  single (s_sub x y) /\ f_real (s_sub x y) = f_real x - f_real y.
Proof. exact (sterbenz32 x y). Qed.
Print Assumptions C136_difference.

Example C136_sums_example dbg : let v := [sf 16777216 0; sf 1 0] in let w := [sf 1 0; sf (-3) (-1)] in
  v_op s_zero dbg (fun _ => s_zero) s_add 2 0 v w = Ok [sf 16777216 0; sf (-1) (-1)] /\
  v_op_assign dbg s_sub v (Some w) = Ok [sf 16777215 0; sf 5 (-1)] /\
  v_op s_zero dbg (fun _ => s_zero) s_add 0 0 [sf 16777215 104] [sf 16777215 104] = Ok [S754_infinity false].
Proof. destruct dbg; vm_compute; auto. Qed.

(** So are those of matrices, whose operators without assignment take the elements through doubles. *)
Theorem C136_matrix_sums dbg op exact s0 s1 r c m g o h : op = s_add /\ exact = Rplus \/ op = s_sub /\ exact = Rminus ->
  is_mat r c m g -> is_mat r c o h -> mtyped s0 r c -> mtyped s1 r c -> msingles r c g -> msingles r c h ->
  exists u k, sm_op dbg op s0 s1 m o = Ok u /\ m_op_assign dbg op m (Some o) = Ok u /\ is_mat r c u k /\
    forall i j, (i < r)%nat -> (j < c)%nat -> let z := exact (f_real (g i j)) (f_real (h i j)) in
      (Rabs z < 2 ^ 128 - 2 ^ 103 -> single (k i j) /\ Rabs (f_real (k i j) - z) <= s_u * Rabs z) /\
      (2 ^ 128 - 2 ^ 103 < z -> k i j = S754_infinity false) /\ (z < - (2 ^ 128 - 2 ^ 103) -> k i j = S754_infinity true).
Proof. exact (single_matrix_sums dbg op exact s0 s1 r c m g o h). Qed.
Print Assumptions C136_matrix_sums.

(** The product of matrices adds up floats, unlike that of a matrix and a vector ([C136_product]), so its error grows with the
    unit roundoff of floats. *)
Theorem C136_times dbg s0 s1 r k c m a o b : is_mat r k m a -> (r = 0 -> k = 0)%nat -> is_mat k c o b -> (k = 0 -> c = 0)%nat ->
  mtyped s0 r k -> mtyped s1 k c -> (s0 = (0, 0) \/ s1 = (0, 0) \/ (r = k /\ k = c))%nat -> msingles r k a -> msingles k c b ->
  INR k * s_u <= / 4 ->
  (forall i j, (i < r)%nat -> (j < c)%nat -> rsum k (fun l => Rabs (f_real (a i l) * f_real (b l j))) <= 2 ^ 126) ->
  exists u h, sm_times dbg s0 s1 m o = Ok u /\ is_mat r c u h /\ forall i j, (i < r)%nat -> (j < c)%nat -> single (h i j) /\
    Rabs (f_real (h i j) - rsum k (fun l => f_real (a i l) * f_real (b l j))) <=
      mixed_gamma (k + 1) 0 * rsum k (fun l => Rabs (f_real (a i l) * f_real (b l j))) + INR k * (1 + s_u) ^ k * s_eta.
Proof. exact (single_times dbg s0 s1 r k c m a o b). Qed.
Print Assumptions C136_times.

(** The two products of the same numbers differ: 2^24 + 1 - 2^24 is 1 for a vector and 0 for a matrix with one column. *)
Theorem C136_times_refuted dbg : let m := [[sf 1 24; sf 1 0; sf (-1) 24]; [s_zero; s_zero; s_zero]; [s_zero; s_zero; s_zero]] in
  sm_vec dbg (fun _ => s_zero) (0, 0)%nat 0 m [sf 1 0; sf 1 0; sf 1 0] = Ok [sf 1 0; s_zero; s_zero] /\
  sm_times dbg (0, 0)%nat (0, 0)%nat m [[sf 1 0]; [sf 1 0]; [sf 1 0]] = Ok [[s_zero]; [s_zero]; [s_zero]].
Proof. exact (products_differ dbg). Qed.
Print Assumptions C136_times_refuted.

(** The cross product. *)
Theorem C136_cross dbg junk n0 n1 v f w g : is_vec 3 v f -> is_vec 3 w g -> vtyped n0 v -> vtyped n1 w -> singles 3 f -> singles 3 g ->
  (forall i j, (i < 3)%nat -> (j < 3)%nat -> i <> j -> Rabs (f_real (f i) * f_real (g j)) <= 2 ^ 126) ->
  exists x h, s_cross dbg junk n0 n1 v w = Ok x /\ is_vec 3 x h /\
    forall i j k, (i, j, k) = (0, 1, 2)%nat \/ (i, j, k) = (1, 2, 0)%nat \/ (i, j, k) = (2, 0, 1)%nat ->
      single (h i) /\ Rabs (f_real (h i) - (f_real (f j) * f_real (g k) - f_real (f k) * f_real (g j))) <=
        mixed_gamma 2 0 * (Rabs (f_real (f j) * f_real (g k)) + Rabs (f_real (f k) * f_real (g j))) + 2 * (1 + s_u) * s_eta.
Proof. exact (single_cross dbg junk n0 n1 v f w g). Qed.
Print Assumptions C136_cross.

Theorem C136_cross_plane dbg junk v f w g : is_vec 2 v f -> is_vec 2 w g -> singles 2 f -> singles 2 g ->
  (forall i j, (i < 2)%nat -> (j < 2)%nat -> i <> j -> Rabs (f_real (f i) * f_real (g j)) <= 2 ^ 126) ->
  exists z, s_cross dbg junk 0 0 v w = Ok [s_zero; s_zero; z] /\ single z /\
    Rabs (f_real z - (f_real (f 0%nat) * f_real (g 1%nat) - f_real (f 1%nat) * f_real (g 0%nat))) <=
      mixed_gamma 2 0 * (Rabs (f_real (f 0%nat) * f_real (g 1%nat)) + Rabs (f_real (f 1%nat) * f_real (g 0%nat))) + 2 * (1 + s_u) * s_eta.
Proof. exact (single_cross_plane dbg junk v f w g). Qed.
Print Assumptions C136_cross_plane.

Example C136_cross_example dbg junk :
  s_cross dbg junk 3 0 [sf 1 0; sf 2 0; sf 3 0] [sf (-1) 0; sf 1 (-1); sf 4 0] = Ok [sf 13 (-1); sf (-7) 0; sf 5 (-1)] /\
  s_cross dbg junk 0 0 v345 [sf 1 0; sf 1 0] = Ok [s_zero; s_zero; sf 7 0].
Proof. destruct dbg; vm_compute; auto. Qed.

(** The angle: arccos is called with a double from [-1, 1] which is the cosine of the exact angle up to six roundings to
    floats, and the quotient is rounded to a float, whatever function std::acos is. *)
Theorem C136_angle dbg arccos pi radians n v f w g : is_vec n v f -> is_vec n w g -> (n = 2 \/ n = 3)%nat -> singles n f -> singles n g ->
  / 2 ^ 126 <= length2 n f <= 2 ^ 120 -> / 2 ^ 126 <= length2 n g <= 2 ^ 120 ->
  exists c, s_angle dbg arccos pi radians v w =
      Ok (narrow (sc_div fops (arccos c) (if radians then sc_one fops else sc_div fops pi (f_of_Z 180)))) /\
    f_valid c /\ f_finite c = true /\ -1 <= f_real c <= 1 /\
    Rabs (f_real c - rsum n (fun i => f_real (f i) * f_real (g i)) / (length2 n f * length2 n g)) <= 6 * s_u.
Proof. exact (single_angle dbg arccos pi radians n v f w g). Qed.
Print Assumptions C136_angle.

(** A short vector makes no angle with itself: arccos is called with a NaN, although the vector is not zero. *)
Theorem C136_angle_refuted : exists x, single x /\ f_real x = / 2 ^ 140 /\ forall dbg arccos pi,
  s_angle dbg arccos pi true [x; s_zero] [x; s_zero] = Ok (narrow (sc_div fops (arccos S754_nan) (sc_one fops))).
Proof. exact angle_short. Qed.
Print Assumptions C136_angle_refuted.

Example C136_angle_example dbg pi : s_angle dbg (fun x => x) pi true v345 [sf 1 0; s_zero] = Ok (sf 10066330 (-24)) /\
  / 2 ^ 126 <= length2 2 f345 <= 2 ^ 120.
Proof. exact (angle_345 dbg pi). Qed.

Example C136_times_example dbg : let m := [[sf 1 0; sf 2 0]; [sf (-1) (-1); s_zero]] in
  sm_times dbg (2, 2)%nat (2, 2)%nat m m = Ok [[s_zero; sf 2 0]; [sf (-1) (-1); sf (-1) 0]] /\
  sm_op dbg s_sub (0, 0)%nat (2, 2)%nat m m = Ok [[s_zero; s_zero]; [s_zero; s_zero]].
Proof. destruct dbg; vm_compute; auto. Qed.
