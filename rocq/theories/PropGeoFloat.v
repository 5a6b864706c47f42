(** Angles, cross products and projections in double precision, C110. *)
From Coq Require Import ZArith Reals Lra Lia SpecFloat.
From Verif Require Import Base DenseModel DenseFacts ScalarModel GeometryModel GeometryReal PropGeometryLemmas
  FloatFacts FloatError PropFloatLemmas FloatUnit PropGeoFloatLemmas.

(** The angle: arccos is called with a number from [-1, 1] which is the cosine of the exact angle up to 32 roundings,
    whatever functions std::acos and std::pow are. *)
Theorem C110_angle : forall dbg power root arccos pi radians n v f w g,
  is_vec n v f -> is_vec n w g -> n = 2 \/ n = 3 ->
  (forall i, i < n -> f_valid (f i) /\ f_finite (f i) = true) ->
  (forall i, i < n -> f_valid (g i) /\ f_finite (g i) = true) ->
  (/ 2 ^ 1000 <= rsum n (fun i => f_real (f i) ^ 2) <= 2 ^ 1000)%R ->
  (/ 2 ^ 1000 <= rsum n (fun i => f_real (g i) ^ 2) <= 2 ^ 1000)%R ->
  exists c, angle fops dbg power root arccos pi radians v w =
      Ok (sc_div fops (arccos c) (if radians then sc_one fops else sc_div fops pi (f_of_Z 180))) /\
    f_valid c /\ f_finite c = true /\ (-1 <= f_real c <= 1)%R /\
    (Rabs (f_real c - rsum n (fun i => f_real (f i) * f_real (g i)) /
       (sqrt (rsum n (fun i => f_real (f i) ^ 2)) * sqrt (rsum n (fun i => f_real (g i) ^ 2)))) <= 32 * f_u)%R.
Proof. exact angle_float. Qed.
Print Assumptions C110_angle.

(** Outside this range the result is wrong: the vectors (2^600, 0) and (2^-600, 0) are, by the code, orthogonal to
    themselves. *)
Theorem C110_range_refuted : forall power root arccos pi,
  let long := [f_of_Z (2 ^ 600); f_of_Z 0] in
  let short := [sc_div fops (f_of_Z 1) (f_of_Z (2 ^ 600)); f_of_Z 0] in
  forall dbg,
    angle fops dbg power root arccos pi true long long = Ok (sc_div fops (arccos (f_of_Z 0)) (f_of_Z 1)) /\
    angle fops dbg power root arccos pi true short short = Ok (sc_div fops (arccos (f_of_Z 0)) (f_of_Z 1)).
Proof. exact range_angle. Qed.
Print Assumptions C110_range_refuted.

(** Each component of the cross product, when it is finite. *)
Theorem C110_cross : forall dbg junk n0 n1 v f w g, is_vec 3 v f -> is_vec 3 w g -> vtyped n0 v -> vtyped n1 w ->
  (forall i, i < 3 -> f_valid (f i)) -> (forall i, i < 3 -> f_valid (g i)) ->
  exists x h, cross_product fops dbg junk n0 n1 v w = Ok x /\ is_vec 3 x h /\
    forall i j k, (i, j, k) = (0, 1, 2) \/ (i, j, k) = (1, 2, 0) \/ (i, j, k) = (2, 0, 1) ->
      f_finite (h i) = true ->
      (Rabs (f_real (h i) - (f_real (f j) * f_real (g k) - f_real (f k) * f_real (g j))) <=
        f_gamma 2 * (Rabs (f_real (f j) * f_real (g k)) + Rabs (f_real (f k) * f_real (g j))) + 4 * f_eta)%R.
Proof. exact cross_error. Qed.
Print Assumptions C110_cross.

(** Exchanging the factors changes the signs exactly, also of infinities; only the sign of a zero may stay. *)
Theorem C110_cross_exchange : forall dbg junk n0 n1 v f w g,
  is_vec 3 v f -> is_vec 3 w g -> vtyped n0 v -> vtyped n1 w ->
  exists x y, cross_product fops dbg junk n0 n1 v w = Ok x /\ cross_product fops dbg junk n1 n0 w v = Ok y /\
    length x = 3 /\ length y = 3 /\
    forall i a b, nth_error x i = Some a -> nth_error y i = Some b ->
      b = SFopp a \/ exists s t, a = S754_zero s /\ b = S754_zero t.
Proof. exact cross_anti. Qed.
Print Assumptions C110_cross_exchange.

(** The projections, component by component; a debug build stops exactly when the computed norm is zero. *)
Theorem C110_tangent : forall dbg junk power root n0 n1 n v f w g,
  is_vec n v f -> is_vec n w g -> vtyped n0 v -> vtyped n1 w ->
  (forall i, i < n -> f_valid (f i)) -> (forall i, i < n -> f_valid (g i)) ->
  exists t h, (projection_tangent fops dbg junk power root n0 n1 v w = Ok t \/
      dbg = true /\ projection_tangent fops dbg junk power root n0 n1 v w = Abort /\
      exists l, lp_norm fops power root 2 w = Ok l /\ SFeqb l (S754_zero false) = true) /\
    is_vec n t h /\ forall i, i < n -> f_valid (h i) /\ (f_finite (h i) = true ->
      Rabs (f_real (h i) - rsum n (fun j => f_real (f j) * f_real (g j)) * f_real (g i)) <= tangent_bound n f g i)%R.
Proof. exact tangent_float. Qed.
Print Assumptions C110_tangent.

Theorem C110_orthogonal : forall dbg junk power root n0 n1 n v f w g,
  is_vec n v f -> is_vec n w g -> vtyped n0 v -> vtyped n1 w ->
  (forall i, i < n -> f_valid (f i)) -> (forall i, i < n -> f_valid (g i)) ->
  exists o h, (projection_orthogonal fops dbg junk power root n0 n1 v w = Ok o \/
      dbg = true /\ projection_orthogonal fops dbg junk power root n0 n1 v w = Abort /\
      exists l, lp_norm fops power root 2 w = Ok l /\ SFeqb l (S754_zero false) = true) /\
    is_vec n o h /\ forall i, i < n -> f_finite (h i) = true ->
      (Rabs (f_real (h i) - (f_real (f i) - rsum n (fun j => f_real (f j) * f_real (g j)) * f_real (g i))) <=
        f_u * (Rabs (f_real (f i)) + Rabs (rsum n (fun j => f_real (f j) * f_real (g j)) * f_real (g i))) +
        (1 + f_u) * tangent_bound n f g i + f_eta)%R.
Proof. exact orthogonal_float. Qed.
Print Assumptions C110_orthogonal.

(** The vector (3, 4): the inner product of its unit vector with itself is rounded to more than 1, and the angle
    between the vector and itself is nevertheless the one of cosine 1. *)
Example C110_hypotheses : let v := [f_of_Z 3; f_of_Z 4] in let f := fun i => nth i v (f_of_Z 0) in
  is_vec 2 v f /\ (forall i, i < 2 -> f_valid (f i) /\ f_finite (f i) = true) /\
  (/ 2 ^ 1000 <= rsum 2 (fun i => f_real (f i) ^ 2) <= 2 ^ 1000)%R /\
  (exists u d, f_unit v = Ok u /\ g_dot fops true u u = Ok d /\ SFltb (f_of_Z 1) d = true) /\
  angle fops true (fun x _ => x) (fun _ x => x) (fun c => c) (f_of_Z 3) true v v = Ok (f_of_Z 1).
Proof. exact ex_angle. Qed.

Example C110_cross_hypotheses : let v := [f_of_Z 1; f_of_Z 2; f_of_Z 3] in let w := [f_of_Z 4; f_of_Z 5; f_of_Z 7] in
  is_vec 3 v (fun i => nth i v (f_of_Z 0)) /\ vtyped 3 v /\ (forall i, i < 3 -> f_valid (nth i v (f_of_Z 0))) /\
  cross_product fops true (fun _ => S754_nan) 3 0 v w = Ok [f_of_Z (-1); f_of_Z 5; f_of_Z (-3)] /\
  projection_tangent fops true (fun _ => S754_nan) (fun x _ => x) (fun _ x => x) 0 0 v [f_of_Z 0; f_of_Z 0; f_of_Z 1] =
    Ok [f_of_Z 0; f_of_Z 0; f_of_Z 3] /\
  projection_orthogonal fops true (fun _ => S754_nan) (fun x _ => x) (fun _ x => x) 0 0 v [f_of_Z 0; f_of_Z 0; f_of_Z 1] =
    Ok [f_of_Z 1; f_of_Z 2; f_of_Z 0].
Proof. exact ex_cross. Qed.
