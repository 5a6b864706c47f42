(** Properties C48, C49, C67 - C69: norms and geometric operations. Over the reals [rops] the statements use
    [is_vec] (components of a list), [rsum] (finite sum) and [p_norm] (the p-norm of a sequence). *)
From Coq Require Import ZArith Reals Lra SpecFloat.
From Verif Require Import Base DenseModel DenseFacts ScalarModel GeometryModel GeometryReal GeometryNorm
  PropGeometryLemmas.

Local Open Scope R_scope.

(** ** C48 *)

Theorem C48_unit : forall n v f, is_vec n v f -> (exists i, (i < n)%nat /\ f i <> 0) ->
  exists u k, unit_vector rops pow rroot v = Ok u /\ 0 < k /\ is_vec n u (fun i => k * f i) /\
    rsum n (fun i => (k * f i) * (k * f i)) = 1.
Proof. exact unit_ok. Qed.
Print Assumptions C48_unit.

Theorem C48_unit_zero : forall n v f, is_vec n v f -> (forall i, (i < n)%nat -> f i = 0) ->
  exists u, unit_vector rops pow rroot v = Ok u /\ is_vec n u (fun _ => 0).
Proof. exact unit_zero. Qed.
Print Assumptions C48_unit_zero.

Theorem C48_projection : forall dbg junk n0 n1 n v f w g,
  is_vec n v f -> is_vec n w g -> vtyped n0 v -> vtyped n1 w -> (exists i, (i < n)%nat /\ g i <> 0) ->
  exists t o ft fo,
    projection_tangent rops dbg junk pow rroot n0 n1 v w = Ok t /\
    projection_orthogonal rops dbg junk pow rroot n0 n1 v w = Ok o /\
    is_vec n t ft /\ is_vec n o fo /\
    (forall i, ft i + fo i = f i) /\ (exists c, forall i, ft i = c * g i) /\
    (rsum n (fun i => g i * g i) = 1 -> rsum n (fun i => fo i * g i) = 0).
Proof. exact projection_split. Qed.
Print Assumptions C48_projection.

(** Orthogonal, anti-symmetric, of the length |v| |w| sin, right handed. *)
Theorem C48_cross : forall dbg junk n0 n1 v f w g,
  is_vec 3 v f -> is_vec 3 w g -> vtyped n0 v -> vtyped n1 w ->
  exists x y h,
    cross_product rops dbg junk n0 n1 v w = Ok x /\ cross_product rops dbg junk n1 n0 w v = Ok y /\
    is_vec 3 x h /\ is_vec 3 y (fun i => - h i) /\
    rsum 3 (fun i => h i * f i) = 0 /\ rsum 3 (fun i => h i * g i) = 0 /\
    rsum 3 (fun i => h i * h i) + rsum 3 (fun i => f i * g i) * rsum 3 (fun i => f i * g i) =
      rsum 3 (fun i => f i * f i) * rsum 3 (fun i => g i * g i) /\
    0 <= f 0%nat * (g 1%nat * h 2%nat - g 2%nat * h 1%nat) + f 1%nat * (g 2%nat * h 0%nat - g 0%nat * h 2%nat)
         + f 2%nat * (g 0%nat * h 1%nat - g 1%nat * h 0%nat).
Proof. exact cross_product_3. Qed.
Print Assumptions C48_cross.

Theorem C48_cross_2d : forall dbg junk v f w g, is_vec 2 v f -> is_vec 2 w g ->
  exists z, cross_product rops dbg junk 0 0 v w = Ok [0; 0; z] /\
    cross_product rops dbg junk 0 0 w v = Ok [0; 0; - z] /\
    z * z + rsum 2 (fun i => f i * g i) * rsum 2 (fun i => f i * g i) =
      rsum 2 (fun i => f i * f i) * rsum 2 (fun i => g i * g i) /\
    (f 0%nat = 1 -> f 1%nat = 0 -> z = g 1%nat).
Proof. exact cross_product_2. Qed.
Print Assumptions C48_cross_2d.

(** The part of C48 which fails: two dimensional vectors of static size have no cross product, the three
    components are written to a vector of two. *)
Theorem C48_cross_static_refuted : forall dbg junk n0 n1 v f w g,
  is_vec 2 v f -> is_vec 2 w g -> promote n0 n1 = 2%nat ->
  cross_product rops dbg junk n0 n1 v w = if dbg then Abort else Undef.
Proof. exact cross2_static. Qed.
Print Assumptions C48_cross_static_refuted.

Theorem C48_angle : forall dbg n v f w g, is_vec n v f -> is_vec n w g -> (n = 2 \/ n = 3)%nat ->
  exists t, angle rops dbg pow rroot acos PI true v w = Ok t /\
    angle rops dbg pow rroot acos PI true w v = Ok t /\ 0 <= t <= PI /\
    angle rops dbg pow rroot acos PI false v w = Ok (t / (PI / 180)) /\
    ((exists i, (i < n)%nat /\ f i <> 0) -> (exists i, (i < n)%nat /\ g i <> 0) ->
     rsum n (fun i => f i * g i) =
       cos t * (sqrt (rsum n (fun i => f i * f i)) * sqrt (rsum n (fun i => g i * g i)))).
Proof. exact angle_all. Qed.
Print Assumptions C48_angle.

Example C48_hypotheses :
  is_vec 3 [1; 2; 3] (fun i => nth i [1; 2; 3] 0) /\ is_vec 3 [0; 3; 4] (fun i => nth i [0; 3; 4] 0) /\
  vtyped 3 [1; 2; 3] /\ vtyped 0 [0; 3; 4] /\ (exists i, (i < 3)%nat /\ nth i [0; 3; 4] 0 <> 0) /\
  is_vec 2 [1; 0] (fun i => nth i [1; 0] 0) /\ promote 2 2 = 2%nat /\
  cross_product rops true (fun _ => 0) 3 0 [1; 0; 0] [0; 1; 0] =
    Ok [0 * 0 - 0 * 1; 0 * 0 - 1 * 0; 1 * 1 - 0 * 0].
Proof.
  assert (D : forall (l : list R) i, (i < length l)%nat -> nth_error l i = Some (nth i l 0)).
  { intros l i H. apply nth_error_nth'. exact H. }
  split; [split; [reflexivity|intros i Hi; apply D, Hi]|]. split; [split; [reflexivity|intros i Hi; apply D, Hi]|].
  split; [right; reflexivity|]. split; [left; reflexivity|].
  split; [exists 1%nat; split; [lia|cbn; lra]|]. split; [split; [reflexivity|intros i Hi; apply D, Hi]|].
  split; reflexivity.
Qed.

(** ** C49
    Full statement: unit(v) in double precision is not the zero vector when v is finite with a non-zero
    component. Refuted: the square of 2^-600 underflows, that of 2^600 overflows. *)

Theorem C49_underflow_refuted : forall m e, (m, e) = (4503599627370496%positive, (-652)%Z) ->
  exists u, f_unit [S754_finite false m e] = Ok [u] /\ is_zero u.
Proof. exact unit_underflow. Qed.
Print Assumptions C49_underflow_refuted.

Theorem C49_overflow_refuted : exists u, f_unit [S754_finite false 4503599627370496 548] = Ok [u] /\ is_zero u.
Proof. exact unit_overflow. Qed.
Print Assumptions C49_overflow_refuted.

Example C49_hypotheses :
  finite_nonzero (S754_finite false 4503599627370496 (-652)) /\
  valid_binary 53 1024 (S754_finite false 4503599627370496 (-652)) = true /\
  valid_binary 53 1024 (S754_finite false 4503599627370496 548) = true /\
  f_unit [f_of_Z 3] = Ok [f_of_Z 1].
Proof. repeat split; vm_compute; reflexivity. Qed.

(** ** C67 *)

Theorem C67_norm : forall p n v f, is_vec n v f -> (p = 0%nat -> (0 < n)%nat) ->
  exists N, lp_norm rops pow rroot p v = Ok N /\ p_norm p n f N.
Proof. exact norm_spec. Qed.
Print Assumptions C67_norm.

(** [p_norm] determines the norm. *)
Theorem C67_unique : forall p n f N N', p_norm p n f N -> p_norm p n f N' -> N = N'.
Proof. exact p_norm_unique. Qed.
Print Assumptions C67_unique.

(** The part of C67 which fails: the maximum norm of an empty vector dereferences the end iterator. *)
Theorem C67_empty_refuted : lp_norm rops pow rroot 0 [] = Undef.
Proof. exact norm_inf_empty. Qed.
Print Assumptions C67_empty_refuted.

Example C67_hypotheses :
  is_vec 2 [3; -4] (fun i => nth i [3; -4] 0) /\ p_norm 2 2 (fun i => nth i [3; -4] 0) 5 /\
  p_norm 0 2 (fun i => nth i [3; -4] 0) 4 /\ p_norm 1 2 (fun i => nth i [3; -4] 0) 7.
Proof.
  assert (A3 : Rabs 3 = 3) by (apply Rabs_pos_eq; lra).
  assert (A4 : Rabs (-4) = 4) by (rewrite Rabs_left by lra; lra).
  split; [split; [reflexivity|intros i Hi; apply nth_error_nth'; exact Hi]|].
  split; [split; [lra|cbn; rewrite A3, A4; lra]|]. split.
  - split; [|exists 1%nat; split; [lia|cbn; lra]].
    intros i Hi. destruct i as [|[|i]]; [cbn; lra..|lia].
  - split; [lra|cbn; rewrite A3, A4; lra].
Qed.

(** ** C68 *)

Theorem C68_norm_laws : forall p n, (0 < n)%nat ->
  (forall v f, is_vec n v f -> exists N, lp_norm rops pow rroot p v = Ok N /\ 0 <= N /\
     (N = 0 <-> forall i, (i < n)%nat -> f i = 0)) /\
  (forall c v f w, is_vec n v f -> is_vec n w (fun i => c * f i) ->
     exists N, lp_norm rops pow rroot p v = Ok N /\ lp_norm rops pow rroot p w = Ok (Rabs c * N)) /\
  (forall v f w g x, is_vec n v f -> is_vec n w g -> is_vec n x (fun i => f i + g i) ->
     exists N L K, lp_norm rops pow rroot p v = Ok N /\ lp_norm rops pow rroot p w = Ok L /\
       lp_norm rops pow rroot p x = Ok K /\ K <= N + L).
Proof. exact norm_laws. Qed.
Print Assumptions C68_norm_laws.

Example C68_hypotheses :
  (0 < 2)%nat /\ is_vec 2 [3; -4] (fun i => nth i [3; -4] 0) /\
  is_vec 2 [2 * 3; 2 * -4] (fun i => 2 * nth i [3; -4] 0) /\
  is_vec 2 [3 + 1; -4 + 1] (fun i => nth i [3; -4] 0 + nth i [1; 1] 0).
Proof.
  split; [lia|]. repeat split; intros i Hi; destruct i as [|[|i]]; try reflexivity; lia.
Qed.

(** ** C69 *)

Theorem C69_mean : forall dbg n v f t, is_vec n v f -> (0 < n)%nat ->
  exists m, mean rops dbg t v = Ok m /\ INR n * m = rsum n f /\
    (forall a b, (forall i, (i < n)%nat -> a <= f i <= b) -> a <= m <= b).
Proof. exact mean_ok. Qed.
Print Assumptions C69_mean.

Theorem C69_mean_empty : mean rops true 0 [] = Abort.
Proof. exact mean_empty. Qed.
Print Assumptions C69_mean_empty.

Example C69_hypotheses : is_vec 2 [3; -4] (fun i => nth i [3; -4] 0) /\ (0 < 2)%nat /\
  mean rops true 0 [3; -4] = Ok ((0 + 3 + -4) / 2).
Proof. split; [split; [reflexivity|intros i Hi; apply nth_error_nth'; exact Hi]|]. split; [lia|reflexivity]. Qed.
