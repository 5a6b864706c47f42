(** Property C125: norms, means and inner products in double precision, over every vector.
    [is_vec n v f]: the vector [v] has the [n] elements [f 0 .. f (n-1)]. [p_norm p n a N]: [N] is the p-norm of the reals
    [a 0 .. a (n-1)], with p = 0 the largest magnitude. [finite_vec n f]: valid finite doubles. [smaller x y]: where the
    double [y] is finite, so is [x], of at most the magnitude. [valid_vec], [inside]: as in C121.
    [f_gamma k = (1 + 2^-53)^k - 1], [f_limit = 2^1023], [f_u = 2^-53], [f_eta = 2^-1075]. *)
From Coq Require Import ZArith Reals Lra Lia List SpecFloat.
From Verif Require Import Base DenseModel DenseFacts ScalarModel GeometryModel GeometryReal GeometryNorm FloatFacts FloatError
  IterFloat FloatUnit FloatSweep PropFloatLemmas PropIterLemmas PropDominantLemmas PropOrderLemmas PropIntLemmas PropOddLemmas PropSignLemmas PropNormLemmas.
Import ListNotations.
Local Open Scope R_scope.

(** ** C125 *)

(** The maximum norm of finite doubles is exact. *)
Theorem C125_maximum : forall power root n v f, is_vec n v f -> (0 < n)%nat -> finite_vec n f ->
  exists N, lp_norm fops power root 0 v = Ok N /\ f_valid N /\ f_finite N = true /\ p_norm 0 n (fun i => f_real (f i)) (f_real N).
Proof. exact maximum_exact. Qed.
Print Assumptions C125_maximum.

Example C125_maximum_hypotheses : is_vec 3 v3 f3 /\ finite_vec 3 f3 /\
  forall power root, lp_norm fops power root 0 v3 = Ok (fz 3).
Proof.
  split; [exact (is_vec_self v3 _)|]. split; [|reflexivity].
  intros [|[|[|i]]] Hi; try lia; split; vm_compute; reflexivity.
Qed.

(** A norm of a vector with a NaN should be one; but only a leading NaN counts, every other is passed over. *)
Theorem C125_maximum_nan_refuted : forall power root x v,
  lp_norm fops power root 0 (x :: v) = lp_norm fops power root 0 (x :: filter not_nan v) /\
  lp_norm fops power root 0 (S754_nan :: v) = Ok S754_nan.
Proof. exact maximum_nan. Qed.
Print Assumptions C125_maximum_nan_refuted.

Example C125_maximum_nan_witness : forall power root,
  lp_norm fops power root 0 [fz 1; S754_nan; fz (-2)] = Ok (fz 2) /\ lp_norm fops power root 0 [S754_nan; fz 1; fz (-2)] = Ok S754_nan.
Proof. split; reflexivity. Qed.

(** Elements of at most the magnitude give at most the norm, rounded as they are. *)
Theorem C125_monotone : forall power root p x y, (p <= 3)%nat -> Forall2 smaller x y ->
  (p = 0%nat -> x <> [] /\ forall b, In b y -> f_finite b = true) ->
  (p = 3%nat -> forall s t, f_valid s -> f_valid t ->
     (f_finite t = true -> f_finite s = true /\ 0 <= f_real s <= f_real t) ->
     f_valid (root 3%nat s) /\ f_valid (root 3%nat t) /\
       (f_finite (root 3%nat t) = true -> f_finite (root 3%nat s) = true /\ 0 <= f_real (root 3%nat s) <= f_real (root 3%nat t))) ->
  exists N L, lp_norm fops power root p x = Ok N /\ lp_norm fops power root p y = Ok L /\ f_valid N /\ f_valid L /\
    (f_finite L = true -> f_finite N = true /\ 0 <= f_real N <= f_real L).
Proof. exact norm_grows. Qed.
Print Assumptions C125_monotone.

Example C125_monotone_hypotheses : Forall2 smaller v3 [fz 4; fz (-1); fz 1] /\ v3 <> [] /\
  (forall b, In b [fz 4; fz (-1); fz 1] -> f_finite b = true) /\
  (forall power root, exists L, lp_norm fops power root 2 [fz 4; fz (-1); fz 1] = Ok L /\ f_finite L = true).
Proof.
  split.
  { unfold v3. do 3 (apply Forall2_cons; [apply smaller_check; vm_compute; reflexivity|]). apply Forall2_nil. } split; [discriminate|]. split.
  - intros b [<-|[<-|[<-|[]]]]; reflexivity.
  - intros. eexists. split; [reflexivity|vm_compute; reflexivity].
Qed.

(** Turning every sign leaves the norm as it is, bit by bit. *)
Theorem C125_opposite : forall power root p v, (p <= 3)%nat \/ Nat.even p = false ->
  lp_norm fops power root p (map SFopp v) = lp_norm fops power root p v.
Proof. exact norm_opp. Qed.
Print Assumptions C125_opposite.

Example C125_opposite_hypotheses : ((5 <= 3)%nat \/ Nat.even 5 = false) /\
  forall power root, exists N, lp_norm fops power root 1 (map SFopp v3) = Ok N /\ f_finite N = true /\ map SFopp v3 <> v3.
Proof. split; [right; reflexivity|]. intros. eexists. split; [reflexivity|]. split; [vm_compute; reflexivity|discriminate]. Qed.

(** The sum of magnitudes: its error, that it bounds every element, and when it is finite. *)
Theorem C125_one : forall power root n v f, is_vec n v f -> (forall i, (i < n)%nat -> f_valid (f i)) ->
  exists N, lp_norm fops power root 1 v = Ok N /\ f_valid N /\
    (f_finite N = true -> (forall i, (i < n)%nat -> f_finite (f i) = true /\ Rabs (f_real (f i)) <= f_real N) /\
       Rabs (f_real N - rsum n (fun i => Rabs (f_real (f i)))) <= f_gamma n * rsum n (fun i => Rabs (f_real (f i)))) /\
    (finite_vec n f -> (1 + f_u) ^ n * rsum n (fun i => Rabs (f_real (f i))) <= f_limit -> f_finite N = true).
Proof. exact norm_one. Qed.
Print Assumptions C125_one.

Example C125_one_hypotheses : is_vec 3 v3 f3 /\ (forall i, (i < 3)%nat -> f_valid (f3 i)) /\
  forall power root, exists N, lp_norm fops power root 1 v3 = Ok N /\ f_finite N = true.
Proof.
  split; [exact (is_vec_self v3 _)|]. split; [intros [|[|[|i]]] Hi; try lia; vm_compute; reflexivity|].
  intros. eexists. split; [reflexivity|vm_compute; reflexivity].
Qed.

(** The Euclidean norm, where the sum of squares stays away from the ends of the range. *)
Theorem C125_two : forall power root n v f, is_vec n v f -> finite_vec n f -> INR n * f_u <= / 4 ->
  let X := rsum n (fun i => f_real (f i) ^ 2) in / 2 ^ 1000 <= X <= 2 ^ 1000 ->
  exists N, lp_norm fops power root 2 v = Ok N /\ f_valid N /\ f_finite N = true /\
    f_real N <= (1 + f_u) ^ (n + 2) * sqrt X /\ sqrt X <= (1 + f_u) ^ (n + 3) * f_real N.
Proof. exact norm_two. Qed.
Print Assumptions C125_two.

Example C125_two_hypotheses : is_vec 2 v2 f2 /\ finite_vec 2 f2 /\ INR 2 * f_u <= / 4 /\
  / 2 ^ 1000 <= rsum 2 (fun i => f_real (f2 i) ^ 2) <= 2 ^ 1000 /\ forall power root, lp_norm fops power root 2 v2 = Ok (fz 5).
Proof.
  split; [exact (is_vec_self v2 _)|].
  split; [intros [|[|i]] Hi; try lia; split; vm_compute; reflexivity|].
  split; [pose proof u_tiny; cbn [INR]; lra|]. split; [|reflexivity].
  assert (E : rsum 2 (fun i => f_real (f2 i) ^ 2) = 25).
  { cbn [asum]. unfold f2, v2. cbn [nth]. unfold fz. rewrite !of_Z_real by lia. ring. }
  rewrite E. split.
  - apply Rle_trans with (/ 1); [apply Rinv_le_contravar; [lra|apply pow_R1_Rle; lra]|lra].
  - apply Rle_trans with (2 ^ 5); [lra|apply Rle_pow; [lra|apply Nat.leb_le; reflexivity]].
Qed.

(** The mean: its error, and when it is finite. *)
Theorem C125_mean : forall dbg t n v f, is_vec n v f -> (0 < n)%nat -> (Z.of_nat n <= 2 ^ 53)%Z -> (forall i, (i < n)%nat -> f_valid (f i)) ->
  exists m, mean fops dbg t v = Ok m /\ f_valid m /\
    (f_finite m = true -> (forall i, (i < n)%nat -> f_finite (f i) = true) /\
       Rabs (f_real m - rsum n (fun i => f_real (f i)) / INR n) <=
         f_gamma (n + 1) * (rsum n (fun i => Rabs (f_real (f i))) / INR n) + f_eta) /\
    (finite_vec n f -> (1 + f_u) ^ n * rsum n (fun i => Rabs (f_real (f i))) <= f_limit -> f_finite m = true).
Proof. exact mean_error. Qed.
Print Assumptions C125_mean.

Example C125_mean_hypotheses : is_vec 3 v3 f3 /\ (0 < 3)%nat /\ (Z.of_nat 3 <= 2 ^ 53)%Z /\ (forall i, (i < 3)%nat -> f_valid (f3 i)) /\
  forall dbg, exists m, mean fops dbg 0 v3 = Ok m /\ f_finite m = true.
Proof.
  split; [exact (is_vec_self v3 _)|]. split; [lia|]. split; [lia|].
  split; [intros [|[|[|i]]] Hi; try lia; vm_compute; reflexivity|].
  intros []; eexists; (split; [reflexivity|]); vm_compute; reflexivity.
Qed.

(** The mean keeps the order of vectors. *)
Theorem C125_mean_order : forall dbg t n x z y, valid_vec n x -> valid_vec n z -> valid_vec n y -> inside n x z y -> (0 < n)%nat ->
  (Z.of_nat n < 2 ^ 64)%Z ->
  exists a b c, mean fops dbg t x = Ok a /\ mean fops dbg t z = Ok b /\ mean fops dbg t y = Ok c /\
    f_valid a /\ f_valid b /\ f_valid c /\
    (f_finite a = true -> f_finite c = true -> f_finite b = true /\ f_real a <= f_real b <= f_real c).
Proof. exact mean_inside. Qed.
Print Assumptions C125_mean_order.

Example C125_mean_order_hypotheses : let x := [fz (-4); fz 0; fz (-1)] in let y := [fz (-3); fz 1; fz 0] in
  valid_vec 3 x /\ valid_vec 3 v3 /\ valid_vec 3 y /\ inside 3 x v3 y /\ (0 < 3)%nat /\ (Z.of_nat 3 < 2 ^ 64)%Z.
Proof.
  intros x y. split; [split; [reflexivity|]; intros [|[|[|i]]] Hi; try lia; vm_compute; reflexivity|].
  split; [split; [reflexivity|]; intros [|[|[|i]]] Hi; try lia; vm_compute; reflexivity|].
  split; [split; [reflexivity|]; intros [|[|[|i]]] Hi; try lia; vm_compute; reflexivity|].
  split; [apply inside_check; vm_compute; reflexivity|lia].
Qed.

(** The mean of the opposites is the opposite of the mean, up to the sign of a zero. *)
Theorem C125_mean_opposite : forall dbg t v m, mean fops dbg t v = Ok m -> exists k, mean fops dbg t (map SFopp v) = Ok k /\
  (k = SFopp m \/ exists p q, m = S754_zero p /\ k = S754_zero q).
Proof. exact mean_opp. Qed.
Print Assumptions C125_mean_opposite.

Example C125_mean_opposite_hypotheses : exists m, mean fops true 0 v3 = Ok m /\ mean fops true 0 (map SFopp v3) = Ok (SFopp m) /\ m <> SFopp m.
Proof. eexists. split; [reflexivity|]. split; [vm_compute; reflexivity|vm_compute; discriminate]. Qed.

(** A mean should lie between the smallest and the largest element; that of three times 1/10 is larger than each. *)
Theorem C125_mean_between_refuted : let c := SFdiv 53 1024 (fz 1) (fz 10) in f_valid c /\ f_finite c = true /\
  exists m, (forall dbg t, mean fops dbg t [c; c; c] = Ok m) /\ f_real c < f_real m.
Proof. exact mean_of_three. Qed.
Print Assumptions C125_mean_between_refuted.

(** And the mean of two equal finite doubles can be infinite. *)
Theorem C125_mean_finite_refuted : let c := f_of_Z (2 ^ 1023) in f_valid c /\ f_finite c = true /\
  forall dbg t, mean fops dbg t [c; c] = Ok (S754_infinity false).
Proof. exact mean_overflow. Qed.
Print Assumptions C125_mean_finite_refuted.

(** Inner products do not depend on the order of the two vectors, bit by bit. *)
Theorem C125_dot_symmetric : forall dbg v w, length v = length w -> exists d, g_dot fops dbg v w = Ok d /\ g_dot fops dbg w v = Ok d.
Proof. exact dot_symmetric. Qed.
Print Assumptions C125_dot_symmetric.

Example C125_dot_symmetric_hypotheses : length v3 = length [fz 4; S754_nan; fz 1] /\
  g_dot fops true v2 [fz 5; fz 6] = Ok (fz (-9)) /\ g_dot fops true [fz 5; fz 6] v2 = Ok (fz (-9)).
Proof. split; [reflexivity|]. split; reflexivity. Qed.

(** A vector's inner product with itself is never negative. *)
Theorem C125_dot_self : forall dbg n v, valid_vec n v ->
  exists d, g_dot fops dbg v v = Ok d /\ f_valid d /\ (f_finite d = true -> 0 <= f_real d).
Proof. exact dot_self. Qed.
Print Assumptions C125_dot_self.

Example C125_dot_self_hypotheses : valid_vec 3 v3 /\ exists d, g_dot fops true v3 v3 = Ok d /\ f_finite d = true.
Proof.
  split; [split; [reflexivity|]; intros [|[|[|i]]] Hi; try lia; vm_compute; reflexivity|].
  eexists. split; [reflexivity|vm_compute; reflexivity].
Qed.
