(** Property C140: when the tolerance stops Gauss-Seidel and SOR in double precision on symmetric positive definite
    systems. Beyond what PropDefinite.v uses: [d_resid n ro X E] (a bound of the computed residual of a vector whose elements
    are at most [E] away from the solution), [room] (nothing overflows in that computation), [meets] (a residual of at most
    [T], divided by the ones after the first sweep, is within the tolerance with the roundings of the test) and [meets_floor]
    (the same with strict inequalities). *)
From Coq Require Import ZArith Reals Lra Lia List SpecFloat.
From Verif Require Import Base ListFacts DenseModel DenseFacts ScalarModel GeometryReal SparseModel SparseSpec LuModel
  LuReal IterModel IterFacts IterLoop IterField IterReal FloatFacts FloatError IterFloat PropFloatLemmas FloatUnit
  PropIterLemmas FloatSweep PropSweepLemmas FloatStops PropStopLemmas Energy EnergyDrift FloatDrift PropDefiniteLemmas
  FloatDefStop PropDefiniteStopLemmas.
Import ListNotations.
Local Open Scope R_scope.

(** ** C140 *)

(** The solvers stop after at most [k] sweeps if the residual that remains after [k] sweeps meets the tolerance. *)
Theorem C140_gauss_seidel_stops : forall M dbg stray n a A b h l ro xs X s x f E0 k lim fuel, definite_doubles n a A b h l ro xs X ->
  sweep_factor n (fun i j => f_real (A i j)) 1 s -> d_kappa n ro l < 1 -> d_rate n ro l s < 1 -> (0 < n)%nat -> (Z.of_nat n < 2 ^ 64)%Z ->
  is_vec n x f -> finite_vec n f -> 0 <= E0 ->
  f_enorm n A f xs <= d_floor n ro l s X + E0 -> d_no_overflow n ro l X (d_floor n ro l s X + E0) ->
  (min_iterations lim <= k)%nat -> (1 <= k <= M)%nat -> (max_iteration lim < M)%nat ->
  (Nat.max (min_iterations lim) (max_iteration lim + 1) < fuel)%nat ->
  f_valid (tolerance lim) -> f_finite (tolerance lim) = true -> 0 <= f_real (tolerance lim) -> 10 * f_real (tolerance lim) + 1 <= f_limit / 2 ->
  let E := (d_floor n ro l s X + d_rate n ro l s ^ k * E0) / sqrt l in let T := d_resid n ro X E in
  room n (ro * (X + E) + T) T ->
  forall x1 w1 r1 rm1, gauss_seidel_step fops dbg stray a b (x, []) = Ok (x1, w1) ->
    compute_residual fops dbg stray a x1 b = Ok (r1, rm1) -> f_finite r1 = true -> 0 < f_real r1 -> 0 < f_real rm1 ->
    meets n (f_real (tolerance lim)) (f_real r1) (f_real rm1) T ->
    exists x' cd f', gauss_seidel_solve fops M dbg stray fuel lim a x b = Ok (x', cd) /\ (cd_iteration cd <= k)%nat /\
      is_vec n x' f' /\ finite_vec n f' /\ within n f' xs ((d_floor n ro l s X + d_rate n ro l s ^ cd_iteration cd * E0) / sqrt l).
Proof. exact gauss_seidel_stops. Qed.
Print Assumptions C140_gauss_seidel_stops.

Theorem C140_sor_stops : forall M dbg stray n a A b h l ro xs X s x f E0 k lim rho fuel, definite_doubles n a A b h l ro xs X ->
  sweep_factor n (fun i j => f_real (A i j)) (3 / 2) s -> d_kappa n ro l < 1 -> d_rate n ro l s < 1 -> (0 < n)%nat -> (Z.of_nat n < 2 ^ 64)%Z ->
  is_vec n x f -> finite_vec n f -> 0 <= E0 ->
  f_enorm n A f xs <= d_floor n ro l s X + E0 -> d_no_overflow n ro l X (d_floor n ro l s X + E0) ->
  (min_iterations lim <= k)%nat -> (1 <= k <= M)%nat -> (max_iteration lim < M)%nat ->
  (Nat.max (min_iterations lim) (max_iteration lim + 1) < fuel)%nat ->
  f_valid (tolerance lim) -> f_finite (tolerance lim) = true -> 0 <= f_real (tolerance lim) -> 10 * f_real (tolerance lim) + 1 <= f_limit / 2 ->
  let E := (d_floor n ro l s X + d_rate n ro l s ^ k * E0) / sqrt l in let T := d_resid n ro X E in
  room n (ro * (X + E) + T) T ->
  forall x1 w1 r1 rm1, sor_step fops dbg stray a b (x, []) = Ok (x1, w1) ->
    compute_residual fops dbg stray a x1 b = Ok (r1, rm1) -> f_finite r1 = true -> 0 < f_real r1 -> 0 < f_real rm1 ->
    meets n (f_real (tolerance lim)) (f_real r1) (f_real rm1) T ->
    exists x' cd f', sor_solve fops M dbg stray fuel lim rho a x b = Ok (x', cd) /\ (cd_iteration cd <= k)%nat /\
      is_vec n x' f' /\ finite_vec n f' /\ within n f' xs ((d_floor n ro l s X + d_rate n ro l s ^ cd_iteration cd * E0) / sqrt l).
Proof. exact sor_stops. Qed.
Print Assumptions C140_sor_stops.

(** A tolerance the floor of the rounding errors meets is reached after a number of sweeps that does not depend on the
    limits of the solver. *)
Theorem C140_eventually : forall M dbg stray n a A b h l ro xs X s x f E0 tol, definite_doubles n a A b h l ro xs X ->
  d_kappa n ro l < 1 -> d_rate n ro l s < 1 -> (0 < n)%nat -> (Z.of_nat n < 2 ^ 64)%Z ->
  is_vec n x f -> finite_vec n f -> 0 <= E0 ->
  f_enorm n A f xs <= d_floor n ro l s X + E0 -> d_no_overflow n ro l X (d_floor n ro l s X + E0) ->
  f_valid tol -> f_finite tol = true -> 0 <= f_real tol -> 10 * f_real tol + 1 <= f_limit / 2 ->
  (let E := (d_floor n ro l s X + E0) / sqrt l in let T := d_resid n ro X E in room n (ro * (X + E) + T) T) ->
  (sweep_factor n (fun i j => f_real (A i j)) 1 s ->
   forall x1 w1 r1 rm1, gauss_seidel_step fops dbg stray a b (x, []) = Ok (x1, w1) -> compute_residual fops dbg stray a x1 b = Ok (r1, rm1) ->
     f_finite r1 = true -> 0 < f_real r1 -> 0 < f_real rm1 ->
     meets_floor n (f_real tol) (f_real r1) (f_real rm1) (d_resid n ro X (d_floor n ro l s X / sqrt l)) ->
     exists K, forall lim fuel, tolerance lim = tol -> (min_iterations lim <= M)%nat -> (max_iteration lim < M)%nat ->
       (Nat.max (min_iterations lim) (max_iteration lim + 1) < fuel)%nat ->
       exists x' cd, gauss_seidel_solve fops M dbg stray fuel lim a x b = Ok (x', cd) /\ (cd_iteration cd <= Nat.max K (min_iterations lim))%nat) /\
  (sweep_factor n (fun i j => f_real (A i j)) (3 / 2) s ->
   forall x1 w1 r1 rm1, sor_step fops dbg stray a b (x, []) = Ok (x1, w1) -> compute_residual fops dbg stray a x1 b = Ok (r1, rm1) ->
     f_finite r1 = true -> 0 < f_real r1 -> 0 < f_real rm1 ->
     meets_floor n (f_real tol) (f_real r1) (f_real rm1) (d_resid n ro X (d_floor n ro l s X / sqrt l)) ->
     exists K, forall lim rho fuel, tolerance lim = tol -> (min_iterations lim <= M)%nat -> (max_iteration lim < M)%nat ->
       (Nat.max (min_iterations lim) (max_iteration lim + 1) < fuel)%nat ->
       exists x' cd, sor_solve fops M dbg stray fuel lim rho a x b = Ok (x', cd) /\ (cd_iteration cd <= Nat.max K (min_iterations lim))%nat).
Proof. exact definite_eventually. Qed.
Print Assumptions C140_eventually.

(** 2 x - y = 1, - x + 2 y = 1 from the start 0 with the tolerance 1/2: the hypotheses hold with 24 sweeps (the others are
    those of [C140_hypotheses]), and the solvers stop after 2 and 3. *)
Example C140_stops_hypotheses : forall s, s = 1 / 2 \/ s = 3 / 4 -> let E := (d_floor 2 3 1 s 1 + d_rate 2 3 1 s ^ 24 * 2) / sqrt 1 in let T := d_resid 2 3 1 E in
  room 2 (3 * (1 + E) + T) T /\
  (let E := (d_floor 2 3 1 s 1 + 2) / sqrt 1 in let T := d_resid 2 3 1 E in room 2 (3 * (1 + E) + T) T) /\
  (forall r rm, 1 / 2 <= r -> 1 / 2 <= rm -> meets 2 (f_real f_half) r rm T /\
     meets_floor 2 (f_real f_half) r rm (d_resid 2 3 1 (d_floor 2 3 1 s 1 / sqrt 1))) /\
  10 * f_real f_half + 1 <= f_limit / 2.
Proof. intros s [-> | ->]; apply dx_stops; lra. Qed.

Example C140_first : (exists x1 w1 r1 rm1, gauss_seidel_step fops true None dx_sys dx_b ([S754_zero false; S754_zero false], []) = Ok (x1, w1) /\
    compute_residual fops true None dx_sys x1 dx_b = Ok (r1, rm1) /\ f_finite r1 = true /\ 1 / 2 <= f_real r1 /\ 1 / 2 <= f_real rm1) /\
  exists x1 w1 r1 rm1, sor_step fops true None dx_sys dx_b ([S754_zero false; S754_zero false], []) = Ok (x1, w1) /\
    compute_residual fops true None dx_sys x1 dx_b = Ok (r1, rm1) /\ f_finite r1 = true /\ 1 / 2 <= f_real r1 /\ 1 / 2 <= f_real rm1.
Proof. exact dx_first. Qed.

Example C140_run : (exists x' cd, gauss_seidel_solve fops 100 true None 60 (mkLimits 0 50 f_half) dx_sys [S754_zero false; S754_zero false] dx_b = Ok (x', cd) /\
    cd_iteration cd = 2%nat) /\
  exists x' cd, sor_solve fops 100 true None 60 (mkLimits 0 50 f_half) (fz 1) dx_sys [S754_zero false; S754_zero false] dx_b = Ok (x', cd) /\
    cd_iteration cd = 3%nat.
Proof. exact dx_run. Qed.
