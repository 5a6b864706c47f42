(** Property C104: what the stopping criterion of the iterative solvers says about the result, in double precision. The
    statements use [dominant_rows] (finite doubles, every diagonal at least [lo] and at least 1/q times the rest of its
    row), [valid_state] (a start vector of n doubles), [run] (one of the three solvers returned), [f_error n q lo F r]
    (the error a largest residual of [r] leaves, F a bound of the result), [f_resid n q dmax X E] (the residual of a vector
    at a distance of [E]), [room] (its squares do not overflow), [meets] (a residual is small enough for the tolerance,
    compared with those of the first sweep) and the names of C92. *)
From Coq Require Import ZArith Reals Lra Lia List SpecFloat.
From Verif Require Import Base ListFacts DenseModel DenseFacts ScalarModel GeometryReal SparseModel SparseSpec LuModel
  LuReal IterModel IterFacts IterLoop IterField IterReal FloatFacts FloatError IterFloat PropFloatLemmas FloatUnit
  PropIterLemmas FloatSweep PropSweepLemmas FloatStop FloatStops PropStopLemmas.
Import ListNotations.
Local Open Scope R_scope.

(** ** C104 *)

(** The error of a result with a finite residual. *)
Theorem C104_error : forall M dbg stray n a A b h q lo,
  dominant_rows n a A b h q lo -> forall lim s step x' cd xs,
  run fops M dbg stray a b lim s step x' cd -> valid_state n s ->
  (forall i, (i < n)%nat -> rsum n (fun j => f_real (A i j) * xs j) = f_real (h i)) ->
  (0 < n)%nat -> (Z.of_nat n < 2 ^ 64)%Z -> (min_iterations lim <= M)%nat -> (max_iteration lim < M)%nat ->
  (1 <= cd_iteration cd)%nat -> f_finite (cd_residual cd) = true ->
  exists f, is_vec n x' f /\ finite_vec n f /\
    forall F, (forall i, (i < n)%nat -> Rabs (f_real (f i)) <= F) ->
      within n f xs (((1 + f_u) ^ 4 * (f_real (cd_residual_max cd) + f_theta) / lo +
        (f_gamma (n + 1) * ((1 + q) * F) + INR n * (1 + f_u) ^ n * f_eta / lo)) / (1 - q)).
Proof. exact run_error. Qed.
Print Assumptions C104_error.

(** The residuals of a run that stopped because of its tolerance. *)
Theorem C104_tolerance : forall M dbg stray n a A b h q lo lim s step x' cd,
  dominant_rows n a A b h q lo ->
  run fops M dbg stray a b lim s step x' cd -> valid_state n s -> (0 < n)%nat -> (Z.of_nat n < 2 ^ 64)%Z ->
  (min_iterations lim <= M)%nat -> (max_iteration lim < M)%nat -> (1 <= cd_iteration cd <= max_iteration lim)%nat ->
  f_finite (cd_residual cd) = true -> f_finite (cd_residual_0 cd) = true ->
  0 < f_real (cd_residual_0 cd) -> 0 < f_real (cd_residual_max_0 cd) ->
  f_valid (tolerance lim) -> f_finite (tolerance lim) = true -> 0 <= f_real (tolerance lim) -> 10 * f_real (tolerance lim) <= f_limit ->
  f_real (cd_residual cd) <= ((1 + f_u) * f_real (tolerance lim) + f_eta) * f_real (cd_residual_0 cd) /\
  f_real (cd_residual_max cd) <= ((1 + f_u) ^ 2 * (10 * f_real (tolerance lim)) + 3 * f_eta) * f_real (cd_residual_max_0 cd).
Proof. exact run_tolerance. Qed.
Print Assumptions C104_tolerance.

(** The number of sweeps until the tolerance is met. *)
Theorem C104_stops : forall M dbg stray n a A b h q lo xs X dmax x f E0 k lim fuel,
  dominant_doubles n a A b h q lo xs X ->
  (forall i, (i < n)%nat -> Rabs (f_real (A i i)) <= dmax) -> (0 < n)%nat -> (Z.of_nat n < 2 ^ 64)%Z ->
  is_vec n x f -> finite_vec n f -> 0 <= E0 -> within n f xs (f_floor n q X lo + E0) -> no_overflow n A lo X (f_floor n q X lo + E0) ->
  (min_iterations lim <= k)%nat -> (1 <= k <= M)%nat -> (max_iteration lim < M)%nat ->
  (Nat.max (min_iterations lim) (max_iteration lim + 1) < fuel)%nat ->
  f_valid (tolerance lim) -> f_finite (tolerance lim) = true -> 0 <= f_real (tolerance lim) -> 10 * f_real (tolerance lim) + 1 <= f_limit / 2 ->
  let E := f_floor n q X lo + f_rate n q ^ k * E0 in let T := f_resid n q dmax X E in
  room n ((1 + q) * dmax * (X + E) + T) T ->
  (forall w x1 w1 r1 rm1, jacobi_step fops dbg stray a b (x, vresize w n (S754_zero false)) = Ok (x1, w1) ->
     compute_residual fops dbg stray a x1 b = Ok (r1, rm1) -> f_finite r1 = true -> 0 < f_real r1 -> 0 < f_real rm1 ->
     meets n (f_real (tolerance lim)) (f_real r1) (f_real rm1) T ->
     exists x' w' cd f', jacobi_solve fops M dbg stray fuel lim w a x b = Ok (x', w', cd) /\ (cd_iteration cd <= k)%nat /\
       is_vec n x' f' /\ finite_vec n f' /\ within n f' xs (f_floor n q X lo + f_rate n q ^ cd_iteration cd * E0)) /\
  (forall x1 w1 r1 rm1, gauss_seidel_step fops dbg stray a b (x, []) = Ok (x1, w1) ->
     compute_residual fops dbg stray a x1 b = Ok (r1, rm1) -> f_finite r1 = true -> 0 < f_real r1 -> 0 < f_real rm1 ->
     meets n (f_real (tolerance lim)) (f_real r1) (f_real rm1) T ->
     exists x' cd f', gauss_seidel_solve fops M dbg stray fuel lim a x b = Ok (x', cd) /\ (cd_iteration cd <= k)%nat /\
       is_vec n x' f' /\ finite_vec n f' /\ within n f' xs (f_floor n q X lo + f_rate n q ^ cd_iteration cd * E0)).
Proof. exact jacobi_gauss_stop. Qed.
Print Assumptions C104_stops.

(** A tolerance the floor of the rounding errors meets is reached after a number of sweeps that does not depend on the
    limits of the solver. *)
Theorem C104_eventually : forall M dbg stray n a A b h q lo xs X dmax x f E0 tol,
  dominant_doubles n a A b h q lo xs X ->
  (forall i, (i < n)%nat -> Rabs (f_real (A i i)) <= dmax) -> (0 < n)%nat -> (Z.of_nat n < 2 ^ 64)%Z ->
  is_vec n x f -> finite_vec n f -> 0 <= E0 -> within n f xs (f_floor n q X lo + E0) -> no_overflow n A lo X (f_floor n q X lo + E0) ->
  f_valid tol -> f_finite tol = true -> 0 <= f_real tol -> 10 * f_real tol + 1 <= f_limit / 2 ->
  (let E := f_floor n q X lo + E0 in let T := f_resid n q dmax X E in room n ((1 + q) * dmax * (X + E) + T) T) ->
  (forall w x1 w1 r1 rm1, jacobi_step fops dbg stray a b (x, vresize w n (S754_zero false)) = Ok (x1, w1) ->
     compute_residual fops dbg stray a x1 b = Ok (r1, rm1) -> f_finite r1 = true -> 0 < f_real r1 -> 0 < f_real rm1 ->
     meets_floor n (f_real tol) (f_real r1) (f_real rm1) (f_resid n q dmax X (f_floor n q X lo)) ->
     exists K, forall lim fuel, tolerance lim = tol -> (min_iterations lim <= M)%nat -> (max_iteration lim < M)%nat ->
       (Nat.max (min_iterations lim) (max_iteration lim + 1) < fuel)%nat ->
       exists x' w' cd, jacobi_solve fops M dbg stray fuel lim w a x b = Ok (x', w', cd) /\
         (cd_iteration cd <= Nat.max K (min_iterations lim))%nat) /\
  (forall x1 w1 r1 rm1, gauss_seidel_step fops dbg stray a b (x, []) = Ok (x1, w1) ->
     compute_residual fops dbg stray a x1 b = Ok (r1, rm1) -> f_finite r1 = true -> 0 < f_real r1 -> 0 < f_real rm1 ->
     meets_floor n (f_real tol) (f_real r1) (f_real rm1) (f_resid n q dmax X (f_floor n q X lo)) ->
     exists K, forall lim fuel, tolerance lim = tol -> (min_iterations lim <= M)%nat -> (max_iteration lim < M)%nat ->
       (Nat.max (min_iterations lim) (max_iteration lim + 1) < fuel)%nat ->
       exists x' cd, gauss_seidel_solve fops M dbg stray fuel lim a x b = Ok (x', cd) /\
         (cd_iteration cd <= Nat.max K (min_iterations lim))%nat).
Proof. exact eventually_stop. Qed.
Print Assumptions C104_eventually.

(** The system 2 x + y = 1, x + 2 y = 1 from 0 with the tolerance 1/2: the run stops after two sweeps. *)
Example C104_run : exists x' w' cd,
  jacobi_solve fops 100 true None 20 (mkLimits 0 9 f_half) [] ex_sys [S754_zero false; S754_zero false] ex_b = Ok (x', w', cd) /\
  cd_iteration cd = 2%nat /\ f_finite (cd_residual cd) = true /\ f_finite (cd_residual_0 cd) = true /\
  cd_residual_0 cd = f_half /\ cd_residual_max_0 cd = f_half.
Proof. exact ex_run. Qed.

Example C104_system : valid_state 2 ([S754_zero false; S754_zero false], []) /\ dominant_rows 2 ex_sys ex_A ex_b ex_h (1 / 2) 2.
Proof. exact ex_valid. Qed.

(** The residuals after the first sweep, and the conditions for four sweeps and for the floor. *)
Example C104_first : exists x1 w1,
  jacobi_step fops true None ex_sys ex_b ([S754_zero false; S754_zero false], vresize [] 2 (S754_zero false)) = Ok (x1, w1) /\
  compute_residual fops true None ex_sys x1 ex_b = Ok (f_half, f_half).
Proof. exact ex_first. Qed.

Example C104_hypotheses : let X := 1 / (2 * (1 - 1 / 2)) in let E := f_floor 2 (1 / 2) X 2 + f_rate 2 (1 / 2) ^ 4 * X in
  let T := f_resid 2 (1 / 2) 2 X E in
  dominant_doubles 2 ex_sys ex_A ex_b ex_h (1 / 2) 2 (fun _ => 1 / 3) X /\
  (forall i, (i < 2)%nat -> Rabs (f_real (ex_A i i)) <= 2) /\
  room 2 ((1 + 1 / 2) * 2 * (X + E) + T) T /\ meets 2 (f_real f_half) (f_real f_half) (f_real f_half) T /\
  (let E := f_floor 2 (1 / 2) X 2 + X in let T := f_resid 2 (1 / 2) 2 X E in room 2 ((1 + 1 / 2) * 2 * (X + E) + T) T) /\
  meets_floor 2 (f_real f_half) (f_real f_half) (f_real f_half) (f_resid 2 (1 / 2) 2 X (f_floor 2 (1 / 2) X 2)) /\
  10 * f_real f_half + 1 <= f_limit / 2.
Proof. exact ex_stops. Qed.
