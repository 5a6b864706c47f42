(** Property C138: SOR in double precision on strictly dominant systems. The statements use [f_real] (the real
    value of a double), [f_u] = 2^-53, [f_eta] = 2^-1075, [f_gamma k] = (1 + f_u)^k - 1, [s_rate n q] =
    (1 + 3 q) / 2 (1 + f_u)^(n + 5) (the factor of one sweep with the fixed relaxation 3/2), [s_floor n q X lo]
    (the distance at which rounding stops the progress), [dominant_doubles], [finite_vec] and [within] of C92 and
    [s_no_overflow] (the magnitudes leave room for the sums), and [f_resid], [room], [meets] and [meets_floor] of C104. *)
From Coq Require Import ZArith Reals Lra Lia List SpecFloat.
From Verif Require Import Base ListFacts DenseModel DenseFacts ScalarModel GeometryReal SparseModel SparseSpec LuModel
  LuReal IterModel IterFacts IterLoop IterField IterReal FloatFacts FloatError IterFloat PropFloatLemmas FloatUnit
  PropIterLemmas FloatSweep PropSweepLemmas FloatStop FloatStops PropStopLemmas FloatSor PropSorLemmas.
Import ListNotations.
Local Open Scope R_scope.

(** ** C138 *)

Theorem C138_sweeps : forall dbg stray n a A b h q lo xs X x f E0 k,
  dominant_doubles n a A b h q lo xs X -> s_rate n q < 1 ->
  is_vec n x f -> finite_vec n f -> 0 <= E0 -> within n f xs (s_floor n q X lo + E0) ->
  s_no_overflow n A lo X (s_floor n q X lo + E0) ->
  exists x' f', times (sor_step fops dbg stray a b) k (x, []) = Ok (x', []) /\
     is_vec n x' f' /\ finite_vec n f' /\ within n f' xs (s_floor n q X lo + s_rate n q ^ k * E0).
Proof. exact sor_times. Qed.
Print Assumptions C138_sweeps.

(** The whole solver, whatever relaxation [rho] is configured. *)
Theorem C138_solves : forall M dbg stray n a A b h q lo xs X x f E0 lim rho fuel,
  dominant_doubles n a A b h q lo xs X -> s_rate n q < 1 ->
  is_vec n x f -> finite_vec n f -> 0 <= E0 -> within n f xs (s_floor n q X lo + E0) ->
  s_no_overflow n A lo X (s_floor n q X lo + E0) -> (dbg = true -> n <> 0%nat) ->
  (min_iterations lim <= M)%nat -> (max_iteration lim < M)%nat ->
  (Nat.max (min_iterations lim) (max_iteration lim + 1) < fuel)%nat ->
  exists x' cd f', sor_solve fops M dbg stray fuel lim rho a x b = Ok (x', cd) /\
     is_vec n x' f' /\ finite_vec n f' /\ within n f' xs (s_floor n q X lo + s_rate n q ^ cd_iteration cd * E0).
Proof. exact sor_solves. Qed.
Print Assumptions C138_solves.

Theorem C138_from_zero : forall dbg stray n a A b h q lo B,
  sparse_square (S754_zero false) n a A -> is_vec n b h ->
  (forall i j, (i < n)%nat -> (j < n)%nat -> f_valid (A i j) /\ f_finite (A i j) = true) -> finite_vec n h ->
  0 <= q -> s_rate n q < 1 -> 0 < lo -> (forall i, (i < n)%nat -> lo <= Rabs (f_real (A i i))) ->
  (forall i, (i < n)%nat -> rsum n (fun j => if (j =? i)%nat then 0 else Rabs (f_real (A i j))) <= q * Rabs (f_real (A i i))) ->
  0 <= B -> (forall i, (i < n)%nat -> Rabs (f_real (h i)) <= B) ->
  let X := B / (lo * (1 - q)) in s_no_overflow n A lo X (s_floor n q X lo + X) ->
  exists xs, (forall i, (i < n)%nat -> rsum n (fun j => f_real (A i j) * xs j) = f_real (h i)) /\
    (forall ys, (forall i, (i < n)%nat -> rsum n (fun j => f_real (A i j) * ys j) = f_real (h i)) ->
       forall i, (i < n)%nat -> ys i = xs i) /\
    forall k, exists x' f', times (sor_step fops dbg stray a b) k (repeat (S754_zero false) n, []) = Ok (x', []) /\
      is_vec n x' f' /\ finite_vec n f' /\ within n f' xs (s_floor n q X lo + s_rate n q ^ k * X).
Proof. exact sor_zeros. Qed.
Print Assumptions C138_from_zero.

Theorem C138_reaches_floor : forall dbg stray n a A b h q lo xs X x f E0 eps,
  dominant_doubles n a A b h q lo xs X -> s_rate n q < 1 ->
  is_vec n x f -> finite_vec n f -> 0 <= E0 -> within n f xs (s_floor n q X lo + E0) ->
  s_no_overflow n A lo X (s_floor n q X lo + E0) -> 0 < eps ->
  exists N, forall k, (N <= k)%nat ->
  exists x' f', times (sor_step fops dbg stray a b) k (x, []) = Ok (x', []) /\
     is_vec n x' f' /\ within n f' xs (s_floor n q X lo + eps).
Proof. exact sor_reaches. Qed.
Print Assumptions C138_reaches_floor.

(** The number of sweeps until the tolerance is met. *)
Theorem C138_stops : forall M dbg stray n a A b h q lo xs X dmax x f E0 k lim rho fuel,
  dominant_doubles n a A b h q lo xs X -> s_rate n q < 1 ->
  (forall i, (i < n)%nat -> Rabs (f_real (A i i)) <= dmax) -> (0 < n)%nat -> (Z.of_nat n < 2 ^ 64)%Z ->
  is_vec n x f -> finite_vec n f -> 0 <= E0 -> within n f xs (s_floor n q X lo + E0) -> s_no_overflow n A lo X (s_floor n q X lo + E0) ->
  (min_iterations lim <= k)%nat -> (1 <= k <= M)%nat -> (max_iteration lim < M)%nat ->
  (Nat.max (min_iterations lim) (max_iteration lim + 1) < fuel)%nat ->
  f_valid (tolerance lim) -> f_finite (tolerance lim) = true -> 0 <= f_real (tolerance lim) -> 10 * f_real (tolerance lim) + 1 <= f_limit / 2 ->
  let E := s_floor n q X lo + s_rate n q ^ k * E0 in let T := f_resid n q dmax X E in
  room n ((1 + q) * dmax * (X + E) + T) T ->
  forall x1 w1 r1 rm1, sor_step fops dbg stray a b (x, []) = Ok (x1, w1) ->
     compute_residual fops dbg stray a x1 b = Ok (r1, rm1) -> f_finite r1 = true -> 0 < f_real r1 -> 0 < f_real rm1 ->
     meets n (f_real (tolerance lim)) (f_real r1) (f_real rm1) T ->
     exists x' cd f', sor_solve fops M dbg stray fuel lim rho a x b = Ok (x', cd) /\ (cd_iteration cd <= k)%nat /\
       is_vec n x' f' /\ finite_vec n f' /\ within n f' xs (s_floor n q X lo + s_rate n q ^ cd_iteration cd * E0).
Proof. exact sor_stop. Qed.
Print Assumptions C138_stops.

(** A tolerance the floor of the rounding errors meets is reached after a number of sweeps that does not depend on the
    limits of the solver. *)
Theorem C138_eventually : forall M dbg stray n a A b h q lo xs X dmax x f E0 tol,
  dominant_doubles n a A b h q lo xs X -> s_rate n q < 1 ->
  (forall i, (i < n)%nat -> Rabs (f_real (A i i)) <= dmax) -> (0 < n)%nat -> (Z.of_nat n < 2 ^ 64)%Z ->
  is_vec n x f -> finite_vec n f -> 0 <= E0 -> within n f xs (s_floor n q X lo + E0) -> s_no_overflow n A lo X (s_floor n q X lo + E0) ->
  f_valid tol -> f_finite tol = true -> 0 <= f_real tol -> 10 * f_real tol + 1 <= f_limit / 2 ->
  (let E := s_floor n q X lo + E0 in let T := f_resid n q dmax X E in room n ((1 + q) * dmax * (X + E) + T) T) ->
  forall x1 w1 r1 rm1, sor_step fops dbg stray a b (x, []) = Ok (x1, w1) ->
     compute_residual fops dbg stray a x1 b = Ok (r1, rm1) -> f_finite r1 = true -> 0 < f_real r1 -> 0 < f_real rm1 ->
     meets_floor n (f_real tol) (f_real r1) (f_real rm1) (f_resid n q dmax X (s_floor n q X lo)) ->
     exists K, forall lim rho fuel, tolerance lim = tol -> (min_iterations lim <= M)%nat -> (max_iteration lim < M)%nat ->
       (Nat.max (min_iterations lim) (max_iteration lim + 1) < fuel)%nat ->
       exists x' cd, sor_solve fops M dbg stray fuel lim rho a x b = Ok (x', cd) /\
         (cd_iteration cd <= Nat.max K (min_iterations lim))%nat.
Proof. exact sor_eventually. Qed.
Print Assumptions C138_eventually.

(** A third is the limit in double precision too: 2 x + y = 3 s, - x + 2 y = s, s = 2^1000, is dominant with the factor 1/2
    and has the solution (s, s), yet from the start 0 both elements are infinite after 60 sweeps and remain so. *)
Theorem C138_overflows : let A := fun i j => lookup (S754_zero false) (nth i (two_rows (fz 2) (fz 1) (fz (-1)) (fz 2)) []) j in
  (sparse_square (S754_zero false) 2 grow_sys A /\
   (forall i, (i < 2)%nat -> rsum 2 (fun j => if (j =? i)%nat then 0 else Rabs (f_real (A i j))) <= 1 / 2 * Rabs (f_real (A i i))) /\
   (forall i, (i < 2)%nat -> rsum 2 (fun j => f_real (A i j) * 2 ^ 1000) = f_real (nth i grow_b (fz 0)))) /\
  forall dbg stray k, (60 <= k)%nat ->
    exists g, times (sor_step fops dbg stray grow_sys grow_b) k ([fz 0; fz 0], []) = Ok ([S754_infinity g; S754_infinity g], []).
Proof. exact (conj grow_dominant grow_ever). Qed.
Print Assumptions C138_overflows.

(** The system 4 x + y = 5, x + 4 y = 5 with the factor 1/4, the bounds 4 and 5 and the start 0. *)
Example C138_hypotheses : sparse_square (S754_zero false) 2 sx_sys sx_A /\ is_vec 2 sx_b sx_h /\
  (forall i j, (i < 2)%nat -> (j < 2)%nat -> f_valid (sx_A i j) /\ f_finite (sx_A i j) = true) /\ finite_vec 2 sx_h /\
  s_rate 2 (1 / 4) < 1 /\ (forall i, (i < 2)%nat -> 4 <= Rabs (f_real (sx_A i i))) /\
  (forall i, (i < 2)%nat -> rsum 2 (fun j => if (j =? i)%nat then 0 else Rabs (f_real (sx_A i j))) <= 1 / 4 * Rabs (f_real (sx_A i i))) /\
  (forall i, (i < 2)%nat -> Rabs (f_real (sx_h i)) <= 5) /\
  let X := 5 / (4 * (1 - 1 / 4)) in s_no_overflow 2 sx_A 4 X (s_floor 2 (1 / 4) X 4 + X).
Proof. exact sx_dominant. Qed.

(** The same system meets the hypotheses of the other theorems with the solution (1, 1). *)
Example C138_solution_hypotheses : let X := 5 / (4 * (1 - 1 / 4)) in
  dominant_doubles 2 sx_sys sx_A sx_b sx_h (1 / 4) 4 (fun _ => 1) X /\
  finite_vec 2 (fun _ => S754_zero false) /\ within 2 (fun _ => S754_zero false) (fun _ => 1) (s_floor 2 (1 / 4) X 4 + X) /\
  s_no_overflow 2 sx_A 4 X (s_floor 2 (1 / 4) X 4 + X).
Proof. exact sx_solution. Qed.

(** The run from 0 with the tolerance 1/2 stops after two sweeps. *)
Example C138_run : exists x' cd,
  sor_solve fops 100 true None 60 (mkLimits 0 50 f_half) (fz 1) sx_sys [S754_zero false; S754_zero false] sx_b = Ok (x', cd) /\
  cd_iteration cd = 2%nat.
Proof. exact sx_run. Qed.

(** The residuals after its first sweep, and the conditions for 24 sweeps and for the floor. *)
Example C138_first : exists x1 w1 r1 rm1,
  sor_step fops true None sx_sys sx_b ([S754_zero false; S754_zero false], []) = Ok (x1, w1) /\
  compute_residual fops true None sx_sys x1 sx_b = Ok (r1, rm1) /\ f_finite r1 = true /\ 5 / 2 <= f_real r1 /\ 5 / 2 <= f_real rm1.
Proof. exact sx_first. Qed.

Example C138_stops_hypotheses : let E := s_floor 2 (1 / 4) 1 4 + s_rate 2 (1 / 4) ^ 24 * 1 in let T := f_resid 2 (1 / 4) 4 1 E in
  dominant_doubles 2 sx_sys sx_A sx_b sx_h (1 / 4) 4 (fun _ => 1) 1 /\ s_rate 2 (1 / 4) < 1 /\
  (forall i, (i < 2)%nat -> Rabs (f_real (sx_A i i)) <= 4) /\
  within 2 (fun _ => S754_zero false) (fun _ => 1) (s_floor 2 (1 / 4) 1 4 + 1) /\
  s_no_overflow 2 sx_A 4 1 (s_floor 2 (1 / 4) 1 4 + 1) /\
  room 2 ((1 + 1 / 4) * 4 * (1 + E) + T) T /\
  (forall r rm, 5 / 2 <= r -> 5 / 2 <= rm -> meets 2 (f_real f_half) r rm T /\
     meets_floor 2 (f_real f_half) r rm (f_resid 2 (1 / 4) 4 1 (s_floor 2 (1 / 4) 1 4))) /\
  (let E := s_floor 2 (1 / 4) 1 4 + 1 in let T := f_resid 2 (1 / 4) 4 1 E in room 2 ((1 + 1 / 4) * 4 * (1 + E) + T) T) /\
  10 * f_real f_half + 1 <= f_limit / 2.
Proof. exact sx_stops. Qed.
