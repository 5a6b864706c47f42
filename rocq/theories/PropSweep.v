(** Property C92: Jacobi and Gauss-Seidel in double precision on strictly dominant systems. The statements use
    [f_real] (the real value of a double), [f_u] = 2^-53, [f_eta] = 2^-1075, [f_gamma k] = (1 + f_u)^k - 1,
    [f_rate n q] = q (1 + f_u)^(n + 3) (the factor of one sweep), [f_floor n q X lo] (the distance at which
    rounding stops the progress), [dominant_doubles] (a strictly row dominant system of finite doubles whose
    exact solution is [xs], bounded by [X]), [finite_vec], [within n f xs E] (every element of [f] is at
    most [E] away from [xs]) and [no_overflow] (the magnitudes leave room for the sums). *)
From Coq Require Import ZArith Reals Lra Lia List SpecFloat.
From Verif Require Import Base ListFacts DenseModel DenseFacts ScalarModel GeometryReal SparseModel SparseSpec LuModel
  LuReal IterModel IterFacts IterLoop IterField IterReal FloatFacts FloatError IterFloat PropFloatLemmas FloatUnit
  PropIterLemmas FloatSweep PropSweepLemmas.
Import ListNotations.
Local Open Scope R_scope.

(** ** C92 *)

Theorem C92_sweeps : forall dbg stray n a A b h q lo xs X x f E0 k,
  dominant_doubles n a A b h q lo xs X ->
  is_vec n x f -> finite_vec n f -> 0 <= E0 -> within n f xs (f_floor n q X lo + E0) ->
  no_overflow n A lo X (f_floor n q X lo + E0) ->
  (forall w, length w = n -> exists x' w' f', times (jacobi_step fops dbg stray a b) k (x, w) = Ok (x', w') /\
     is_vec n x' f' /\ finite_vec n f' /\ within n f' xs (f_floor n q X lo + f_rate n q ^ k * E0)) /\
  (exists x' f', times (gauss_seidel_step fops dbg stray a b) k (x, []) = Ok (x', []) /\
     is_vec n x' f' /\ finite_vec n f' /\ within n f' xs (f_floor n q X lo + f_rate n q ^ k * E0)).
Proof. exact sweeps_float. Qed.
Print Assumptions C92_sweeps.

Theorem C92_solves : forall M dbg stray n a A b h q lo xs X x f E0 lim fuel,
  dominant_doubles n a A b h q lo xs X ->
  is_vec n x f -> finite_vec n f -> 0 <= E0 -> within n f xs (f_floor n q X lo + E0) ->
  no_overflow n A lo X (f_floor n q X lo + E0) -> (dbg = true -> n <> 0%nat) ->
  (min_iterations lim <= M)%nat -> (max_iteration lim < M)%nat ->
  (Nat.max (min_iterations lim) (max_iteration lim + 1) < fuel)%nat ->
  (forall w, exists x' w' cd f', jacobi_solve fops M dbg stray fuel lim w a x b = Ok (x', w', cd) /\
     is_vec n x' f' /\ finite_vec n f' /\ within n f' xs (f_floor n q X lo + f_rate n q ^ cd_iteration cd * E0)) /\
  (exists x' cd f', gauss_seidel_solve fops M dbg stray fuel lim a x b = Ok (x', cd) /\
     is_vec n x' f' /\ finite_vec n f' /\ within n f' xs (f_floor n q X lo + f_rate n q ^ cd_iteration cd * E0)).
Proof. exact solves_float. Qed.
Print Assumptions C92_solves.

Theorem C92_from_zero : forall dbg stray n a A b h q lo B,
  sparse_square (S754_zero false) n a A -> is_vec n b h ->
  (forall i j, (i < n)%nat -> (j < n)%nat -> f_valid (A i j) /\ f_finite (A i j) = true) -> finite_vec n h ->
  0 <= q -> f_rate n q < 1 -> 0 < lo -> (forall i, (i < n)%nat -> lo <= Rabs (f_real (A i i))) ->
  (forall i, (i < n)%nat -> rsum n (fun j => if (j =? i)%nat then 0 else Rabs (f_real (A i j))) <= q * Rabs (f_real (A i i))) ->
  0 <= B -> (forall i, (i < n)%nat -> Rabs (f_real (h i)) <= B) ->
  let X := B / (lo * (1 - q)) in no_overflow n A lo X (f_floor n q X lo + X) ->
  exists xs, (forall i, (i < n)%nat -> rsum n (fun j => f_real (A i j) * xs j) = f_real (h i)) /\
    (forall ys, (forall i, (i < n)%nat -> rsum n (fun j => f_real (A i j) * ys j) = f_real (h i)) ->
       forall i, (i < n)%nat -> ys i = xs i) /\
    forall k, let e := f_floor n q X lo + f_rate n q ^ k * X in
      (exists x' w' f', times (jacobi_step fops dbg stray a b) k (repeat (S754_zero false) n, repeat (S754_zero false) n) = Ok (x', w') /\
         is_vec n x' f' /\ finite_vec n f' /\ within n f' xs e) /\
      (exists x' f', times (gauss_seidel_step fops dbg stray a b) k (repeat (S754_zero false) n, []) = Ok (x', []) /\
         is_vec n x' f' /\ finite_vec n f' /\ within n f' xs e).
Proof. exact zeros_float. Qed.
Print Assumptions C92_from_zero.

Theorem C92_reaches_floor : forall dbg stray n a A b h q lo xs X x f E0 eps,
  dominant_doubles n a A b h q lo xs X ->
  is_vec n x f -> finite_vec n f -> 0 <= E0 -> within n f xs (f_floor n q X lo + E0) ->
  no_overflow n A lo X (f_floor n q X lo + E0) -> 0 < eps ->
  exists N, forall k, (N <= k)%nat ->
  (forall w, length w = n -> exists x' w' f', times (jacobi_step fops dbg stray a b) k (x, w) = Ok (x', w') /\
     is_vec n x' f' /\ within n f' xs (f_floor n q X lo + eps)) /\
  (exists x' f', times (gauss_seidel_step fops dbg stray a b) k (x, []) = Ok (x', []) /\
     is_vec n x' f' /\ within n f' xs (f_floor n q X lo + eps)).
Proof. exact sweeps_reach_floor. Qed.
Print Assumptions C92_reaches_floor.

(** The system 2 x + y = 1, x + 2 y = 1 with the factor 1/2, the bounds 2 and 1 and the start 0. *)
Example C92_hypotheses : sparse_square (S754_zero false) 2 ex_sys ex_A /\ is_vec 2 ex_b ex_h /\
  (forall i j, (i < 2)%nat -> (j < 2)%nat -> f_valid (ex_A i j) /\ f_finite (ex_A i j) = true) /\ finite_vec 2 ex_h /\
  f_rate 2 (1 / 2) < 1 /\ (forall i, (i < 2)%nat -> 2 <= Rabs (f_real (ex_A i i))) /\
  (forall i, (i < 2)%nat -> rsum 2 (fun j => if (j =? i)%nat then 0 else Rabs (f_real (ex_A i j))) <= 1 / 2 * Rabs (f_real (ex_A i i))) /\
  (forall i, (i < 2)%nat -> Rabs (f_real (ex_h i)) <= 1) /\
  let X := 1 / (2 * (1 - 1 / 2)) in no_overflow 2 ex_A 2 X (f_floor 2 (1 / 2) X 2 + X).
Proof. exact ex_dominant. Qed.

(** The same system meets the hypotheses of the other two theorems with the solution (1/3, 1/3). *)
Example C92_solution_hypotheses : let X := 1 / (2 * (1 - 1 / 2)) in
  dominant_doubles 2 ex_sys ex_A ex_b ex_h (1 / 2) 2 (fun _ => 1 / 3) X /\
  finite_vec 2 (fun _ => S754_zero false) /\ within 2 (fun _ => S754_zero false) (fun _ => 1 / 3) (f_floor 2 (1 / 2) X 2 + X) /\
  no_overflow 2 ex_A 2 X (f_floor 2 (1 / 2) X 2 + X).
Proof. exact ex_solution. Qed.
