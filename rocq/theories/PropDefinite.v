(** Property C140: Gauss-Seidel and SOR in double precision on symmetric positive definite systems. The statements use
    [f_real] (the real value of a double), [f_u] = 2^-53, [f_eta] = 2^-1075, [f_gamma k] = (1 + f_u)^k - 1,
    [symmetric] and [positive_definite] of C85, [enorm] (the square root of the quadratic form), [f_enorm] (that of an
    error), [coercivity n A l] (the form is at least [l] times the sum of the squares), [sweep_factor n A w s] (one exact
    sweep with the relaxation [w] reduces the norm of the error to at most [s] < 1 of it), [definite_doubles] (the system
    and bounds [l], [ro], [X] for its form, its rows and its solution), [d_kappa] = 4 f_gamma (n + 5) ro sqrt n / l,
    [d_rate] = s + d_kappa / (1 - d_kappa), [d_floor] (where rounding stops the progress) and [d_no_overflow]. *)
From Coq Require Import ZArith Reals Lra Lia List SpecFloat.
From Verif Require Import Base ListFacts DenseModel DenseFacts ScalarModel GeometryReal SparseModel SparseSpec LuModel
  LuReal IterModel IterFacts IterLoop IterField IterReal FloatFacts FloatError IterFloat PropFloatLemmas FloatUnit
  PropIterLemmas FloatSweep PropSweepLemmas Energy EnergyDrift FloatDrift PropDefiniteLemmas.
Import ListNotations.
Local Open Scope R_scope.

(** ** C140 *)

Theorem C140_gauss_seidel : forall dbg stray n a A b h l ro xs X s x f E0 k,
  definite_doubles n a A b h l ro xs X -> sweep_factor n (fun i j => f_real (A i j)) 1 s ->
  d_kappa n ro l < 1 -> d_rate n ro l s < 1 -> is_vec n x f -> finite_vec n f -> 0 <= E0 ->
  f_enorm n A f xs <= d_floor n ro l s X + E0 -> d_no_overflow n ro l X (d_floor n ro l s X + E0) ->
  exists x' f', times (gauss_seidel_step fops dbg stray a b) k (x, []) = Ok (x', []) /\ is_vec n x' f' /\ finite_vec n f' /\
    f_enorm n A f' xs <= d_floor n ro l s X + d_rate n ro l s ^ k * E0 /\
    within n f' xs ((d_floor n ro l s X + d_rate n ro l s ^ k * E0) / sqrt l).
Proof. exact gauss_seidel_definite. Qed.
Print Assumptions C140_gauss_seidel.

Theorem C140_sor : forall dbg stray n a A b h l ro xs X s x f E0 k,
  definite_doubles n a A b h l ro xs X -> sweep_factor n (fun i j => f_real (A i j)) (3 / 2) s ->
  d_kappa n ro l < 1 -> d_rate n ro l s < 1 -> is_vec n x f -> finite_vec n f -> 0 <= E0 ->
  f_enorm n A f xs <= d_floor n ro l s X + E0 -> d_no_overflow n ro l X (d_floor n ro l s X + E0) ->
  exists x' f', times (sor_step fops dbg stray a b) k (x, []) = Ok (x', []) /\ is_vec n x' f' /\ finite_vec n f' /\
    f_enorm n A f' xs <= d_floor n ro l s X + d_rate n ro l s ^ k * E0 /\
    within n f' xs ((d_floor n ro l s X + d_rate n ro l s ^ k * E0) / sqrt l).
Proof. exact sor_definite. Qed.
Print Assumptions C140_sor.

(** The constants exist for every symmetric positive definite matrix, and so does the solution. *)
Theorem C140_constants : forall n (A : nat -> nat -> R), symmetric n A -> positive_definite n A ->
  exists l ro s1 s2, coercivity n A l /\ 0 <= ro /\ (forall i, (i < n)%nat -> rsum n (fun j => Rabs (A i j)) <= ro) /\
    sweep_factor n A 1 s1 /\ sweep_factor n A (3 / 2) s2 /\
    forall h, exists xs, (forall i, (i < n)%nat -> rsum n (fun j => A i j * xs j) = h i) /\
      forall ys, (forall i, (i < n)%nat -> rsum n (fun j => A i j * ys j) = h i) -> forall i, (i < n)%nat -> ys i = xs i.
Proof. exact definite_constants. Qed.
Print Assumptions C140_constants.

(** The norm of an error whose components are at most [E]. *)
Theorem C140_start : forall n a A b h l ro xs X, definite_doubles n a A b h l ro xs X ->
  forall f E, 0 <= E -> within n f xs E -> f_enorm n A f xs <= sqrt (INR n * ro) * E.
Proof. exact start_norm. Qed.
Print Assumptions C140_start.

(** The whole solvers, whatever relaxation [rho] is configured for SOR. *)
Theorem C140_solves : forall M dbg stray n a A b h l ro xs X, definite_doubles n a A b h l ro xs X -> d_kappa n ro l < 1 ->
  forall s1 s2 x f E1 E2 lim rho fuel,
  sweep_factor n (fun i j => f_real (A i j)) 1 s1 -> sweep_factor n (fun i j => f_real (A i j)) (3 / 2) s2 ->
  d_rate n ro l s1 < 1 -> d_rate n ro l s2 < 1 -> is_vec n x f -> finite_vec n f -> 0 <= E1 -> 0 <= E2 ->
  f_enorm n A f xs <= d_floor n ro l s1 X + E1 -> d_no_overflow n ro l X (d_floor n ro l s1 X + E1) ->
  f_enorm n A f xs <= d_floor n ro l s2 X + E2 -> d_no_overflow n ro l X (d_floor n ro l s2 X + E2) ->
  (dbg = true -> n <> 0%nat) -> (min_iterations lim <= M)%nat -> (max_iteration lim < M)%nat ->
  (Nat.max (min_iterations lim) (max_iteration lim + 1) < fuel)%nat ->
  (exists x' cd f', gauss_seidel_solve fops M dbg stray fuel lim a x b = Ok (x', cd) /\ is_vec n x' f' /\ finite_vec n f' /\
     within n f' xs ((d_floor n ro l s1 X + d_rate n ro l s1 ^ cd_iteration cd * E1) / sqrt l)) /\
  (exists x' cd f', sor_solve fops M dbg stray fuel lim rho a x b = Ok (x', cd) /\ is_vec n x' f' /\ finite_vec n f' /\
     within n f' xs ((d_floor n ro l s2 X + d_rate n ro l s2 ^ cd_iteration cd * E2) / sqrt l)).
Proof. exact both_solve. Qed.
Print Assumptions C140_solves.

Theorem C140_reaches_floor : forall dbg stray n a A b h l ro xs X s1 s2 x f E1 E2 eps, definite_doubles n a A b h l ro xs X ->
  sweep_factor n (fun i j => f_real (A i j)) 1 s1 -> sweep_factor n (fun i j => f_real (A i j)) (3 / 2) s2 -> d_kappa n ro l < 1 ->
  d_rate n ro l s1 < 1 -> d_rate n ro l s2 < 1 -> is_vec n x f -> finite_vec n f -> 0 <= E1 -> 0 <= E2 ->
  f_enorm n A f xs <= d_floor n ro l s1 X + E1 -> d_no_overflow n ro l X (d_floor n ro l s1 X + E1) ->
  f_enorm n A f xs <= d_floor n ro l s2 X + E2 -> d_no_overflow n ro l X (d_floor n ro l s2 X + E2) -> 0 < eps ->
  exists N, forall k, (N <= k)%nat ->
    (exists x' f', times (gauss_seidel_step fops dbg stray a b) k (x, []) = Ok (x', []) /\ is_vec n x' f' /\ finite_vec n f' /\
       within n f' xs (d_floor n ro l s1 X / sqrt l + eps)) /\
    (exists x' f', times (sor_step fops dbg stray a b) k (x, []) = Ok (x', []) /\ is_vec n x' f' /\ finite_vec n f' /\
       within n f' xs (d_floor n ro l s2 X / sqrt l + eps)).
Proof. exact definite_reaches. Qed.
Print Assumptions C140_reaches_floor.

(** 2 x - y = 1, - x + 2 y = 1 from the start 0: the form is at least the sum of the squares, the rows at most 3, an exact
    sweep of Gauss-Seidel halves the error and one of SOR leaves at most three quarters of it. Its rows are not dominant
    enough for C138. *)
Example C140_hypotheses : definite_doubles 2 dx_sys dx_A dx_b dx_h 1 3 (fun _ => 1) 1 /\
  sweep_factor 2 (fun i j => f_real (dx_A i j)) 1 (1 / 2) /\ sweep_factor 2 (fun i j => f_real (dx_A i j)) (3 / 2) (3 / 4) /\
  d_kappa 2 3 1 < 1 /\ d_rate 2 3 1 (1 / 2) < 1 /\ d_rate 2 3 1 (3 / 4) < 1 /\
  finite_vec 2 (fun _ => fz 0) /\
  f_enorm 2 dx_A (fun _ => fz 0) (fun _ => 1) <= d_floor 2 3 1 (1 / 2) 1 + 2 /\ d_no_overflow 2 3 1 1 (d_floor 2 3 1 (1 / 2) 1 + 2) /\
  f_enorm 2 dx_A (fun _ => fz 0) (fun _ => 1) <= d_floor 2 3 1 (3 / 4) 1 + 2 /\ d_no_overflow 2 3 1 1 (d_floor 2 3 1 (3 / 4) 1 + 2).
Proof. exact dx_hypotheses. Qed.

Example C140_constants_hypotheses : symmetric 2 (fun i j => f_real (dx_A i j)) /\ positive_definite 2 (fun i j => f_real (dx_A i j)).
Proof. exact dx_definite. Qed.
