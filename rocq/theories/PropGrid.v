(** Property C143: the five point systems of the square grid in double precision, with the constants worked out.
    [stencil g 4 A] (4 on the diagonal, -1 for every edge of the graph, 0 elsewhere) and [scaled_dominance] as for C123;
    [coercivity], [mirrored], [jacobi_factor], [sweep_factor] as for C140 to C142; [setup n] the writes by which the
    library's test of the solvers fills the matrix; [poisson n u h] the five point equations of the square of n by n
    unknowns with zero around it; [grid_doubles] collects a matrix of doubles with these values, a finite right hand side,
    the exact solution [xs] and a bound [X] of it; [below tol r rm B]: the residual left by an error of [B] is less than the
    tolerance times the residuals [r] and [rm] of the first iteration. *)
From Coq Require Import ZArith Reals Lra Lia List SpecFloat.
From Verif Require Import Base ListFacts DenseModel DenseFacts ScalarModel GeometryReal GraphModel GraphSpec SparseModel SparseSpec
  SparseSeq LuModel LuReal IterModel IterFacts IterLoop IterField IterReal FloatFacts FloatError IterFloat PropFloatLemmas FloatUnit
  PropIterLemmas FloatSweep PropSweepLemmas FloatStops PropStopLemmas Energy EnergyDrift FloatDrift PropDefiniteLemmas
  FloatDefStop PropDefiniteStopLemmas SymmetricJacobi FloatDefJacobi PropDefiniteJacobiLemmas PropRelaxLemmas PropChainLemmas ScaledSymmetric FloatGrid GridSetup
  PropGridLemmas GridWhole GridStop.
Import ListNotations.
Local Open Scope R_scope.

(** ** C143 *)

(** The constants of C140 to C142 from dominance by scaled rows. *)
Theorem C143_constants : forall n A v q d, scaled_dominance n A v q -> q < 1 -> symmetric n A -> 0 < d ->
  (forall i, (i < n)%nat -> d <= A i i) ->
  coercivity n A ((1 - q) * d) /\ positive_definite n (mirrored A) /\ jacobi_factor n A q /\
  sweep_factor n A 1 (1 - (1 - q) / 8) /\ sweep_factor n A (3 / 2) (1 - 3 * (1 - q) / 50).
Proof. exact scaled_constants. Qed.
Print Assumptions C143_constants.

(** Those of the grid. *)
Theorem C143_grid : forall dbg n g A, (2 <= n)%nat -> create_graph_structured dbg false n = Ok g -> stencil g 4 A -> let m := INR n + 1 in
  coercivity (n * n) A (4 / m ^ 2 * 4) /\ positive_definite (n * n) (mirrored A) /\ jacobi_factor (n * n) A (1 - 4 / m ^ 2) /\
  sweep_factor (n * n) A 1 (1 - 4 / m ^ 2 / 8) /\ sweep_factor (n * n) A (3 / 2) (1 - 3 * (4 / m ^ 2) / 50).
Proof. exact grid_constants. Qed.
Print Assumptions C143_grid.

(** The system has exactly one solution, of this size at most. *)
Theorem C143_solution : forall dbg n g A, (2 <= n)%nat -> create_graph_structured dbg false n = Ok g -> stencil g 4 A ->
  forall h H, 0 <= H -> (forall i, (i < n * n)%nat -> Rabs (h i) <= H) ->
  exists xs, (forall i, (i < n * n)%nat -> rsum (n * n) (fun j => A i j * xs j) = h i) /\
    (forall ys, (forall i, (i < n * n)%nat -> rsum (n * n) (fun j => A i j * ys j) = h i) -> forall i, (i < n * n)%nat -> ys i = xs i) /\
    forall i, (i < n * n)%nat -> Rabs (xs i) <= (INR n + 1) ^ 2 / 8 * H.
Proof. exact grid_solution. Qed.
Print Assumptions C143_solution.

(** Filling the matrix. *)
Theorem C143_setup : forall M dbg stray n g, (2 <= n)%nat -> create_graph_structured dbg false n = Ok g ->
  exists a A, run_ops (S754_zero false) M dbg stray (setup n) s_default = Ok a /\ sparse_square (S754_zero false) (n * n) a A /\
    stencil g 4 (fun i j => f_real (A i j)) /\ (forall i j, f_valid (A i j) /\ f_finite (A i j) = true) /\
    forall u h, (forall i, (i < n * n)%nat -> rsum (n * n) (fun j => f_real (A i j) * u j) = h i) <-> poisson n u h.
Proof. exact setup_filled. Qed.
Print Assumptions C143_setup.

(** Steps of Jacobi. *)
Theorem C143_jacobi : forall dbg stray n g a A b h xs X, grid_doubles dbg n g a A b h xs X ->
  forall x f E, is_vec (n * n) x f -> finite_vec (n * n) f -> 0 <= E <= 2 ^ 900 -> within (n * n) f xs E ->
  forall k u, length u = (n * n)%nat -> let m := INR n + 1 in
  exists x' u' f', times (jacobi_step fops dbg stray a b) k (x, u) = Ok (x', u') /\ is_vec (n * n) x' f' /\ finite_vec (n * n) f' /\
    within (n * n) f' xs (1 * m ^ 7 * (f_u * X + f_eta) + (1 - 3 / m ^ 2) ^ k * (m ^ 2 * E)).
Proof. exact grid_jacobi. Qed.
Print Assumptions C143_jacobi.

(** Sweeps of Gauss-Seidel and of successive over relaxation. *)
Theorem C143_sweeps : forall dbg stray n g a A b h xs X, grid_doubles dbg n g a A b h xs X ->
  forall x f E, is_vec (n * n) x f -> finite_vec (n * n) f -> 0 <= E <= 2 ^ 900 -> within (n * n) f xs E ->
  forall k, let m := INR n + 1 in
  (exists x' f', times (gauss_seidel_step fops dbg stray a b) k (x, []) = Ok (x', []) /\ is_vec (n * n) x' f' /\ finite_vec (n * n) f' /\
    within (n * n) f' xs (6 * m ^ 7 * (f_u * X + f_eta) + (1 - 2 / 5 / m ^ 2) ^ k * (m ^ 2 * E))) /\
  (exists x' f', times (sor_step fops dbg stray a b) k (x, []) = Ok (x', []) /\ is_vec (n * n) x' f' /\ finite_vec (n * n) f' /\
    within (n * n) f' xs (15 * m ^ 7 * (f_u * X + f_eta) + (1 - 3 / 20 / m ^ 2) ^ k * (m ^ 2 * E))).
Proof. exact grid_sweeps. Qed.
Print Assumptions C143_sweeps.

(** The matrix of the test filled, then each of the whole solvers run with it: whatever the right hand side and the start. *)
Theorem C143_whole : forall M dbg stray n, (2 <= n <= 120)%nat -> let N := (n * n)%nat in let m := INR n + 1 in
  exists a, run_ops (S754_zero false) M dbg stray (setup n) s_default = Ok a /\
  forall b h H x f Y lim rho w fuel,
    is_vec N b h -> finite_vec N h -> 0 <= H -> (forall i, (i < N)%nat -> Rabs (f_real (h i)) <= H) ->
    is_vec N x f -> finite_vec N f -> 0 <= Y -> (forall i, (i < N)%nat -> Rabs (f_real (f i)) <= Y) ->
    m ^ 2 / 8 * H + Y <= 2 ^ 900 ->
    (min_iterations lim <= M)%nat -> (max_iteration lim < M)%nat -> (Nat.max (min_iterations lim) (max_iteration lim + 1) < fuel)%nat ->
  let P := f_u * (m ^ 2 / 8 * H) + f_eta in let E := m ^ 2 * (m ^ 2 / 8 * H + Y) in
  exists xs, poisson n xs (fun i => f_real (h i)) /\ (forall ys, poisson n ys (fun i => f_real (h i)) -> forall i, (i < N)%nat -> ys i = xs i) /\
    (exists x' w' cd f', jacobi_solve fops M dbg stray fuel lim w a x b = Ok (x', w', cd) /\ is_vec N x' f' /\ finite_vec N f' /\
       within N f' xs (m ^ 7 * P + (1 - 3 / m ^ 2) ^ cd_iteration cd * E)) /\
    (exists x' cd f', gauss_seidel_solve fops M dbg stray fuel lim a x b = Ok (x', cd) /\ is_vec N x' f' /\ finite_vec N f' /\
       within N f' xs (6 * m ^ 7 * P + (1 - 2 / 5 / m ^ 2) ^ cd_iteration cd * E)) /\
    (exists x' cd f', sor_solve fops M dbg stray fuel lim rho a x b = Ok (x', cd) /\ is_vec N x' f' /\ finite_vec N f' /\
       within N f' xs (15 * m ^ 7 * P + (1 - 3 / 20 / m ^ 2) ^ cd_iteration cd * E)).
Proof. exact grid_whole. Qed.
Print Assumptions C143_whole.

(** They stop after at most [k] iterations if the residual that remains then meets the tolerance. *)
Theorem C143_jacobi_stops : forall M dbg stray n g a A b h xs X, grid_doubles dbg n g a A b h xs X ->
  forall x f E lim w fuel k, is_vec (n * n) x f -> finite_vec (n * n) f -> 0 <= E <= 2 ^ 480 -> X <= 2 ^ 480 -> within (n * n) f xs E ->
  (min_iterations lim <= k)%nat -> (1 <= k <= M)%nat -> (max_iteration lim < M)%nat ->
  (Nat.max (min_iterations lim) (max_iteration lim + 1) < fuel)%nat ->
  f_valid (tolerance lim) /\ f_finite (tolerance lim) = true /\ 0 <= f_real (tolerance lim) /\ 10 * f_real (tolerance lim) + 1 <= f_limit / 2 ->
  forall x1 w1 u r rm, length u = (n * n)%nat -> jacobi_step fops dbg stray a b (x, u) = Ok (x1, w1) ->
    compute_residual fops dbg stray a x1 b = Ok (r, rm) -> f_finite r = true -> 0 < f_real r -> 0 < f_real rm -> let m := INR n + 1 in
    below (f_real (tolerance lim)) (f_real r) (f_real rm) (1 * m ^ 7 * (f_u * X + f_eta) + (1 - 3 / m ^ 2) ^ k * (m ^ 2 * E)) ->
    exists x' w' cd f', jacobi_solve fops M dbg stray fuel lim w a x b = Ok (x', w', cd) /\ (cd_iteration cd <= k)%nat /\
      is_vec (n * n) x' f' /\ finite_vec (n * n) f' /\
      within (n * n) f' xs (1 * m ^ 7 * (f_u * X + f_eta) + (1 - 3 / m ^ 2) ^ cd_iteration cd * (m ^ 2 * E)).
Proof. exact grid_jacobi_stops. Qed.
Print Assumptions C143_jacobi_stops.

Theorem C143_gauss_seidel_stops : forall M dbg stray n g a A b h xs X, grid_doubles dbg n g a A b h xs X ->
  forall x f E lim fuel k, is_vec (n * n) x f -> finite_vec (n * n) f -> 0 <= E <= 2 ^ 480 -> X <= 2 ^ 480 -> within (n * n) f xs E ->
  (min_iterations lim <= k)%nat -> (1 <= k <= M)%nat -> (max_iteration lim < M)%nat ->
  (Nat.max (min_iterations lim) (max_iteration lim + 1) < fuel)%nat ->
  f_valid (tolerance lim) /\ f_finite (tolerance lim) = true /\ 0 <= f_real (tolerance lim) /\ 10 * f_real (tolerance lim) + 1 <= f_limit / 2 ->
  forall x1 w1 r rm, gauss_seidel_step fops dbg stray a b (x, []) = Ok (x1, w1) ->
    compute_residual fops dbg stray a x1 b = Ok (r, rm) -> f_finite r = true -> 0 < f_real r -> 0 < f_real rm -> let m := INR n + 1 in
    below (f_real (tolerance lim)) (f_real r) (f_real rm) (6 * m ^ 7 * (f_u * X + f_eta) + (1 - 2 / 5 / m ^ 2) ^ k * (m ^ 2 * E)) ->
    exists x' cd f', gauss_seidel_solve fops M dbg stray fuel lim a x b = Ok (x', cd) /\ (cd_iteration cd <= k)%nat /\
      is_vec (n * n) x' f' /\ finite_vec (n * n) f' /\
      within (n * n) f' xs (6 * m ^ 7 * (f_u * X + f_eta) + (1 - 2 / 5 / m ^ 2) ^ cd_iteration cd * (m ^ 2 * E)).
Proof. exact grid_seidel_stops. Qed.
Print Assumptions C143_gauss_seidel_stops.

Theorem C143_sor_stops : forall M dbg stray n g a A b h xs X, grid_doubles dbg n g a A b h xs X ->
  forall x f E lim rho fuel k, is_vec (n * n) x f -> finite_vec (n * n) f -> 0 <= E <= 2 ^ 480 -> X <= 2 ^ 480 -> within (n * n) f xs E ->
  (min_iterations lim <= k)%nat -> (1 <= k <= M)%nat -> (max_iteration lim < M)%nat ->
  (Nat.max (min_iterations lim) (max_iteration lim + 1) < fuel)%nat ->
  f_valid (tolerance lim) /\ f_finite (tolerance lim) = true /\ 0 <= f_real (tolerance lim) /\ 10 * f_real (tolerance lim) + 1 <= f_limit / 2 ->
  forall x1 w1 r rm, sor_step fops dbg stray a b (x, []) = Ok (x1, w1) ->
    compute_residual fops dbg stray a x1 b = Ok (r, rm) -> f_finite r = true -> 0 < f_real r -> 0 < f_real rm -> let m := INR n + 1 in
    below (f_real (tolerance lim)) (f_real r) (f_real rm) (15 * m ^ 7 * (f_u * X + f_eta) + (1 - 3 / 20 / m ^ 2) ^ k * (m ^ 2 * E)) ->
    exists x' cd f', sor_solve fops M dbg stray fuel lim rho a x b = Ok (x', cd) /\ (cd_iteration cd <= k)%nat /\
      is_vec (n * n) x' f' /\ finite_vec (n * n) f' /\
      within (n * n) f' xs (15 * m ^ 7 * (f_u * X + f_eta) + (1 - 3 / 20 / m ^ 2) ^ cd_iteration cd * (m ^ 2 * E)).
Proof. exact grid_sor_stops. Qed.
Print Assumptions C143_sor_stops.

(** The hypotheses are met by the grid of the library's test: ten by ten, ones on the right, zeros to start with. *)
Example C143_hypotheses : exists g a A xs, run_ops (S754_zero false) 100 true None (setup 10) s_default = Ok a /\
  grid_doubles true 10 g a A (repeat (fz 1) 100) (fun _ => fz 1) xs (121 / 8) /\
  is_vec 100 (repeat (fz 0) 100) (fun _ => fz 0) /\ finite_vec 100 (fun _ => fz 0) /\ within 100 (fun _ => fz 0) xs (121 / 8).
Proof. exact test_grid. Qed.

(** The matrix of two by two unknowns. *)
Example C143_setup_two : let m := fz (-1) in let d := fz 4 in
  run_ops (S754_zero false) 100 true None (setup 2) s_default =
  Ok (mkS [0; 3; 6; 9; 12] [0; 1; 2; 0; 1; 3; 0; 2; 3; 1; 2; 3] [d; m; m; m; d; m; m; d; m; m; m; d] 4)%nat.
Proof. vm_compute. reflexivity. Qed.

(** Its equations: with ones on the right every unknown is a half. *)
Example C143_poisson_two : poisson 2 (fun _ => / 2) (fun _ => 1).
Proof. intros [|[|x]] [|[|y]] Hx Hy; try lia; cbn; lra. Qed.

(** A matrix to which the constants apply: two unknowns, half of the diagonal beside it. *)
Example C143_constants_hypotheses : let A := fun i j => if (i =? j)%nat then 2 else 1 in
  scaled_dominance 2 A (fun _ => 1) (1 / 2) /\ symmetric 2 A /\ forall i, (i < 2)%nat -> 2 <= A i i.
Proof.
  intro A. split; [|split].
  - split; [intros; lra|]. intros [|[|i]] Hi; try lia; cbn; unfold A; cbn; rewrite ?Rabs_pos_eq by lra; lra.
  - intros i j _ _. unfold A. rewrite Nat.eqb_sym. reflexivity.
  - intros i _. unfold A. rewrite Nat.eqb_refl. lra.
Qed.

(** Two by two unknowns, ones on the right, zeros to start with and the tolerance 1/2: at most 32, 256 and 512 iterations. *)
Example C143_stops_hypotheses : exists g A, grid_doubles true 2 g two_a A (repeat (fz 1) 4) (fun _ => fz 1) (fun _ => 1 / 2) (1 / 2) /\
  is_vec 4 (repeat (fz 0) 4) (fun _ => fz 0) /\ finite_vec 4 (fun _ => fz 0) /\ within 4 (fun _ => fz 0) (fun _ => 1 / 2) (1 / 2).
Proof. exact two_grid. Qed.

Example C143_jacobi_first : exists x1 w1 r rm,
  jacobi_step fops true None two_a (repeat (fz 1) 4) (repeat (fz 0) 4, repeat (fz 0) 4) = Ok (x1, w1) /\
  compute_residual fops true None two_a x1 (repeat (fz 1) 4) = Ok (r, rm) /\ f_finite r = true /\ 0 < f_real r /\ 0 < f_real rm /\
  below (f_real f_half) (f_real r) (f_real rm)
    (1 * (INR 2 + 1) ^ 7 * (f_u * (1 / 2) + f_eta) + (1 - 3 / (INR 2 + 1) ^ 2) ^ 32 * ((INR 2 + 1) ^ 2 * (1 / 2))).
Proof. exact two_jacobi. Qed.

Example C143_sweeps_first : (exists x1 w1 r rm, gauss_seidel_step fops true None two_a (repeat (fz 1) 4) (repeat (fz 0) 4, []) = Ok (x1, w1) /\
    compute_residual fops true None two_a x1 (repeat (fz 1) 4) = Ok (r, rm) /\ f_finite r = true /\ 0 < f_real r /\ 0 < f_real rm /\
    below (f_real f_half) (f_real r) (f_real rm)
      (6 * (INR 2 + 1) ^ 7 * (f_u * (1 / 2) + f_eta) + (1 - 2 / 5 / (INR 2 + 1) ^ 2) ^ 256 * ((INR 2 + 1) ^ 2 * (1 / 2)))) /\
  exists x1 w1 r rm, sor_step fops true None two_a (repeat (fz 1) 4) (repeat (fz 0) 4, []) = Ok (x1, w1) /\
    compute_residual fops true None two_a x1 (repeat (fz 1) 4) = Ok (r, rm) /\ f_finite r = true /\ 0 < f_real r /\ 0 < f_real rm /\
    below (f_real f_half) (f_real r) (f_real rm)
      (15 * (INR 2 + 1) ^ 7 * (f_u * (1 / 2) + f_eta) + (1 - 3 / 20 / (INR 2 + 1) ^ 2) ^ 512 * ((INR 2 + 1) ^ 2 * (1 / 2))).
Proof. exact two_sweeps. Qed.
