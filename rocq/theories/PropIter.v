(** Properties C54 - C61 and C75 - C78: the iterative solvers and the choice of a solver. The statements use
    [sparse_square zero n a A] (the sparse matrix [a] holds the n by n matrix [A]), [square_system n a b]
    (an n by n sparse matrix with stored diagonal and a constant vector of n elements), [solves O n A x h]
    (A x = h), [times step k s] ([k] executions of a sweep), [run] (a solve_system call of one of the three
    solvers that returned) and [dominance n A q] (strict row diagonal dominance with the factor q). *)
From Coq Require Import ZArith Reals Lra Field QArith Qcanon SpecFloat.
From Verif Require Import Base DenseModel DenseFacts ScalarModel GeometryReal SparseModel SparseSpec LuModel
  LuReal PropLuLemmas IterModel IterFacts IterLoop IterField IterReal PropIterLemmas.
Local Open Scope nat_scope.

(** ** C54 *)

Theorem C54_sweep_fixed_points : forall {S} (O : sops S) opp inv dbg stray,
  field_theory (sc_zero O) (sc_one O) (sc_add O) (sc_mul O) (sc_sub O) opp (sc_div O) inv eq ->
  forall n a A b h x f w, sparse_square (sc_zero O) n a A -> is_vec n b h -> is_vec n x f ->
    (forall i, i < n -> A i i <> sc_zero O) -> w <> sc_zero O ->
    (forall u, length u = n -> (forward_sweep O dbg stray a (Some x) u b w = Ok x <-> solves O n A f h)) /\
    (forward_sweep O dbg stray a None x b w = Ok x <-> solves O n A f h) /\
    (forall u, length u = n -> (backward_sweep O dbg stray a (Some x) u b w = Ok x <-> solves O n A f h)) /\
    (backward_sweep O dbg stray a None x b w = Ok x <-> solves O n A f h).
Proof. exact @sweeps_fixed. Qed.
Print Assumptions C54_sweep_fixed_points.

Example C54_hypotheses :
  let A := fun i j => lookup (q 0) (nth i (two_rows (q 2) (q 1) (q 1) (q 2)) []) j in
  sparse_square (sc_zero qops) 2 (two (q 2) (q 1) (q 1) (q 2)) A /\
  (forall i, i < 2 -> A i i <> sc_zero qops) /\
  is_vec 2 [q 1; q 1] (fun _ => q 1) /\ is_vec 2 [q 3; q 3] (fun _ => q 3) /\
  solves qops 2 A (fun _ => q 1) (fun _ => q 3).
Proof.
  split; [apply two_square|]. split; [|split; [|split]].
  - intros [|[|i]] Hi H; try lia; apply (f_equal this) in H; discriminate.
  - split; [reflexivity|]. intros [|[|i]] Hi; try lia; reflexivity.
  - split; [reflexivity|]. intros [|[|i]] Hi; try lia; reflexivity.
  - intros [|[|i]] Hi; try lia; apply Qc_is_canon; vm_compute; reflexivity.
Qed.

(** ** C55
    Full statement: every solve ends and performs at most [sweep_limit lim] = max(minimum, maximum) sweeps.
    What holds is the bound max(minimum, maximum + 1), and only when the maximum is not the largest
    std::size_t. *)

Theorem C55_bound_partial : forall {S} (O : sops S) M dbg stray (lim : limits S) a b,
  min_iterations lim <= M -> max_iteration lim < M ->
  (forall fuel w x, Nat.max (min_iterations lim) (max_iteration lim + 1) < fuel ->
     jacobi_solve O M dbg stray fuel lim w a x b <> Diverge /\
     gauss_seidel_solve O M dbg stray fuel lim a x b <> Diverge /\
     forall rho, sor_solve O M dbg stray fuel lim rho a x b <> Diverge) /\
  (forall s step x' cd, run O M dbg stray a b lim s step x' cd ->
     cd_iteration cd <= Nat.max (min_iterations lim) (max_iteration lim + 1) /\
     exists w', times step (cd_iteration cd) s = Ok (x', w')).
Proof.
  exact (fun S O M dbg stray lim a b H1 H2 =>
    conj (fun fuel w x H3 => @solves_end S O M dbg stray lim a x b w fuel H1 H2 H3)
         (fun s step x' cd H => @run_bound S O M dbg stray a b lim s step x' cd H H1 H2)).
Qed.
Print Assumptions C55_bound_partial.

Example C55_hypotheses : exists (x' : list f64) cd,
  gauss_seidel_solve fops 100 true None 20 (mkLimits 3 9 f_half) ex_sys ex_x0 ex_b = Ok (x', cd) /\ cd_iteration cd = 3 /\
  min_iterations (mkLimits 3 9 f_half) <= 100 /\ max_iteration (mkLimits 3 9 f_half) < 100.
Proof. eexists. eexists. split; [vm_compute; reflexivity|]. repeat split; cbn; lia. Qed.

Theorem C55_one_sweep_too_many_refuted : forall M dbg stray, 0 < M -> exists (x' : list f64) w' cd,
  jacobi_solve fops M dbg stray 5 (mkLimits 0 0 f_half) [] ex_sys ex_x0 ex_b = Ok (x', w', cd) /\
  sweep_limit (mkLimits 0 0 f_half) = 0 /\ cd_iteration cd = 1 /\ x' <> ex_x0.
Proof. exact one_sweep_too_many. Qed.
Print Assumptions C55_one_sweep_too_many_refuted.

(** With the largest std::size_t as maximum the counter wraps and the solve need not end. *)
Theorem C55_endless_refuted : forall M dbg stray fuel,
  jacobi_solve fops M dbg stray fuel (mkLimits 0 M f_half) [] rot_sys [fz 1; fz 0] rot_b = Diverge.
Proof. exact never_ends. Qed.
Print Assumptions C55_endless_refuted.

(** ** C56
    Full statement: the returned [converged] is set exactly when the normalised residual met the
    tolerance. It is never set. *)

Theorem C56_never_set_refuted : forall {S} (O : sops S) M dbg stray a b lim s step x' cd,
  run O M dbg stray a b lim s step x' cd -> cd_converged cd = false.
Proof. exact @run_never_converged. Qed.
Print Assumptions C56_never_set_refuted.

Theorem C56_refuted : forall M dbg stray, 9 < M -> exists (x' : list f64) w' cd,
  jacobi_solve fops M dbg stray 20 (mkLimits 0 9 f_half) [] ex_sys ex_x0 ex_b = Ok (x', w', cd) /\
  cd_iteration cd = 2 /\ sc_le fops (cd_residual_normalised cd) f_half = true /\ cd_converged cd = false.
Proof. exact converged_not_reported. Qed.
Print Assumptions C56_refuted.

Example C56_hypotheses : exists x' cd,
  run fops 100 true None ex_sys ex_b (mkLimits 0 9 f_half) (ex_x0, []) (sor_step fops true None ex_sys ex_b) x' cd.
Proof. eexists. eexists. apply (run_sor fops 100 true None ex_sys ex_b _ 20 (fz 1)). vm_compute. reflexivity. Qed.

(** ** C57
    [sc_lt tol r = false] is "r is at most tol, or one of them is not a number"; over the reals it is
    r <= tol. *)

Theorem C57_early_stop : forall {S} (O : sops S) M dbg stray a b lim s step x' cd,
  run O M dbg stray a b lim s step x' cd -> max_iteration lim <= M ->
  exists k w', times step k s = Ok (x', w') /\
    (1 <= k <= max_iteration lim ->
      cd_iteration cd = k /\ min_iterations lim <= k /\
      exists x1 w1 r rm r1 rm1, times step 1 s = Ok (x1, w1) /\
        compute_residual O dbg stray a x' b = Ok (r, rm) /\ compute_residual O dbg stray a x1 b = Ok (r1, rm1) /\
        cd_residual_normalised cd = sc_div O r r1 /\ cd_residual_max_normalised cd = sc_div O rm rm1 /\
        sc_lt O (tolerance lim) (sc_div O r r1) = false /\
        sc_lt O (sc_mul O (sc_of_Z O 10) (tolerance lim)) (sc_div O rm rm1) = false).
Proof. exact @run_stop. Qed.
Print Assumptions C57_early_stop.

Theorem C57_early_stop_real : forall M dbg stray a b lim s step x' cd,
  run rops M dbg stray a b lim s step x' cd -> max_iteration lim <= M ->
  exists k w', times step k s = Ok (x', w') /\
    (1 <= k <= max_iteration lim ->
      min_iterations lim <= k /\
      exists x1 w1 r rm r1 rm1, times step 1 s = Ok (x1, w1) /\
        compute_residual rops dbg stray a x' b = Ok (r, rm) /\ compute_residual rops dbg stray a x1 b = Ok (r1, rm1) /\
        (r / r1 <= tolerance lim)%R /\ (rm / rm1 <= 10 * tolerance lim)%R).
Proof. exact run_stop_real. Qed.
Print Assumptions C57_early_stop_real.

Example C57_hypotheses : exists x' cd,
  run fops 100 true None ex_sys ex_b (mkLimits 0 9 f_half) (ex_x0, [fz 0; fz 0]) (jacobi_step fops true None ex_sys ex_b) x' cd /\
  1 <= cd_iteration cd <= 9.
Proof.
  eexists. eexists. split; [eapply (run_jacobi fops 100 true None ex_sys ex_b _ 20 []); vm_compute; reflexivity|].
  cbn. lia.
Qed.

(** ** C58
    Full statement: the sweep of the SOR solver depends on the configured factor and is the Gauss-Seidel
    sweep for the factor 1. The factor is ignored. *)

Theorem C58_ignored_refuted : forall {S} (O : sops S) M dbg stray fuel lim rho rho' a x b,
  sor_solve O M dbg stray fuel lim rho a x b = sor_solve O M dbg stray fuel lim rho' a x b.
Proof. exact @sor_ignores. Qed.
Print Assumptions C58_ignored_refuted.

Theorem C58_refuted : forall M dbg stray, 1 < M -> exists (x1 x2 : list f64) cd1 cd2,
  sor_solve fops M dbg stray 5 (mkLimits 0 0 f_half) (fz 1) ex_sys ex_x0 ex_b = Ok (x1, cd1) /\
  gauss_seidel_solve fops M dbg stray 5 (mkLimits 0 0 f_half) ex_sys ex_x0 ex_b = Ok (x2, cd2) /\
  Forall2 (fun p q => sc_eq fops p q = false) x1 x2.
Proof. exact sor_not_seidel. Qed.
Print Assumptions C58_refuted.

(** ** C59 *)

Theorem C59_residual : forall dbg stray n a A b h x f,
  sparse_square 0%R n a A -> is_vec n b h -> is_vec n x f -> 0 < n ->
  exists l2 linf, compute_residual rops dbg stray a x b = Ok (l2, linf) /\
    l2 = sqrt (rsum n (fun i => (h i - rsum n (fun j => A i j * f j)) ^ 2) / INR n)%R /\
    (forall i, i < n -> (Rabs (h i - rsum n (fun j => A i j * f j)) <= linf)%R) /\
    (exists i, i < n /\ linf = Rabs (h i - rsum n (fun j => A i j * f j))%R).
Proof. exact residual_real. Qed.
Print Assumptions C59_residual.

Example C59_hypotheses :
  sparse_square 0%R 2 (two 4 1 2 5)%R (fun i j => lookup 0%R (nth i (two_rows 4 1 2 5)%R []) j) /\
  is_vec 2 [7; -1]%R (fun i => nth i [7; -1]%R 0%R) /\ 0 < 2 /\
  compute_residual fops true None (two (fz 4) (fz 1) (fz 2) (fz 5)) [fz 1; fz 1] [fz 6; fz 0] = Ok (fz 5, fz 7).
Proof.
  split; [apply two_square|]. split; [|split; [lia|vm_compute; reflexivity]].
  split; [reflexivity|]. intros [|[|i]] Hi; try lia; reflexivity.
Qed.

(** ** C60 *)

Theorem C60_sweeps_contract : forall dbg stray n a A b h, sparse_square 0%R n a A -> is_vec n b h ->
  forall q xs x f e, dominance n A q -> solves rops n A xs h -> is_vec n x f ->
  (forall i, i < n -> (Rabs (f i - xs i) <= e)%R) ->
  (forall u, length u = n -> exists x' f', forward_sweep rops dbg stray a (Some x) u b 1%R = Ok x' /\ is_vec n x' f' /\
     forall i, i < n -> (Rabs (f' i - xs i) <= q * e)%R) /\
  (exists x' f', forward_sweep rops dbg stray a None x b 1%R = Ok x' /\ is_vec n x' f' /\
     forall i, i < n -> (Rabs (f' i - xs i) <= q * e)%R).
Proof. exact sweeps_contract. Qed.
Print Assumptions C60_sweeps_contract.

Theorem C60_solves_contract : forall M dbg stray n a A b h, sparse_square 0%R n a A -> is_vec n b h ->
  forall q xs x f e lim fuel, dominance n A q -> solves rops n A xs h -> is_vec n x f ->
  (forall i, i < n -> (Rabs (f i - xs i) <= e)%R) -> min_iterations lim <= M -> max_iteration lim < M ->
  (forall w x' w' cd, jacobi_solve rops M dbg stray fuel lim w a x b = Ok (x', w', cd) ->
     exists f', is_vec n x' f' /\ forall i, i < n -> (Rabs (f' i - xs i) <= q ^ cd_iteration cd * e)%R) /\
  (forall x' cd, gauss_seidel_solve rops M dbg stray fuel lim a x b = Ok (x', cd) ->
     exists f', is_vec n x' f' /\ forall i, i < n -> (Rabs (f' i - xs i) <= q ^ cd_iteration cd * e)%R).
Proof. exact solve_contracts. Qed.
Print Assumptions C60_solves_contract.

(** Strict dominance gives a factor below 1. *)
Theorem C60_factor : forall n A, (forall i, i < n ->
    (rsum n (fun j => if (j =? i)%nat then 0 else Rabs (A i j)) < Rabs (A i i))%R) ->
  exists q, (0 <= q < 1)%R /\ forall i, i < n -> A i i <> 0%R /\
    (rsum n (fun j => if (j =? i)%nat then 0 else Rabs (A i j)) <= q * Rabs (A i i))%R.
Proof. exact dominant_factor. Qed.
Print Assumptions C60_factor.

(** A strictly dominant system has exactly one solution, and the iterates from any start converge to it. *)
Theorem C60_converges : forall dbg stray n a A b h, sparse_square 0%R n a A -> is_vec n b h -> dominant n A ->
  exists xs, solves rops n A xs h /\
  (forall ys, solves rops n A ys h -> forall i, i < n -> ys i = xs i) /\
  forall x, length x = n -> forall eps, (0 < eps)%R -> exists K, forall k, K <= k ->
    (forall w, length w = n -> exists x' w' f', times (jacobi_step rops dbg stray a b) k (x, w) = Ok (x', w') /\
       is_vec n x' f' /\ forall i, i < n -> (Rabs (f' i - xs i) < eps)%R) /\
    (exists x' f', times (gauss_seidel_step rops dbg stray a b) k (x, []) = Ok (x', []) /\
       is_vec n x' f' /\ forall i, i < n -> (Rabs (f' i - xs i) < eps)%R).
Proof. exact dominant_converges. Qed.
Print Assumptions C60_converges.

Example C60_hypotheses : let A := fun i j => lookup 0%R (nth i (two_rows 4 1 2 5)%R []) j in
  sparse_square 0%R 2 (two 4 1 2 5)%R A /\ dominance 2 A (2 / 5)%R /\ dominant 2 A /\
  solves rops 2 A (fun _ => 1%R) (fun i => nth i [5; 7]%R 0%R).
Proof.
  split; [apply two_square|]. split; [|split].
  - split; [lra|]. intros [|[|i]] Hi; try lia; cbn; (split; [lra|]);
      repeat (rewrite Rabs_right by lra); lra.
  - intros [|[|i]] Hi; try lia; cbn; repeat (rewrite Rabs_right by lra); lra.
  - intros [|[|i]] Hi; try lia; cbn; lra.
Qed.

(** ** C61
    [Abort] stands for a termination of the program and for the exception of std::get. *)

Theorem C61_dispatch : forall {S} (O : sops S) M dbg stray (c : config S),
  (cf_type c = unknown -> build_solver O c = Abort) /\
  (cf_type c <> unknown -> exists s, build_solver O c = Ok s /\
     kind_of s = Some (cf_type c, match cf_type c with lower_upper_factorisation => cf_pivot c | _ => false end) /\
     (forall st, s = SolverLU st \/ s = SolverLUP st -> lu_tolerance st = cf_factor_tolerance c /\ lu_factorised st = false) /\
     (forall lim, (exists w, s = SolverJacobi lim w) \/ s = SolverGaussSeidel lim \/ (exists w, s = SolverSor lim w) ->
        min_iterations lim = cf_minimum_iterations c /\ max_iteration lim = cf_maximum_iterations c /\
        tolerance lim = cf_convergence_tolerance c) /\
     (forall lim w, s = SolverSor lim w -> w = cf_relaxation c)) /\
  (forall fuel a x b,
     (forall st, solve_sparse O M dbg stray fuel (SolverLU st) a x b = Abort /\
                 solve_sparse O M dbg stray fuel (SolverLUP st) a x b = Abort) /\
     solve_sparse O M dbg stray fuel SolverNull a x b = Abort /\
     (forall lim w, solve_sparse O M dbg stray fuel (SolverJacobi lim w) a x b =
        do r <- jacobi_solve O M dbg stray fuel lim w a x b; Ok (SolverJacobi lim (snd (fst r)), fst (fst r), snd r)) /\
     (forall lim, solve_sparse O M dbg stray fuel (SolverGaussSeidel lim) a x b =
        do r <- gauss_seidel_solve O M dbg stray fuel lim a x b; Ok (SolverGaussSeidel lim, fst r, snd r)) /\
     (forall lim w, solve_sparse O M dbg stray fuel (SolverSor lim w) a x b =
        do r <- sor_solve O M dbg stray fuel lim w a x b; Ok (SolverSor lim w, fst r, snd r))) /\
  (forall x b,
     (forall lim w, solve_dense O dbg (SolverJacobi lim w) x b = Abort) /\
     (forall lim, solve_dense O dbg (SolverGaussSeidel lim) x b = Abort) /\
     (forall lim w, solve_dense O dbg (SolverSor lim w) x b = Abort) /\
     solve_dense O dbg SolverNull x b = Abort /\
     (forall st, solve_dense O dbg (SolverLU st) x b =
        do r <- lu_solve O dbg false st x b; Ok (SolverLU st, fst r, snd r)) /\
     (forall st, solve_dense O dbg (SolverLUP st) x b =
        do r <- lu_solve O dbg true st x b; Ok (SolverLUP st, fst r, snd r))).
Proof. exact @dispatch. Qed.
Print Assumptions C61_dispatch.

Example C61_hypotheses : exists s x' cd,
  build_solver fops (mkConfig gauss_seidel true f_half 0 9 f_half f_half) = Ok s /\
  solve_sparse fops 100 true None 20 s ex_sys ex_x0 ex_b = Ok (s, x', cd) /\ cd_iteration cd = 2.
Proof. eexists. eexists. eexists. split; [reflexivity|]. split; [vm_compute; reflexivity|reflexivity]. Qed.

(** ** C75 *)

Theorem C75_square_systems_succeed : forall {S} (O : sops S) M dbg stray n lim a x b w fuel,
  square_system n a b -> length x = n -> (dbg = true -> n <> 0) ->
  min_iterations lim <= M -> max_iteration lim < M -> Nat.max (min_iterations lim) (max_iteration lim + 1) < fuel ->
  (exists x' w' cd, jacobi_solve O M dbg stray fuel lim w a x b = Ok (x', w', cd) /\ length x' = n) /\
  (exists x' cd, gauss_seidel_solve O M dbg stray fuel lim a x b = Ok (x', cd) /\ length x' = n) /\
  (forall rho, exists x' cd, sor_solve O M dbg stray fuel lim rho a x b = Ok (x', cd) /\ length x' = n).
Proof. exact @square_solve. Qed.
Print Assumptions C75_square_systems_succeed.

Example C75_hypotheses : square_system 2 ex_sys ex_b /\ length ex_x0 = 2 /\ 2 <> 0.
Proof. split; [apply two_system|]. split; [reflexivity|lia]. Qed.

(** ** C76
    Full statement: the residuals are normalised by the residual of the initial guess. They are normalised
    by the residual after the first sweep. *)

Theorem C76_first_sweep_partial : forall {S} (O : sops S) M dbg stray a b lim s step x' cd,
  run O M dbg stray a b lim s step x' cd -> max_iteration lim < M -> min_iterations lim <= M -> 1 <= cd_iteration cd ->
  exists x1 w1 rm1, times step 1 s = Ok (x1, w1) /\ compute_residual O dbg stray a x1 b = Ok (cd_residual_0 cd, rm1) /\
    rm1 = cd_residual_max_0 cd /\ cd_residual_normalised cd = sc_div O (cd_residual cd) (cd_residual_0 cd).
Proof. exact @first_normalised. Qed.
Print Assumptions C76_first_sweep_partial.

Theorem C76_refuted : forall M dbg stray, 1 < M -> exists (x' : list f64) w' cd r0 rm0,
  jacobi_solve fops M dbg stray 20 (mkLimits 0 0 f_half) [] ex_sys ex_x0 ex_b = Ok (x', w', cd) /\
  compute_residual fops dbg stray ex_sys ex_x0 ex_b = Ok (r0, rm0) /\
  sc_eq fops (cd_residual_0 cd) r0 = false /\ sc_eq fops (cd_residual_normalised cd) (sc_div fops (cd_residual cd) r0) = false.
Proof. exact normalised_after_first. Qed.
Print Assumptions C76_refuted.

Example C76_hypotheses : exists x' cd,
  run fops 100 true None ex_sys ex_b (mkLimits 0 9 f_half) (ex_x0, [fz 0; fz 0]) (jacobi_step fops true None ex_sys ex_b) x' cd /\
  1 <= cd_iteration cd.
Proof.
  eexists. eexists. split; [eapply (run_jacobi fops 100 true None ex_sys ex_b _ 20 []); vm_compute; reflexivity|].
  cbn. lia.
Qed.

(** ** C77
    Full statement: a solve that stops before the maximum number of iterations has a finite residual at most
    the tolerance times the first one. An overflow stops the solve after one sweep. *)

Theorem C77_overflow_refuted : forall M dbg stray, 100 < M -> exists (x' : list f64) w' cd,
  jacobi_solve fops M dbg stray 200 (mkLimits 0 99 f_half) [] (two (fz 1) huge huge (fz 1)) ex_x0 [fz 1; fz 0] = Ok (x', w', cd) /\
  cd_iteration cd = 1 /\ cd_residual cd = S754_infinity false /\ cd_residual_normalised cd = S754_nan.
Proof. exact overflow_stops. Qed.
Print Assumptions C77_overflow_refuted.

(** ** C78 *)

Theorem C78_config_round_trip : forall {S} (O : sops S) (c : config S), cf_type c = lower_upper_factorisation ->
  exists st, build_solver O c = Ok (if cf_pivot c then SolverLUP st else SolverLU st) /\
    cf_type (lu_get_config O (cf_pivot c) st) = cf_type c /\ cf_pivot (lu_get_config O (cf_pivot c) st) = cf_pivot c /\
    cf_factor_tolerance (lu_get_config O (cf_pivot c) st) = cf_factor_tolerance c.
Proof. exact @config_round_trip. Qed.
Print Assumptions C78_config_round_trip.

(** What a configuration holds by default, in doubles: the tolerance 2^-36, the factor 3/2; the iteration options that a
    direct solver reports are those. *)
Theorem C78_defaults : let c := config_default fops in
  cf_type c = unknown /\ cf_pivot c = true /\ cf_factor_tolerance c = S754_finite false (2 ^ 52) (-52 - 36) /\
  cf_minimum_iterations c = 0 /\ cf_maximum_iterations c = 0 /\ cf_convergence_tolerance c = S754_zero false /\
  cf_relaxation c = S754_finite false (3 * 2 ^ 51) (-52) /\
  forall pivot st, let d := lu_get_config fops pivot st in
    cf_minimum_iterations d = 0 /\ cf_maximum_iterations d = 0 /\ cf_convergence_tolerance d = S754_zero false /\
    cf_relaxation d = cf_relaxation c.
Proof. exact config_defaults. Qed.
Print Assumptions C78_defaults.

Example C78_hypotheses : cf_type (mkConfig lower_upper_factorisation false f_half 0 0 f_half f_half) = lower_upper_factorisation.
Proof. reflexivity. Qed.
