(** Property C145: the direct solver without pivoting in doubles on systems whose rows are dominated by the diagonal only after
    a scaling of the unknowns, as those of a grid.
    [f_real x] is the real number a double stands for, [f_gamma k = (1 + 2^-53)^k - 1], [f_u = 2^-53] and [f_limit = 2^1023].
    [scaled_margin n wt A B X i] is wt_i |A_ii| minus the sum of the other wt_j |A_ij| minus |B_i| / X, [scaled_size n wt A B X i]
    the sum of all wt_j |A_ij| plus |B_i| / X; [stencil g 4 A] and [poisson n u h] as for C143; [within n z xs e]: every z_i differs
    from xs_i by at most e. *)
From Coq Require Import ZArith Reals Lra Lia List SpecFloat.
From Verif Require Import Base DenseModel DenseFacts ScalarModel GeometryReal GraphModel GraphSpec LuModel FloatFacts FloatError FloatSweep
  PropFloatLemmas IterField IterReal PropIterLemmas PropRelaxLemmas PropChainLemmas PropDominantLemmas GridWhole ScaledSolved GridDirect.
Import ListNotations.
Local Open Scope R_scope.

(** ** C145 *)

(** The factorisation succeeds, nothing overflows, the result is close to the solution of the system, which exists and is unique. *)
Theorem C145_scaled_rows : forall dbg n st a A x b B m X T K wt, is_mat n n a A -> is_vec n (other_of x b) B ->
  (forall i j, (i < n)%nat -> (j < n)%nat -> f_valid (A i j) /\ f_finite (A i j) = true) -> finite_vec n B ->
  f_valid (lu_tolerance st) -> f_finite (lu_tolerance st) = true -> 0 <= f_real (lu_tolerance st) ->
  (forall j, (j < n)%nat -> 1 <= wt j <= K) -> / 2 ^ 1022 <= X -> K * X <= f_limit ->
  (forall i, (i < n)%nat -> m <= scaled_margin n wt A B X i) ->
  (forall i, (i < n)%nat -> scaled_size n wt A B X i + INR n * (K + / X) / 2 ^ 969 <= T) ->
  K * f_real (lu_tolerance st) + f_gamma (5 * n + 4) * T <= m -> 8 * T <= f_limit -> 8 * T * X <= f_limit ->
  exists st' x' d z xs, factorise fops dbg false st a = Ok (st', true) /\
    lu_solve fops dbg false st' x b = Ok (x', d) /\ cd_converged d = true /\ is_vec n x' z /\ finite_vec n z /\
    (forall i, (i < n)%nat -> Rabs (f_real (z i)) <= wt i * X) /\
    (forall i, (i < n)%nat -> rsum n (fun j => f_real (A i j) * xs j) = f_real (B i)) /\
    (forall ys, (forall i, (i < n)%nat -> rsum n (fun j => f_real (A i j) * ys j) = f_real (B i)) ->
       forall i, (i < n)%nat -> ys i = xs i) /\
    (forall i, (i < n)%nat -> Rabs (f_real (z i) - xs i) <= wt i * (14 * INR n * f_gamma (3 * n) * T * X / m)).
Proof. exact scaled_solved. Qed.
Print Assumptions C145_scaled_rows.

(** The dense matrix the library's test of the solvers fills, whatever it held before. *)
Theorem C145_setup : forall dbg n g r c a0 g0, (2 <= n)%nat -> create_graph_structured dbg false n = Ok g -> is_mat r c a0 g0 ->
  exists a A, dense_setup n a0 = Ok a /\ is_mat (n * n) (n * n) a A /\
    stencil g 4 (fun i j => f_real (A i j)) /\ (forall i j, f_valid (A i j) /\ f_finite (A i j) = true) /\
    forall u h, (forall i, (i < n * n)%nat -> rsum (n * n) (fun j => f_real (A i j) * u j) = h i) <-> poisson n u h.
Proof. exact dense_filled. Qed.
Print Assumptions C145_setup.

(** Filled, factorised and solved with: the five point equations, whatever the right hand side. *)
Theorem C145_grid : forall dbg n r c a0 g0, (2 <= n <= 1000)%nat -> is_mat r c a0 g0 -> let N := (n * n)%nat in let m := INR n + 1 in
  exists a, dense_setup n a0 = Ok a /\
  forall st x b h H, is_vec N (other_of x b) h -> finite_vec N h -> / 2 ^ 900 <= H <= 2 ^ 900 ->
    (forall i, (i < N)%nat -> Rabs (f_real (h i)) <= H) ->
    f_valid (lu_tolerance st) -> f_finite (lu_tolerance st) = true -> 0 <= f_real (lu_tolerance st) -> m ^ 2 * f_real (lu_tolerance st) <= 2 ->
  exists st' x' d z xs, factorise fops dbg false st a = Ok (st', true) /\
    lu_solve fops dbg false st' x b = Ok (x', d) /\ cd_converged d = true /\ is_vec N x' z /\ finite_vec N z /\
    poisson n xs (fun i => f_real (h i)) /\ (forall ys, poisson n ys (fun i => f_real (h i)) -> forall i, (i < N)%nat -> ys i = xs i) /\
    within N z xs (22 * INR n ^ 4 * m ^ 4 * f_u * H).
Proof. exact grid_direct. Qed.
Print Assumptions C145_grid.

(** Three unknowns on a line, 2 on the diagonal and -1 beside it, ones on the right: the row in the middle has no margin without
    the weights. *)
Example C145_hypotheses : is_mat 3 3 line_f line_A /\ is_vec 3 (other_of [] (Some line_b)) (fun _ => fz 1) /\
  (forall i j, (i < 3)%nat -> (j < 3)%nat -> f_valid (line_A i j) /\ f_finite (line_A i j) = true) /\ finite_vec 3 (fun _ => fz 1) /\
  (forall j, (j < 3)%nat -> 1 <= line_wt j <= 4) /\ / 2 ^ 1022 <= 1 /\ 4 * 1 <= f_limit /\
  (forall i, (i < 3)%nat -> 1 <= scaled_margin 3 line_wt line_A (fun _ => fz 1) 1 i) /\
  (forall i, (i < 3)%nat -> scaled_size 3 line_wt line_A (fun _ => fz 1) 1 i + INR 3 * (4 + / 1) / 2 ^ 969 <= 18) /\
  4 * f_real (lu_tolerance (lu_default fops)) + f_gamma (5 * 3 + 4) * 18 <= 1 /\ 8 * 18 <= f_limit /\ 8 * 18 * 1 <= f_limit /\
  margin 3 line_A (fun _ => fz 0) 1 1 = 0.
Proof. exact line_hypotheses. Qed.

(** The matrix of two by two unknowns, filled in place of a row of three numbers. *)
Example C145_setup_two : let m := fz (-1) in let d := fz 4 in let o := fz 0 in
  dense_setup 2 [[fz 7; fz 8; fz 9]] = Ok [[d; m; m; o]; [m; d; o; m]; [m; o; d; m]; [o; m; m; d]].
Proof. vm_compute. reflexivity. Qed.

(** The grid of the library's test with its right hand side and a new solver. *)
Example C145_grid_hypotheses : is_vec 100 (other_of [] (Some (repeat (fz 1) 100))) (fun _ => fz 1) /\ finite_vec 100 (fun _ => fz 1) /\
  / 2 ^ 900 <= 1 <= 2 ^ 900 /\ (forall i, (i < 100)%nat -> Rabs (f_real (fz 1)) <= 1) /\
  (INR 10 + 1) ^ 2 * f_real (lu_tolerance (lu_default fops)) <= 2.
Proof. exact test_direct. Qed.
