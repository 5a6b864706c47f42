(** Property C146: the direct solver with pivoting in doubles on systems whose columns are dominated by the diagonal after a scaling
    of the equations: no rows are exchanged, so it does what the solver without pivoting does; in particular on a grid.
    [f_real x] is the real number a double stands for, [number x] says that it is one, [entries n A] that all entries are;
    [f_gamma k = (1 + 2^-53)^k - 1], [f_u = 2^-53] and [f_limit = 2^1023]. [column_excess n wt A j] is wt_j |A_jj| minus the sum of
    the other wt_i |A_ij|, [column_size n wt A j] the sum of all wt_i |A_ij|; [poisson] and [within] as for C145. *)
From Coq Require Import ZArith Reals Lra Lia List SpecFloat.
From Verif Require Import Base DenseModel DenseFacts ScalarModel GeometryReal GraphModel GraphSpec LuModel FloatFacts FloatError FloatSweep
  PropFloatLemmas IterField IterReal PropIterLemmas PropRelaxLemmas PropChainLemmas PropDominantLemmas PropCloseLemmas GridWhole GridDirect
  LuColumn ColumnSolved.
Import ListNotations.
Local Open Scope R_scope.

(** ** C146 *)

(** With weights that do not decrease, the factorisation with pivoting exchanges no rows; the factors, and then every solution, are
    bit by bit those of the solver without pivoting. *)
Theorem C146_no_exchange : forall dbg n st a A m T K wt, is_mat n n a A -> entries n A ->
  number (lu_tolerance st) -> 0 <= f_real (lu_tolerance st) ->
  (forall i, (i < n)%nat -> 1 <= wt i <= K) -> (forall i j, (i < j < n)%nat -> wt i <= wt j) -> INR n * K <= 2 ^ 969 ->
  (forall j, (j < n)%nat -> m <= column_excess n wt A j) ->
  (forall j, (j < n)%nat -> column_size n wt A j + INR n * K / 2 ^ 969 <= T) ->
  K * (f_real (lu_tolerance st) + / 2 ^ 45) + f_gamma (4 * n) * T < m -> 8 * T <= f_limit ->
  exists s, factorise fops dbg true st a = Ok (mkLu true (lu_tolerance st) s (seq 0 n), true) /\
    factorise fops dbg false st a = Ok (mkLu true (lu_tolerance st) s (lu_pivots st), true) /\
    forall x b, lu_solve fops dbg true (mkLu true (lu_tolerance st) s (seq 0 n)) x b =
      lu_solve fops dbg false (mkLu true (lu_tolerance st) s (lu_pivots st)) x b.
Proof. exact columns_stay. Qed.
Print Assumptions C146_no_exchange.

(** The dense matrix the library's test of the solvers fills, factorised with pivoting. *)
Theorem C146_grid : forall dbg n r c a0 g0, (2 <= n <= 1000)%nat -> is_mat r c a0 g0 -> let N := (n * n)%nat in let m := INR n + 1 in
  exists a, dense_setup n a0 = Ok a /\
  forall st x b h H, is_vec N (other_of x b) h -> finite_vec N h -> / 2 ^ 900 <= H <= 2 ^ 900 ->
    (forall i, (i < N)%nat -> Rabs (f_real (h i)) <= H) ->
    f_valid (lu_tolerance st) -> f_finite (lu_tolerance st) = true -> 0 <= f_real (lu_tolerance st) -> m ^ 2 * f_real (lu_tolerance st) <= 1 ->
  exists st' x' d z xs, factorise fops dbg true st a = Ok (st', true) /\ lu_pivots st' = seq 0 N /\
    lu_solve fops dbg true st' x b = Ok (x', d) /\ cd_converged d = true /\ is_vec N x' z /\ finite_vec N z /\
    poisson n xs (fun i => f_real (h i)) /\ (forall ys, poisson n ys (fun i => f_real (h i)) -> forall i, (i < N)%nat -> ys i = xs i) /\
    within N z xs (22 * INR n ^ 4 * m ^ 4 * f_u * H).
Proof. exact grid_pivoting. Qed.
Print Assumptions C146_grid.

(** Three unknowns on a line; the column in the middle has no margin without the weights. *)
Example C146_hypotheses : is_mat 3 3 line_f line_A /\ entries 3 line_A /\ number (lu_tolerance (lu_default fops)) /\
  0 <= f_real (lu_tolerance (lu_default fops)) /\ (forall i, (i < 3)%nat -> 1 <= line_rows i <= 15) /\
  (forall i j, (i < j < 3)%nat -> line_rows i <= line_rows j) /\ INR 3 * 15 <= 2 ^ 969 /\
  (forall j, (j < 3)%nat -> 2 <= column_excess 3 line_rows line_A j) /\
  (forall j, (j < 3)%nat -> column_size 3 line_rows line_A j + INR 3 * 15 / 2 ^ 969 <= 50) /\
  15 * (f_real (lu_tolerance (lu_default fops)) + / 2 ^ 45) + f_gamma (4 * 3) * 50 < 2 /\ 8 * 50 <= f_limit /\
  column_excess 3 (fun _ => 1) line_A 1 = 0.
Proof. exact line_columns. Qed.

(** The weights must not decrease: the columns of this matrix dominate with the weights 3 and 1, and its rows are exchanged. *)
Example C146_order_needed : let a := [[fz 1; fz 0]; [fz 2; fz 4]] in
  (exists s, factorise fops true true (lu_default fops) a = Ok (mkLu true (lu_tolerance (lu_default fops)) s [1; 0]%nat, true)) /\
  3 * 1 - 1 * 2 = 1 /\ 1 * 4 - 3 * 0 = 4.
Proof. split; [eexists; vm_compute; reflexivity|lra]. Qed.

(** The grid of the library's test with its right hand side and a new solver. *)
Example C146_grid_hypotheses : is_vec 100 (other_of [] (Some (repeat (fz 1) 100))) (fun _ => fz 1) /\ finite_vec 100 (fun _ => fz 1) /\
  / 2 ^ 900 <= 1 <= 2 ^ 900 /\ (forall i, (i < 100)%nat -> Rabs (f_real (fz 1)) <= 1) /\
  (INR 10 + 1) ^ 2 * f_real (lu_tolerance (lu_default fops)) <= 1.
Proof. exact test_pivoting. Qed.
