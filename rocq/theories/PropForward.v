(** Property C139: what residuals say about the error when an inverse is known, and the systems the computed results
    solve exactly, in double precision. The statements use [left_inverse n H A] (H A is the identity), [lu_abs n g] (the
    product |L||U| of the computed factors), [lu_tiny] (the part of the bound due to underflow, C87), [lu_rate] and
    [lu_rest] (the rows of |H| applied to the bound, for a result of size 1 and for the size 0), [valid_rows] (a square
    system of doubles that holds its diagonal), [run] (one of the three iterative solvers returned) and the names of C86
    to C88. *)
From Coq Require Import ZArith Reals Lra Lia List SpecFloat.
From Verif Require Import Base ListFacts DenseModel DenseFacts PropDenseLemmas ScalarModel GeometryReal SparseModel SparseSpec
  SparseFacts SparseSeq LuModel LuFacts LuReal LuFloat IterModel IterFacts IterLoop IterField FloatFacts FloatError
  IterFloat PropFloatLemmas FloatUnit PropIterLemmas FloatSweep PropSweepLemmas FloatStop PropStopLemmas PropSorLemmas FloatForward
  PropForwardLemmas.
Import ListNotations.
Local Open Scope R_scope.

(** ** C139 *)

(** The direct solver: its result solves a system whose matrix differs by at most f_gamma (3 n) |L||U|; the error of each
    component; and a bound of the error that does not mention the result. *)
Theorem C139_direct : forall dbg pivot n st a A st' x b B,
  is_mat n n a A ->
  (forall i j, (i < n)%nat -> (j < n)%nat -> f_valid (A i j)) ->
  factorise fops dbg pivot st a = Ok (st', true) ->
  is_vec n (other_of x b) B -> (b = None -> pivot = false) -> (forall i, (i < n)%nat -> f_valid (B i)) ->
  exists s g x' d z, is_mat n n (lu_matrix st') g /\ (pivot = true -> is_vec n (lu_pivots st') s) /\
    (pivot = false -> forall k, s k = k) /\ rows_permuted n s /\
    lu_solve fops dbg pivot st' x b = Ok (x', d) /\ is_vec n x' z /\
    ((forall i j, (i < n)%nat -> (j < n)%nat -> f_finite (g i j) = true) -> (forall i, (i < n)%nat -> f_finite (z i) = true) ->
     (exists dA dB, (forall i j, (i < n)%nat -> (j < n)%nat -> Rabs (dA i j) <= f_gamma (3 * n) * lu_abs n g i j) /\
       (forall i, (i < n)%nat -> Rabs (dB i) <= lu_tiny n g z i) /\
       forall i, (i < n)%nat -> rsum n (fun j => (f_real (A (s i) j) + dA i j) * f_real (z j)) = f_real (B (s i)) + dB i) /\
     (forall H xs, left_inverse n H (fun i j => f_real (A i j)) ->
       (forall i, (i < n)%nat -> rsum n (fun j => f_real (A i j) * xs j) = f_real (B i)) ->
       (forall k, (k < n)%nat -> Rabs (f_real (z k) - xs k) <=
         rsum n (fun i => Rabs (H k (s i)) * (f_gamma (3 * n) * rsum n (fun j => lu_abs n g i j * Rabs (f_real (z j))) + lu_tiny n g z i))) /\
       forall r c X, r < 1 -> (forall k, (k < n)%nat -> lu_rate n H g s k <= r /\ lu_rest n H g s k <= c /\ Rabs (xs k) <= X) ->
         forall k, (k < n)%nat -> Rabs (f_real (z k) - xs k) <= (r * X + c) / (1 - r))).
Proof. exact direct_forward. Qed.
Print Assumptions C139_direct.

(** Any vector whose reported residual is finite. *)
Theorem C139_residual : forall dbg stray n a A b h x f l2 linf H xs,
  sparse_square (S754_zero false) n a A -> is_vec n b h ->
  is_vec n x f -> (0 < n)%nat -> (Z.of_nat n < 2 ^ 64)%Z ->
  (forall i j, (i < n)%nat -> (j < n)%nat -> f_valid (A i j)) -> (forall i, (i < n)%nat -> f_valid (h i)) -> (forall j, (j < n)%nat -> f_valid (f j)) ->
  compute_residual fops dbg stray a x b = Ok (l2, linf) -> f_finite l2 = true ->
  left_inverse n H (fun i j => f_real (A i j)) -> (forall i, (i < n)%nat -> rsum n (fun j => f_real (A i j) * xs j) = f_real (h i)) ->
  forall k, (k < n)%nat -> Rabs (f_real (f k) - xs k) <=
    rsum n (fun i => Rabs (H k i) * ((1 + f_u) ^ 4 * (f_real linf + f_theta) + inner_bound n (A i) f)).
Proof. exact residual_certifies. Qed.
Print Assumptions C139_residual.

(** What the iterative solvers return, whether they converged or not. *)
Theorem C139_iterative : forall M dbg stray n a A b h, valid_rows n a A b h -> forall lim s step x' cd H xs,
  run fops M dbg stray a b lim s step x' cd -> valid_state n s ->
  left_inverse n H (fun i j => f_real (A i j)) -> (forall i, (i < n)%nat -> rsum n (fun j => f_real (A i j) * xs j) = f_real (h i)) ->
  (0 < n)%nat -> (Z.of_nat n < 2 ^ 64)%Z -> (min_iterations lim <= M)%nat -> (max_iteration lim < M)%nat ->
  (1 <= cd_iteration cd)%nat -> f_finite (cd_residual cd) = true ->
  exists f, is_vec n x' f /\ finite_vec n f /\ forall k, (k < n)%nat -> Rabs (f_real (f k) - xs k) <=
    rsum n (fun i => Rabs (H k i) * ((1 + f_u) ^ 4 * (f_real (cd_residual_max cd) + f_theta) + inner_bound n (A i) f)).
Proof. exact run_certifies. Qed.
Print Assumptions C139_iterative.

(** 2x + y = 3, 4x + 3y = 7: not dominant; the rows are exchanged. *)
Example C139_inverse : left_inverse 2 fw_H (fun i j => f_real (fw_A i j)) /\ is_mat 2 2 fw_a fw_A /\
  forall i, (i < 2)%nat -> rsum 2 (fun j => f_real (fw_A i j) * 1) = f_real (fw_h i).
Proof. exact (conj fw_inverse (conj fw_mat fw_solution)). Qed.

Example C139_direct_hypotheses : exists st' x' d, factorise fops true true (lu_default fops) fw_a = Ok (st', true) /\ lu_matrix st' = fw_lu /\
  lu_pivots st' = [1; 0]%nat /\ lu_solve fops true true st' [] (Some fw_b) = Ok (x', d) /\ x' = [fz 1; fz 1] /\
  is_mat 2 2 (lu_matrix st') fw_g /\ is_vec 2 (lu_pivots st') fw_s /\ (forall i j, (i < 2)%nat -> (j < 2)%nat -> f_finite (fw_g i j) = true).
Proof. exact fw_direct. Qed.

Example C139_rates : forall k, (k < 2)%nat ->
  lu_rate 2 fw_H fw_g fw_s k <= 1 / 1000 /\ lu_rest 2 fw_H fw_g fw_s k <= 1 / 1000 /\ Rabs 1 <= 1.
Proof. exact fw_rates. Qed.

Example C139_iterative_hypotheses : valid_rows 2 fw_sys fw_A fw_b fw_h /\ exists x' cd,
  run fops 100 true None fw_sys fw_b (mkLimits 0 5 f_half) ([fz 0; fz 0], []) (gauss_seidel_step fops true None fw_sys fw_b) x' cd /\
  (1 <= cd_iteration cd)%nat /\ f_finite (cd_residual cd) = true /\ valid_state 2 ([fz 0; fz 0], []).
Proof. exact (conj fw_rows fw_run). Qed.
