(** Property C98: the direct solver without pivoting in doubles on systems whose rows are dominated by the diagonal.
    [f_real x] is the real number a double stands for, [f_gamma k = (1 + 2^-53)^k - 1] and [f_limit = 2^1023].
    [margin n A B X i] is |A_ii| minus the other absolute values of row i minus |B_i| / X, [row_size n A B X i] the sum
    of all absolute values of row i plus |B_i| / X. *)
From Coq Require Import ZArith Reals Lra Lia List.
From Verif Require Import Base DenseModel DenseFacts ScalarModel GeometryReal LuModel FloatFacts FloatError FloatSweep
  PropFloatLemmas PropDominantLemmas.
Import ListNotations.
Local Open Scope R_scope.

(** ** C98 *)

(** The factorisation succeeds, nothing overflows, the result stays within [X] and close to the solution of the
    system, which exists and is unique. *)
Theorem C98_dominant_rows : forall dbg n st a A x b B m X T, is_mat n n a A -> is_vec n (other_of x b) B ->
  (forall i j, (i < n)%nat -> (j < n)%nat -> f_valid (A i j) /\ f_finite (A i j) = true) -> finite_vec n B ->
  f_valid (lu_tolerance st) -> f_finite (lu_tolerance st) = true -> 0 <= f_real (lu_tolerance st) ->
  / 2 ^ 1022 <= X <= f_limit ->
  (forall i, (i < n)%nat -> m <= margin n A B X i) ->
  (forall i, (i < n)%nat -> row_size n A B X i + INR n * (1 + / X) / 2 ^ 969 <= T) ->
  f_real (lu_tolerance st) + f_gamma (5 * n + 4) * T <= m -> 8 * T <= f_limit -> 8 * T * X <= f_limit ->
  exists st' x' d z xs, factorise fops dbg false st a = Ok (st', true) /\
    lu_solve fops dbg false st' x b = Ok (x', d) /\ cd_converged d = true /\ is_vec n x' z /\ finite_vec n z /\
    (forall i, (i < n)%nat -> Rabs (f_real (z i)) <= X) /\
    (forall i, (i < n)%nat -> rsum n (fun j => f_real (A i j) * xs j) = f_real (B i)) /\
    (forall ys, (forall i, (i < n)%nat -> rsum n (fun j => f_real (A i j) * ys j) = f_real (B i)) ->
       forall i, (i < n)%nat -> ys i = xs i) /\
    (forall i, (i < n)%nat -> Rabs (f_real (z i) - xs i) <= 14 * INR n * f_gamma (3 * n) * T * X / m).
Proof. exact dominant_solved. Qed.
Print Assumptions C98_dominant_rows.

(** The tolerance a new solver has. *)
Theorem C98_default_tolerance : f_valid (lu_tolerance (lu_default fops)) /\ f_finite (lu_tolerance (lu_default fops)) = true /\
  f_real (lu_tolerance (lu_default fops)) = / 2 ^ 46.
Proof. exact default_tolerance_f. Qed.
Print Assumptions C98_default_tolerance.

(** The tridiagonal matrix with 4 on the diagonal and 1 beside it, right hand side (1, 2, 3). *)
Example C98_hypotheses : is_mat 3 3 tri_f tri_A /\ is_vec 3 (other_of [] (Some tri_b)) tri_B /\
  (forall i j, (i < 3)%nat -> (j < 3)%nat -> f_valid (tri_A i j) /\ f_finite (tri_A i j) = true) /\ finite_vec 3 tri_B /\
  / 2 ^ 1022 <= 4 <= f_limit /\
  (forall i, (i < 3)%nat -> 1 <= margin 3 tri_A tri_B 4 i) /\
  (forall i, (i < 3)%nat -> row_size 3 tri_A tri_B 4 i + INR 3 * (1 + / 4) / 2 ^ 969 <= 8) /\
  f_real (lu_tolerance (lu_default fops)) + f_gamma (5 * 3 + 4) * 8 <= 1 /\ 8 * 8 <= f_limit /\ 8 * 8 * 4 <= f_limit.
Proof. exact tri_hypotheses. Qed.
