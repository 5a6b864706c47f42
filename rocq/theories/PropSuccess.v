(** Property C91: matrices which the direct solver never refuses, over the reals.
    [off_diagonal n A i] is the sum of the absolute values of row i without the diagonal, [below n g j] the sum of
    the absolute values below the diagonal in column j. [solves_all] says that solve_system returns the unique
    solution of the original system for every right hand side. *)
From Coq Require Import ZArith Reals Lra Lia List.
From Verif Require Import Base DenseModel DenseFacts ScalarModel GeometryReal LuModel LuReal PropLuLemmas Energy
  PropSuccessLemmas.
Local Open Scope R_scope.

(** ** C91 *)

(** Rows dominated by the diagonal with a margin not below the tolerance: elimination without pivoting. *)
Theorem C91_row_dominant : forall dbg n st a A d, is_mat n n a A -> 0 < lu_tolerance st <= d ->
  (forall i, (i < n)%nat -> off_diagonal n A i + d <= Rabs (A i i)) ->
  exists st', factorise rops dbg false st a = Ok (st', true) /\ solves_all dbg false n A st'.
Proof. exact row_dominant_solved. Qed.
Print Assumptions C91_row_dominant.

(** Columns dominated by the diagonal: with and without pivoting. No rows are exchanged, the upper factor is
    bounded by the column sums of the matrix and the multipliers of a column sum up to less than 1. *)
Theorem C91_column_dominant : forall dbg pivot n st a A d, is_mat n n a A -> 0 < lu_tolerance st <= d ->
  (pivot = true -> / 2 ^ 46 <= d) ->
  (forall j, (j < n)%nat -> off_diagonal n (fun r c => A c r) j + d <= Rabs (A j j)) ->
  exists st' g, factorise rops dbg pivot st a = Ok (st', true) /\ solves_all dbg pivot n A st' /\
    (pivot = true -> lu_pivots st' = seq 0 n) /\
    is_mat n n (lu_matrix st') g /\
    (forall i j, (i <= j < n)%nat -> Rabs (g i j) <= rsum n (fun k => Rabs (A k j))) /\
    (forall j, (j < n)%nat -> below n g j < 1).
Proof. exact column_dominant_solved. Qed.
Print Assumptions C91_column_dominant.

(** Symmetric matrices whose quadratic form is at least [l] times the square of the length. *)
Theorem C91_positive_definite : forall dbg n st a A l, is_mat n n a A -> 0 < lu_tolerance st <= l -> symmetric n A ->
  (forall e, l * rsum n (fun i => e i * e i) <= energy n A e) ->
  exists st' g, factorise rops dbg false st a = Ok (st', true) /\ solves_all dbg false n A st' /\
    is_mat n n (lu_matrix st') g /\ (forall i, (i < n)%nat -> l <= g i i).
Proof. exact definite_solved. Qed.
Print Assumptions C91_positive_definite.

(** The tolerance a new solver has. *)
Theorem C91_default_tolerance : lu_tolerance (lu_default rops) = / 2 ^ 46.
Proof. exact default_tolerance. Qed.
Print Assumptions C91_default_tolerance.

(** A tridiagonal matrix meets the hypotheses of all three. *)
Example C91_hypotheses : is_mat 3 3 tri_rows tri /\ 0 < lu_tolerance (lu_default rops) <= 2 /\
  (forall i, (i < 3)%nat -> off_diagonal 3 tri i + 2 <= Rabs (tri i i)) /\
  (forall j, (j < 3)%nat -> off_diagonal 3 (fun r c => tri c r) j + 2 <= Rabs (tri j j)) /\
  / 2 ^ 46 <= 2 /\ symmetric 3 tri /\ (forall e, 2 * rsum 3 (fun i => e i * e i) <= energy 3 tri e).
Proof.
  split; [exact tri_mat|]. split; [exact default_tolerance_range|]. split; [exact tri_rows_dominant|].
  split; [exact tri_columns_dominant|]. split; [rewrite <- default_tolerance; apply default_tolerance_range|].
  split; [exact tri_symmetric|exact tri_definite].
Qed.
