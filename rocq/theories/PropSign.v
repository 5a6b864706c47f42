(** Property C124: the direct solver keeps signs and order, in double precision.
    [off_signs n A]: finite entries, not positive beside the diagonal. [signed_factors pivot n st]: the solver holds
    factors of that kind with a positive diagonal (with pivoting also [n] pivots below [n]). [given pivot n x b]: a right
    hand side of [n] doubles, apart from [x] when pivoting. [valid_vec], [inside], [not_negative], [not_positive]: as in
    C121. [tridiagonal n M D A]: finite entries, zero away from the three diagonals, at most [M] in magnitude beside the
    main one, which lies between [2M] and [D]. [f_gamma k = (1 + 2^-53)^k - 1], [f_limit = 2^1023], [f_u = 2^-53]. *)
From Coq Require Import ZArith Reals Lra Lia List SpecFloat.
From Verif Require Import Base DenseModel DenseFacts ScalarModel GeometryReal LuModel FloatFacts FloatError FloatSweep
  PropFloatLemmas PropSuccessLemmas PropIterLemmas PropDominantLemmas PropOrderLemmas PropSignLemmas.
Import ListNotations.
Local Open Scope R_scope.

(** ** C124 *)

(** The results keep the order of the right hand sides; between two finite results every result is finite. *)
Theorem C124_order : forall dbg pivot n st x1 x2 x3 b1 b2 b3, signed_factors pivot n st ->
  given pivot n x1 b1 -> given pivot n x2 b2 -> given pivot n x3 b3 ->
  inside n (other_of x1 b1) (other_of x2 b2) (other_of x3 b3) ->
  exists d x1' x2' x3', lu_solve fops dbg pivot st x1 b1 = Ok (x1', d) /\ lu_solve fops dbg pivot st x2 b2 = Ok (x2', d) /\
    lu_solve fops dbg pivot st x3 b3 = Ok (x3', d) /\ cd_converged d = true /\
    valid_vec n x1' /\ valid_vec n x2' /\ valid_vec n x3' /\ inside n x1' x2' x3'.
Proof. exact direct_order. Qed.
Print Assumptions C124_order.

Theorem C124_sign : forall dbg pivot n st x b, signed_factors pivot n st -> given pivot n x b ->
  exists d x', lu_solve fops dbg pivot st x b = Ok (x', d) /\ cd_converged d = true /\ valid_vec n x' /\
    (not_negative n (other_of x b) -> not_negative n x') /\ (not_positive n (other_of x b) -> not_positive n x').
Proof. exact direct_sign. Qed.
Print Assumptions C124_sign.

(** The factors a matrix of such signs gets have the signs again, and the upper factor never exceeds the matrix. *)
Theorem C124_factors : forall dbg n st a A st' g, is_mat n n a A -> off_signs n A ->
  factorise fops dbg false st a = Ok (st', true) ->
  is_mat n n (lu_matrix st') g -> (forall i j, (i < n)%nat -> (j < n)%nat -> f_finite (g i j) = true) ->
  (forall i, (i < n)%nat -> 0 < f_real (g i i)) ->
  signed_factors false n st' /\ (forall i j, (i <= j)%nat -> (j < n)%nat -> f_real (g i j) <= f_real (A i j)).
Proof. exact direct_factors. Qed.
Print Assumptions C124_factors.

(** Rows dominated by the diagonal: the matrix is factorised, with a positive diagonal. *)
Theorem C124_dominant : forall dbg n st a A m T, is_mat n n a A -> off_signs n A ->
  f_valid (lu_tolerance st) -> f_finite (lu_tolerance st) = true -> 0 <= f_real (lu_tolerance st) ->
  (forall i, (i < n)%nat -> off_diagonal n (fun r c => f_real (A r c)) i + m <= f_real (A i i)) ->
  (forall i, (i < n)%nat -> rsum n (fun j => Rabs (f_real (A i j))) + 2 * INR n / 2 ^ 969 <= T) ->
  f_real (lu_tolerance st) + f_gamma (5 * n + 4) * T <= m -> 8 * T <= f_limit ->
  exists st', factorise fops dbg false st a = Ok (st', true) /\ signed_factors false n st'.
Proof. exact direct_dominant. Qed.
Print Assumptions C124_dominant.

(** Tridiagonal matrices that are dominated only weakly: factorised at every size, whatever the signs; no rounding error
    takes a pivot below [M] or a multiplier above one. *)
Theorem C124_tridiagonal : forall dbg n st a A M D c, is_mat n n a A -> tridiagonal n M D A -> 0 < M -> 2 * D <= f_limit ->
  f_valid c -> f_real c = M ->
  f_valid (lu_tolerance st) -> f_finite (lu_tolerance st) = true -> f_real (lu_tolerance st) <= M ->
  exists st' g, factorise fops dbg false st a = Ok (st', true) /\ is_mat n n (lu_matrix st') g /\
    (forall i j, (i < n)%nat -> (j < n)%nat -> f_valid (g i j) /\ f_finite (g i j) = true) /\
    (forall i, (i < n)%nat -> M <= f_real (g i i) <= 2 * D) /\
    (forall i, (i + 1 < n)%nat -> Rabs (f_real (g (i + 1)%nat i)) <= 1 /\ Rabs (f_real (g i (i + 1)%nat)) <= M) /\
    (forall i j, (i < n)%nat -> (j < n)%nat -> (i + 1 < j \/ j + 1 < i)%nat -> f_real (g i j) = 0) /\
    (off_signs n A -> signed_factors false n st').
Proof. exact direct_tridiagonal. Qed.
Print Assumptions C124_tridiagonal.

(** Their solutions do not overflow, and keep the sign of the right hand side. *)
Theorem C124_tridiagonal_solve : forall dbg n st a A x b B D beta, is_mat n n a A -> tridiagonal n 1 D A -> 2 * D <= f_limit ->
  f_valid (lu_tolerance st) -> f_finite (lu_tolerance st) = true -> f_real (lu_tolerance st) <= 1 ->
  is_vec n (other_of x b) B -> finite_vec n B -> (forall i, (i < n)%nat -> Rabs (f_real (B i)) <= beta) ->
  (1 + f_u) ^ (2 * n) * (INR n * INR n) * beta <= f_limit ->
  exists st' x' d z, factorise fops dbg false st a = Ok (st', true) /\ lu_solve fops dbg false st' x b = Ok (x', d) /\
    cd_converged d = true /\ is_vec n x' z /\ finite_vec n z /\
    (forall i, (i < n)%nat -> Rabs (f_real (z i)) <= (1 + f_u) ^ (2 * n) * (INR n * INR n) * beta) /\
    (off_signs n A -> (forall i, (i < n)%nat -> 0 <= f_real (B i)) -> forall i, (i < n)%nat -> 0 <= f_real (z i)).
Proof. exact direct_tridiagonal_solve. Qed.
Print Assumptions C124_tridiagonal_solve.

(** Three rows with 4 on the diagonal and -1 elsewhere, the first two exchanged: pivoting puts them back, and three
    ordered right hand sides have three different ordered solutions. *)
Example C124_order_hypotheses : exists st, factorise fops false true (lu_default fops) swapped_matrix = Ok (st, true) /\
  lu_pivots st = [1; 0; 2]%nat /\ signed_factors true 3 st /\
  given true 3 [] (Some (map fz [0; -1; 1]%Z)) /\ given true 3 [] (Some (map fz [1; 0; 1]%Z)) /\
  given true 3 [] (Some (map fz [1; 0; 6]%Z)) /\
  inside 3 (map fz [0; -1; 1]%Z) (map fz [1; 0; 1]%Z) (map fz [1; 0; 6]%Z).
Proof.
  destruct (factorise fops false true (lu_default fops) swapped_matrix) as [[st [|]]| | |] eqn:E;
    try (exfalso; vm_compute in E; discriminate).
  exists st. split; [reflexivity|]. vm_compute in E. injection E as <-. split; [reflexivity|].
  split; [apply sign_test_ok; vm_compute; reflexivity|].
  do 3 (split; [split; [split; [reflexivity|intros [|[|[|i]]] Hi; try lia; reflexivity]|discriminate]|]).
  apply inside_check; vm_compute; reflexivity.
Qed.

(** A right hand side no element of which is negative. *)
Example C124_sign_hypotheses : exists st, signed_factors true 3 st /\ given true 3 [] (Some (map fz [0; 0; 1]%Z)) /\
  not_negative 3 (map fz [0; 0; 1]%Z) /\ exists x d, lu_solve fops false true st [] (Some (map fz [0; 0; 1]%Z)) = Ok (x, d) /\
    forall i, (i < 3)%nat -> at_ x i <> at_ (map fz [0; 0; 1]%Z) i.
Proof.
  destruct C124_order_hypotheses as (st & E & _ & H & _). exists st. split; [exact H|]. vm_compute in E. injection E as <-.
  split; [split; [split; [reflexivity|intros [|[|[|i]]] Hi; try lia; reflexivity]|discriminate]|]. split.
  - intros i Hi _. apply (le_check_ok (map fz [0; 0; 0]%Z) (map fz [0; 0; 1]%Z) eq_refl eq_refl) in Hi as Hle; [|vm_compute; reflexivity].
    apply Rle_trans with (2 := Hle). destruct i as [|[|[|i]]]; try lia; apply Rle_refl.
  - eexists. eexists. split; [vm_compute; reflexivity|]. intros [|[|[|i]]] Hi; try lia; intro K; vm_compute in K; discriminate.
Qed.

(** The matrix without the exchange. *)
Example C124_dominant_hypotheses : is_mat 3 3 full_matrix full_entry /\ off_signs 3 full_entry /\
  (forall i, (i < 3)%nat -> off_diagonal 3 (fun r c => f_real (full_entry r c)) i + 2 <= f_real (full_entry i i)) /\
  (forall i, (i < 3)%nat -> rsum 3 (fun j => Rabs (f_real (full_entry i j))) + 2 * INR 3 / 2 ^ 969 <= 7) /\
  f_real (lu_tolerance (lu_default fops)) + f_gamma (5 * 3 + 4) * 7 <= 2 /\ 8 * 7 <= f_limit.
Proof. exact full_hypotheses. Qed.

Example C124_factors_hypotheses : exists st g, factorise fops false false (lu_default fops) full_matrix = Ok (st, true) /\
  is_mat 3 3 (lu_matrix st) g /\ (forall i j, (i < 3)%nat -> (j < 3)%nat -> f_finite (g i j) = true) /\
  (forall i, (i < 3)%nat -> 0 < f_real (g i i)) /\ lu_matrix st <> full_matrix.
Proof. exact full_factors. Qed.

(** The Poisson matrix on a line (2 on the diagonal, -1 beside it), of every size. *)
Example C124_tridiagonal_hypotheses : forall n, is_mat n n (line_matrix n) line_entry /\ tridiagonal n 1 2 line_entry /\
  off_signs n line_entry /\ 2 * 2 <= f_limit /\ f_valid (f_of_Z 1) /\ f_real (f_of_Z 1) = 1 /\
  f_valid (lu_tolerance (lu_default fops)) /\ f_finite (lu_tolerance (lu_default fops)) = true /\
  f_real (lu_tolerance (lu_default fops)) <= 1.
Proof. exact line_hypotheses. Qed.

(** A million rows, right hand side one everywhere. *)
Example C124_tridiagonal_solve_hypotheses : exists n, INR n = 1000000 /\
  (forall i, (i < n)%nat -> Rabs (f_real ((fun _ => fz 1) i)) <= 1) /\
  (1 + f_u) ^ (2 * n) * (INR n * INR n) * 1 <= f_limit.
Proof. exact million. Qed.
