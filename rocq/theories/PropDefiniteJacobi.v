(** Property C142: Jacobi in double precision on symmetric systems that are positive definite together with the mirrored
    matrix (the one with the signs of the entries outside of the diagonal turned). [definite_doubles], [f_enorm], [d_resid],
    [room], [meets] and [meets_floor] as for C140; [jacobi_factor n A s] (one exact step of Jacobi brings the error in the
    norm of the matrix down to [s] times its value at least), [j_rate] (the factor with rounding), [j_floor] (the distance
    at which rounding stops the progress), [j_no_overflow] (the magnitudes leave room). *)
From Coq Require Import ZArith Reals Lra Lia List SpecFloat.
From Verif Require Import Base ListFacts DenseModel DenseFacts ScalarModel GeometryReal SparseModel SparseSpec LuModel
  LuReal IterModel IterFacts IterLoop IterField IterReal FloatFacts FloatError IterFloat PropFloatLemmas FloatUnit
  PropIterLemmas FloatSweep PropSweepLemmas FloatStops PropStopLemmas Energy EnergyDrift FloatDrift PropDefiniteLemmas
  FloatDefStop PropDefiniteStopLemmas SymmetricJacobi FloatDefJacobi PropDefiniteJacobiLemmas.
Import ListNotations.
Local Open Scope R_scope.

(** ** C142 *)

Theorem C142_jacobi : forall dbg stray n a A b h l ro xs X s x u f E0 k, definite_doubles n a A b h l ro xs X ->
  positive_definite n (mirrored (fun i j => f_real (A i j))) -> jacobi_factor n (fun i j => f_real (A i j)) s -> j_rate n ro l s < 1 ->
  is_vec n x f -> finite_vec n f -> length u = n -> 0 <= E0 ->
  f_enorm n A f xs <= j_floor n ro l s X + E0 -> j_no_overflow n ro l X (j_floor n ro l s X + E0) ->
  exists x' u' f', times (jacobi_step fops dbg stray a b) k (x, u) = Ok (x', u') /\ is_vec n x' f' /\ finite_vec n f' /\
    f_enorm n A f' xs <= j_floor n ro l s X + j_rate n ro l s ^ k * E0 /\
    within n f' xs ((j_floor n ro l s X + j_rate n ro l s ^ k * E0) / sqrt l).
Proof. exact jacobi_definite. Qed.
Print Assumptions C142_jacobi.

(** The factor exists for every such matrix. *)
Theorem C142_constants : forall n (A : nat -> nat -> R), symmetric n A -> positive_definite n A -> positive_definite n (mirrored A) ->
  exists s, 0 <= s < 1 /\ forall h xs f z, (forall i, (i < n)%nat -> rsum n (fun j => A i j * xs j) = h i) ->
    (forall i, (i < n)%nat -> z i = (h i - rsum n (fun j => if (j =? i)%nat then 0 else A i j * f j)) / A i i) ->
    enorm n A (fun j => z j - xs j) <= s * enorm n A (fun j => f j - xs j).
Proof. exact jacobi_definite_constants. Qed.
Print Assumptions C142_constants.

Theorem C142_reaches_floor : forall dbg stray n a A b h l ro xs X s, definite_doubles n a A b h l ro xs X ->
  positive_definite n (mirrored (fun i j => f_real (A i j))) -> jacobi_factor n (fun i j => f_real (A i j)) s -> j_rate n ro l s < 1 ->
  forall x u f E0 eps, is_vec n x f -> finite_vec n f -> length u = n -> 0 <= E0 ->
  f_enorm n A f xs <= j_floor n ro l s X + E0 -> j_no_overflow n ro l X (j_floor n ro l s X + E0) -> 0 < eps ->
  exists N, forall k, (N <= k)%nat ->
    exists x' u' f', times (jacobi_step fops dbg stray a b) k (x, u) = Ok (x', u') /\ is_vec n x' f' /\ finite_vec n f' /\
      within n f' xs (j_floor n ro l s X / sqrt l + eps).
Proof. exact jacobi_reaches. Qed.
Print Assumptions C142_reaches_floor.

(** The whole solver. *)
Theorem C142_solves : forall M dbg stray n a A b h l ro xs X s, definite_doubles n a A b h l ro xs X ->
  positive_definite n (mirrored (fun i j => f_real (A i j))) -> jacobi_factor n (fun i j => f_real (A i j)) s -> j_rate n ro l s < 1 ->
  forall x w f E0 lim fuel, is_vec n x f -> finite_vec n f -> 0 <= E0 ->
  f_enorm n A f xs <= j_floor n ro l s X + E0 -> j_no_overflow n ro l X (j_floor n ro l s X + E0) ->
  (dbg = true -> n <> 0%nat) -> (min_iterations lim <= M)%nat -> (max_iteration lim < M)%nat ->
  (Nat.max (min_iterations lim) (max_iteration lim + 1) < fuel)%nat ->
  exists x' w' cd f', jacobi_solve fops M dbg stray fuel lim w a x b = Ok (x', w', cd) /\ is_vec n x' f' /\ finite_vec n f' /\
    within n f' xs ((j_floor n ro l s X + j_rate n ro l s ^ cd_iteration cd * E0) / sqrt l).
Proof. exact jacobi_solves. Qed.
Print Assumptions C142_solves.

(** It stops after at most [k] steps if the residual that remains after [k] steps meets the tolerance. *)
Theorem C142_stops : forall M dbg stray n a A b h l ro xs X s, definite_doubles n a A b h l ro xs X ->
  positive_definite n (mirrored (fun i j => f_real (A i j))) -> jacobi_factor n (fun i j => f_real (A i j)) s -> j_rate n ro l s < 1 ->
  (0 < n)%nat -> (Z.of_nat n < 2 ^ 64)%Z ->
  forall lim x w f E0 k fuel, is_vec n x f -> finite_vec n f -> 0 <= E0 ->
  f_enorm n A f xs <= j_floor n ro l s X + E0 -> j_no_overflow n ro l X (j_floor n ro l s X + E0) ->
  (min_iterations lim <= k)%nat -> (1 <= k <= M)%nat -> (min_iterations lim <= M)%nat -> (max_iteration lim < M)%nat ->
  (Nat.max (min_iterations lim) (max_iteration lim + 1) < fuel)%nat ->
  f_valid (tolerance lim) -> f_finite (tolerance lim) = true -> 0 <= f_real (tolerance lim) -> 10 * f_real (tolerance lim) + 1 <= f_limit / 2 ->
  let E := (j_floor n ro l s X + j_rate n ro l s ^ k * E0) / sqrt l in let T := d_resid n ro X E in
  room n (ro * (X + E) + T) T ->
  forall u x1 w1 r1 rm1, length u = n -> jacobi_step fops dbg stray a b (x, u) = Ok (x1, w1) ->
    compute_residual fops dbg stray a x1 b = Ok (r1, rm1) -> f_finite r1 = true -> 0 < f_real r1 -> 0 < f_real rm1 ->
    meets n (f_real (tolerance lim)) (f_real r1) (f_real rm1) T ->
    exists x' w' cd f', jacobi_solve fops M dbg stray fuel lim w a x b = Ok (x', w', cd) /\ (cd_iteration cd <= k)%nat /\
      is_vec n x' f' /\ finite_vec n f' /\ within n f' xs ((j_floor n ro l s X + j_rate n ro l s ^ cd_iteration cd * E0) / sqrt l).
Proof. exact jacobi_stop. Qed.
Print Assumptions C142_stops.

Theorem C142_eventually : forall M dbg stray n a A b h l ro xs X s, definite_doubles n a A b h l ro xs X ->
  positive_definite n (mirrored (fun i j => f_real (A i j))) -> jacobi_factor n (fun i j => f_real (A i j)) s -> j_rate n ro l s < 1 ->
  (0 < n)%nat -> (Z.of_nat n < 2 ^ 64)%Z ->
  forall x f E0 tol u x1 w1 r1 rm1, is_vec n x f -> finite_vec n f -> 0 <= E0 ->
  f_enorm n A f xs <= j_floor n ro l s X + E0 -> j_no_overflow n ro l X (j_floor n ro l s X + E0) ->
  f_valid tol -> f_finite tol = true -> 0 <= f_real tol -> 10 * f_real tol + 1 <= f_limit / 2 ->
  (let E := (j_floor n ro l s X + E0) / sqrt l in let T := d_resid n ro X E in room n (ro * (X + E) + T) T) ->
  length u = n -> jacobi_step fops dbg stray a b (x, u) = Ok (x1, w1) -> compute_residual fops dbg stray a x1 b = Ok (r1, rm1) ->
  f_finite r1 = true -> 0 < f_real r1 -> 0 < f_real rm1 ->
  meets_floor n (f_real tol) (f_real r1) (f_real rm1) (d_resid n ro X (j_floor n ro l s X / sqrt l)) ->
  exists K, forall lim w fuel, tolerance lim = tol -> (min_iterations lim <= M)%nat -> (max_iteration lim < M)%nat ->
    (Nat.max (min_iterations lim) (max_iteration lim + 1) < fuel)%nat ->
    exists x' w' cd, jacobi_solve fops M dbg stray fuel lim w a x b = Ok (x', w', cd) /\ (cd_iteration cd <= Nat.max K (min_iterations lim))%nat.
Proof. exact jacobi_eventually. Qed.
Print Assumptions C142_eventually.

(** 2 x - y = 1, - x + 2 y = 1 from the start 0 with the tolerance 1/2: an exact step halves the error. *)
Example C142_hypotheses : definite_doubles 2 dx_sys dx_A dx_b dx_h 1 3 (fun _ => 1) 1 /\
  positive_definite 2 (mirrored (fun i j => f_real (dx_A i j))) /\
  jacobi_factor 2 (fun i j => f_real (dx_A i j)) (1 / 2) /\ j_rate 2 3 1 (1 / 2) < 1 /\ finite_vec 2 (fun _ => fz 0) /\
  f_enorm 2 dx_A (fun _ => fz 0) (fun _ => 1) <= j_floor 2 3 1 (1 / 2) 1 + 2 /\ j_no_overflow 2 3 1 1 (j_floor 2 3 1 (1 / 2) 1 + 2).
Proof. exact jx_hypotheses. Qed.

Example C142_stops_hypotheses :
  let E := (j_floor 2 3 1 (1 / 2) 1 + j_rate 2 3 1 (1 / 2) ^ 10 * 2) / sqrt 1 in let T := d_resid 2 3 1 E in
  room 2 (3 * (1 + E) + T) T /\
  (let E := (j_floor 2 3 1 (1 / 2) 1 + 2) / sqrt 1 in let T := d_resid 2 3 1 E in room 2 (3 * (1 + E) + T) T) /\
  (forall r rm, 1 / 2 <= r -> 1 / 2 <= rm -> meets 2 (f_real f_half) r rm T /\
     meets_floor 2 (f_real f_half) r rm (d_resid 2 3 1 (j_floor 2 3 1 (1 / 2) 1 / sqrt 1))) /\
  10 * f_real f_half + 1 <= f_limit / 2.
Proof. exact jx_stops. Qed.

Example C142_first : exists x1 w1 r1 rm1,
  jacobi_step fops true None dx_sys dx_b ([S754_zero false; S754_zero false], [S754_zero false; S754_zero false]) = Ok (x1, w1) /\
  compute_residual fops true None dx_sys x1 dx_b = Ok (r1, rm1) /\ f_finite r1 = true /\ 1 / 2 <= f_real r1 /\ 1 / 2 <= f_real rm1.
Proof. exact jx_first. Qed.
