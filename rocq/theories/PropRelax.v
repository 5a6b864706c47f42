(** Property C122: over-relaxation and dominance, in exact arithmetic.
    [scaled_dominance n A v q]: the diagonal dominates with the factor [q] after the columns are multiplied by the
    positive [v]; [within_scaled n f xs v e]: |f i - xs i| <= e v i; [near n f xs eps]: |f i - xs i| < eps. *)
From Coq Require Import ZArith Reals Lra Lia List.
From Verif Require Import Base DenseModel DenseFacts ScalarModel GeometryReal SparseModel SparseSpec IterModel IterFacts
  IterLoop IterField PropIterLemmas PropRelaxLemmas.
Import ListNotations.
Local Open Scope R_scope.

(** ** C122 *)

(** One sweep, ascending or descending, in place or not, with any factor. *)
Theorem C122_sweep : forall dbg stray n a A b h xs v q, sparse_square 0 n a A -> is_vec n b h -> scaled_dominance n A v q ->
  solves rops n A xs h -> forall back apart w x u f e, w <> 0 -> is_vec n x f -> length u = n -> 0 <= e ->
  within_scaled n f xs v e -> (apart = false -> Rabs w * q + Rabs (1 - w) <= 1) ->
  exists x' f', sweep_on back apart dbg stray a x u b w = Ok x' /\ is_vec n x' f' /\
    within_scaled n f' xs v ((Rabs w * q + Rabs (1 - w)) * e).
Proof. exact sweep_contracts. Qed.
Print Assumptions C122_sweep.

(** The solver SOR, whose factor is 3/2 whatever is configured. *)
Theorem C122_sor : forall dbg stray n a A b h xs v q, sparse_square 0 n a A -> is_vec n b h -> scaled_dominance n A v q ->
  solves rops n A xs h -> forall k x w f e, q <= / 3 -> is_vec n x f -> 0 <= e -> within_scaled n f xs v e ->
  exists x' f', times (sor_step rops dbg stray a b) k (x, w) = Ok (x', w) /\ is_vec n x' f' /\
    within_scaled n f' xs v (((1 + 3 * q) / 2) ^ k * e).
Proof. exact sor_scaled. Qed.
Print Assumptions C122_sor.

(** Exactly one solution, and convergence to it. *)
Theorem C122_converges : forall dbg stray n a A b h v q, sparse_square 0 n a A -> is_vec n b h -> scaled_dominance n A v q -> q < 1 ->
  exists xs, solves rops n A xs h /\ (forall ys, solves rops n A ys h -> forall i, (i < n)%nat -> ys i = xs i) /\
  forall x, length x = n -> forall eps, 0 < eps -> exists K, forall k, (K <= k)%nat ->
    (forall w, length w = n -> exists x' w' f', times (jacobi_step rops dbg stray a b) k (x, w) = Ok (x', w') /\
       is_vec n x' f' /\ near n f' xs eps) /\
    (exists x' f', times (gauss_seidel_step rops dbg stray a b) k (x, []) = Ok (x', []) /\ is_vec n x' f' /\ near n f' xs eps) /\
    (q < / 3 -> exists x' f', times (sor_step rops dbg stray a b) k (x, []) = Ok (x', []) /\ is_vec n x' f' /\ near n f' xs eps).
Proof. exact scaled_converges. Qed.
Print Assumptions C122_converges.

(** The third cannot be raised: on x + c y = 0, - c x + y = 0 the iterates of SOR grow without bound for every c > 1/3,
    while the matrix is dominant with the factor c. *)
Theorem C122_sor_limit : forall c, / 3 < c -> exists s, 1 < s /\ forall dbg stray k,
  times (sor_step rops dbg stray (two 1 c (- c) 1) [0; 0]) k ([1; s], []) = Ok ([(- s ^ 2) ^ k; (- s ^ 2) ^ k * s], []).
Proof. exact sor_diverges. Qed.
Print Assumptions C122_sor_limit.

(** Dominant columns. *)
Theorem C122_columns : forall dbg stray n a A b h xs q, sparse_square 0 n a A -> is_vec n b h -> column_dominance n A q ->
  solves rops n A xs h -> forall k x w f, is_vec n x f -> length w = n ->
    (exists x' w' f', times (jacobi_step rops dbg stray a b) k (x, w) = Ok (x', w') /\ is_vec n x' f' /\
       column_error n A f' xs <= q ^ k * column_error n A f xs) /\
    (exists x' f', times (gauss_seidel_step rops dbg stray a b) k (x, w) = Ok (x', w) /\ is_vec n x' f' /\
       column_error n A f' xs <= q ^ k * / (1 - q) * column_error n A f xs).
Proof. exact column_runs. Qed.
Print Assumptions C122_columns.

Ltac entries := cbn -[IZR Rabs Rplus Rmult Ropp Rinv Rdiv Rminus].
Ltac sides := repeat match goal with |- context [Rabs ?x] => first [rewrite (Rabs_pos_eq x) by lra | rewrite (Rabs_left x) by lra] end; lra.

(** (1 -3; -1/8 1) is dominant with the factor 3/4 for v = (4, 1), but not for v = (1, 1). *)
Example C122_hypotheses : let A := fun i j => lookup 0 (nth i (two_rows 1 (- 3) (- / 8) 1) []) j in
  sparse_square 0 2 (two 1 (- 3) (- / 8) 1) A /\ scaled_dominance 2 A (fun i => if (i =? 0)%nat then 4 else 1) (3 / 4) /\
  ~ (exists q, q < 1 /\ scaled_dominance 2 A (fun _ => 1) q) /\
  solves rops 2 A (fun i => if (i =? 0)%nat then 8 else 1) (fun i => if (i =? 0)%nat then 5 else 0).
Proof.
  intro A. split; [apply two_square|]. split; [|split].
  - split; [lra|]. intros [|[|i]] Hi; try lia; unfold A; entries; (split; [lra|]); (split; [lra|]); sides.
  - intros (q & Hq & _ & H). destruct (H 0%nat ltac:(lia)) as (_ & _ & G). unfold A in G. revert G; entries.
    rewrite (Rabs_left (- 3)), (Rabs_pos_eq 1) by lra. lra.
  - intros [|[|i]] Hi; try lia; unfold A; entries; cbn [rops sc_zero sc_add sc_mul]; lra.
Qed.

(** (4 1; 1 4): the factor 1/4 is below a third; its columns dominate too. *)
Example C122_sor_hypotheses : let A := fun i j => lookup 0 (nth i (two_rows 4 1 1 4) []) j in
  sparse_square 0 2 (two 4 1 1 4) A /\ scaled_dominance 2 A (fun _ => 1) (/ 4) /\ / 4 < / 3 /\ column_dominance 2 A (/ 4).
Proof.
  intro A. split; [apply two_square|]. split; [|split; [lra|]]; (split; [lra|]);
    intros [|[|i]] Hi; try lia; unfold A; entries; repeat (split; [lra|]); sides.
Qed.

(** With c = 1/2 the matrix of [C122_sor_limit] is dominant: Jacobi and GaussSeidel converge, SOR does not. *)
Example C122_limit_hypotheses : let A := fun i j => lookup 0 (nth i (two_rows 1 (/ 2) (- / 2) 1) []) j in
  sparse_square 0 2 (two 1 (/ 2) (- / 2) 1) A /\ scaled_dominance 2 A (fun _ => 1) (/ 2) /\ / 2 < 1 /\ / 3 < / 2.
Proof.
  intro A. split; [apply two_square|]. split; [|split; lra]. split; [lra|].
  intros [|[|i]] Hi; try lia; unfold A; entries; repeat (split; [lra|]); sides.
Qed.
