(** Property C151: dominance in the weak sense gives definiteness, and with it all three iterative solvers.
    [chained n A]: no row of [A] has more off its diagonal than on it, and from every row a path along entries that are not 0 leads to a row that has less
    (see C61); [prescribed n d A]: the rows marked by [d] prescribe their unknown (see C148), and [free_part d A] is the matrix of the other unknowns;
    [mirrored A]: [A] with the signs off its diagonal turned; [solver_stops]: see C149. *)
From Coq Require Import ZArith Reals Lra Lia List.
From Verif Require Import Base DenseModel DenseFacts ScalarModel GeometryReal SparseModel SparseSpec LuModel LuReal IterModel IterLoop IterField IterReal
  PropIterLemmas PropRelaxLemmas PropSuccessLemmas PropChainLemmas Energy SymmetricJacobi Prescribed StopReal SourceError LaplaceModel LaplaceReal WeakDefinite.
Import ListNotations.
Local Open Scope R_scope.

(** ** C151 *)

(** A symmetric matrix with a positive diagonal. *)
Theorem C151_definite : forall n A, symmetric n A -> chained n A -> (forall i, (i < n)%nat -> 0 < A i i) -> positive_definite n A.
Proof. exact weak_definite. Qed.
Print Assumptions C151_definite.

(** With unknowns whose values are prescribed. *)
Theorem C151_free : forall n d A, prescribed n d A -> symmetric n (free_part d A) -> chained n A -> (forall i, (i < n)%nat -> d i = false -> 0 < A i i) ->
  positive_definite n (free_part d A) /\ positive_definite n (mirrored (free_part d A)).
Proof. exact free_definite. Qed.
Print Assumptions C151_free.

(** So the three solvers come to the solution by a fixed factor per iteration, and meet every tolerance. *)
Theorem C151_rates : forall dbg stray n a A b h d, sparse_square 0 n a A -> is_vec n b h -> prescribed n d A -> symmetric n (free_part d A) -> chained n A ->
  (forall i, (i < n)%nat -> d i = false -> 0 < A i i) ->
  exists xs q, 0 <= q < 1 /\ (forall i, (i < n)%nat -> rsum n (fun j => A i j * xs j) = h i) /\
  forall x, length x = n -> exists C, 0 <= C /\ forall k,
    (forall w, length w = n -> exists x' w' f, times (jacobi_step rops dbg stray a b) k (x, w) = Ok (x', w') /\ is_vec n x' f /\
       forall i, (i < n)%nat -> Rabs (f i - xs i) <= C * q ^ k) /\
    (exists x' f, times (gauss_seidel_step rops dbg stray a b) k (x, []) = Ok (x', []) /\ is_vec n x' f /\
       forall i, (i < n)%nat -> Rabs (f i - xs i) <= C * q ^ k) /\
    (exists x' f, times (sor_step rops dbg stray a b) k (x, []) = Ok (x', []) /\ is_vec n x' f /\
       forall i, (i < n)%nat -> Rabs (f i - xs i) <= C * q ^ k).
Proof. exact weak_rates. Qed.
Print Assumptions C151_rates.

Theorem C151_stops : forall M dbg stray n a A b h d x tol, (0 < n)%nat -> sparse_square 0 n a A -> is_vec n b h -> prescribed n d A -> symmetric n (free_part d A) ->
  chained n A -> (forall i, (i < n)%nat -> d i = false -> 0 < A i i) -> length x = n -> 0 < tol ->
  (forall working, solver_stops M n A h tol (jacobi_step rops dbg stray a b (x, vresize working n 0))
     (fun lim fuel => do r <- jacobi_solve rops M dbg stray fuel lim working a x b; Ok (fst (fst r), snd r))) /\
  solver_stops M n A h tol (gauss_seidel_step rops dbg stray a b (x, [])) (fun lim fuel => gauss_seidel_solve rops M dbg stray fuel lim a x b) /\
  forall w, solver_stops M n A h tol (sor_step rops dbg stray a b (x, [])) (fun lim fuel => sor_solve rops M dbg stray fuel lim w a x b).
Proof. exact weak_stops. Qed.
Print Assumptions C151_stops.

(** The system of the class Laplace_2D (see C150), on any number of nodes: all three solvers, by a fixed factor per iteration. *)
Theorem C151_laplace : forall M dbg stray N a A0 b x, (9 <= N)%nat -> sparse_square 0 N a A0 -> length b = N -> length x = N ->
  exists a' A b' g us q, (exists x', construct_sparse rops M dbg stray a b x = Ok (a', b', x')) /\ sparse_square 0 N a' A /\ is_vec N b' g /\ five_points N us /\ 0 <= q < 1 /\
  forall y, length y = N ->
    (exists C, 0 <= C /\ forall k,
      (forall w, length w = N -> exists y' w' f, times (jacobi_step rops dbg stray a' b') k (y, w) = Ok (y', w') /\ is_vec N y' f /\
         forall i, (i < N)%nat -> Rabs (f i - us i) <= C * q ^ k) /\
      (exists y' f, times (gauss_seidel_step rops dbg stray a' b') k (y, []) = Ok (y', []) /\ is_vec N y' f /\
         forall i, (i < N)%nat -> Rabs (f i - us i) <= C * q ^ k) /\
      (exists y' f, times (sor_step rops dbg stray a' b') k (y, []) = Ok (y', []) /\ is_vec N y' f /\
         forall i, (i < N)%nat -> Rabs (f i - us i) <= C * q ^ k)) /\
    forall tol w, 0 < tol -> solver_stops M N A g tol (sor_step rops dbg stray a' b' (y, [])) (fun lim fuel => sor_solve rops M dbg stray fuel lim w a' y b').
Proof. exact laplace_rates. Qed.
Print Assumptions C151_laplace.

(** Three unknowns, the first with a prescribed value: two of the three rows have as much off the diagonal as on it, and the matrix is symmetric only without the
    first unknown. *)
Example C151_hypotheses : let d := fun i => (i =? 0)%nat in prescribed 3 d weak_three /\ symmetric 3 (free_part d weak_three) /\ chained 3 weak_three /\
  (forall i, (i < 3)%nat -> 0 < weak_three i i) /\ ~ symmetric 3 weak_three /\ weak_three 1 1 = off_diagonal 3 weak_three 1 /\ weak_three 2 2 = off_diagonal 3 weak_three 2.
Proof.
  cbv zeta. split; [|split; [|split; [exact weak_three_chained|split; [|split; [|split]]]]].
  - intros i Hi H. apply Nat.eqb_eq in H as ->. split; [cbn; lra|]. intros j Hj Hne. destruct j as [|[|[|j]]]; try lia; reflexivity.
  - intros i j Hi Hj. destruct i as [|[|[|i]]], j as [|[|[|j]]]; try lia; reflexivity.
  - intros i Hi. destruct i as [|[|[|i]]]; try lia; cbn; lra.
  - intro F. specialize (F 0%nat 1%nat ltac:(lia) ltac:(lia)). cbn in F. lra.
  - unfold off_diagonal. cbn [asum Nat.eqb weak_three]. rewrite Rabs_R1, Rabs_left by lra. lra.
  - unfold off_diagonal. cbn [asum Nat.eqb weak_three]. rewrite Rabs_R0, Rabs_left by lra. lra.
Qed.
