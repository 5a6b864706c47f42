(** Property C149: in exact arithmetic the iterative solvers meet their tolerance.
    [off_by n A h f i] is by how much [f] misses the equation [i]; [reduced n A h tol f1 f]: the root of the sum of the squares of
    these is for [f] at most [tol] times that for [f1], and each of them at most ten times [tol] times the largest for [f1].
    [solver_stops M n A h tol first solve]: when the first sweep, [first], does not satisfy all equations, there is a [K] such that
    with the tolerance [tol] and whatever largest number of iterations the solver is done after at most [K] iterations, or the
    smallest number asked for, and unless the largest number ended it the result is [reduced].
    A first sweep that satisfies all equations is excluded as the residuals are then divided by zero. *)
From Coq Require Import ZArith Reals Lra Lia List.
From Verif Require Import Base DenseModel DenseFacts ScalarModel GeometryReal SparseModel SparseSpec SparseSeq LuModel IterModel IterLoop IterField
  IterReal PropIterLemmas PropRelaxLemmas PropSuccessLemmas PropChainLemmas Energy SymmetricJacobi SourceModel SourceError Prescribed PrescribedRate StopReal PrescribedJacobi.
Import ListNotations.
Local Open Scope R_scope.

(** ** C149 *)

(** Gauss-Seidel and SOR on symmetric positive definite systems, values being prescribed to some of the unknowns, or to none. *)
Theorem C149_definite : forall M dbg stray n a A b h d x tol, (0 < n)%nat -> sparse_square 0 n a A -> is_vec n b h -> prescribed n d A ->
  symmetric n (free_part d A) -> positive_definite n (free_part d A) -> length x = n -> 0 < tol ->
  solver_stops M n A h tol (gauss_seidel_step rops dbg stray a b (x, [])) (fun lim fuel => gauss_seidel_solve rops M dbg stray fuel lim a x b) /\
  forall w, solver_stops M n A h tol (sor_step rops dbg stray a b (x, [])) (fun lim fuel => sor_solve rops M dbg stray fuel lim w a x b).
Proof. exact prescribed_stops. Qed.
Print Assumptions C149_definite.

(** Jacobi, when the matrix is positive definite also after its signs are turned off the diagonal. *)
Theorem C149_jacobi : forall M dbg stray n a A b h d x tol working, (0 < n)%nat -> sparse_square 0 n a A -> is_vec n b h -> prescribed n d A ->
  symmetric n (free_part d A) -> positive_definite n (free_part d A) -> positive_definite n (mirrored (free_part d A)) -> length x = n -> 0 < tol ->
  solver_stops M n A h tol (jacobi_step rops dbg stray a b (x, vresize working n 0))
    (fun lim fuel => do r <- jacobi_solve rops M dbg stray fuel lim working a x b; Ok (fst (fst r), snd r)).
Proof. exact prescribed_jacobi_stops. Qed.
Print Assumptions C149_jacobi.

(** Jacobi and Gauss-Seidel on dominant systems. *)
Theorem C149_dominant : forall M dbg stray n a A b h x tol, (0 < n)%nat -> sparse_square 0 n a A -> is_vec n b h -> chained n A -> length x = n -> 0 < tol ->
  (forall working, solver_stops M n A h tol (jacobi_step rops dbg stray a b (x, vresize working n 0))
     (fun lim fuel => do r <- jacobi_solve rops M dbg stray fuel lim working a x b; Ok (fst (fst r), snd r))) /\
  solver_stops M n A h tol (gauss_seidel_step rops dbg stray a b (x, [])) (fun lim fuel => gauss_seidel_solve rops M dbg stray fuel lim a x b).
Proof. exact chained_stops. Qed.
Print Assumptions C149_dominant.

(** All three on the Laplace problem with a source. *)
Theorem C149_source : forall M dbg stray n b x tol, (3 <= n)%nat -> length x = (n * n)%nat -> 0 < tol -> let N := (n * n)%nat in
  exists a A b' g, run_ops 0 M dbg stray (source_matrix rops n) s_default = Ok a /\ sparse_square 0 N a A /\ source_b rops n b = Ok b' /\ is_vec N b' g /\
  (forall working, solver_stops M N A g tol (jacobi_step rops dbg stray a b' (x, vresize working N 0))
     (fun lim fuel => do r <- jacobi_solve rops M dbg stray fuel lim working a x b'; Ok (fst (fst r), snd r))) /\
  solver_stops M N A g tol (gauss_seidel_step rops dbg stray a b' (x, [])) (fun lim fuel => gauss_seidel_solve rops M dbg stray fuel lim a x b') /\
  forall w, solver_stops M N A g tol (sor_step rops dbg stray a b' (x, [])) (fun lim fuel => sor_solve rops M dbg stray fuel lim w a x b').
Proof. exact source_stops. Qed.
Print Assumptions C149_source.

(** The system (2 -1; -1 2) (1, 1), no value prescribed: the first sweep from zero misses the first equation by 3/4. *)
Example C149_hypotheses : let A := fun i j => lookup 0 (nth i (two_rows 2 (-1) (-1) 2) []) j in let d := fun _ => false in let h := fun _ : nat => 1 in
  sparse_square 0 2 (two 2 (-1) (-1) 2) A /\ is_vec 2 [1; 1] h /\ prescribed 2 d A /\ symmetric 2 (free_part d A) /\ positive_definite 2 (free_part d A) /\
  positive_definite 2 (mirrored (free_part d A)) /\
  forall x1 w1 f1, gauss_seidel_step rops true None (two 2 (-1) (-1) 2) [1; 1] ([0; 0], []) = Ok (x1, w1) -> is_vec 2 x1 f1 -> off_by 2 A h f1 0 = 3 / 4.
Proof.
  split; [apply two_square|]. split; [split; [reflexivity|intros [|[|i]] Hi; try lia; reflexivity]|]. split; [intros i Hi E; discriminate|].
  split; [intros [|[|i]] [|[|j]] Hi Hj; try lia; reflexivity|]. split; [|split].
  - intros e (i & Hi & He). unfold energy. cbn [asum].
    change (0 < 0 + e 0%nat * (0 + 2 * e 0%nat + -1 * e 1%nat) + e 1%nat * (0 + -1 * e 0%nat + 2 * e 1%nat)).
    pose proof (Rle_0_sqr (e 0%nat - e 1%nat)). pose proof (Rle_0_sqr (e 0%nat)). pose proof (Rle_0_sqr (e 1%nat)). pose proof (Rlt_0_sqr _ He). unfold Rsqr in *.
    destruct i as [|[|]]; [| |lia]; nra.
  - intros e (i & Hi & He). unfold energy. cbn [asum].
    change (0 < 0 + e 0%nat * (0 + 2 * e 0%nat + - -1 * e 1%nat) + e 1%nat * (0 + - -1 * e 0%nat + 2 * e 1%nat)).
    pose proof (Rle_0_sqr (e 0%nat + e 1%nat)). pose proof (Rle_0_sqr (e 0%nat)). pose proof (Rle_0_sqr (e 1%nat)). pose proof (Rlt_0_sqr _ He). unfold Rsqr in *.
    destruct i as [|[|]]; [| |lia]; nra.
  - intros x1 w1 f1 E (L & V). cbn in E. injection E as <- _. pose proof (V 0%nat ltac:(lia)) as V0. pose proof (V 1%nat ltac:(lia)) as V1. cbn in V0, V1.
    injection V0 as V0. injection V1 as V1. unfold off_by. cbn. rewrite <- V0, <- V1.
    replace (1 - (0 + 2 * (1 * (1 - (0 + -1 * 0)) / 2 + (1 - 1) * 0) + -1 * (1 * (1 - (0 + -1 * (1 * (1 - (0 + -1 * 0)) / 2 + (1 - 1) * 0))) / 2 + (1 - 1) * 0))) with (3 / 4) by field.
    apply Rabs_pos_eq. lra.
Qed.
