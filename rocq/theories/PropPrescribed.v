(** Property C148: the iterative solvers on systems some of whose equations prescribe a value, in exact arithmetic.
    [prescribed n d A]: the equations of the unknowns in [d] hold no other unknown; [free_part d A] is the matrix without the rows
    and columns of these unknowns, one standing on their diagonal; [mirrored] turns the signs off the diagonal. The whole matrix need be neither symmetric nor dominant. *)
From Coq Require Import ZArith Reals Lra Lia List.
From Verif Require Import Base DenseModel DenseFacts ScalarModel GeometryReal SparseModel SparseSpec SparseSeq LuModel IterModel IterLoop IterField
  IterReal PropIterLemmas PropRelaxLemmas PropSuccessLemmas Energy SymmetricJacobi SourceModel SourceError Prescribed PrescribedRate PrescribedJacobi.
Import ListNotations.
Local Open Scope R_scope.

(** ** C148 *)

(** There is exactly one solution, and every start comes nearer to it by a fixed factor per iteration. *)
Theorem C148_rate : forall dbg stray n a A b h d, sparse_square 0 n a A -> is_vec n b h -> prescribed n d A ->
  symmetric n (free_part d A) -> positive_definite n (free_part d A) ->
  exists xs q, 0 <= q < 1 /\ (forall i, (i < n)%nat -> rsum n (fun j => A i j * xs j) = h i) /\
  (forall ys, (forall i, (i < n)%nat -> rsum n (fun j => A i j * ys j) = h i) -> forall i, (i < n)%nat -> ys i = xs i) /\
  forall x, length x = n -> exists C, 0 <= C /\ forall k,
    (exists x' f, times (gauss_seidel_step rops dbg stray a b) k (x, []) = Ok (x', []) /\ is_vec n x' f /\
       forall i, (i < n)%nat -> Rabs (f i - xs i) <= C * q ^ k) /\
    (exists x' f, times (sor_step rops dbg stray a b) k (x, []) = Ok (x', []) /\ is_vec n x' f /\
       forall i, (i < n)%nat -> Rabs (f i - xs i) <= C * q ^ k).
Proof. exact prescribed_rate. Qed.
Print Assumptions C148_rate.

(** So does Jacobi, when the matrix of the remaining unknowns is positive definite also after its signs are turned off the diagonal. *)
Theorem C148_jacobi : forall dbg stray n a A b h d, sparse_square 0 n a A -> is_vec n b h -> prescribed n d A ->
  symmetric n (free_part d A) -> positive_definite n (free_part d A) -> positive_definite n (mirrored (free_part d A)) ->
  exists xs q, 0 <= q < 1 /\ (forall i, (i < n)%nat -> rsum n (fun j => A i j * xs j) = h i) /\
  forall x, length x = n -> exists C, 0 <= C /\ forall k u, length u = n ->
    exists x' u' f, times (jacobi_step rops dbg stray a b) k (x, u) = Ok (x', u') /\ is_vec n x' f /\ forall i, (i < n)%nat -> Rabs (f i - xs i) <= C * q ^ k.
Proof. exact prescribed_jacobi. Qed.
Print Assumptions C148_jacobi.

(** On the Laplace problem with a source both come to the function it is made from, up to an eighth of the square of the spacing. *)
Theorem C148_source : forall M dbg stray n b, (3 <= n)%nat -> let N := (n * n)%nat in
  exists a b' q, run_ops 0 M dbg stray (source_matrix rops n) s_default = Ok a /\ source_b rops n b = Ok b' /\ 0 <= q < 1 /\
  forall x, length x = N -> exists C, 0 <= C /\ forall k,
    let reaches (f : nat -> R) := forall p r, (p < n)%nat -> (r < n)%nat ->
      - (C * q ^ k) <= f (r * n + p)%nat - true_u (INR p * spacing n) (INR r * spacing n) <= C * q ^ k + spacing n ^ 2 / 8 in
    (exists x' f, times (gauss_seidel_step rops dbg stray a b') k (x, []) = Ok (x', []) /\ is_vec N x' f /\ reaches f) /\
    (exists x' f, times (sor_step rops dbg stray a b') k (x, []) = Ok (x', []) /\ is_vec N x' f /\ reaches f).
Proof. exact source_reached. Qed.
Print Assumptions C148_source.

(** The matrix (2 0; -7 3), the first unknown prescribed: neither symmetric nor dominant. *)
Example C148_hypotheses : let A := fun i j => lookup 0 (nth i (two_rows 2 0 (-7) 3) []) j in let d := fun i => (i =? 0)%nat in
  sparse_square 0 2 (two 2 0 (-7) 3) A /\ prescribed 2 d A /\ symmetric 2 (free_part d A) /\ positive_definite 2 (free_part d A) /\
  positive_definite 2 (mirrored (free_part d A)) /\ ~ symmetric 2 A /\ ~ dominant 2 A.
Proof.
  split; [apply two_square|]. split; [|split; [|split; [|split; [|split]]]].
  - intros [|[|i]] Hi Hd; try lia; [|discriminate]. split; [cbn; lra|]. intros [|[|j]] Hj Hne; try lia. reflexivity.
  - intros [|[|i]] [|[|j]] Hi Hj; try lia; reflexivity.
  - intros e (i & Hi & He). unfold energy. cbn [asum].
    change (0 < 0 + e 0%nat * (0 + 1 * e 0%nat + 0 * e 1%nat) + e 1%nat * (0 + 0 * e 0%nat + 3 * e 1%nat)).
    pose proof (Rle_0_sqr (e 0%nat)). pose proof (Rle_0_sqr (e 1%nat)). pose proof (Rlt_0_sqr _ He). unfold Rsqr in *.
    destruct i as [|[|]]; [| |lia]; lra.
  - intros e (i & Hi & He). unfold energy. cbn [asum].
    change (0 < 0 + e 0%nat * (0 + 1 * e 0%nat + - 0 * e 1%nat) + e 1%nat * (0 + - 0 * e 0%nat + 3 * e 1%nat)).
    pose proof (Rle_0_sqr (e 0%nat)). pose proof (Rle_0_sqr (e 1%nat)). pose proof (Rlt_0_sqr _ He). unfold Rsqr in *.
    destruct i as [|[|]]; [| |lia]; lra.
  - intro H. specialize (H 0%nat 1%nat ltac:(lia) ltac:(lia)). revert H. cbn. lra.
  - intro H. unfold dominant in H. specialize (H 1%nat ltac:(lia)). revert H. cbn. intro H.
    unfold Rabs in H. repeat destruct Rcase_abs in H; lra.
Qed.
