(** Property C147: the Laplace problem with a source of the library's test of the solvers, in exact arithmetic: what is filled,
    how far its solution is from the function it is made from, and that the solvers find it.
    [true_u x y] is (x^2 - x^4)(y^4 - y^2), [second f x d] says that [d] is the second derivative of [f] at [x], [spacing n] is
    1 / (n - 1), [edge_of n x y] that the node lies on the boundary of the square; [discretised n u]: on the boundary [u] is
    [true_u], and inside the five point difference of [u] is minus the Laplacian of [true_u]. *)
From Coq Require Import ZArith Reals Lra Lia List.
From Verif Require Import Base DenseModel DenseFacts ScalarModel GeometryReal GraphModel SparseModel SparseSpec SparseSeq LuModel IterModel
  IterLoop IterField IterReal PropIterLemmas PropRelaxLemmas FloatFacts SourceModel SourceError SourceSolved.
Import ListNotations.
Local Open Scope R_scope.

(** ** C147 *)

(** The matrix and the right hand side are the five point equations; the start has the boundary values. *)
Theorem C147_filled : forall M dbg stray n b x, (3 <= n)%nat -> let N := (n * n)%nat in
  exists a A b' g x' f, run_ops 0 M dbg stray (source_matrix rops n) s_default = Ok a /\ sparse_square 0 N a A /\
    source_b rops n b = Ok b' /\ is_vec N b' g /\ source_x rops n x = Ok x' /\ is_vec N x' f /\
    (forall u, (forall i, (i < N)%nat -> rsum N (fun j => A i j * u j) = g i) <-> discretised n u) /\
    forall p q, (p < n)%nat -> (q < n)%nat -> let i := (q * n + p)%nat in
      (edge_of n p q -> f i = true_u (INR p * spacing n) (INR q * spacing n)) /\ (~ edge_of n p q -> f i = nth i x 0).
Proof. exact source_filled. Qed.
Print Assumptions C147_filled.

(** Their solution is nowhere below the function, and above it by at most an eighth of the square of the spacing. *)
Theorem C147_error : forall n u, (3 <= n)%nat -> discretised n u -> forall x y, (x < n)%nat -> (y < n)%nat ->
  let h := spacing n in let s := INR x * h in let t := INR y * h in let e := u (y * n + x)%nat - true_u s t in
  0 <= e /\ e <= h ^ 2 * (s * (1 - s) / 2) /\ e <= h ^ 2 * (t * (1 - t) / 2) /\ e <= h ^ 2 / 8.
Proof. exact source_error. Qed.
Print Assumptions C147_error.

(** There is exactly one solution, and Jacobi and Gauss-Seidel come as near to it as wanted from every start. *)
Theorem C147_solved : forall M dbg stray n b, (3 <= n)%nat -> let N := (n * n)%nat in
  exists a b' us, run_ops 0 M dbg stray (source_matrix rops n) s_default = Ok a /\ source_b rops n b = Ok b' /\
  discretised n us /\ (forall vs, discretised n vs -> forall i, (i < N)%nat -> vs i = us i) /\
  forall x, length x = N -> forall eps, 0 < eps -> exists K, forall k, (K <= k)%nat ->
    (forall w, length w = N -> exists x' w' f, times (jacobi_step rops dbg stray a b') k (x, w) = Ok (x', w') /\ is_vec N x' f /\ near N f us eps) /\
    (exists x' f, times (gauss_seidel_step rops dbg stray a b') k (x, []) = Ok (x', []) /\ is_vec N x' f /\ near N f us eps).
Proof. exact source_solved. Qed.
Print Assumptions C147_solved.

(** One unknown in the middle: the error is 3/256, and the bound 8/256. *)
Example C147_hypotheses : (3 <= 3)%nat /\ discretised 3 middle /\ middle (1 * 3 + 1) - true_u (INR 1 * spacing 3) (INR 1 * spacing 3) = 3 / 256 /\
  spacing 3 ^ 2 / 8 = 8 / 256.
Proof.
  split; [lia|]. split; [exact middle_discretised|]. unfold middle, true_u, spacing. cbn [Nat.mul Nat.add Nat.eqb INR]. split; field.
Qed.

(** In doubles the last node of a row need not lie at 1: with 50 by 50 nodes the values on that side are not zero. *)
Example C147_doubles : let '(x, _) := co_ordinate fops 49 50 in SpecFloat.SFltb x (f_of_Z 1) = true /\
  SpecFloat.SFeqb (analytical_solution fops (25 * 50 + 49) 50) (f_of_Z 0) = false /\ analytical_solution rops (25 * 50 + 49) 50 = 0.
Proof.
  cbv beta delta [co_ordinate]. split; [vm_compute; reflexivity|]. split; [vm_compute; reflexivity|].
  rewrite analytical_is by lia. unfold wanted, true_u, spacing. change ((25 * 50 + 49) mod 50)%nat with 49%nat.
  replace (INR 49 * / (INR 50 - 1)) with 1 by (rewrite !INR_IZR_INZ; cbn; field). ring.
Qed.
