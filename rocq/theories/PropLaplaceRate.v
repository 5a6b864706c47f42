(** Property C152: how many iterations Jacobi and Gauss-Seidel need on the system of the class Laplace_2D (see C150).
    [spacing n]: 1 / (n - 1), the distance of the nodes. *)
From Coq Require Import ZArith Reals Lra Lia List.
From Verif Require Import Base DenseModel DenseFacts ScalarModel GeometryReal SparseModel SparseSpec LuModel IterModel IterLoop IterField
  PropIterLemmas SourceError SourceSolved LaplaceModel LaplaceReal LaplaceRate.
Import ListNotations.
Local Open Scope R_scope.

(** ** C152 *)

(** The error after [k] iterations is at most twice the first error times (1 - spacing ^ 2) ^ k; every (n - 1)^2 iterations halve the bound. *)
Theorem C152_iterations : forall M dbg stray N a A0 b x, (9 <= N)%nat -> sparse_square 0 N a A0 -> length b = N -> length x = N ->
  let n := Nat.sqrt N in exists a' b' us, (exists x', construct_sparse rops M dbg stray a b x = Ok (a', b', x')) /\ five_points N us /\
  forall y g e, is_vec N y g -> 0 <= e -> (forall i, (i < N)%nat -> Rabs (g i - us i) <= e) -> forall k,
    (forall w, length w = N -> exists y' w' f, times (jacobi_step rops dbg stray a' b') k (y, w) = Ok (y', w') /\ is_vec N y' f /\
       forall i, (i < N)%nat -> Rabs (f i - us i) <= 2 * e * (1 - spacing n ^ 2) ^ k /\ forall m, (k = m * ((n - 1) * (n - 1)))%nat -> Rabs (f i - us i) <= 2 * e / 2 ^ m) /\
    (exists y' f, times (gauss_seidel_step rops dbg stray a' b') k (y, []) = Ok (y', []) /\ is_vec N y' f /\
       forall i, (i < N)%nat -> Rabs (f i - us i) <= 2 * e * (1 - spacing n ^ 2) ^ k /\ forall m, (k = m * ((n - 1) * (n - 1)))%nat -> Rabs (f i - us i) <= 2 * e / 2 ^ m).
Proof. exact laplace_speed. Qed.
Print Assumptions C152_iterations.

(** Nine nodes, a matrix that held 5 in the row of the middle: every iteration takes off a quarter of the bound, four halve it; the start is zero, with an error of
    at most 1. *)
Example C152_hypotheses : sparse_square 0 9 (holding 5) (fun i j => if ((i =? 4) && (j =? 0))%nat%bool then 5 else 0) /\ length (repeat 0 9) = 9%nat /\
  Nat.sqrt 9 = 3%nat /\ 1 - spacing 3 ^ 2 = 3 / 4 /\ is_vec 9 (repeat 0 9) (fun _ => 0) /\ five_points 9 middle /\ forall i, (i < 9)%nat -> Rabs (0 - middle i) <= 1.
Proof.
  split; [apply holding_square|]. split; [reflexivity|]. split; [reflexivity|]. split; [unfold spacing; cbn [INR]; field|]. split.
  { split; [reflexivity|]. intros i Hi. do 9 (destruct i as [|i]; [reflexivity|]). lia. }
  split; [apply (five_points_square 3), middle_discretised; lia|]. intros i Hi.
  unfold middle. apply Rabs_le. do 9 (destruct i as [|i]; [cbn; lra|]). lia.
Qed.
