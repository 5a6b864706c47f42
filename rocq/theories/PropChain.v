(** Property C123: sweeps on weakly dominant systems, connected graphs, lines and grids, in exact arithmetic.
    [weak_rows]: every diagonal element is at least the sum of the others of its row; [chain n A k i]: elements that are not
    zero lead in [k] steps from row [i] to a row whose diagonal is larger; [loses dbg stray n a b xs v r]: Jacobi and
    GaussSeidel lose the factor [r] per sweep, measured with [v]; [sor_reaches]: SOR converges. *)
From Coq Require Import ZArith Reals Lra Lia List.
From Verif Require Import Base DenseModel DenseFacts ScalarModel GeometryReal GraphModel GraphSpec SparseModel SparseSpec
  IterModel IterFacts IterLoop IterField Energy PropIterLemmas PropSuccessLemmas PropRelaxLemmas PropChainLemmas.
Import ListNotations.
Local Open Scope R_scope.

(** ** C123 *)

Theorem C123_scaling : forall n A, chained n A -> exists v q, q < 1 /\ scaled_dominance n A v q.
Proof. exact chained_scaled. Qed.
Print Assumptions C123_scaling.

Theorem C123_converges : forall dbg stray n a A b h, sparse_square 0 n a A -> is_vec n b h -> chained n A ->
  exists xs, solves rops n A xs h /\ (forall ys, solves rops n A ys h -> forall i, (i < n)%nat -> ys i = xs i) /\
  forall x, length x = n -> forall eps, 0 < eps -> exists K, forall k, (K <= k)%nat ->
    (forall w, length w = n -> exists x' w' f', times (jacobi_step rops dbg stray a b) k (x, w) = Ok (x', w') /\
       is_vec n x' f' /\ near n f' xs eps) /\
    (exists x' f', times (gauss_seidel_step rops dbg stray a b) k (x, []) = Ok (x', []) /\ is_vec n x' f' /\ near n f' xs eps).
Proof. exact chained_converges. Qed.
Print Assumptions C123_converges.

(** Symmetric matrices: SOR too, whatever the dominance. *)
Theorem C123_sor : forall dbg stray n a A b h, sparse_square 0 n a A -> is_vec n b h -> chained n A -> symmetric n A ->
  (forall i, (i < n)%nat -> 0 < A i i) ->
  positive_definite n A /\
  exists xs, solves rops n A xs h /\ (forall ys, solves rops n A ys h -> forall i, (i < n)%nat -> ys i = xs i) /\
  forall x, length x = n -> forall eps, 0 < eps -> exists K, forall k, (K <= k)%nat ->
    exists x' f', times (sor_step rops dbg stray a b) k (x, []) = Ok (x', []) /\ is_vec n x' f' /\ near n f' xs eps.
Proof. exact chained_sor. Qed.
Print Assumptions C123_sor.

(** A matrix with an element for every edge of a connected graph, directed or not. *)
Theorem C123_connected : forall d g dbg stray a A b h i0, well_formed d g -> connected g -> let n := size_vertex g in
  (forall i j, edge g i j -> A i j <> 0) -> weak_rows n A -> (i0 < n)%nat -> off_diagonal n A i0 < Rabs (A i0 i0) ->
  sparse_square 0 n a A -> is_vec n b h ->
  exists xs, solves rops n A xs h /\ (forall ys, solves rops n A ys h -> forall i, (i < n)%nat -> ys i = xs i) /\
  forall x, length x = n -> forall eps, 0 < eps -> exists K, forall k, (K <= k)%nat ->
    (forall w, length w = n -> exists x' w' f', times (jacobi_step rops dbg stray a b) k (x, w) = Ok (x', w') /\
       is_vec n x' f' /\ near n f' xs eps) /\
    (exists x' f', times (gauss_seidel_step rops dbg stray a b) k (x, []) = Ok (x', []) /\ is_vec n x' f' /\ near n f' xs eps).
Proof. exact irreducible_converges. Qed.
Print Assumptions C123_connected.

(** The matrix of a connected graph held down at one vertex or more: all three solvers. *)
Theorem C123_grounded : forall dbg stray g c a A b h i0, well_formed false g -> connected g -> grounded g c A ->
  (forall i, (i < size_vertex g)%nat -> 0 <= c i) -> (i0 < size_vertex g)%nat -> 0 < c i0 ->
  let n := size_vertex g in sparse_square 0 n a A -> is_vec n b h ->
  exists xs, solves rops n A xs h /\ (forall ys, solves rops n A ys h -> forall i, (i < n)%nat -> ys i = xs i) /\
    (exists v q, (forall i, (i < n)%nat -> 0 < v i) /\ 0 <= q < 1 /\ loses dbg stray n a b xs v q) /\
    sor_reaches dbg stray n a b xs.
Proof. exact grounded_converges. Qed.
Print Assumptions C123_grounded.

(** The line of the generator with 2 on the diagonal, the grid with 4: the factor is 1 - 4/(n + 1)^2. *)
Theorem C123_line : forall M dbg stray n g a A b h, (2 <= n)%nat -> create_graph_line M dbg false n = Ok g -> stencil g 2 A ->
  sparse_square 0 n a A -> is_vec n b h ->
  exists xs, solves rops n A xs h /\ (forall ys, solves rops n A ys h -> forall i, (i < n)%nat -> ys i = xs i) /\
    loses dbg stray n a b xs (fun i => (INR i + 1) * (INR n - INR i)) (1 - 4 / (INR n + 1) ^ 2) /\
    sor_reaches dbg stray n a b xs.
Proof. exact line_rates. Qed.
Print Assumptions C123_line.

Theorem C123_grid : forall dbg stray n g a A b h, (2 <= n)%nat -> create_graph_structured dbg false n = Ok g -> stencil g 4 A ->
  sparse_square 0 (n * n) a A -> is_vec (n * n) b h ->
  exists xs, solves rops (n * n) A xs h /\ (forall ys, solves rops (n * n) A ys h -> forall i, (i < n * n)%nat -> ys i = xs i) /\
    loses dbg stray (n * n) a b xs
      (fun i => (INR (i / n) + 1) * (INR n - INR (i / n)) * ((INR (i mod n) + 1) * (INR n - INR (i mod n)))) (1 - 4 / (INR n + 1) ^ 2) /\
    sor_reaches dbg stray (n * n) a b xs.
Proof. exact grid_rates. Qed.
Print Assumptions C123_grid.

(** Without a row that dominates there need be no convergence: (1 -1; -1 1). *)
Theorem C123_swing : forall dbg stray k, times (jacobi_step rops dbg stray (two 1 (- 1) (- 1) 1) [0; 0]) k ([1; 0], [0; 1]) =
  Ok (if Nat.even k then ([1; 0], [0; 1]) else ([0; 1], [1; 0])).
Proof. exact swing_runs. Qed.
Print Assumptions C123_swing.

Ltac entries := cbn -[IZR INR Rabs Rplus Rmult Ropp Rinv Rdiv Rminus].
Ltac sides := repeat match goal with |- context [Rabs ?x] => first [rewrite (Rabs_pos_eq x) by lra | rewrite (Rabs_left x) by lra] end; lra.

(** (1 -1; -1 2): only the second row dominates; the first leads to it. *)
Example C123_hypotheses : let A := fun i j => lookup 0 (nth i (two_rows 1 (- 1) (- 1) 2) []) j in
  sparse_square 0 2 (two 1 (- 1) (- 1) 2) A /\ chained 2 A /\ ~ off_diagonal 2 A 0 < Rabs (A 0%nat 0%nat) /\
  symmetric 2 A /\ (forall i, (i < 2)%nat -> 0 < A i i).
Proof.
  intro A. assert (S : chain 2 A 0 1) by (apply chain_0; [lia|]; unfold off_diagonal, A; entries; sides).
  split; [apply two_square|]. split; [|split; [|split]].
  - split; [intros [|[|i]] Hi; try lia; unfold off_diagonal, A; entries; (split; [lra|sides])|].
    intros [|[|i]] Hi; try lia; [exists 1%nat; apply (chain_S _ _ 0 0 1); auto; unfold A; entries; lra|exists 0%nat; exact S].
  - unfold off_diagonal, A. entries. apply Rle_not_lt. sides.
  - intros [|[|i]] [|[|j]] Hi Hj; try lia; reflexivity.
  - intros [|[|i]] Hi; try lia; unfold A; entries; lra.
Qed.

(** The same matrix for the connected graph of one edge, the second vertex held down by 1. *)
Example C123_grounded_hypotheses : let g := mkG [1; 0]%nat [0; 1; 2]%nat in
  let A := fun i j => lookup 0 (nth i (two_rows 1 (- 1) (- 1) 2) []) j in
  well_formed false g /\ connected g /\ grounded g (fun i => INR i) A.
Proof.
  intros g A. split; [|split].
  - exists [[1]; [0]]%nat. split; [left; split; reflexivity|]. intros [|[|i]] Hi; cbn in Hi; try lia; cbn;
      (split; [repeat constructor|split; [intros j [<-|[]]; lia|intros _ j [<-|[]]; cbn; auto]]).
  - assert (E : edge g 0 1 /\ edge g 1 0) by (repeat split; cbn; auto). destruct E as (E1 & E2).
    intros [|[|u]] [|[|v]] Hu Hv; cbn in Hu, Hv; try lia; [exists 0%nat; constructor|exists 1%nat|exists 1%nat|exists 0%nat; constructor];
      eapply walk_S; eauto; constructor.
  - intros i j Hi Hj.
    assert (E : forall i j, (i < 2)%nat -> edge g i j <-> In j (row g i)) by (intros u v Hu; split; [intros (_ & H); exact H|intro H; split; auto]).
    destruct i as [|[|i]], j as [|[|j]]; cbn in Hi, Hj; try lia; unfold A; entries; rewrite E by lia; cbn -[IZR Rplus Ropp];
      (split; [|split]); intros; try lia; try reflexivity; try lra; exfalso; intuition lia.
Qed.

(** The matrix of the line of two vertices, and that of the two by two grid. *)
Example C123_line_hypotheses : exists g, create_graph_line 100 true false 2 = Ok g /\
  let A := fun i j => lookup 0 (nth i (two_rows 2 (- 1) (- 1) 2) []) j in stencil g 2 A /\ sparse_square 0 2 (two 2 (- 1) (- 1) 2) A.
Proof.
  eexists. split; [reflexivity|]. intro A. split; [|apply two_square]. set (g := mkG _ _).
  intros i j Hi Hj.
  assert (E : forall i j, (i < 2)%nat -> edge g i j <-> In j (row g i)) by (intros u v Hu; split; [intros (_ & H); exact H|intro H; split; auto]).
  destruct i as [|[|i]], j as [|[|j]]; cbn in Hi, Hj; try lia; unfold A; entries; rewrite E by lia; cbn -[IZR Rplus Ropp];
    (split; [|split]); intros; try lia; try reflexivity; exfalso; intuition lia.
Qed.

Example C123_grid_hypotheses : let m := - 1 in let f := 4 in
  let rs := [[(0, f); (1, m); (2, m)]; [(0, m); (1, f); (3, m)]; [(0, m); (2, f); (3, m)]; [(1, m); (2, m); (3, f)]]%nat in
  let A := fun i j => lookup 0 (nth i rs []) j in
  stencil (mkG [1; 2; 0; 3; 0; 3; 1; 2] [0; 2; 4; 6; 8])%nat 4 A /\
  create_graph_structured true false 2 = Ok (mkG [1; 2; 0; 3; 0; 3; 1; 2] [0; 2; 4; 6; 8])%nat /\
  sparse_square 0 4 (mkS [0; 3; 6; 9; 12]%nat [0; 1; 2; 0; 1; 3; 0; 2; 3; 1; 2; 3]%nat [f; m; m; m; f; m; m; f; m; m; m; f] 4) A.
Proof.
  intros m f rs A. split; [|split; [reflexivity|]].
  - set (g := mkG _ _). intros i j Hi Hj.
    assert (E : forall i j, (i < 4)%nat -> edge g i j <-> In j (row g i)) by (intros u v Hu; split; [intros (_ & H); exact H|intro H; split; auto]).
    destruct i as [|[|[|[|i]]]], j as [|[|[|[|j]]]]; cbn in Hi, Hj; try lia; unfold A; entries; rewrite E by lia; cbn;
      (split; [|split]); intros; try lia; try reflexivity; exfalso; intuition lia.
  - assert (R : srepr (mkS [0; 3; 6; 9; 12]%nat [0; 1; 2; 0; 1; 3; 0; 2; 3; 1; 2; 3]%nat [f; m; m; m; f; m; m; f; m; m; m; f] 4) rs /\ srows_ok 4 rs).
    { split; [split; [left; reflexivity|split; reflexivity]|].
      intros [|[|[|[|i]]]] Hi; cbn in Hi; try lia; cbn; (split; [repeat constructor; lia|]); intros j [<-|[<-|[<-|[]]]]; lia. }
    destruct R as (R1 & R2). split; [exists rs; auto|]. split; [reflexivity|]. split; [reflexivity|]. apply represents_rows; auto.
Qed.
