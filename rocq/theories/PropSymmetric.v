(** Property C141: when the iterations on a symmetric matrix with a positive diagonal converge from every start, over
    the reals. [mirrored A] is [A] with the signs of the entries outside of the diagonal turned; [weighted n A e] is
    the sum of the A_ii e_i^2; [approaches n step s xs] says that the iterates of [step] from [s] converge to [xs]. *)
From Coq Require Import ZArith Reals Lra Lia.
From Verif Require Import Base DenseModel DenseFacts ScalarModel GeometryReal SparseModel SparseSpec LuModel
  LuReal PropLuLemmas IterModel IterFacts IterLoop IterField IterReal PropIterLemmas Energy PropEnergyLemmas EnergyDrift
  SymmetricJacobi PropSymmetricLemmas.
Local Open Scope nat_scope.

(** ** C141 *)

(** One step of Jacobi changes the energy of the error by the mirrored energy of the change. *)
Theorem C141_energy : forall dbg stray n a A b h, sparse_square 0%R n a A -> is_vec n b h -> symmetric n A ->
  (forall i, i < n -> (0 < A i i)%R) -> forall xs, solves rops n A xs h ->
  forall x u f, is_vec n x f -> length u = n ->
  exists x' f', jacobi_step rops dbg stray a b (x, u) = Ok (x', x) /\ is_vec n x' f' /\
    (energy n A (fun i => f' i - xs i) =
     energy n A (fun i => f i - xs i) - energy n (mirrored A) (fun i => f' i - f i))%R.
Proof. exact jacobi_energy. Qed.
Print Assumptions C141_energy.

Theorem C141_rate : forall dbg stray n a A b h, sparse_square 0%R n a A -> is_vec n b h -> symmetric n A ->
  (forall i, i < n -> (0 < A i i)%R) -> forall xs, solves rops n A xs h ->
  positive_definite n A -> positive_definite n (mirrored A) -> exists q, (0 <= q < 1)%R /\
  forall k x u f, is_vec n x f -> length u = n ->
    exists x' u' f', times (jacobi_step rops dbg stray a b) k (x, u) = Ok (x', u') /\ is_vec n x' f' /\
      (energy n A (fun i => f' i - xs i) <= q ^ k * energy n A (fun i => f i - xs i))%R.
Proof. exact jacobi_rate. Qed.
Print Assumptions C141_rate.

(** A start in a direction where either form is not positive is never left for the better. *)
Theorem C141_away : forall dbg stray n a A b h, sparse_square 0%R n a A -> is_vec n b h -> symmetric n A ->
  (forall i, i < n -> (0 < A i i)%R) -> forall xs, solves rops n A xs h ->
  forall x u f, is_vec n x f -> length u = n -> (exists i, i < n /\ f i <> xs i) ->
  (energy n A (fun i => f i - xs i) <= 0 \/ energy n (mirrored A) (fun i => f i - xs i) <= 0)%R ->
  (0 < weighted n A (fun i => f i - xs i))%R /\
  forall k, exists x' u' f', times (jacobi_step rops dbg stray a b) k (x, u) = Ok (x', u') /\ is_vec n x' f' /\
    (weighted n A (fun i => f i - xs i) <= weighted n A (fun i => f' i - xs i))%R.
Proof. exact jacobi_away. Qed.
Print Assumptions C141_away.

Theorem C141_jacobi : forall dbg stray n a A b h, sparse_square 0%R n a A -> is_vec n b h -> symmetric n A ->
  (forall i, i < n -> (0 < A i i)%R) -> forall xs, solves rops n A xs h ->
  ((forall x u, length x = n -> length u = n -> approaches n (jacobi_step rops dbg stray a b) (x, u) xs) <->
   positive_definite n A /\ positive_definite n (mirrored A)).
Proof. exact jacobi_exactly. Qed.
Print Assumptions C141_jacobi.

Theorem C141_gauss_seidel : forall dbg stray n a A b h, sparse_square 0%R n a A -> is_vec n b h -> symmetric n A ->
  (forall i, i < n -> (0 < A i i)%R) -> forall xs, solves rops n A xs h ->
  ((forall x u, length x = n -> approaches n (gauss_seidel_step rops dbg stray a b) (x, u) xs) <->
   positive_definite n A).
Proof. exact seidel_exactly. Qed.
Print Assumptions C141_gauss_seidel.

Theorem C141_sor : forall dbg stray n a A b h, sparse_square 0%R n a A -> is_vec n b h -> symmetric n A ->
  (forall i, i < n -> (0 < A i i)%R) -> forall xs, solves rops n A xs h ->
  ((forall x u, length x = n -> approaches n (sor_step rops dbg stray a b) (x, u) xs) <-> positive_definite n A).
Proof. exact sor_exactly. Qed.
Print Assumptions C141_sor.

Theorem C141_jacobi_implies : forall dbg stray n a A b h, sparse_square 0%R n a A -> is_vec n b h -> symmetric n A ->
  (forall i, i < n -> (0 < A i i)%R) -> forall xs, solves rops n A xs h ->
  (forall x u, length x = n -> length u = n -> approaches n (jacobi_step rops dbg stray a b) (x, u) xs) ->
  (forall x u, length x = n -> approaches n (gauss_seidel_step rops dbg stray a b) (x, u) xs) /\
  (forall x u, length x = n -> approaches n (sor_step rops dbg stray a b) (x, u) xs).
Proof. exact jacobi_implies. Qed.
Print Assumptions C141_jacobi_implies.

(** Not the other way round: 5 on the diagonal, 4 elsewhere and 13 on the right. *)
Theorem C141_not_conversely : forall dbg stray, let b := [13; 13; 13]%R in
  (forall x u, length x = 3 -> approaches 3 (gauss_seidel_step rops dbg stray close b) (x, u) (fun _ => 1%R)) /\
  (forall x u, length x = 3 -> approaches 3 (sor_step rops dbg stray close b) (x, u) (fun _ => 1%R)) /\
  ~ approaches 3 (jacobi_step rops dbg stray close b) ([0; 0; 0]%R, [0; 0; 0]%R) (fun _ => 1%R).
Proof. exact close_splits. Qed.
Print Assumptions C141_not_conversely.

Example C141_hypotheses : sparse_square 0%R 3 close close_entry /\ is_vec 3 [13; 13; 13]%R (fun _ => 13%R) /\
  symmetric 3 close_entry /\ (forall i, i < 3 -> (0 < close_entry i i)%R) /\
  solves rops 3 close_entry (fun _ => 1%R) (fun _ => 13%R) /\ positive_definite 3 close_entry /\
  energy 3 (mirrored close_entry) (fun _ => 1%R) = (- 9)%R.
Proof.
  split; [apply close_square|]. split.
  { split; [reflexivity|]. intros [|[|[|i]]] Hi; try lia; reflexivity. }
  split; [apply close_symmetric|]. split; [apply close_diagonal|]. split; [apply close_solves|].
  split; [apply close_positive|apply close_mirrored].
Qed.

(** Both forms of (2 1; 1 2) are positive. *)
Example C141_both : let A := fun i j => lookup 0%R (nth i (two_rows 2 1 1 2)%R []) j in
  sparse_square 0%R 2 (two 2 1 1 2)%R A /\ symmetric 2 A /\ positive_definite 2 A /\ positive_definite 2 (mirrored A).
Proof.
  split; [apply two_square|]. split; [|split].
  - intros [|[|i]] [|[|j]] Hi Hj; try lia; reflexivity.
  - intros e (i & Hi & He). unfold energy. cbn. pose proof (Rlt_0_sqr _ He) as H0. pose proof (Rle_0_sqr (e 0%nat + e 1%nat)).
    pose proof (Rle_0_sqr (e 0%nat)). pose proof (Rle_0_sqr (e 1%nat)). unfold Rsqr in *. destruct i as [|[|i]]; try lia; nra.
  - intros e (i & Hi & He). unfold energy. cbn. pose proof (Rlt_0_sqr _ He) as H0. pose proof (Rle_0_sqr (e 0%nat - e 1%nat)).
    pose proof (Rle_0_sqr (e 0%nat)). pose proof (Rle_0_sqr (e 1%nat)). unfold Rsqr in *. destruct i as [|[|i]]; try lia; nra.
Qed.
