(** Property C85: Gauss-Seidel and successive over-relaxation on symmetric systems, over the reals.
    [energy n A e] is the quadratic form e^T A e; [positive_definite n A] says that it is positive for every
    e that is not zero. *)
From Coq Require Import ZArith Reals Lra Lia.
From Verif Require Import Base DenseModel DenseFacts ScalarModel GeometryReal SparseModel SparseSpec LuModel
  LuReal PropLuLemmas IterModel IterFacts IterLoop IterField IterReal PropIterLemmas Energy PropEnergyLemmas.
Local Open Scope nat_scope.

(** ** C85 *)

Theorem C85_energy_decreases : forall dbg stray n a A b h xs x f w,
  sparse_square 0%R n a A -> is_vec n b h -> symmetric n A -> (forall i, i < n -> (0 < A i i)%R) -> (0 < w < 2)%R ->
  solves rops n A xs h -> is_vec n x f ->
  exists x' f', forward_sweep rops dbg stray a None x b w = Ok x' /\ is_vec n x' f' /\
    (energy n A (fun i => f' i - xs i) <= energy n A (fun i => f i - xs i))%R /\
    (energy n A (fun i => f' i - xs i) = energy n A (fun i => f i - xs i) -> solves rops n A f h)%R.
Proof. intros. eapply energy_decreases; eassumption. Qed.
Print Assumptions C85_energy_decreases.

Theorem C85_rate : forall dbg stray n a A b h, sparse_square 0%R n a A -> is_vec n b h -> symmetric n A ->
  positive_definite n A -> exists q, (0 <= q < 1)%R /\
  forall xs x f k, solves rops n A xs h -> is_vec n x f ->
    (exists x' f', times (gauss_seidel_step rops dbg stray a b) k (x, []) = Ok (x', []) /\ is_vec n x' f' /\
       (energy n A (fun i => f' i - xs i) <= q ^ k * energy n A (fun i => f i - xs i))%R) /\
    (exists x' f', times (sor_step rops dbg stray a b) k (x, []) = Ok (x', []) /\ is_vec n x' f' /\
       (energy n A (fun i => f' i - xs i) <= q ^ k * energy n A (fun i => f i - xs i))%R).
Proof. exact definite_rate. Qed.
Print Assumptions C85_rate.

Theorem C85_converges : forall dbg stray n a A b h, sparse_square 0%R n a A -> is_vec n b h -> symmetric n A ->
  positive_definite n A -> exists xs, solves rops n A xs h /\
  (forall ys, solves rops n A ys h -> forall i, i < n -> ys i = xs i) /\
  forall x, length x = n -> forall eps, (0 < eps)%R -> exists K, forall k, K <= k ->
    (exists x' f', times (gauss_seidel_step rops dbg stray a b) k (x, []) = Ok (x', []) /\
       is_vec n x' f' /\ forall i, i < n -> (Rabs (f' i - xs i) < eps)%R) /\
    (exists x' f', times (sor_step rops dbg stray a b) k (x, []) = Ok (x', []) /\
       is_vec n x' f' /\ forall i, i < n -> (Rabs (f' i - xs i) < eps)%R).
Proof. exact definite_converges. Qed.
Print Assumptions C85_converges.

(** The matrix (1 2; 2 5) is positive definite but not diagonally dominant. *)
Example C85_hypotheses : let A := fun i j => lookup 0%R (nth i (two_rows 1 2 2 5)%R []) j in
  sparse_square 0%R 2 (two 1 2 2 5)%R A /\ symmetric 2 A /\ positive_definite 2 A /\
  solves rops 2 A (fun i => if i =? 0 then 1 else 1)%R (fun i => if i =? 0 then 3 else 7)%R /\ ~ dominant 2 A.
Proof.
  split; [apply two_square|]. split; [|split; [|split]].
  - intros [|[|i]] [|[|j]] Hi Hj; try lia; reflexivity.
  - intros e (i & Hi & He). unfold energy. cbn [asum].
    change (0 < 0 + e 0%nat * (0 + 1 * e 0%nat + 2 * e 1%nat) + e 1%nat * (0 + 2 * e 0%nat + 5 * e 1%nat))%R.
    replace (0 + e 0%nat * (0 + 1 * e 0%nat + 2 * e 1%nat) + e 1%nat * (0 + 2 * e 0%nat + 5 * e 1%nat))%R with
      (Rsqr (e 0%nat + 2 * e 1%nat) + Rsqr (e 1%nat))%R by (unfold Rsqr; ring).
    destruct (Req_dec (e 1%nat) 0) as [E|E].
    + destruct i as [|[|]]; [|congruence|lia]. rewrite E. unfold Rsqr. replace (e 0%nat + 2 * 0)%R with (e 0%nat) by ring.
      pose proof (Rlt_0_sqr (e 0%nat) He). unfold Rsqr in H. lra.
    + pose proof (Rlt_0_sqr _ E). pose proof (Rle_0_sqr (e 0%nat + 2 * e 1%nat)). lra.
  - intros [|[|i]] Hi; [| |lia]; cbn; ring.
  - intro H. unfold dominant in H. specialize (H 0 ltac:(lia)). revert H. cbn. intro H.
    unfold Rabs in H. repeat destruct Rcase_abs in H; lra.
Qed.
