(** A symmetric matrix with a positive diagonal that is dominant in the weak sense is positive definite, also with its signs turned off the diagonal. *)
From Coq Require Import ZArith Reals Lra Lia List Psatz.
From Verif Require Import Base ListFacts DenseModel DenseFacts ScalarModel GeometryReal SparseModel SparseSpec LuModel LuReal IterModel IterLoop IterField IterReal
  PropIterLemmas PropRelaxLemmas PropSuccessLemmas PropChainLemmas FloatFacts FloatUnit LuFloat Energy SymmetricJacobi Prescribed PrescribedRate PrescribedJacobi StopReal
  SourceError LaplaceModel LaplaceFacts LaplaceReal LaplaceSolved.
Import ListNotations.
Local Open Scope R_scope.

Lemma pair_nonneg a x y : 0 <= Rabs a * (x * x + y * y) + 2 * a * x * y.
Proof.
  destruct (Rle_lt_dec 0 a) as [H|H].
  - rewrite Rabs_pos_eq by exact H. replace (a * (x * x + y * y) + 2 * a * x * y) with (a * ((x + y) * (x + y))) by ring. apply Rmult_le_pos; [exact H|apply Rle_0_sqr].
  - rewrite Rabs_left by exact H. replace (- a * (x * x + y * y) + 2 * a * x * y) with (- a * ((x - y) * (x - y))) by ring. apply Rmult_le_pos; [lra|apply Rle_0_sqr].
Qed.

Lemma weak_definite n A : symmetric n A -> chained n A -> (forall i, (i < n)%nat -> 0 < A i i) -> positive_definite n A.
Proof.
  intros Hs (Hw & Hc) Hd e (i0 & Hi0 & He0). destruct (Rlt_le_dec 0 (energy n A e)) as [|L]; [assumption|exfalso; apply He0].
  set (P := fun i j => if (j =? i)%nat then 0 else Rabs (A i j)).
  set (T := fun i j => if (j =? i)%nat then 0 else Rabs (A i j) * (e i * e i + e j * e j) + 2 * A i j * e i * e j).
  assert (HT : forall i j, 0 <= T i j) by (intros i j; unfold T; destruct (j =? i)%nat; [lra|apply pair_nonneg]).
  assert (Hdiag : forall i, (i < n)%nat -> 0 <= A i i - off_diagonal n A i).
  { intros i Hi. destruct (Hw i Hi) as (_ & H). rewrite Rabs_pos_eq in H by (specialize (Hd i Hi); lra). lra. }
  assert (Q1 : forall i, (i < n)%nat -> rsum n (fun j => T i j) = off_diagonal n A i * (e i * e i) + rsum n (fun j => P i j * (e j * e j)) + 2 * (e i * rsum n (fun j => A i j * e j)) - 2 * A i i * (e i * e i)).
  { intros i Hi. rewrite (asum_ext _ _ n (fun j => T i j) (fun j => ((e i * e i) * P i j + P i j * (e j * e j)) + ((2 * e i) * (A i j * e j) + (if (i =? j)%nat then - (2 * A i i * (e i * e i)) else 0)))).
    - rewrite !rsum_plus, !rsum_scale, rsum_single, (proj2 (Nat.ltb_lt i n) Hi). unfold off_diagonal. change (P i) with (fun j => if (j =? i)%nat then 0 else Rabs (A i j)). ring.
    - intros j Hj. unfold T, P. rewrite (Nat.eqb_sym i j). destruct (Nat.eqb_spec j i) as [->|]; ring. }
  assert (Q2 : rsum n (fun i => rsum n (fun j => P i j * (e j * e j))) = rsum n (fun i => off_diagonal n A i * (e i * e i))).
  { rewrite rsum_exchange. apply asum_ext. intros j Hj. rewrite (asum_ext _ _ n (fun i => P i j * (e j * e j)) (fun i => (e j * e j) * P j i)).
    - rewrite rsum_scale. change (rsum n (P j)) with (off_diagonal n A j). ring.
    - intros i Hi. unfold P. rewrite (Nat.eqb_sym j i). destruct (i =? j)%nat; [ring|]. rewrite (Hs i j Hi Hj). ring. }
  assert (Q : 2 * energy n A e = rsum n (fun i => 2 * ((A i i - off_diagonal n A i) * (e i * e i)) + rsum n (fun j => T i j))).
  { rewrite (asum_ext _ _ n (fun i => 2 * ((A i i - off_diagonal n A i) * (e i * e i)) + rsum n (fun j => T i j))
      (fun i => (2 * (e i * rsum n (fun j => A i j * e j)) + rsum n (fun j => P i j * (e j * e j))) + (-1) * (off_diagonal n A i * (e i * e i)))).
    - rewrite !rsum_plus, !rsum_scale, Q2. unfold energy. ring.
    - intros i Hi. cbv beta. rewrite (Q1 i Hi). ring. }
  assert (Hrow : forall i, (i < n)%nat -> 2 * ((A i i - off_diagonal n A i) * (e i * e i)) + rsum n (fun j => T i j) <= 0).
  { intros i Hi. apply Rle_trans with (2 * energy n A e); [|lra]. rewrite Q.
    apply (rsum_member n (fun i => 2 * ((A i i - off_diagonal n A i) * (e i * e i)) + rsum n (fun j => T i j)) i Hi).
    intros j Hj. assert (0 <= rsum n (fun k => T j k)) by (apply rsum_nonneg; intros; apply HT).
    assert (0 <= (A j j - off_diagonal n A j) * (e j * e j)) by (apply Rmult_le_pos; [auto|apply Rle_0_sqr]). lra. }
  assert (K : forall k i, chain n A k i -> e i = 0).
  { intros k i C. induction C as [i Hi Hlt|k i j Hi Hne HA C IH].
    - specialize (Hrow i Hi). assert (0 <= rsum n (fun j => T i j)) by (apply rsum_nonneg; intros; apply HT).
      rewrite Rabs_pos_eq in Hlt by (specialize (Hd i Hi); lra). destruct (Req_dec (e i) 0) as [|F]; [assumption|exfalso].
      assert (0 < (A i i - off_diagonal n A i) * (e i * e i)) by (apply Rmult_lt_0_compat; [lra|apply Rsqr_pos_lt, F]). lra.
    - specialize (Hrow i Hi). assert (Hj : (j < n)%nat) by (destruct C; assumption).
      assert (0 <= (A i i - off_diagonal n A i) * (e i * e i)) by (apply Rmult_le_pos; [auto|apply Rle_0_sqr]).
      assert (T i j <= rsum n (fun j => T i j)) as M by (apply (rsum_member n (fun j => T i j) j Hj); intros; apply HT).
      unfold T in M at 1. destruct (Nat.eqb_spec j i) as [F|_]; [congruence|]. rewrite IH in M.
      destruct (Req_dec (e i) 0) as [|F]; [assumption|exfalso].
      assert (0 < Rabs (A i j) * (e i * e i)) by (apply Rmult_lt_0_compat; [apply Rabs_pos_lt, HA|apply Rsqr_pos_lt, F]). lra. }
  destruct (Hc i0 Hi0) as (k & C). exact (K k i0 C).
Qed.

(** The conditions do not see the signs off the diagonal. *)
Lemma mirrored_off n A i : off_diagonal n (mirrored A) i = off_diagonal n A i.
Proof.
  unfold off_diagonal. apply asum_ext. intros j _. unfold mirrored. destruct (Nat.eqb_spec j i) as [|Hne]; [reflexivity|].
  destruct (Nat.eqb_spec i j); [congruence|]. apply Rabs_Ropp.
Qed.

Lemma mirrored_chained n A : chained n A -> chained n (mirrored A).
Proof.
  assert (D : forall i, mirrored A i i = A i i) by (intro i; unfold mirrored; rewrite Nat.eqb_refl; reflexivity).
  intros (Hw & Hc). split.
  - intros i Hi. rewrite D, mirrored_off. apply Hw, Hi.
  - intros i Hi. destruct (Hc i Hi) as (k & C). exists k. clear Hi Hc. induction C as [i Hi H|k i j Hi Hne HA C IH].
    + apply chain_0; [exact Hi|]. rewrite D, mirrored_off. exact H.
    + apply (chain_S n _ k i j); auto. unfold mirrored. destruct (Nat.eqb_spec i j); [congruence|]. lra.
Qed.

(** Taking the unknowns with prescribed values out keeps dominance. *)
Lemma free_chained n d A : prescribed n d A -> chained n A -> chained n (free_part d A).
Proof.
  intros Hp (Hw & Hc).
  assert (D : forall i, free_part d A i i = if d i then 1 else A i i).
  { intro i. unfold free_part. rewrite Nat.eqb_refl. destruct (d i); reflexivity. }
  assert (T : forall i, d i = true -> off_diagonal n (free_part d A) i = 0).
  { intros i Hd. unfold off_diagonal. rewrite (asum_ext _ _ n _ (fun _ => 0 * 0)); [rewrite rsum_scale; ring|].
    intros j _. unfold free_part. rewrite Hd. cbn [orb]. rewrite (Nat.eqb_sym i j). destruct (j =? i)%nat; [ring|]. rewrite Rabs_R0. ring. }
  assert (Le : forall i j, d i = false -> (if (j =? i)%nat then 0 else Rabs (free_part d A i j)) <= if (j =? i)%nat then 0 else Rabs (A i j)).
  { intros i j Hd. rewrite (Nat.eqb_sym j i). destruct (i =? j)%nat eqn:E; [lra|]. unfold free_part. rewrite Hd, E. cbn [orb]. destruct (d j); [rewrite Rabs_R0; apply Rabs_pos|lra]. }
  assert (Off : forall i, d i = false -> off_diagonal n (free_part d A) i <= off_diagonal n A i).
  { intros i Hd. unfold off_diagonal. apply rsum_le. intros j _. apply Le, Hd. }
  assert (Start : forall i, (i < n)%nat -> d i = true -> chain n (free_part d A) 0 i).
  { intros i Hi Hd. apply chain_0; [exact Hi|]. rewrite D, Hd, (T i Hd), Rabs_R1. lra. }
  split.
  - intros i Hi. rewrite D. destruct (d i) eqn:Hd; [rewrite (T i Hd), Rabs_R1; split; lra|]. destruct (Hw i Hi) as (H1 & H2). split; [exact H1|]. specialize (Off i Hd). lra.
  - intros i Hi. destruct (Hc i Hi) as (k & C). clear Hi. induction C as [i Hi H|k i j Hi Hne HA C IH].
    + destruct (d i) eqn:Hd; [exists 0%nat; auto|]. exists 0%nat. apply chain_0; [exact Hi|]. rewrite D, Hd. specialize (Off i Hd). lra.
    + destruct (d i) eqn:Hd; [exists 0%nat; auto|]. assert (Hj : (j < n)%nat) by (destruct C; assumption). destruct (d j) eqn:Hdj.
      * exists 0%nat. apply chain_0; [exact Hi|]. rewrite D, Hd. destruct (Hw i Hi) as (_ & H2). apply Rlt_le_trans with (2 := H2).
        assert (G : Rabs (A i j) <= off_diagonal n A i - off_diagonal n (free_part d A) i).
        { unfold off_diagonal.
          replace (rsum n (fun j => if (j =? i)%nat then 0 else Rabs (A i j)) - rsum n (fun j => if (j =? i)%nat then 0 else Rabs (free_part d A i j)))
            with (rsum n (fun j => (if (j =? i)%nat then 0 else Rabs (A i j)) + (-1) * (if (j =? i)%nat then 0 else Rabs (free_part d A i j)))) by (rewrite rsum_plus, rsum_scale; ring).
          apply Rle_trans with ((fun j => (if (j =? i)%nat then 0 else Rabs (A i j)) + (-1) * (if (j =? i)%nat then 0 else Rabs (free_part d A i j))) j).
          - cbv beta. destruct (Nat.eqb_spec j i) as [F|_]; [congruence|]. unfold free_part. rewrite Hd, Hdj. cbn [orb]. destruct (Nat.eqb_spec i j); [congruence|]. rewrite Rabs_R0. lra.
          - apply (rsum_member n (fun j => (if (j =? i)%nat then 0 else Rabs (A i j)) + (-1) * (if (j =? i)%nat then 0 else Rabs (free_part d A i j))) j Hj).
            intros k' _. pose proof (Le i k' Hd). lra. }
        pose proof (Rabs_pos_lt _ HA). lra.
      * destruct IH as (k' & C'). exists (S k'). apply (chain_S n _ k' i j); auto. unfold free_part. rewrite Hd, Hdj. exact HA.
Qed.

Lemma free_definite n d A : prescribed n d A -> symmetric n (free_part d A) -> chained n A -> (forall i, (i < n)%nat -> d i = false -> 0 < A i i) ->
  positive_definite n (free_part d A) /\ positive_definite n (mirrored (free_part d A)).
Proof.
  intros Hp Hs Hc Hd. pose proof (free_chained n d A Hp Hc) as Hf.
  assert (Hdiag : forall i, (i < n)%nat -> 0 < free_part d A i i).
  { intros i Hi. unfold free_part. rewrite Nat.eqb_refl. destruct (d i) eqn:E; cbn [orb]; [lra|auto]. }
  split; [apply weak_definite; auto|]. apply weak_definite.
  - intros i j Hi Hj. unfold mirrored. rewrite (Nat.eqb_sym j i). destruct (Nat.eqb_spec i j) as [->|]; [reflexivity|]. rewrite (Hs i j Hi Hj). reflexivity.
  - apply mirrored_chained, Hf.
  - intros i Hi. unfold mirrored. rewrite Nat.eqb_refl. auto.
Qed.

(** So all three solvers come to the solution by a fixed factor per iteration. *)
Lemma weak_rates dbg stray n a A b h d : sparse_square 0 n a A -> is_vec n b h -> prescribed n d A -> symmetric n (free_part d A) -> chained n A ->
  (forall i, (i < n)%nat -> d i = false -> 0 < A i i) ->
  exists xs q, 0 <= q < 1 /\ (forall i, (i < n)%nat -> rsum n (fun j => A i j * xs j) = h i) /\
  forall x, length x = n -> exists C, 0 <= C /\ forall k,
    (forall w, length w = n -> exists x' w' f, times (jacobi_step rops dbg stray a b) k (x, w) = Ok (x', w') /\ is_vec n x' f /\
       forall i, (i < n)%nat -> Rabs (f i - xs i) <= C * q ^ k) /\
    (exists x' f, times (gauss_seidel_step rops dbg stray a b) k (x, []) = Ok (x', []) /\ is_vec n x' f /\
       forall i, (i < n)%nat -> Rabs (f i - xs i) <= C * q ^ k) /\
    (exists x' f, times (sor_step rops dbg stray a b) k (x, []) = Ok (x', []) /\ is_vec n x' f /\
       forall i, (i < n)%nat -> Rabs (f i - xs i) <= C * q ^ k).
Proof.
  intros Ha Hb Hp Hs Hc Hd. destruct (free_definite n d A Hp Hs Hc Hd) as (Hf & Hm).
  destruct (prescribed_rate dbg stray n a A b h d Ha Hb Hp Hs Hf) as (xs & q & Hq & Hx & Hu & H).
  destruct (prescribed_jacobi dbg stray n a A b h d Ha Hb Hp Hs Hf Hm) as (ys & q' & Hq' & Hy & H').
  exists xs, (Rmax q q'). split; [split; [apply Rle_trans with q; [apply Hq|apply Rmax_l]|apply Rmax_lub_lt; [apply Hq|apply Hq']]|]. split; [exact Hx|].
  intros x Lx. destruct (H x Lx) as (C & HC & G). destruct (H' x Lx) as (C' & HC' & G'). exists (Rmax C C').
  split; [apply Rle_trans with C; [exact HC|apply Rmax_l]|]. intro k.
  assert (B : forall c r, 0 <= c -> 0 <= r -> c <= Rmax C C' -> r <= Rmax q q' -> c * r ^ k <= Rmax C C' * Rmax q q' ^ k).
  { intros c r Q1 Q2 Q3 Q4. apply Rmult_le_compat; [exact Q1|apply pow_le, Q2|exact Q3|apply pow_incr; split; [exact Q2|exact Q4]]. }
  assert (B1 : C * q ^ k <= Rmax C C' * Rmax q q' ^ k) by (apply B; [exact HC|apply Hq|apply Rmax_l|apply Rmax_l]).
  assert (B2 : C' * q' ^ k <= Rmax C C' * Rmax q q' ^ k) by (apply B; [exact HC'|apply Hq'|apply Rmax_r|apply Rmax_r]).
  destruct (G k) as ((x1 & f1 & E1 & V1 & F1) & (x2 & f2 & E2 & V2 & F2)). split; [|split].
  - intros w Lw. destruct (G' k w Lw) as (x3 & w3 & f3 & E3 & V3 & F3). exists x3, w3, f3. split; [exact E3|]. split; [exact V3|].
    intros i Hi. rewrite <- (Hu ys Hy i Hi). apply Rle_trans with (1 := F3 i Hi), B2.
  - exists x1, f1. split; [exact E1|]. split; [exact V1|]. intros i Hi. apply Rle_trans with (1 := F1 i Hi), B1.
  - exists x2, f2. split; [exact E2|]. split; [exact V2|]. intros i Hi. apply Rle_trans with (1 := F2 i Hi), B1.
Qed.

Lemma weak_stops M dbg stray n a A b h d x tol : (0 < n)%nat -> sparse_square 0 n a A -> is_vec n b h -> prescribed n d A -> symmetric n (free_part d A) -> chained n A ->
  (forall i, (i < n)%nat -> d i = false -> 0 < A i i) -> length x = n -> 0 < tol ->
  (forall working, solver_stops M n A h tol (jacobi_step rops dbg stray a b (x, vresize working n 0))
     (fun lim fuel => do r <- jacobi_solve rops M dbg stray fuel lim working a x b; Ok (fst (fst r), snd r))) /\
  solver_stops M n A h tol (gauss_seidel_step rops dbg stray a b (x, [])) (fun lim fuel => gauss_seidel_solve rops M dbg stray fuel lim a x b) /\
  forall w, solver_stops M n A h tol (sor_step rops dbg stray a b (x, [])) (fun lim fuel => sor_solve rops M dbg stray fuel lim w a x b).
Proof.
  intros Hn Ha Hb Hp Hs Hc Hd Lx Ht. destruct (free_definite n d A Hp Hs Hc Hd) as (Hf & Hm).
  split; [intro working; apply (prescribed_jacobi_stops M dbg stray n a A b h d x tol working); assumption|].
  apply (prescribed_stops M dbg stray n a A b h d x tol); assumption.
Qed.

(** The matrix of the class Laplace_2D. *)
Section Laplace.
  Variable N : nat.
  Hypothesis HN : (9 <= N)%nat.
  Let d := l_boundary N (Nat.sqrt N).

  Lemma l_diagonal i : (i < N)%nat -> l_full N i i = if d i then 1 else 4 * / spacing (Nat.sqrt N) ^ 2.
  Proof using HN. intro Hi. unfold d, l_full, laid. rewrite (proj2 (Nat.ltb_lt i N) Hi), Nat.eqb_refl, (l_inverse_is N HN). destruct (l_boundary N _ i); reflexivity. Qed.

  Lemma l_positive i : (i < N)%nat -> 0 < l_full N i i.
  Proof using HN.
    intro Hi. rewrite (l_diagonal i Hi). destruct (d i); [lra|]. destruct (side N HN) as (H3 & _). destruct (spacing_pos (Nat.sqrt N) H3) as (Hh & _).
    assert (0 < / spacing (Nat.sqrt N) ^ 2) by (apply Rinv_0_lt_compat, pow_lt; lra). lra.
  Qed.

  Lemma l_prescribed : prescribed N d (l_full N).
  Proof using HN.
    intros i Hi B. split; [pose proof (l_positive i Hi); lra|]. intros j Hj Hne. unfold d in B. unfold l_full, laid. rewrite (proj2 (Nat.ltb_lt i N) Hi), B.
    destruct (Nat.eqb_spec j i); [congruence|reflexivity].
  Qed.

  Lemma l_symmetric : symmetric N (free_part d (l_full N)).
  Proof using.
    intros i j Hi Hj. unfold free_part. rewrite (Bool.orb_comm (d j) (d i)), (Nat.eqb_sym j i). destruct (d i || d j)%bool eqn:B; [reflexivity|].
    apply Bool.orb_false_elim in B as (B1 & B2). unfold d in B1, B2. unfold l_full, laid. rewrite (proj2 (Nat.ltb_lt i N) Hi), (proj2 (Nat.ltb_lt j N) Hj), B1, B2, (Nat.eqb_sym j i).
    destruct (i =? j)%nat; [reflexivity|].
    rewrite (Nat.eqb_sym (j + 1) i), (Nat.eqb_sym j (i + 1)), (Nat.eqb_sym (j + Nat.sqrt N) i), (Nat.eqb_sym j (i + Nat.sqrt N)).
    destruct (i =? j + 1)%nat, (i + 1 =? j)%nat, (i =? j + Nat.sqrt N)%nat, (i + Nat.sqrt N =? j)%nat; reflexivity.
  Qed.
End Laplace.

Lemma laplace_rates M dbg stray N a A0 b x : (9 <= N)%nat -> sparse_square 0 N a A0 -> length b = N -> length x = N ->
  exists a' A b' g us q, (exists x', construct_sparse rops M dbg stray a b x = Ok (a', b', x')) /\ sparse_square 0 N a' A /\ is_vec N b' g /\ five_points N us /\ 0 <= q < 1 /\
  forall y, length y = N ->
    (exists C, 0 <= C /\ forall k,
      (forall w, length w = N -> exists y' w' f, times (jacobi_step rops dbg stray a' b') k (y, w) = Ok (y', w') /\ is_vec N y' f /\
         forall i, (i < N)%nat -> Rabs (f i - us i) <= C * q ^ k) /\
      (exists y' f, times (gauss_seidel_step rops dbg stray a' b') k (y, []) = Ok (y', []) /\ is_vec N y' f /\
         forall i, (i < N)%nat -> Rabs (f i - us i) <= C * q ^ k) /\
      (exists y' f, times (sor_step rops dbg stray a' b') k (y, []) = Ok (y', []) /\ is_vec N y' f /\
         forall i, (i < N)%nat -> Rabs (f i - us i) <= C * q ^ k)) /\
    forall tol w, 0 < tol -> solver_stops M N A g tol (sor_step rops dbg stray a' b' (y, [])) (fun lim fuel => sor_solve rops M dbg stray fuel lim w a' y b').
Proof.
  intros HN Ha Lb Lx. destruct (sparse_filled M dbg stray N a A0 b x HN Ha Lb Lx) as (a' & b' & x' & E & Ha' & Hb & _).
  set (d := l_boundary N (Nat.sqrt N)).
  assert (Hp : prescribed N d (l_full N)) by (apply l_prescribed, HN). assert (Hs : symmetric N (free_part d (l_full N))) by apply l_symmetric.
  pose proof (l_chained N HN) as Hc. assert (Hd : forall i, (i < N)%nat -> d i = false -> 0 < l_full N i i) by (intros i Hi _; apply l_positive; assumption).
  destruct (weak_rates dbg stray N a' (l_full N) b' (given rops N) d Ha' Hb Hp Hs Hc Hd) as (us & q & Hq & Hu & H).
  exists a', (l_full N), b', (given rops N), us, q. split; [exists x'; exact E|]. split; [exact Ha'|]. split; [exact Hb|]. split; [apply (l_equations N HN us); exact Hu|]. split; [exact Hq|].
  intros y Ly. split; [exact (H y Ly)|]. intros tol w Ht.
  apply (weak_stops M dbg stray N a' (l_full N) b' (given rops N) d y tol ltac:(lia) Ha' Hb Hp Hs Hc Hd Ly Ht).
Qed.

(** A system for the example: three unknowns in a chain, the first with a prescribed value; the last two rows have no excess of their own but for the middle one's
    link to the first. *)
Definition weak_three (i j : nat) : R :=
  match i, j with 0%nat, 0%nat => 2 | 1%nat, 0%nat => 1 | 1%nat, 1%nat => 3 | 1%nat, 2%nat => -2 | 2%nat, 1%nat => -2 | 2%nat, 2%nat => 2 | _, _ => 0 end.

Lemma weak_three_chained : chained 3 weak_three.
Proof.
  assert (O : forall i, off_diagonal 3 weak_three i = match i with 1%nat => 3 | 2%nat => 2 | _ => 0 end).
  { intros [|[|[|i]]]; unfold off_diagonal; cbn [asum Nat.eqb weak_three]; rewrite ?Rabs_R0, ?Rabs_R1; try lra; rewrite Rabs_left by lra; lra. }
  split.
  - intros i Hi. rewrite O. destruct i as [|[|[|i]]]; cbn [weak_three]; try lia; rewrite Rabs_pos_eq by lra; split; lra.
  - assert (C0 : chain 3 weak_three 0 0) by (apply chain_0; [lia|rewrite O; cbn [weak_three]; rewrite Rabs_pos_eq; lra]).
    assert (C1 : chain 3 weak_three 1 1) by (apply (chain_S 3 weak_three 0 1 0); [lia|lia|cbn [weak_three]; lra|exact C0]).
    intros i Hi. destruct i as [|[|[|i]]]; [exists 0%nat; exact C0|exists 1%nat; exact C1| |lia].
    exists 2%nat. apply (chain_S 3 weak_three 1 2 1); [lia|lia|cbn [weak_three]; lra|exact C1].
Qed.
