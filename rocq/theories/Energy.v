(** Successive sweeps on symmetric positive definite systems over the reals. *)
From Coq Require Import ZArith Reals Lra Field Lia.
From Verif Require Import Base ListFacts Csr DenseModel DenseFacts ScalarModel GeometryReal SparseModel SparseSpec
  SparseFacts SparseMul LuModel LuFacts LuField LuReal IterModel IterFacts IterLoop IterField IterReal.

Local Open Scope R_scope.

(** The quadratic form of [A]. *)
Definition energy (n : nat) (A : nat -> nat -> R) (e : nat -> R) : R :=
  rsum n (fun i => e i * rsum n (fun j => A i j * e j)).

Definition symmetric (n : nat) (A : nat -> nat -> R) : Prop :=
  forall i j, (i < n)%nat -> (j < n)%nat -> A i j = A j i.

Definition positive_definite (n : nat) (A : nat -> nat -> R) : Prop :=
  forall e, (exists i, (i < n)%nat /\ e i <> 0) -> 0 < energy n A e.

Definition bump (i : nat) (d : R) (j : nat) : R := if j =? i then d else 0.

Lemma rsum_bump n i d B : (i < n)%nat -> rsum n (fun j => B j * bump i d j) = B i * d.
Proof.
  induction n as [|n IH]; intro Hi; [lia|]. cbn [asum]. unfold bump at 2. destruct (Nat.eqb_spec n i) as [->|Hne].
  - rewrite (rsum_zero i); [ring|]. intros j Hj. unfold bump. destruct (Nat.eqb_spec j i); [lia|ring].
  - rewrite IH by lia. ring.
Qed.

Lemma rsum_bump_l n i d B : (i < n)%nat -> rsum n (fun j => bump i d j * B j) = d * B i.
Proof.
  intro Hi. rewrite (asum_ext _ _ n _ (fun j => B j * bump i d j)) by (intros; ring). rewrite rsum_bump by auto. ring.
Qed.

Lemma energy_ext n A e e' : (forall i, (i < n)%nat -> e i = e' i) -> energy n A e = energy n A e'.
Proof.
  intro H. unfold energy. apply asum_ext. intros i Hi. rewrite H by auto. f_equal.
  apply asum_ext. intros j Hj. rewrite H by auto. reflexivity.
Qed.

Lemma energy_bump n A e i d : symmetric n A -> (i < n)%nat ->
  energy n A (fun j => e j + bump i d j) =
  energy n A e + 2 * d * rsum n (fun j => A i j * e j) + d * d * A i i.
Proof.
  intros Hs Hi. unfold energy.
  rewrite (asum_ext _ _ n _ (fun k => (e k * rsum n (fun j => A k j * e j) + d * (A i k * e k)) +
     (bump i d k * (rsum n (fun j => A k j * e j) + A k i * d)))).
  - rewrite !rsum_plus, rsum_scale, rsum_bump_l by auto. ring.
  - intros k Hk. rewrite (asum_ext _ _ n _ (fun j => A k j * e j + A k j * bump i d j)) by (intros; ring).
    rewrite rsum_plus, rsum_bump, (Hs k i) by auto. ring.
Qed.

(* ------------------------------------------------------------------ coercivity and existence *)
Section Schur.
  Variables (n : nat) (A : nat -> nat -> R).
  Hypothesis Hs : symmetric (S n) A.
  Hypothesis Hc : A n n <> 0.
  Let B i j := A i j - A i n * A n j / A n n.
  Let s (e : nat -> R) := rsum n (fun j => A n j * e j).

  Lemma schur_row e i : (i < n)%nat ->
    rsum n (fun j => B i j * e j) = rsum n (fun j => A i j * e j) - A i n * s e / A n n.
  Proof using Hc.
    intro Hi. unfold B, s.
    rewrite (asum_ext _ _ n _ (fun j => A i j * e j - (A i n / A n n) * (A n j * e j))) by (intros; field; exact Hc).
    rewrite rsum_minus, rsum_scale. field. exact Hc.
  Qed.

  Lemma schur_energy e :
    energy (S n) A e = A n n * (e n + s e / A n n) * (e n + s e / A n n) + energy n B e.
  Proof using Hs Hc.
    assert (E : energy n B e = energy n A e - s e * s e / A n n).
    { unfold energy. rewrite (asum_ext _ _ n _ (fun i => e i * rsum n (fun j => A i j * e j) -
        (s e / A n n) * (A n i * e i))).
      - rewrite rsum_minus, rsum_scale. fold (s e). field. exact Hc.
      - intros i Hi. rewrite schur_row by auto. rewrite (Hs i n) by lia. field. exact Hc. }
    rewrite E. unfold energy at 1. cbn [asum].
    rewrite (asum_ext _ _ n _ (fun i => e i * rsum n (fun j => A i j * e j) + e n * (A n i * e i))).
    - rewrite rsum_plus, rsum_scale. fold (s e). fold (energy n A e). field. exact Hc.
    - intros i Hi. rewrite (Hs i n) by lia. ring.
  Qed.

  Lemma schur_symmetric : symmetric n B.
  Proof using Hs Hc.
    intros i j Hi Hj. unfold B. rewrite (Hs i j), (Hs i n), (Hs n j) by lia. field. exact Hc.
  Qed.

  Lemma schur_positive : positive_definite (S n) A -> positive_definite n B.
  Proof using Hs Hc.
    intros Hp e (i & Hi & He). set (e' := fun j => if j =? n then - (s e / A n n) else e j).
    assert (Ee : forall j, (j < n)%nat -> e' j = e j).
    { intros j Hj. unfold e'. destruct (Nat.eqb_spec j n); [lia|reflexivity]. }
    assert (En : e' n = - (s e / A n n)) by (unfold e'; rewrite Nat.eqb_refl; reflexivity).
    assert (Es : s e' = s e) by (unfold s; apply asum_ext; intros; rewrite Ee by auto; reflexivity).
    assert (H : 0 < energy (S n) A e') by (apply Hp; exists i; split; [lia|rewrite Ee by auto; exact He]).
    rewrite schur_energy, En, Es, (energy_ext n B e' e) in H by auto.
    replace (- (s e / A n n) + s e / A n n) with 0 in H by ring. lra.
  Qed.
End Schur.

Lemma diagonal_energy n A i : symmetric n A -> (i < n)%nat -> energy n A (bump i 1) = A i i.
Proof.
  intros Hs Hi. rewrite (energy_ext n A (bump i 1) (fun j => 0 + bump i 1 j)) by (intros; ring).
  rewrite (energy_bump n A (fun _ => 0) i 1) by auto.
  rewrite (rsum_zero n (fun j => A i j * 0)) by (intros; ring).
  unfold energy. rewrite (rsum_zero n) by (intros; ring). ring.
Qed.

Lemma positive_diagonal n A i : symmetric n A -> positive_definite n A -> (i < n)%nat -> 0 < A i i.
Proof.
  intros Hs Hp Hi. rewrite <- (diagonal_energy n A i) by auto. apply Hp. exists i. split; auto.
  unfold bump. rewrite Nat.eqb_refl. lra.
Qed.

Lemma cauchy n f g : rsum n (fun i => f i * g i) * rsum n (fun i => f i * g i) <=
  rsum n (fun i => f i * f i) * rsum n (fun i => g i * g i).
Proof.
  induction n as [|n IH]; cbn [asum]; [lra|].
  set (s := rsum n (fun i => f i * g i)) in *. set (C := rsum n (fun i => f i * f i)) in *.
  set (D := rsum n (fun i => g i * g i)) in *.
  assert (HC : 0 <= C) by apply rsum_sq_nonneg. assert (HD : 0 <= D) by apply rsum_sq_nonneg.
  set (c := f n). set (d := g n).
  assert (H : 2 * s * c * d <= C * (d * d) + c * c * D).
  { destruct (Rle_lt_dec (2 * s * c * d) (C * (d * d) + c * c * D)) as [|Hlt]; auto. exfalso.
    assert (0 <= C * (d * d) + c * c * D) by (pose proof (Rle_0_sqr d); pose proof (Rle_0_sqr c); unfold Rsqr in *; nra).
    assert (H1 : (C * (d * d) + c * c * D) * (C * (d * d) + c * c * D) < (2 * s * c * d) * (2 * s * c * d)) by nra.
    assert (H2 : (2 * s * c * d) * (2 * s * c * d) <= 4 * (C * D) * ((c * d) * (c * d))).
    { replace ((2 * s * c * d) * (2 * s * c * d)) with (4 * (s * s) * ((c * d) * (c * d))) by ring.
      apply Rmult_le_compat_r; [apply Rle_0_sqr|lra]. }
    assert (H3 : 0 <= (C * (d * d) - c * c * D) * (C * (d * d) - c * c * D)) by apply Rle_0_sqr.
    nra. }
  nra.
Qed.

Lemma coercive n : forall A, symmetric n A -> positive_definite n A ->
  exists l, 0 < l /\ forall e, l * rsum n (fun i => e i * e i) <= energy n A e.
Proof.
  induction n as [|n IH]; intros A Hs Hp; [exists 1; split; [lra|intro e; cbn; lra]|].
  assert (Hc : 0 < A n n) by (eapply positive_diagonal; eauto).
  assert (Hne : A n n <> 0) by lra.
  destruct (IH _ (schur_symmetric n A Hs Hne) (schur_positive n A Hs Hne Hp)) as (l & Hl & Hle). clear IH.
  set (B := fun i j => A i j - A i n * A n j / A n n) in *. set (c := A n n) in *.
  set (K := rsum n (fun j => A n j * A n j) / (c * c)).
  assert (HK : 0 <= K).
  { unfold K. apply Rmult_le_pos; [apply rsum_sq_nonneg|]. left. apply Rinv_0_lt_compat. nra. }
  set (L := 2 / c + (2 * K + 1) / l).
  assert (H2 : 0 < 2 / c) by (apply Rdiv_lt_0_compat; lra).
  assert (H3 : 0 < (2 * K + 1) / l) by (apply Rdiv_lt_0_compat; lra).
  exists (/ L). split; [apply Rinv_0_lt_compat; unfold L; lra|]. intro e.
  rewrite (schur_energy n A Hs Hne). fold B c. set (s := rsum n (fun j => A n j * e j)).
  set (q := rsum n (fun i => e i * e i)). set (t := e n + s / c).
  assert (Hq : 0 <= q) by apply rsum_sq_nonneg.
  assert (Hs2 : (s / c) * (s / c) <= K * q).
  { pose proof (cauchy n (fun j => A n j) e) as Hcs. fold s q in Hcs.
    replace ((s / c) * (s / c)) with (s * s * / (c * c)) by (field; exact Hne).
    replace (K * q) with (rsum n (fun j => A n j * A n j) * q * / (c * c)) by (unfold K; field; exact Hne).
    apply Rmult_le_compat_r; [left; apply Rinv_0_lt_compat; nra|exact Hcs]. }
  cbn [asum]. fold q. specialize (Hle e). fold q in Hle. set (E := energy n B e) in *.
  assert (Hen : e n * e n <= 2 * (t * t) + 2 * (K * q)).
  { replace (e n) with (t - s / c) by (unfold t; ring). set (r := s / c) in *.
    assert (0 <= (t + r) * (t + r)) by apply Rle_0_sqr. nra. }
  assert (Hqe : q <= E / l).
  { apply (Rmult_le_reg_r l); auto. unfold Rdiv. rewrite Rmult_assoc, Rinv_l, Rmult_1_r by lra. lra. }
  assert (HE : 0 <= E) by (apply Rle_trans with (2 := Hle); apply Rmult_le_pos; lra).
  apply (Rmult_le_reg_l L); [unfold L; lra|]. rewrite <- Rmult_assoc, Rinv_r, Rmult_1_l by (unfold L; lra).
  set (P := c * t * t). assert (HP : t * t = P / c) by (unfold P; field; exact Hne).
  assert (HP0 : 0 <= P) by (unfold P; rewrite Rmult_assoc; apply Rmult_le_pos; [lra|apply Rle_0_sqr]).
  apply Rle_trans with (2 * (P / c) + (2 * K + 1) * (E / l)).
  - rewrite <- HP. assert ((2 * K + 1) * q <= (2 * K + 1) * (E / l)) by (apply Rmult_le_compat_l; lra). lra.
  - replace (2 * (P / c) + (2 * K + 1) * (E / l)) with (2 / c * P + (2 * K + 1) / l * E) by (field; split; lra).
    change (energy n (fun i j => A i j - A i n * A n j / c) e) with E. unfold L.
    assert (0 <= 2 / c * E) by (apply Rmult_le_pos; lra).
    assert (0 <= (2 * K + 1) / l * P) by (apply Rmult_le_pos; lra). lra.
Qed.

Lemma definite_solution n : forall A h, symmetric n A -> positive_definite n A ->
  exists xs, forall i, (i < n)%nat -> rsum n (fun j => A i j * xs j) = h i.
Proof.
  induction n as [|n IH]; intros A h Hs Hp; [exists (fun _ => 0); intros; lia|].
  assert (Hc : 0 < A n n) by (eapply positive_diagonal; eauto).
  assert (Hne : A n n <> 0) by lra.
  destruct (IH _ (fun i => h i - A i n * h n / A n n) (schur_symmetric n A Hs Hne) (schur_positive n A Hs Hne Hp))
    as (xs & Hx).
  set (s := rsum n (fun j => A n j * xs j)).
  set (y := fun j => if j =? n then (h n - s) / A n n else xs j). exists y.
  assert (Ey : forall i, rsum n (fun j => A i j * y j) = rsum n (fun j => A i j * xs j)).
  { intro i. apply asum_ext. intros j Hj. unfold y. destruct (Nat.eqb_spec j n); [lia|reflexivity]. }
  assert (En : y n = (h n - s) / A n n) by (unfold y; rewrite Nat.eqb_refl; reflexivity).
  intros i Hi. cbn [asum]. rewrite Ey, En. destruct (Nat.eq_dec i n) as [->|Hin].
  - fold s. field. exact Hne.
  - specialize (Hx i ltac:(lia)). rewrite schur_row in Hx by (auto; lia). fold s in Hx.
    replace (rsum n (fun j => A i j * xs j)) with (h i - A i n * h n / A n n + A i n * s / A n n) by lra.
    field. exact Hne.
Qed.

(* ------------------------------------------------------------------ one sweep *)
Section Sweep.
  Variables (n : nat) (A : nat -> nat -> R) (h xs : nat -> R) (w : R) (f z : nat -> R).
  Hypothesis Hs : symmetric n A.
  Hypothesis Hd : forall i, (i < n)%nat -> 0 < A i i.
  Hypothesis Hw : 0 < w < 2.
  Hypothesis Hx : forall i, (i < n)%nat -> rsum n (fun j => A i j * xs j) = h i.
  Hypothesis Hz : forall i, (i < n)%nat -> z i = relaxed rops n A h w i (fun j => if j <? i then z j else f j).

  Let y (k j : nat) : R := if j <? k then z j else f j.
  Let d (k : nat) : R := z k - f k.

  Lemma step_delta i : (i < n)%nat -> w * (h i - rsum n (fun j => A i j * y i j)) = A i i * d i.
  Proof using Hd Hz.
    intro Hi. unfold d. rewrite (Hz i Hi). fold (y i). unfold relaxed. cbn [rops sc_sub sc_add sc_mul sc_div sc_one sc_zero].
    pose proof (sum_split rops Ropp Rinv R_field n i (fun j => A i j * y i j) Hi) as Hsp.
    cbn [rops sc_add sc_zero] in Hsp. rewrite Hsp.
    assert (Ey : y i i = f i) by (unfold y; rewrite Nat.ltb_irrefl; reflexivity). rewrite Ey.
    specialize (Hd i Hi). field. lra.
  Qed.

  Lemma y_step k j : y (S k) j = y k j + bump k (d k) j.
  Proof using.
    unfold y, bump, d. destruct (Nat.eqb_spec j k) as [->|].
    - rewrite Nat.ltb_irrefl. destruct (Nat.ltb_spec k (S k)); [ring|lia].
    - destruct (Nat.ltb_spec j (S k)), (Nat.ltb_spec j k); try lia; ring.
  Qed.

  Lemma error_row e i : (i < n)%nat -> rsum n (fun j => A i j * (e j - xs j)) = rsum n (fun j => A i j * e j) - h i.
  Proof using Hx.
    intro Hi. rewrite <- (Hx i Hi), <- rsum_minus. apply asum_ext. intros; ring.
  Qed.

  Lemma sweep_energy :
    energy n A (fun j => f j - xs j) - energy n A (fun j => z j - xs j) =
    (2 - w) / w * rsum n (fun k => A k k * (d k * d k)).
  Proof using Hs Hd Hw Hx Hz.
    assert (G : forall k, (k <= n)%nat -> energy n A (fun j => f j - xs j) - energy n A (fun j => y k j - xs j) =
      (2 - w) / w * rsum k (fun k => A k k * (d k * d k))).
    { induction k as [|k IH]; intro Hk; cbn [asum].
      - rewrite (energy_ext n A (fun j => y 0 j - xs j) (fun j => f j - xs j)) by reflexivity. ring.
      - rewrite (energy_ext n A (fun j => y (S k) j - xs j) (fun j => (y k j - xs j) + bump k (d k) j))
          by (intros; rewrite y_step; ring).
        rewrite (energy_bump n A (fun j => y k j - xs j) k (d k)) by (auto; lia). rewrite error_row by lia.
        rewrite Rmult_plus_distr_l, <- IH by lia.
        assert (E : rsum n (fun j => A k j * y k j) = h k - A k k * d k / w).
        { rewrite <- (step_delta k) by lia. field. lra. }
        rewrite E. field. lra. }
    rewrite <- (G n (Nat.le_refl n)). f_equal. apply energy_ext. intros i Hi. unfold y.
    destruct (Nat.ltb_spec i n); [reflexivity|lia].
  Qed.

  Lemma sweep_decreases : energy n A (fun j => z j - xs j) <= energy n A (fun j => f j - xs j) /\
    (energy n A (fun j => z j - xs j) = energy n A (fun j => f j - xs j) ->
     forall i, (i < n)%nat -> rsum n (fun j => A i j * f j) = h i).
  Proof using Hs Hd Hw Hx Hz.
    pose proof sweep_energy as E.
    assert (Hp : forall k, (k < n)%nat -> 0 <= A k k * (d k * d k)).
    { intros k Hk. apply Rmult_le_pos; [left; auto|apply Rle_0_sqr]. }
    assert (Hr : 0 < (2 - w) / w) by (apply Rdiv_lt_0_compat; lra).
    assert (H0 : 0 <= rsum n (fun k => A k k * (d k * d k))) by (apply rsum_nonneg; auto).
    split; [nra|]. intros Heq i Hi.
    assert (Hz0 : rsum n (fun k => A k k * (d k * d k)) = 0) by nra.
    assert (Hd0 : forall k, (k < n)%nat -> d k = 0).
    { intros k Hk. destruct (Req_dec (d k) 0) as [|Hne]; auto. exfalso.
      assert (0 < rsum n (fun k => A k k * (d k * d k))); [|lra].
      apply (rsum_pos n _ k); auto. apply Rmult_lt_0_compat; auto.
      destruct (Rtotal_order (d k) 0) as [|[|]]; [nra|contradiction|nra]. }
    pose proof (step_delta i Hi) as Hst. rewrite Hd0, Rmult_0_r in Hst by auto.
    assert (Er : rsum n (fun j => A i j * y i j) = rsum n (fun j => A i j * f j)).
    { apply asum_ext. intros j Hj. unfold y. destruct (Nat.ltb_spec j i); auto. specialize (Hd0 j Hj).
      unfold d in Hd0. replace (z j) with (f j) by lra. reflexivity. }
    rewrite Er in Hst. assert (w <> 0) by lra. apply Rmult_integral in Hst as [|]; lra.
  Qed.

  (** The residual in terms of the corrections. *)
  Let c (i j : nat) : R := if j <? i then A i j else if j =? i then A i i / w else 0.

  Lemma residual_corrections i : (i < n)%nat ->
    rsum n (fun j => A i j * (f j - xs j)) = - rsum n (fun j => c i j * d j).
  Proof using Hd Hw Hx Hz.
    intro Hi. rewrite error_row by auto.
    assert (E : rsum n (fun j => c i j * d j) =
      rsum n (fun j => A i j * y i j) - rsum n (fun j => A i j * f j) + A i i / w * d i).
    { rewrite <- (rsum_bump_l n i (A i i / w) d Hi), <- rsum_minus, <- rsum_plus. apply asum_ext. intros j Hj.
      unfold c, y, bump, d. destruct (Nat.ltb_spec j i), (Nat.eqb_spec j i); try lia; ring. }
    rewrite E. pose proof (step_delta i Hi) as Hst.
    replace (A i i / w * d i) with (A i i * d i / w) by (field; lra). rewrite <- Hst. field. lra.
  Qed.

  Lemma sweep_linear l : 0 < l -> (forall e, l * rsum n (fun i => e i * e i) <= energy n A e) ->
    energy n A (fun j => z j - xs j) <=
    (1 - (2 - w) / w * l * l / (1 + rsum n (fun i => rsum n (fun j => c i j * c i j)))) *
      energy n A (fun j => f j - xs j).
  Proof using Hs Hd Hw Hx Hz.
    intros Hl Hco. set (K := rsum n (fun i => rsum n (fun j => c i j * c i j))).
    assert (HK : 0 <= K) by (apply rsum_nonneg; intros; apply rsum_sq_nonneg).
    set (D := rsum n (fun k => d k * d k)). assert (HD : 0 <= D) by apply rsum_sq_nonneg.
    set (e := fun j => f j - xs j). set (E := energy n A e). set (E' := energy n A (fun j => z j - xs j)).
    set (g := fun i => rsum n (fun j => A i j * e j)).
    assert (Hg : rsum n (fun i => g i * g i) <= K * D).
    { unfold K, D. rewrite Rmult_comm, <- rsum_scale. apply rsum_le. intros i Hi. unfold g, e.
      rewrite (residual_corrections i Hi), Rmult_opp_opp.
      apply Rle_trans with (1 := cauchy n (c i) d). right. fold D. ring. }
    assert (HE : E <= K * D / l).
    { assert (H1 : E <= l / 2 * rsum n (fun i => e i * e i) + / (2 * l) * rsum n (fun i => g i * g i)).
      { unfold E, energy. rewrite <- !rsum_scale, <- rsum_plus. apply rsum_le. intros i Hi. fold (g i).
        assert (0 <= (l * e i - g i) * (l * e i - g i) * / (2 * l)).
        { apply Rmult_le_pos; [apply Rle_0_sqr|]. left. apply Rinv_0_lt_compat. lra. }
        replace ((l * e i - g i) * (l * e i - g i) * / (2 * l)) with
          (l / 2 * (e i * e i) + / (2 * l) * (g i * g i) - e i * g i) in H by (field; lra). lra. }
      specialize (Hco e). fold E in Hco.
      assert (H2 : / (2 * l) * rsum n (fun i => g i * g i) <= / (2 * l) * (K * D)).
      { apply Rmult_le_compat_l; [left; apply Rinv_0_lt_compat; lra|exact Hg]. }
      replace (/ (2 * l) * (K * D)) with (K * D / l / 2) in H2 by (field; lra). lra. }
    assert (Hdia : l * D <= rsum n (fun k => A k k * (d k * d k))).
    { unfold D. rewrite <- rsum_scale. apply rsum_le. intros k Hk.
      apply Rmult_le_compat_r; [apply Rle_0_sqr|]. rewrite <- (diagonal_energy n A k) by auto.
      apply Rle_trans with (2 := Hco (bump k 1)).
      rewrite (rsum_bump n k 1 (bump k 1) Hk). unfold bump. rewrite Nat.eqb_refl. lra. }
    pose proof sweep_energy as Hen. fold e E E' in Hen.
    assert (Hr : 0 < (2 - w) / w) by (apply Rdiv_lt_0_compat; lra). set (m := (2 - w) / w) in *.
    assert (Hlow : m * (l * D) <= E - E') by (rewrite Hen; apply Rmult_le_compat_l; lra).
    assert (Hup : l * E <= (1 + K) * D).
    { apply (Rmult_le_compat_l l) in HE; [|lra]. replace (l * (K * D / l)) with (K * D) in HE by (field; lra). lra. }
    assert (H1K : 0 < 1 + K) by lra.
    assert (Hfin : m * l * l / (1 + K) * E <= E - E').
    { apply Rle_trans with (2 := Hlow). replace (m * l * l / (1 + K) * E) with (m * l * (l * E) * / (1 + K)) by (field; lra).
      apply Rle_trans with (m * l * ((1 + K) * D) * / (1 + K)).
      - apply Rmult_le_compat_r; [left; apply Rinv_0_lt_compat; lra|]. apply Rmult_le_compat_l; [|exact Hup].
        apply Rmult_le_pos; lra.
      - right. field. lra. }
    fold K. lra.
  Qed.
End Sweep.
