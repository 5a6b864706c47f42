(** Rounding errors of sums, inner products and running differences of doubles. *)
From Coq Require Import ZArith Reals Lra Lia SpecFloat Psatz.
From Flocq Require Import Core.
From Verif Require Import Base ListFacts DenseModel DenseFacts ScalarModel GeometryReal LuModel LuFacts FloatFacts.
Local Open Scope R_scope.

(** (1 + u)^n - 1. *)
Definition f_gamma (n : nat) : R := (1 + f_u) ^ n - 1.

Lemma gamma_nonneg n : 0 <= f_gamma n.
Proof. unfold f_gamma. pose proof u_pos. assert (1 <= (1 + f_u) ^ n) by (apply pow_R1_Rle; lra). lra. Qed.

Lemma gamma_le n m : (n <= m)%nat -> f_gamma n <= f_gamma m.
Proof. intro H. unfold f_gamma. pose proof u_pos. assert ((1 + f_u) ^ n <= (1 + f_u) ^ m) by (apply Rle_pow; [lra|auto]). lra. Qed.

Lemma gamma_S n : f_gamma (S n) = f_gamma n * (1 + f_u) + f_u.
Proof. unfold f_gamma. cbn [pow]. ring. Qed.

Lemma gamma_add n m : f_gamma (n + m) = f_gamma n + f_gamma m + f_gamma n * f_gamma m.
Proof. unfold f_gamma. rewrite pow_add. ring. Qed.

Lemma Rabs_le_between a b : Rabs a <= b -> - b <= a <= b.
Proof. unfold Rabs. destruct (Rcase_abs a); lra. Qed.

(** One operation. *)
Lemma f_add_error x y : f_valid x -> f_valid y -> f_finite (SFadd 53 1024 x y) = true ->
  f_finite x = true /\ f_finite y = true /\
  exists d, Rabs d <= f_u /\ f_real (SFadd 53 1024 x y) = (f_real x + f_real y) * (1 + d).
Proof.
  intros Hx Hy Hf. destruct (f_add_round x y Hx Hy Hf) as (Fx & Fy & E). split; [exact Fx|]. split; [exact Fy|].
  rewrite E. destruct (valid_SF2B x Hx) as (a & _ & <- & _), (valid_SF2B y Hy) as (b & _ & <- & _). apply rnd_plus.
Qed.

Lemma f_sub_back x y : f_valid x -> f_valid y -> f_finite (SFsub 53 1024 x y) = true ->
  f_finite x = true /\ f_finite y = true /\
  exists d, Rabs d <= f_u /\ f_real x - f_real y = f_real (SFsub 53 1024 x y) * (1 + d).
Proof.
  intros Hx Hy Hf. destruct (f_sub_round x y Hx Hy Hf) as (Fx & Fy & E). split; [exact Fx|]. split; [exact Fy|].
  rewrite E. destruct (valid_SF2B x Hx) as (a & _ & <- & _), (valid_SF2B y Hy) as (b & _ & <- & _). apply rnd_minus_back.
Qed.

Lemma f_mul_error x y : f_valid x -> f_valid y -> f_finite (SFmul 53 1024 x y) = true ->
  f_finite x = true /\ f_finite y = true /\
  exists d e, Rabs d <= f_u /\ Rabs e <= f_eta /\ f_real (SFmul 53 1024 x y) = f_real x * f_real y * (1 + d) + e.
Proof.
  intros Hx Hy Hf. destruct (f_mul_round x y Hx Hy Hf) as (Fx & Fy & E). split; [exact Fx|]. split; [exact Fy|].
  rewrite E. apply rnd_error.
Qed.

Lemma f_div_back x y : f_valid x -> f_valid y -> f_finite y = true -> f_finite (SFdiv 53 1024 x y) = true ->
  f_finite x = true /\
  exists d e, Rabs d <= f_u /\ Rabs e <= f_eta /\
    f_real x = f_real (SFdiv 53 1024 x y) * f_real y * (1 + d) + e * f_real y.
Proof.
  intros Hx Hy Fy Hf. destruct (f_div_round x y Hx Hy Fy Hf) as (Fx & Hn & E). split; [exact Fx|].
  rewrite E. destruct (rnd_error_back (f_real x / f_real y)) as (d & e & Hd & He & Er).
  exists d, e. split; [exact Hd|]. split; [exact He|].
  transitivity (f_real x / f_real y * f_real y); [field; exact Hn|]. rewrite Er at 1. ring.
Qed.

(** Sums. *)
Notation fsum := (asum (S754_zero false) (SFadd 53 1024)).

Lemma fsum_valid n f : (forall i, (i < n)%nat -> f_valid (f i)) -> f_valid (fsum n f).
Proof.
  induction n as [|n IH]; intro H; cbn [asum]; [reflexivity|]. apply f_add_valid; [apply IH; intros|]; apply H; lia.
Qed.

Lemma rsum_abs n f : Rabs (rsum n f) <= rsum n (fun i => Rabs (f i)).
Proof.
  induction n as [|n IH]; cbn [asum]; [rewrite Rabs_R0; lra|].
  apply Rle_trans with (1 := Rabs_triang _ _). lra.
Qed.

Lemma fsum_error n f : (forall i, (i < n)%nat -> f_valid (f i)) -> f_finite (fsum n f) = true ->
  (forall i, (i < n)%nat -> f_finite (f i) = true) /\
  Rabs (f_real (fsum n f) - rsum n (fun i => f_real (f i))) <= f_gamma n * rsum n (fun i => Rabs (f_real (f i))).
Proof.
  induction n as [|n IH]; intros Hv Hf; cbn [asum] in *.
  - split; [intros; lia|]. cbn [f_real]. rewrite Rminus_diag_eq, Rabs_R0 by reflexivity. lra.
  - destruct (f_add_error _ _ (fsum_valid n f (fun i Hi => Hv i (Nat.lt_lt_succ_r _ _ Hi))) (Hv n (Nat.lt_succ_diag_r n)) Hf)
      as (F1 & F2 & d & Hd & E).
    destruct IH as [Hfin Herr]; [intros; apply Hv; lia|exact F1|]. split.
    { intros i Hi. destruct (Nat.eq_dec i n) as [->|]; [exact F2|apply Hfin; lia]. }
    rewrite E. set (s := f_real (fsum n f)) in *. set (p := f_real (f n)). set (T := rsum n (fun i => f_real (f i))) in *.
    set (A := rsum n (fun i => Rabs (f_real (f i)))) in *.
    assert (HT : Rabs T <= A) by apply rsum_abs.
    replace ((s + p) * (1 + d) - (T + p)) with ((s - T) * (1 + d) + (T + p) * d) by ring.
    rewrite gamma_S. pose proof u_pos. pose proof (gamma_nonneg n).
    apply Rle_trans with (1 := Rabs_triang _ _). rewrite !Rabs_mult.
    assert (H1 : Rabs (1 + d) <= 1 + f_u).
    { apply Rle_trans with (1 := Rabs_triang _ _). rewrite Rabs_R1. lra. }
    assert (H2 : Rabs (T + p) <= A + Rabs p) by (apply Rle_trans with (1 := Rabs_triang _ _); lra).
    assert (H3 : Rabs (s - T) * Rabs (1 + d) <= f_gamma n * A * (1 + f_u)) by (apply Rmult_le_compat; auto using Rabs_pos).
    assert (H4 : Rabs (T + p) * Rabs d <= (A + Rabs p) * f_u) by (apply Rmult_le_compat; auto using Rabs_pos).
    assert (H5 : 0 <= f_gamma n * (1 + f_u) * Rabs p) by (apply Rmult_le_pos; [apply Rmult_le_pos; lra|apply Rabs_pos]).
    lra.
Qed.

(** Inner products. *)
Lemma products_error n x y : (forall i, (i < n)%nat -> f_valid (x i)) -> (forall i, (i < n)%nat -> f_valid (y i)) ->
  (forall i, (i < n)%nat -> f_finite (SFmul 53 1024 (x i) (y i)) = true) ->
  forall i, (i < n)%nat -> f_finite (x i) = true /\ f_finite (y i) = true /\
    Rabs (f_real (SFmul 53 1024 (x i) (y i)) - f_real (x i) * f_real (y i)) <= f_u * Rabs (f_real (x i) * f_real (y i)) + f_eta.
Proof.
  intros Hx Hy Hf i Hi. destruct (f_mul_error _ _ (Hx i Hi) (Hy i Hi) (Hf i Hi)) as (F1 & F2 & d & e & Hd & He & E).
  split; [exact F1|]. split; [exact F2|]. rewrite E. set (p := f_real (x i) * f_real (y i)).
  replace (p * (1 + d) + e - p) with (d * p + e) by ring. apply Rle_trans with (1 := Rabs_triang _ _).
  apply Rplus_le_compat; [|exact He]. rewrite Rabs_mult. apply Rmult_le_compat_r; [apply Rabs_pos|exact Hd].
Qed.

Lemma rsum_const n c : rsum n (fun _ => c) = INR n * c.
Proof. induction n as [|n IH]; [cbn; ring|]. cbn [asum]. rewrite IH, S_INR. ring. Qed.

Lemma inner_error n x y : (forall i, (i < n)%nat -> f_valid (x i)) -> (forall i, (i < n)%nat -> f_valid (y i)) ->
  f_finite (fsum n (fun i => SFmul 53 1024 (x i) (y i))) = true ->
  (forall i, (i < n)%nat -> f_finite (x i) = true /\ f_finite (y i) = true) /\
  Rabs (f_real (fsum n (fun i => SFmul 53 1024 (x i) (y i))) - rsum n (fun i => f_real (x i) * f_real (y i))) <=
    f_gamma (n + 1) * rsum n (fun i => Rabs (f_real (x i) * f_real (y i))) + INR n * (1 + f_u) ^ n * f_eta.
Proof.
  intros Hx Hy Hf. destruct (fsum_error n (fun i => SFmul 53 1024 (x i) (y i))) as [Hfin Herr]; auto using f_mul_valid.
  pose proof (products_error n x y Hx Hy Hfin) as Hp. split; [intros i Hi; split; apply (Hp i Hi)|].
  set (s := f_real (fsum n _)) in *. set (p := fun i => f_real (SFmul 53 1024 (x i) (y i))) in *.
  set (q := fun i => f_real (x i) * f_real (y i)).
  change (Rabs (s - rsum n p) <= f_gamma n * rsum n (fun i => Rabs (p i))) in Herr.
  change (Rabs (s - rsum n q) <= f_gamma (n + 1) * rsum n (fun i => Rabs (q i)) + INR n * (1 + f_u) ^ n * f_eta).
  set (Q := rsum n (fun i => Rabs (q i))).
  assert (HD : Rabs (rsum n p - rsum n q) <= f_u * Q + INR n * f_eta).
  { rewrite <- rsum_minus. apply Rle_trans with (1 := rsum_abs _ _). unfold Q. rewrite <- rsum_scale, <- (rsum_const n f_eta), <- rsum_plus.
    apply rsum_le. intros i Hi. apply (Hp i Hi). }
  assert (HP : rsum n (fun i => Rabs (p i)) <= (1 + f_u) * Q + INR n * f_eta).
  { unfold Q. rewrite <- rsum_scale, <- (rsum_const n f_eta), <- rsum_plus. apply rsum_le. intros i Hi.
    destruct (Hp i Hi) as (_ & _ & H). fold (p i) (q i) in H.
    replace (p i) with ((p i - q i) + q i) by ring. apply Rle_trans with (1 := Rabs_triang _ _). lra. }
  replace (s - rsum n q) with ((s - rsum n p) + (rsum n p - rsum n q)) by ring.
  apply Rle_trans with (1 := Rabs_triang _ _). pose proof (gamma_nonneg n) as Hg.
  apply (Rmult_le_compat_l (f_gamma n)) in HP; [|exact Hg].
  rewrite Nat.add_1_r, gamma_S. replace ((1 + f_u) ^ n) with (f_gamma n + 1) by (unfold f_gamma; ring). lra.
Qed.

(** Running differences. *)
Lemma rdiff_valid e n f : f_valid e -> (forall i, (i < n)%nat -> f_valid (f i)) -> f_valid (rdiff fops e n f).
Proof.
  intro He. induction n as [|n IH]; intro H; cbn [rdiff]; [exact He|].
  apply f_sub_valid; [apply IH; intros|]; apply H; lia.
Qed.

Lemma rdiff_error e n f : f_valid e -> (forall i, (i < n)%nat -> f_valid (f i)) -> f_finite (rdiff fops e n f) = true ->
  f_finite e = true /\ (forall i, (i < n)%nat -> f_finite (f i) = true) /\
  Rabs (f_real e - f_real (rdiff fops e n f) - rsum n (fun i => f_real (f i))) <=
    f_gamma n * Rabs (f_real (rdiff fops e n f)) + rsum n (fun i => f_gamma i * Rabs (f_real (f i))).
Proof.
  intro He. induction n as [|n IH]; intros Hv Hf; cbn [rdiff asum] in *.
  - split; [exact Hf|]. split; [intros; lia|]. replace (f_real e - f_real e - 0) with 0 by ring. rewrite Rabs_R0.
    unfold f_gamma. cbn [pow]. lra.
  - destruct (f_sub_back _ _ (rdiff_valid e n f He (fun i Hi => Hv i (Nat.lt_lt_succ_r _ _ Hi))) (Hv n (Nat.lt_succ_diag_r n)) Hf)
      as (F1 & F2 & d & Hd & E). cbn [fops sc_sub] in *.
    destruct IH as (Fe & Hfin & Herr); [intros; apply Hv; lia|exact F1|]. split; [exact Fe|]. split.
    { intros i Hi. destruct (Nat.eq_dec i n) as [->|]; [exact F2|apply Hfin; lia]. }
    set (v := f_real (rdiff fops e n f)) in *. set (p := f_real (f n)) in *.
    set (v' := f_real (SFsub 53 1024 (rdiff fops e n f) (f n))) in *. set (T := rsum n (fun i => f_real (f i))) in *.
    set (G := rsum n (fun i => f_gamma i * Rabs (f_real (f i)))) in *.
    replace (f_real e - v' - (T + p)) with ((f_real e - v - T) + v' * d) by (replace v with (v' * (1 + d) + p) by lra; ring).
    apply Rle_trans with (1 := Rabs_triang _ _).
    assert (H1 : Rabs v <= Rabs v' * (1 + f_u) + Rabs p).
    { replace v with (v' * (1 + d) + p) by lra. apply Rle_trans with (1 := Rabs_triang _ _). rewrite Rabs_mult.
      apply Rplus_le_compat_r. apply Rmult_le_compat_l; [apply Rabs_pos|].
      apply Rle_trans with (1 := Rabs_triang _ _). rewrite Rabs_R1. lra. }
    assert (H2 : Rabs (v' * d) <= Rabs v' * f_u) by (rewrite Rabs_mult; apply Rmult_le_compat_l; auto using Rabs_pos).
    pose proof (gamma_nonneg n) as Hg. apply (Rmult_le_compat_l (f_gamma n)) in H1; [|exact Hg].
    rewrite gamma_S. lra.
Qed.

Lemma rdiff_inner_error e n x y : f_valid e -> (forall i, (i < n)%nat -> f_valid (x i)) ->
  (forall i, (i < n)%nat -> f_valid (y i)) ->
  let v := rdiff fops e n (fun i => SFmul 53 1024 (x i) (y i)) in f_finite v = true ->
  f_finite e = true /\ (forall i, (i < n)%nat -> f_finite (x i) = true /\ f_finite (y i) = true) /\
  Rabs (f_real e - f_real v - rsum n (fun i => f_real (x i) * f_real (y i))) <=
    f_gamma n * (Rabs (f_real v) + rsum n (fun i => Rabs (f_real (x i) * f_real (y i)))) + INR n * (1 + f_u) ^ n * f_eta.
Proof.
  intros He Hx Hy v0 Hf. unfold v0 in *. clear v0.
  destruct (rdiff_error e n (fun i => SFmul 53 1024 (x i) (y i)) He) as (Fe & Hfin & Herr); auto using f_mul_valid.
  pose proof (products_error n x y Hx Hy Hfin) as Hp. split; [exact Fe|].
  split; [intros i Hi; split; apply (Hp i Hi)|].
  set (v := f_real (rdiff fops e n _)) in *. set (p := fun i => f_real (SFmul 53 1024 (x i) (y i))) in *.
  set (q := fun i => f_real (x i) * f_real (y i)).
  change (Rabs (f_real e - v - rsum n p) <= f_gamma n * Rabs v + rsum n (fun i => f_gamma i * Rabs (p i))) in Herr.
  change (Rabs (f_real e - v - rsum n q) <= f_gamma n * (Rabs v + rsum n (fun i => Rabs (q i))) + INR n * (1 + f_u) ^ n * f_eta).
  replace (f_real e - v - rsum n q) with ((f_real e - v - rsum n p) + (rsum n p - rsum n q)) by ring.
  apply Rle_trans with (1 := Rabs_triang _ _).
  assert (HD : Rabs (rsum n p - rsum n q) + rsum n (fun i => f_gamma i * Rabs (p i)) <=
    f_gamma n * rsum n (fun i => Rabs (q i)) + INR n * ((1 + f_u) ^ n * f_eta)); [|lra].
  rewrite <- rsum_minus. apply Rle_trans with (rsum n (fun i => Rabs (p i - q i)) + rsum n (fun i => f_gamma i * Rabs (p i)));
    [apply Rplus_le_compat_r, rsum_abs|].
  rewrite <- rsum_scale, <- (rsum_const n ((1 + f_u) ^ n * f_eta)), <- !rsum_plus. apply rsum_le. intros i Hi.
  destruct (Hp i Hi) as (_ & _ & H). fold (p i) (q i) in H. pose proof (gamma_nonneg i) as Hg.
  assert (HP : Rabs (p i) <= Rabs (q i) + (f_u * Rabs (q i) + f_eta)).
  { replace (p i) with ((p i - q i) + q i) by ring. apply Rle_trans with (1 := Rabs_triang _ _). lra. }
  apply (Rmult_le_compat_l (f_gamma i)) in HP; [|exact Hg].
  assert (HG : f_gamma (S i) <= f_gamma n) by (apply gamma_le; lia).
  assert (HG' : f_gamma i <= f_gamma n) by (apply gamma_le; lia). rewrite gamma_S in HG.
  apply (Rmult_le_compat_r (Rabs (q i))) in HG; [|apply Rabs_pos].
  apply (Rmult_le_compat_r f_eta) in HG'; [|left; apply eta_pos].
  replace ((1 + f_u) ^ n) with (f_gamma n + 1) by (unfold f_gamma; ring). lra.
Qed.
