(** The direct solver in doubles on systems with dominant rows: no refusal, no overflow, small error. *)
From Coq Require Import ZArith Reals Lra Lia List SpecFloat Psatz.
From Flocq Require Import Core BinarySingleNaN.
From Verif Require Import Base ListFacts DenseModel DenseFacts ScalarModel GeometryReal LuModel LuFacts LuReal
  FloatFacts FloatError IterFloat LuFloat PropFloatLemmas FloatUnit FloatSweep LuSuccess.
Import ListNotations.
Local Open Scope R_scope.

(* ------------------------------------------------------------------ scalars *)
Lemma eta_u3 : f_eta <= f_u * f_u * f_u.
Proof.
  unfold f_eta, f_u. rewrite <- !Rinv_mult, <- !pow_add. apply Rinv_le_contravar; [apply pow_lt; lra|].
  apply Rle_pow; [lra|]. apply Nat.leb_le. reflexivity.
Qed.

Lemma rabs_mul_round x y d : Rabs d <= f_u -> y = x * (1 + d) -> Rabs y <= (1 + f_u) * Rabs x.
Proof.
  intros Hd ->. rewrite Rabs_mult, Rmult_comm. apply Rmult_le_compat_r; [apply Rabs_pos|].
  apply Rle_trans with (1 := Rabs_triang _ _). rewrite Rabs_R1. lra.
Qed.

(** A difference a - q * b. *)
Lemma sub_mul_step a q b : f_valid a -> f_valid q -> f_valid b ->
  f_finite a = true -> f_finite q = true -> f_finite b = true ->
  Rabs (f_real a) + (1 + f_u) * Rabs (f_real q * f_real b) + f_eta <= f_limit ->
  let r := SFsub 53 1024 a (SFmul 53 1024 q b) in f_valid r /\ f_finite r = true /\
  exists p, f_real r = p /\ Rabs (p - (f_real a - f_real q * f_real b)) <=
    f_u * Rabs (f_real a - f_real q * f_real b) + (1 + f_u) * (f_u * Rabs (f_real q * f_real b) + f_eta) /\
    Rabs p <= (1 + f_u) * (Rabs (f_real a) + (1 + f_u) * Rabs (f_real q * f_real b) + f_eta).
Proof.
  intros Va Vq Vb Fa Fq Fb H r. pose proof u_pos as Hu. pose proof eta_pos as He.
  set (t := f_real q * f_real b) in *. pose proof (Rabs_pos t) as Ht. pose proof (Rabs_pos (f_real a)) as Hra.
  set (p := SFmul 53 1024 q b) in *. assert (Vp : f_valid p) by (apply f_mul_valid; auto).
  assert (Fp : f_finite p = true) by (apply f_mul_finite; auto; fold t; nra).
  destruct (operations_error q b Vq Vb) as (_ & _ & Hm & _). destruct (Hm Fp) as (_ & _ & Ep). fold p t in Ep.
  assert (Hp : Rabs (f_real p) <= (1 + f_u) * Rabs t + f_eta).
  { replace (f_real p) with ((f_real p - t) + t) by ring. apply Rle_trans with (1 := Rabs_triang _ _). lra. }
  assert (Hs : Rabs (f_real a - f_real p) <= Rabs (f_real a) + (1 + f_u) * Rabs t + f_eta).
  { unfold Rminus. apply Rle_trans with (1 := Rabs_triang _ _). rewrite Rabs_Ropp. lra. }
  assert (Fr : f_finite r = true) by (apply f_sub_finite; auto; lra).
  split; [apply f_sub_valid; auto|]. split; [exact Fr|]. eexists. split; [reflexivity|].
  destruct (f_sub_error a p Va Vp Fr) as (d & Hd & Er). fold r in Er. split.
  - rewrite Er. replace ((f_real a - f_real p) * (1 + d) - (f_real a - t)) with
      (d * (f_real a - t) + (1 + d) * (t - f_real p)) by ring.
    apply Rle_trans with (1 := Rabs_triang _ _). rewrite !Rabs_mult. apply Rplus_le_compat.
    + apply Rmult_le_compat_r; [apply Rabs_pos|exact Hd].
    + rewrite (Rabs_minus_sym t). apply Rmult_le_compat; try apply Rabs_pos; auto.
      apply Rle_trans with (1 := Rabs_triang _ _). rewrite Rabs_R1. lra.
  - apply Rle_trans with (1 := rabs_mul_round _ _ d Hd Er). apply Rmult_le_compat_l; lra.
Qed.

(** The quotient of the elimination. *)
Lemma div_step x p : f_valid x -> f_valid p -> f_finite x = true -> f_finite p = true -> f_real p <> 0 ->
  Rabs (f_real x / f_real p) <= f_limit ->
  let q := SFdiv 53 1024 x p in f_valid q /\ f_finite q = true /\
    Rabs (f_real q - f_real x / f_real p) <= f_u * Rabs (f_real x / f_real p) + f_eta.
Proof.
  intros Vx Vp Fx Fp Hp H q. assert (Fq : f_finite q = true) by (apply f_div_finite; auto).
  split; [apply f_div_valid; auto|]. split; [exact Fq|].
  destruct (operations_error x p Vx Vp) as (_ & _ & _ & Hd & _). apply (Hd Fp Fq).
Qed.

(** One element of the elimination. *)
Lemma elim_step a x p b : f_valid a -> f_valid x -> f_valid p -> f_valid b ->
  f_finite a = true -> f_finite x = true -> f_finite p = true -> f_finite b = true -> f_real p <> 0 ->
  let l := Rabs (f_real x / f_real p) in let t := l * Rabs (f_real b) in
  l <= f_limit ->
  Rabs (f_real a) + (1 + f_u) * ((1 + f_u) * t + f_eta * Rabs (f_real b)) + f_eta <= f_limit ->
  let r := SFsub 53 1024 a (SFmul 53 1024 (SFdiv 53 1024 x p) b) in f_valid r /\ f_finite r = true /\
  Rabs (f_real r - (f_real a - f_real x / f_real p * f_real b)) <=
    f_u * Rabs (f_real a) + f_gamma 3 * t + (1 + f_u) * f_eta * ((1 + f_u) * Rabs (f_real b) + 1).
Proof.
  intros Va Vx Vp Vb Fa Fx Fp Fb Hp l t Hl H r. pose proof u_pos as Hu. pose proof eta_pos as He.
  destruct (div_step x p Vx Vp Fx Fp Hp Hl) as (Vq & Fq & Eq). set (q := SFdiv 53 1024 x p) in *. fold l in Eq.
  set (ls := f_real x / f_real p) in *. set (B := Rabs (f_real b)) in *. assert (HB : 0 <= B) by apply Rabs_pos.
  assert (Hl0 : 0 <= l) by apply Rabs_pos. assert (Ht : 0 <= t) by (apply Rmult_le_pos; auto).
  assert (Hq : Rabs (f_real q * f_real b - ls * f_real b) <= f_u * t + f_eta * B).
  { rewrite <- Rmult_minus_distr_r, Rabs_mult. fold B. apply Rle_trans with ((f_u * l + f_eta) * B).
    - apply Rmult_le_compat_r; auto.
    - right. unfold t. ring. }
  assert (Els : Rabs (ls * f_real b) = t) by (rewrite Rabs_mult; reflexivity).
  assert (Hqb : Rabs (f_real q * f_real b) <= (1 + f_u) * t + f_eta * B).
  { replace (f_real q * f_real b) with ((f_real q * f_real b - ls * f_real b) + ls * f_real b) by ring.
    apply Rle_trans with (1 := Rabs_triang _ _). rewrite Els. lra. }
  destruct (sub_mul_step a q b Va Vq Vb Fa Fq Fb) as (Vr & Fr & pr & Er & Her & _).
  { apply Rle_trans with (2 := H). apply Rplus_le_compat_r, Rplus_le_compat_l, Rmult_le_compat_l; lra. }
  fold r in Vr, Fr, Er. split; [exact Vr|]. split; [exact Fr|]. rewrite Er.
  replace (pr - (f_real a - ls * f_real b)) with
    ((pr - (f_real a - f_real q * f_real b)) - (f_real q * f_real b - ls * f_real b)) by ring.
  unfold Rminus at 1. apply Rle_trans with (1 := Rabs_triang _ _). rewrite Rabs_Ropp.
  assert (Hd : Rabs (f_real a - f_real q * f_real b) <= Rabs (f_real a) + ((1 + f_u) * t + f_eta * B)).
  { unfold Rminus. apply Rle_trans with (1 := Rabs_triang _ _). rewrite Rabs_Ropp. lra. }
  pose proof (Rabs_pos (f_real a)) as Ha. set (Q := Rabs (f_real q * f_real b)) in *. assert (0 <= Q) by apply Rabs_pos.
  apply Rle_trans with (f_u * (Rabs (f_real a) + ((1 + f_u) * t + f_eta * B)) +
    (1 + f_u) * (f_u * ((1 + f_u) * t + f_eta * B) + f_eta) + (f_u * t + f_eta * B)).
  - apply Rplus_le_compat; [|exact Hq]. apply Rle_trans with (1 := Her). apply Rplus_le_compat.
    + apply Rmult_le_compat_l; lra.
    + apply Rmult_le_compat_l; [lra|]. apply Rplus_le_compat_r. apply Rmult_le_compat_l; lra.
  - assert (0 <= f_eta * B) by (apply Rmult_le_pos; lra). unfold f_gamma. cbn [pow]. nra.
Qed.

(* ------------------------------------------------------------------ sums over the rest of a row *)
Lemma wsum_all n k i h : (k <= i < n)%nat -> wsum n k n h = h i + wsum n k i h.
Proof.
  intro Hi. unfold wsum. rewrite (rsum_out n i) by lia.
  destruct (Nat.leb_spec k i); [|lia]. destruct (Nat.eqb_spec i n); [lia|]. cbn [negb andb]. f_equal.
  apply asum_ext. intros j Hj.
  destruct (Nat.eqb_spec j i), (Nat.leb_spec k j), (Nat.eqb_spec j n); cbn; auto; lia.
Qed.

Lemma wsum_head n k i h : (k < n)%nat -> k <> i -> wsum n k i h = h k + wsum n (k + 1) i h.
Proof.
  intros Hk Hi. unfold wsum. rewrite (rsum_out n k) by lia. rewrite Nat.leb_refl.
  destruct (Nat.eqb_spec k i); [lia|]. cbn [negb andb]. f_equal. apply asum_ext. intros j _.
  destruct (Nat.eqb_spec j k), (Nat.leb_spec k j), (Nat.leb_spec (k + 1) j), (Nat.eqb_spec j i); cbn; auto; lia.
Qed.

Lemma wsum_skip n k h : (k < n)%nat -> wsum n k k h = wsum n (k + 1) n h.
Proof.
  intro Hk. apply asum_ext. intros j Hj.
  destruct (Nat.eqb_spec j k), (Nat.leb_spec k j), (Nat.leb_spec (k + 1) j), (Nat.eqb_spec j n); cbn; auto; lia.
Qed.

Lemma wsum_one n k i : wsum n k i (fun _ => 1) <= INR n.
Proof.
  rewrite <- (Rmult_1_r (INR n)), <- rsum_const. apply rsum_le. intros j _. destruct (_ && _); lra.
Qed.

Lemma wsum_member n k i h j : (k <= j < n)%nat -> j <> i -> (forall j, 0 <= h j) -> h j <= wsum n k i h.
Proof.
  intros Hj Hne H. unfold wsum. rewrite (rsum_out n j) by lia. destruct (Nat.leb_spec k j); [|lia].
  destruct (Nat.eqb_spec j i); [lia|]. cbn [negb andb].
  assert (0 <= rsum n (fun j0 => if (j0 =? j)%nat then 0 else if ((k <=? j0) && negb (j0 =? i))%nat then h j0 else 0)); [|lra].
  apply rsum_nonneg. intros t _. specialize (H t). destruct (t =? j)%nat; [lra|]. destruct (_ && _); lra.
Qed.

(* ------------------------------------------------------------------ rows with a right hand side *)
Definition f_tiny : R := f_eta / (f_u * f_u).

Lemma tiny_pos : 0 < f_tiny.
Proof. pose proof u_pos. pose proof eta_pos. unfold f_tiny. apply Rdiv_lt_0_compat; [auto|]. apply Rmult_lt_0_compat; auto. Qed.

Lemma tiny_eta : f_eta = f_u * f_u * f_tiny.
Proof. pose proof u_pos. unfold f_tiny. field. lra. Qed.

Section Row.
  Variables (n : nat) (w : R).
  Hypothesis Hw : 0 < w.

  Definition mag (g : nat -> nat -> f64) (i j : nat) : R := Rabs (f_real (g i j)).
  (** Column [n] is the right hand side, with weight [w]. *)
  Definition weighted (k e : nat) (h : nat -> R) : R := wsum n k e h + w * h n.

  Lemma weighted_le k e h h' : (k <= n)%nat -> (forall j, (k <= j <= n)%nat -> j <> e -> h j <= h' j) -> e <> n \/ h n <= h' n ->
    weighted k e h <= weighted k e h'.
  Proof using Hw.
    intros Hk H He. unfold weighted. apply Rplus_le_compat.
    - apply wsum_le. intros j Hj Hne. apply H; auto. lia.
    - apply Rmult_le_compat_l; [lra|]. destruct He as [He|He]; auto.
  Qed.

  Lemma weighted_lin k e h h' c : weighted k e (fun j => h j + c * h' j) = weighted k e h + c * weighted k e h'.
  Proof using. unfold weighted. rewrite wsum_lin. ring. Qed.

  Lemma weighted_nonneg k e h : (forall j, 0 <= h j) -> 0 <= weighted k e h.
  Proof using Hw.
    intro H. unfold weighted. pose proof (wsum_nonneg n k e h H). pose proof (Rmult_le_pos w (h n) ltac:(lra) (H n)). lra.
  Qed.

  Lemma weighted_all k i h : (k <= i < n)%nat -> weighted k n h = h i + weighted k i h.
  Proof using. intro Hi. unfold weighted. rewrite (wsum_all n k i) by auto. ring. Qed.

  Lemma weighted_head k i h : (k < n)%nat -> k <> i -> weighted k i h = h k + weighted (k + 1) i h.
  Proof using. intros Hk Hi. unfold weighted. rewrite (wsum_head n k i) by auto. ring. Qed.

  Lemma weighted_skip k h : (k < n)%nat -> weighted k k h = weighted (k + 1) n h.
  Proof using. intro Hk. unfold weighted. rewrite wsum_skip by auto. ring. Qed.

  Lemma weighted_one k e : (0 < n)%nat -> weighted k e (fun _ => 1) <= INR n * (1 + w).
  Proof using Hw.
    intro Hn. unfold weighted. pose proof (wsum_one n k e). assert (1 <= INR n) by (apply (le_INR 1); lia).
    assert (w * 1 <= w * INR n) by (apply Rmult_le_compat_l; lra). lra.
  Qed.

  Definition floor : R := INR n * (1 + w) * f_tiny.

  Lemma floor_nonneg' : 0 <= floor.
  Proof using Hw. pose proof tiny_pos. unfold floor. apply Rmult_le_pos; [apply Rmult_le_pos; [apply pos_INR|lra]|lra]. Qed.

  Definition all_finite (g : nat -> nat -> f64) : Prop :=
    forall i j, (i < n)%nat -> (j <= n)%nat -> f_valid (g i j) /\ f_finite (g i j) = true.

  (** Row [i] from column [k] on: dominated with margin [m], sum at most [T]. *)
  Definition row_ok (g : nat -> nat -> f64) (k i : nat) (m T : R) : Prop :=
    weighted k i (mag g i) + m <= mag g i i /\ weighted k n (mag g i) + floor <= T.

  Definition f_eliminated (g : nat -> nat -> f64) (k r c : nat) : f64 :=
    if (k <? r)%nat then elim_row fops g k r c else g r c.

  Lemma f_eliminated_rest g k i j : (k < i)%nat -> (k < j)%nat ->
    f_eliminated g k i j = SFsub 53 1024 (g i j) (SFmul 53 1024 (SFdiv 53 1024 (g i k) (g k k)) (g k j)).
  Proof using.
    intros Hi Hj. unfold f_eliminated, elim_row. destruct (Nat.ltb_spec k i); [|lia]. destruct (Nat.ltb_spec j k); [lia|].
    destruct (Nat.eqb_spec j k); [lia|]. reflexivity.
  Qed.

  Lemma f_eliminated_quotient g k i : (k < i)%nat -> f_eliminated g k i k = SFdiv 53 1024 (g i k) (g k k).
  Proof using.
    intros Hi. unfold f_eliminated, elim_row. destruct (Nat.ltb_spec k i); [|lia]. rewrite Nat.ltb_irrefl, Nat.eqb_refl. reflexivity.
  Qed.

  Lemma f_eliminated_left g k i j : (j < k)%nat -> f_eliminated g k i j = g i j.
  Proof using.
    intros Hj. unfold f_eliminated, elim_row. destruct (Nat.ltb_spec j k); [|lia]. destruct (k <? i)%nat; reflexivity.
  Qed.

  Lemma f_eliminated_above g k i j : (i <= k)%nat -> f_eliminated g k i j = g i j.
  Proof using. intros Hi. unfold f_eliminated. destruct (Nat.ltb_spec k i); [lia|reflexivity]. Qed.

  Section Step.
    Variables (g : nat -> nat -> f64) (k i : nat) (m T : R).
    Hypothesis Hf : all_finite g.
    Hypothesis Hk : (k < i < n)%nat.
    Hypothesis Rk : row_ok g k k m T.
    Hypothesis Ri : row_ok g k i m T.
    Hypothesis Hm : 0 < m.
    Hypothesis Hratio : T <= m * f_limit.
    Hypothesis Hlim : 4 * T <= f_limit.
    Hypothesis Hlimw : 4 * T <= w * f_limit.

    Let p := mag g k k.
    Let x := mag g i k.
    Let l := Rabs (f_real (g i k) / f_real (g k k)).
    Let beta := weighted (k + 1) n (mag g k).
    Let alpha := weighted (k + 1) n (mag g i).

    Lemma mag_pos a b : 0 <= mag g a b.
    Proof using. apply Rabs_pos. Qed.

    Lemma step_facts : 0 < p /\ f_real (g k k) <> 0 /\ 0 <= l /\ l * p = x /\ beta + m <= p /\ l * beta <= x /\
      x + alpha + floor <= T /\ beta + floor <= T /\ p <= T /\ x <= T /\ 0 <= alpha /\ 0 <= beta /\ l <= f_limit.
    Proof using Hw Hf Hk Rk Ri Hm Hratio.
      destruct Rk as [Rk1 Rk2], Ri as [Ri1 Ri2]. rewrite weighted_skip in Rk1 by lia. rewrite (weighted_head k n) in Rk2, Ri2 by lia.
      change (beta + m <= p) in Rk1. change (p + beta + floor <= T) in Rk2. change (x + alpha + floor <= T) in Ri2.
      assert (Hb : 0 <= beta) by (apply weighted_nonneg; intro; apply mag_pos).
      assert (Ha : 0 <= alpha) by (apply weighted_nonneg; intro; apply mag_pos).
      assert (Hx : 0 <= x) by apply mag_pos. pose proof floor_nonneg' as Hfl.
      assert (Hp : 0 < p) by lra. assert (Hp0 : f_real (g k k) <> 0).
      { intro E. unfold p, mag in Hp. rewrite E, Rabs_R0 in Hp. lra. }
      assert (Hl0 : 0 <= l) by apply Rabs_pos. assert (Hl : l * p = x) by (apply abs_ratio; auto).
      repeat apply conj; auto; try lra.
      - rewrite <- Hl. apply Rmult_le_compat_l; lra.
      - apply (Rmult_le_reg_r p); [auto|]. rewrite Hl. apply Rle_trans with (m * f_limit); [lra|].
        rewrite Rmult_comm. apply Rmult_le_compat_l; [|lra]. unfold f_limit. apply pow_le. lra.
    Qed.

    Definition elim_err (j : nat) : R :=
      f_u * mag g i j + f_gamma 3 * (l * mag g k j) + (1 + f_u) * f_eta * ((1 + f_u) * mag g k j + 1).

    Lemma step_column j : (k < j <= n)%nat -> let r := f_eliminated g k i j in
      f_valid r /\ f_finite r = true /\
      Rabs (f_real r - (f_real (g i j) - f_real (g i k) / f_real (g k k) * f_real (g k j))) <= elim_err j.
    Proof using Hw Hf Hk Rk Ri Hm Hratio Hlim Hlimw.
      intros Hj r. unfold r. rewrite f_eliminated_rest by lia.
      destruct step_facts as (Hp & Hp0 & Hl0 & Hl & Hbp & Hlb & Hi & Hb & HpT & HxT & Ha0 & Hb0 & Hlim').
      pose proof u_pos as Hu. pose proof u_tiny as Hu3. pose proof eta_pos as He. pose proof eta_u3 as He3. pose proof floor_nonneg' as Hfl.
      assert (Hf' : forall a b, (a < n)%nat -> (b <= n)%nat -> f_valid (g a b)) by (intros; apply Hf; auto).
      assert (Hf'' : forall a b, (a < n)%nat -> (b <= n)%nat -> f_finite (g a b) = true) by (intros; apply Hf; auto).
      assert (He1 : f_eta <= / 1000) by nra. assert (Hx0 : 0 <= x) by apply mag_pos.
      assert (G : Rabs (f_real (g i j)) + (1 + f_u) * ((1 + f_u) * (l * Rabs (f_real (g k j))) + f_eta * Rabs (f_real (g k j))) + f_eta <= f_limit).
      { fold (mag g i j) (mag g k j). pose proof (mag_pos i j) as H1. pose proof (mag_pos k j) as H2.
        assert (C : exists W, 0 <= W /\ W * mag g i j <= T /\ W * mag g k j <= p /\ 4 * T <= W * f_limit /\ (W = 1 \/ W = w)).
        { destruct (Nat.eq_dec j n) as [->|Hne].
          - exists w. split; [lra|]. split; [|split; [|auto]].
            + apply Rle_trans with alpha; [|lra]. unfold alpha, weighted. pose proof (wsum_nonneg n (k + 1) n (mag g i) ltac:(intro; apply mag_pos)). lra.
            + apply Rle_trans with beta; [|lra]. unfold beta, weighted. pose proof (wsum_nonneg n (k + 1) n (mag g k) ltac:(intro; apply mag_pos)). lra.
          - exists 1. split; [lra|]. rewrite !Rmult_1_l. split; [|split; [|auto]].
            + apply Rle_trans with alpha; [|lra]. unfold alpha, weighted.
              pose proof (wsum_member n (k + 1) n (mag g i) j ltac:(lia) ltac:(lia) ltac:(intro; apply mag_pos)). pose proof (Rmult_le_pos w (mag g i n) ltac:(lra) (mag_pos _ _)). lra.
            + apply Rle_trans with beta; [|lra]. unfold beta, weighted.
              pose proof (wsum_member n (k + 1) n (mag g k) j ltac:(lia) ltac:(lia) ltac:(intro; apply mag_pos)). pose proof (Rmult_le_pos w (mag g k n) ltac:(lra) (mag_pos _ _)). lra. }
        destruct C as (W & HW & C1 & C2 & C3 & C4).
        set (a := mag g i j) in *. set (b := mag g k j) in *.
        assert (L4 : 4 <= f_limit) by (unfold f_limit; apply Rle_trans with (2 ^ 2); [lra|]; apply Rle_pow; [lra|]; apply Nat.leb_le; reflexivity).
        assert (W1 : 0 < W) by (destruct C4 as [->| ->]; lra).
        apply (Rmult_le_reg_l W); [exact W1|].
        assert (D1 : W * (l * b) <= T).
        { replace (W * (l * b)) with (l * (W * b)) by ring. apply Rle_trans with (l * p); [apply Rmult_le_compat_l; lra|lra]. }
        assert (D2 : W * (f_eta * b) <= f_eta * T).
        { replace (W * (f_eta * b)) with (f_eta * (W * b)) by ring. apply Rmult_le_compat_l; lra. }
        assert (D3 : 4 * W <= W * f_limit) by nra.
        replace (W * (a + (1 + f_u) * ((1 + f_u) * (l * b) + f_eta * b) + f_eta)) with
          (W * a + (1 + f_u) * ((1 + f_u) * (W * (l * b)) + W * (f_eta * b)) + W * f_eta) by ring.
        assert (HT : 0 <= T) by lra.
        assert (D4 : (1 + f_u) * ((1 + f_u) * (W * (l * b)) + W * (f_eta * b)) <= 1.5 * T).
        { apply Rle_trans with ((1 + f_u) * ((1 + f_u) * T + f_eta * T)).
          - apply Rmult_le_compat_l; [lra|]. apply Rplus_le_compat; [|exact D2]. apply Rmult_le_compat_l; lra.
          - replace ((1 + f_u) * ((1 + f_u) * T + f_eta * T)) with (((1 + f_u) * (1 + f_u + f_eta)) * T) by ring.
            apply Rmult_le_compat_r; [lra|]. nra. }
        assert (W * f_eta <= W) by nra. lra. }
      apply elim_step; auto; try (apply Hf''; lia); apply Hf'; lia.
    Qed.

    Lemma step_quotient : let q := f_eliminated g k i k in f_valid q /\ f_finite q = true /\
      mag (f_eliminated g k) i k <= (1 + f_u) * l + f_eta /\ mag (f_eliminated g k) i k * p <= (1 + f_u) * T + f_eta * T.
    Proof using Hw Hf Hk Rk Ri Hm Hratio.
      intros q. unfold q, mag. rewrite f_eliminated_quotient by lia. pose proof u_pos as Hu. pose proof eta_pos as He.
      destruct step_facts as (Hp & Hp0 & Hl0 & Hl & Hbp & Hlb & Hi & Hb & HpT & HxT & Ha0 & Hb0 & Hlim').
      destruct (Hf i k) as [V1 F1]; try lia. destruct (Hf k k) as [V2 F2]; try lia.
      destruct (div_step _ _ V1 V2 F1 F2 Hp0 Hlim') as (V & F & E). split; [exact V|]. split; [exact F|]. fold l in E.
      set (s := f_real (SFdiv 53 1024 (g i k) (g k k))) in *.
      assert (H1 : Rabs s <= (1 + f_u) * l + f_eta).
      { replace s with ((s - f_real (g i k) / f_real (g k k)) + f_real (g i k) / f_real (g k k)) by ring.
        apply Rle_trans with (1 := Rabs_triang _ _). fold l. lra. }
      split; [exact H1|]. apply Rle_trans with (((1 + f_u) * l + f_eta) * p); [apply Rmult_le_compat_r; lra|].
      rewrite Rmult_plus_distr_r, Rmult_assoc, Hl. apply Rplus_le_compat; apply Rmult_le_compat_l; lra.
    Qed.

    Lemma elim_err_nonneg j : 0 <= elim_err j.
    Proof using.
      unfold elim_err. pose proof u_pos. pose proof eta_pos. pose proof (gamma_nonneg 3). pose proof (mag_pos i j). pose proof (mag_pos k j).
      assert (0 <= l) by apply Rabs_pos. repeat apply Rplus_le_le_0_compat; repeat apply Rmult_le_pos; try lra; auto.
      apply Rplus_le_le_0_compat; [|lra]. apply Rmult_le_pos; lra.
    Qed.

    Lemma elim_err_sum : weighted (k + 1) n elim_err <= f_gamma 4 * T.
    Proof using Hw Hf Hk Rk Ri Hm Hratio.
      destruct step_facts as (Hp & Hp0 & Hl0 & Hl & Hbp & Hlb & Hi & Hb & HpT & HxT & Ha0 & Hb0 & Hlim').
      pose proof u_pos as Hu. pose proof u_tiny as Hu3. pose proof eta_pos as He. pose proof eta_u3 as He3. pose proof floor_nonneg' as Hfl.
      pose proof (gamma_nonneg 3) as Hg3.
      assert (E : weighted (k + 1) n elim_err = f_u * alpha + f_gamma 3 * l * beta + (1 + f_u) * f_eta * ((1 + f_u) * beta + weighted (k + 1) n (fun _ => 1))).
      { transitivity (weighted (k + 1) n (fun j => (f_u * mag g i j + f_gamma 3 * l * mag g k j) +
          (1 + f_u) * f_eta * ((1 + f_u) * mag g k j + 1))).
        - unfold weighted, wsum, elim_err. f_equal; [|ring]. apply asum_ext. intros j _. destruct (_ && _)%nat; ring.
        - rewrite !weighted_lin. f_equal.
          + unfold alpha, beta. f_equal. transitivity (weighted (k + 1) n (fun j => 0 + f_u * mag g i j)).
            * unfold weighted, wsum. f_equal; [|ring]. apply asum_ext. intros j _. destruct (_ && _)%nat; ring.
            * rewrite weighted_lin. unfold weighted, wsum. rewrite rsum_zero; [ring|]. intros j _. destruct (_ && _)%nat; ring.
          + f_equal. transitivity (weighted (k + 1) n (fun j => 1 + (1 + f_u) * mag g k j)).
            * unfold weighted, wsum. f_equal; [|ring]. apply asum_ext. intros j _. destruct (_ && _)%nat; ring.
            * rewrite weighted_lin. unfold beta. ring. }
      rewrite E. assert (Hn : (0 < n)%nat) by lia. pose proof (weighted_one (k + 1) n Hn) as H1.
      assert (H2 : f_eta * (INR n * (1 + w)) = f_u * f_u * floor) by (rewrite tiny_eta; unfold floor; ring).
      set (one := weighted (k + 1) n (fun _ => 1)) in *. set (N := INR n * (1 + w)) in *.
      assert (H3 : f_eta * one <= f_u * f_u * floor) by (rewrite <- H2; apply Rmult_le_compat_l; lra).
      assert (HT : floor <= T) by lra.
      assert (S1 : f_gamma 3 * l * beta <= f_gamma 3 * x) by (rewrite Rmult_assoc; apply Rmult_le_compat_l; lra).
      assert (G3 : f_u <= f_gamma 3).
      { replace f_u with (f_gamma 1) by (unfold f_gamma; ring). apply gamma_le. lia. }
      assert (S2 : f_u * alpha <= f_gamma 3 * alpha) by (apply Rmult_le_compat_r; lra).
      assert (S3 : f_u * alpha + f_gamma 3 * l * beta <= f_gamma 3 * (T - floor)).
      { apply Rle_trans with (f_gamma 3 * (x + alpha)); [lra|]. apply Rmult_le_compat_l; lra. }
      assert (S4 : (1 + f_u) * f_eta * ((1 + f_u) * beta + one) <= f_u * (T - floor) + 2 * f_u * floor).
      { replace ((1 + f_u) * f_eta * ((1 + f_u) * beta + one)) with ((1 + f_u) * (1 + f_u) * f_eta * beta + (1 + f_u) * (f_eta * one)) by ring.
        apply Rplus_le_compat.
        - apply Rmult_le_compat; try lra; [repeat apply Rmult_le_pos; lra|].
          assert (U2 : (1 + f_u) * (1 + f_u) <= 2 * 2) by (apply Rmult_le_compat; lra).
          assert (U3 : f_u * f_u <= / 1000 * / 1000) by (apply Rmult_le_compat; lra).
          assert (U4 : f_eta <= / 1000 * / 1000 * f_u) by (apply Rle_trans with (1 := He3), Rmult_le_compat_r; lra).
          apply Rle_trans with (2 * 2 * f_eta); [apply Rmult_le_compat_r; lra|lra].
        - apply Rle_trans with ((1 + f_u) * (f_u * f_u * floor)); [apply Rmult_le_compat_l; lra|].
          replace ((1 + f_u) * (f_u * f_u * floor)) with (((1 + f_u) * f_u) * (f_u * floor)) by ring.
          replace (2 * f_u * floor) with (2 * (f_u * floor)) by ring. apply Rmult_le_compat_r; [apply Rmult_le_pos; lra|].
          assert (f_u * f_u <= 1 * f_u) by (apply Rmult_le_compat_r; lra). lra. }
      rewrite (gamma_S 3). assert (0 <= f_u * floor) by (apply Rmult_le_pos; lra).
      assert (S5 : 0 <= (f_gamma 3 * f_u) * T) by (repeat apply Rmult_le_pos; lra).
      assert (S6 : f_u * floor <= f_gamma 3 * floor) by (apply Rmult_le_compat_r; lra). lra.
    Qed.

    Lemma row_step : row_ok (f_eliminated g k) (k + 1) i (m - f_gamma 4 * T) ((1 + f_u) ^ 4 * T).
    Proof using Hw Hf Hk Rk Ri Hm Hratio Hlim Hlimw.
      destruct step_facts as (Hp & Hp0 & Hl0 & Hl & Hbp & Hlb & Hi & Hb & HpT & HxT & Ha0 & Hb0 & Hlim').
      pose proof elim_err_sum as HE.
      assert (U : forall j, (k < j <= n)%nat -> mag (f_eliminated g k) i j <= mag g i j + l * mag g k j + elim_err j).
      { intros j Hj. destruct (step_column j Hj) as (_ & _ & E). unfold mag at 1.
        set (q := f_real (f_eliminated g k i j)) in *. set (s := f_real (g i j) - f_real (g i k) / f_real (g k k) * f_real (g k j)) in *.
        replace q with (s + (q - s)) by ring. apply Rle_trans with (1 := Rabs_triang _ _). apply Rplus_le_compat; [|exact E].
        unfold s, Rminus. apply Rle_trans with (1 := Rabs_triang _ _). rewrite Rabs_Ropp, Rabs_mult. right. reflexivity. }
      assert (D : mag g i i - l * mag g k i - elim_err i <= mag (f_eliminated g k) i i).
      { destruct (step_column i ltac:(lia)) as (_ & _ & E). unfold mag at 3.
        set (q := f_real (f_eliminated g k i i)) in *. set (s := f_real (g i i) - f_real (g i k) / f_real (g k k) * f_real (g k i)) in *.
        assert (Rabs s - Rabs (q - s) <= Rabs q).
        { pose proof (Rabs_triang q (s - q)) as H. replace (q + (s - q)) with s in H by ring. rewrite (Rabs_minus_sym s q) in H. lra. }
        assert (mag g i i - l * mag g k i <= Rabs s); [|lra].
        unfold s, mag, l. rewrite <- Rabs_mult. apply Rabs_triang_inv. }
      assert (L : forall e, weighted (k + 1) e (fun j => mag g i j + l * mag g k j + elim_err j) =
        weighted (k + 1) e (mag g i) + l * weighted (k + 1) e (mag g k) + weighted (k + 1) e elim_err).
      { intro e. rewrite <- weighted_lin, <- (Rmult_1_l (weighted (k + 1) e elim_err)), <- weighted_lin.
        unfold weighted, wsum. f_equal; [apply asum_ext; intros j _; destruct (_ && _)%nat|]; ring. }
      split.
      - apply Rle_trans with (weighted (k + 1) i (fun j => mag g i j + l * mag g k j + elim_err j) + (m - f_gamma 4 * T)).
        + apply Rplus_le_compat_r. apply weighted_le; [lia| |left; lia]. intros j Hj _. apply U. lia.
        + rewrite L. apply Rle_trans with (2 := D). destruct Ri as [Ri1 _]. rewrite weighted_head in Ri1 by lia. fold x in Ri1.
          unfold beta in Hlb. rewrite (weighted_all (k + 1) i) in HE, Hlb by lia. lra.
      - apply Rle_trans with (weighted (k + 1) n (fun j => mag g i j + l * mag g k j + elim_err j) + floor).
        + apply Rplus_le_compat_r. apply weighted_le; [lia| |right; apply U; lia]. intros j Hj _. apply U. lia.
        + rewrite L. fold alpha beta. replace ((1 + f_u) ^ 4 * T) with (T + f_gamma 4 * T) by (unfold f_gamma; ring). lra.
    Qed.
  End Step.

  Lemma row_ok_weaken g k i m m' T T' : m' <= m -> T <= T' -> row_ok g k i m T -> row_ok g k i m' T'.
  Proof using. intros H1 H2 [R1 R2]. split; lra. Qed.

  Lemma weighted_ext k e h h' : (forall j, (j <= n)%nat -> h j = h' j) -> weighted k e h = weighted k e h'.
  Proof using.
    intro H. unfold weighted, wsum. rewrite (H n) by lia. f_equal. apply asum_ext. intros j Hj.
    destruct (_ && _)%nat; auto. apply H. lia.
  Qed.

  Lemma row_ok_ext g g' k i m T : (i < n)%nat -> (forall j, (j <= n)%nat -> g i j = g' i j) -> row_ok g k i m T -> row_ok g' k i m T.
  Proof using.
    intros Hi H [R1 R2]. unfold row_ok. assert (E : forall j, (j <= n)%nat -> mag g i j = mag g' i j) by (intros j Hj; unfold mag; rewrite H by lia; reflexivity).
    rewrite <- (E i) by lia. rewrite <- (weighted_ext k i (mag g i) (mag g' i) E), <- (weighted_ext k n (mag g i) (mag g' i) E). split; auto.
  Qed.

  (** What is known after [k] rounds, from the rows [A] with the right hand side in column [n]. *)
  Section State.
    Variables (A : nat -> nat -> f64) (m T : R).
    Hypothesis HT0 : 0 <= T.
    Hypothesis Hgam : f_gamma (4 * n) <= 1.
    Let Tn := (1 + f_u) ^ (4 * n) * T.
    Let mu := m - f_gamma (4 * n) * T.
    Hypothesis Hmu : 0 < mu.
    Hypothesis Hratio : Tn <= mu * f_limit.
    Hypothesis Hlim : 8 * T <= f_limit.
    Hypothesis Hlimw : 8 * T <= w * f_limit.

    Definition dominant_state (k : nat) (g : nat -> nat -> f64) : Prop :=
      all_finite g /\
      (forall i, (k <= i < n)%nat -> row_ok g k i (m - f_gamma (4 * k) * T) ((1 + f_u) ^ (4 * k) * T)) /\
      (forall r, (r < k)%nat -> (r < n)%nat -> row_ok g r r mu Tn) /\
      (forall r c, (c < k)%nat -> (c < r < n)%nat -> mag g r c * mag g c c <= (1 + f_u) ^ 2 * Tn) /\
      (forall r, (r < n)%nat -> g r n = rdiff fops (A r n) (Nat.min r k) (fun c => SFmul 53 1024 (g r c) (g c n))).

    Lemma pow_level k : (k <= n)%nat -> (1 + f_u) ^ (4 * k) * T <= Tn /\ mu <= m - f_gamma (4 * k) * T.
    Proof using HT0.
      clear - HT0. intro Hk. pose proof u_pos. split.
      - apply Rmult_le_compat_r; [auto|]. apply Rle_pow; [lra|lia].
      - unfold mu. assert (f_gamma (4 * k) * T <= f_gamma (4 * n) * T); [|lra].
        apply Rmult_le_compat_r; [auto|]. apply gamma_le. lia.
    Qed.

    Lemma Tn_le : Tn <= 2 * T.
    Proof using HT0 Hgam. apply Rmult_le_compat_r; [auto|]. unfold f_gamma in Hgam. lra. Qed.

    Lemma dominant_0 : all_finite A -> (forall i, (i < n)%nat -> row_ok A 0 i m T) -> dominant_state 0 A.
    Proof using.
      clear. intros HA HR. split; [exact HA|]. split; [|split; [|split]]; try (intros; lia).
      - intros i Hi. apply (row_ok_weaken A 0 i m _ T); [|  |apply HR; lia]; unfold f_gamma; rewrite Nat.mul_0_r; cbn [pow]; lra.
      - intros r Hr. rewrite Nat.min_0_r. reflexivity.
    Qed.

    Lemma dominant_pivot k g : (k < n)%nat -> dominant_state k g -> mu <= mag g k k.
    Proof using Hw HT0.
      intros Hk (_ & H & _). destruct (H k ltac:(lia)) as [H1 _]. destruct (pow_level k ltac:(lia)) as [_ H2].
      pose proof (weighted_nonneg k k (mag g k) ltac:(intro; apply Rabs_pos)). lra.
    Qed.

    Lemma dominant_next k g : (k < n)%nat -> dominant_state k g -> dominant_state (k + 1) (f_eliminated g k).
    Proof using Hw HT0 Hgam Hmu Hratio Hlim Hlimw.
      intros Hk (Hf & HR & HD & HL & HY). destruct (pow_level k ltac:(lia)) as [P1 P2]. pose proof Tn_le as P3.
      set (mk := m - f_gamma (4 * k) * T) in *. set (Tk := (1 + f_u) ^ (4 * k) * T) in *.
      assert (Q1 : 0 < mk) by lra.
      assert (L0 : 0 <= f_limit) by (unfold f_limit; apply pow_le; lra).
      assert (Q2 : Tk <= mk * f_limit).
      { apply Rle_trans with (mu * f_limit); [lra|]. apply Rmult_le_compat_r; lra. }
      assert (Q3 : 4 * Tk <= f_limit) by lra. assert (Q4 : 4 * Tk <= w * f_limit) by lra.
      assert (G4 : mk - f_gamma 4 * Tk = m - f_gamma (4 * (k + 1)) * T).
      { unfold mk, Tk. replace (4 * (k + 1))%nat with (4 * k + 4)%nat by lia. rewrite gamma_add. unfold f_gamma. ring. }
      assert (T4 : (1 + f_u) ^ 4 * Tk = (1 + f_u) ^ (4 * (k + 1)) * T).
      { unfold Tk. replace (4 * (k + 1))%nat with (4 + 4 * k)%nat by lia. rewrite pow_add. ring. }
      pose proof u_pos as Hu. pose proof eta_pos as He. pose proof eta_u3 as He3. pose proof u_tiny as Hu3.
      assert (Rk := HR k ltac:(lia)).
      split; [|split; [|split; [|split]]].
      - intros i j Hi Hj. destruct (Nat.le_gt_cases i k) as [L|L]; [rewrite f_eliminated_above by auto; auto|].
        destruct (lt_eq_lt_dec j k) as [[J|J]|J].
        + rewrite f_eliminated_left by auto. auto.
        + subst j. destruct (step_quotient g k i mk Tk Hf ltac:(lia) Rk (HR i ltac:(lia)) Q1 Q2) as (V & F & _). auto.
        + destruct (step_column g k i mk Tk Hf ltac:(lia) Rk (HR i ltac:(lia)) Q1 Q2 Q3 Q4 j ltac:(lia)) as (V & F & _). auto.
      - intros i Hi. rewrite <- G4, <- T4. apply row_step; auto; try lia. apply HR. lia.
      - intros r Hr Hn. apply (row_ok_ext g); [auto| |].
        + intros j _. rewrite f_eliminated_above by lia. reflexivity.
        + destruct (Nat.eq_dec r k) as [->|]; [|apply HD; lia]. apply (row_ok_weaken g k k mk mu Tk Tn); auto.
      - intros r c Hc Hr. unfold mag. rewrite (f_eliminated_above g k c c) by lia.
        destruct (Nat.eq_dec c k) as [->|].
        + destruct (step_quotient g k r mk Tk Hf ltac:(lia) Rk (HR r ltac:(lia)) Q1 Q2) as (_ & _ & _ & E).
          apply Rle_trans with (1 := E). apply Rle_trans with (((1 + f_u) ^ 2) * Tk); [|apply Rmult_le_compat_l; [apply pow_le; lra|auto]].
          assert (0 <= Tk) by (unfold Tk; apply Rmult_le_pos; [apply pow_le; lra|auto]).
          rewrite <- Rmult_plus_distr_r. apply Rmult_le_compat_r; auto.
          assert (f_eta <= f_u); [|cbn [pow]; nra]. apply Rle_trans with (1 := He3).
          assert (f_u * f_u <= 1) by nra. nra.
        + rewrite f_eliminated_left by lia. apply HL; lia.
      - intros r Hr. destruct (Nat.le_gt_cases r k) as [L|L].
        + rewrite f_eliminated_above by auto. rewrite (HY r Hr) at 1. replace (Nat.min r (k + 1)) with (Nat.min r k) by lia.
          apply rdiff_ext. intros c Hc. rewrite !f_eliminated_above by lia. reflexivity.
        + replace (Nat.min r (k + 1)) with (S k) by lia. cbn [rdiff]. rewrite f_eliminated_rest by lia.
          cbn [fops sc_sub]. fold fops. f_equal.
          * rewrite (HY r Hr) at 1. rewrite Nat.min_r by lia. apply rdiff_ext. intros c Hc.
            rewrite f_eliminated_left, f_eliminated_above by lia. reflexivity.
          * rewrite f_eliminated_quotient, f_eliminated_above by lia. reflexivity.
    Qed.
  End State.
End Row.
