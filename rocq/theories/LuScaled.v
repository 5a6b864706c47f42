(** The direct solver in doubles on systems whose rows dominate after a scaling of the unknowns: the elimination.
    As LuDominant, with the magnitude of column [j] counted [wt j] times. *)
From Coq Require Import ZArith Reals Lra Lia List SpecFloat Psatz.
From Flocq Require Import Core BinarySingleNaN.
From Verif Require Import Base ListFacts DenseModel DenseFacts ScalarModel GeometryReal LuModel LuFacts LuReal
  FloatFacts FloatError IterFloat LuFloat PropFloatLemmas FloatUnit FloatSweep LuSuccess LuDominant.
Import ListNotations.
Local Open Scope R_scope.

Section Row.
  Variables (n : nat) (w K : R) (wt : nat -> R).
  Hypothesis Hw : 0 < w.

  (** The magnitude of an entry, scaled with its column. *)
  Definition smag (g : nat -> nat -> f64) (i j : nat) : R := wt j * Rabs (f_real (g i j)).
  Notation weighted := (LuDominant.weighted n w).

  Definition sfloor : R := INR n * (K + w) * f_tiny.

  Hypothesis Hq : forall j, 1 <= wt j <= K.
  Hypothesis Hqn : wt n = 1.

  Lemma K_pos : 1 <= K.
  Proof using Hq. specialize (Hq 0%nat). lra. Qed.

  Lemma sfloor_nonneg : 0 <= sfloor.
  Proof using Hw Hq. pose proof tiny_pos. pose proof K_pos. unfold sfloor. apply Rmult_le_pos; [apply Rmult_le_pos; [apply pos_INR|lra]|lra]. Qed.

  Lemma smag_nonneg g i j : 0 <= smag g i j.
  Proof using Hq. specialize (Hq j). apply Rmult_le_pos; [lra|apply Rabs_pos]. Qed.

  Lemma smag_ge g i j : Rabs (f_real (g i j)) <= smag g i j.
  Proof using Hq. specialize (Hq j). unfold smag. pose proof (Rabs_pos (f_real (g i j))). nra. Qed.

  Lemma weighted_q k e : (0 < n)%nat -> weighted k e wt <= INR n * (K + w).
  Proof using Hw Hq Hqn.
    intro Hn. unfold LuDominant.weighted. rewrite Hqn. assert (1 <= INR n) by (apply (le_INR 1); lia). pose proof K_pos.
    assert (wsum n k e wt <= INR n * K).
    { rewrite <- rsum_const. apply rsum_le. intros j _. specialize (Hq j). destruct (_ && _); lra. }
    assert (w * 1 <= w * INR n) by (apply Rmult_le_compat_l; lra). lra.
  Qed.

  (** Row [i] from column [k] on: dominated with margin [m], sum at most [T]. *)
  Definition srow_ok (g : nat -> nat -> f64) (k i : nat) (m T : R) : Prop :=
    weighted k i (smag g i) + m <= smag g i i /\ weighted k n (smag g i) + sfloor <= T.

  Section Step.
    Variables (g : nat -> nat -> f64) (k i : nat) (m T : R).
    Hypothesis Hf : all_finite n g.
    Hypothesis Hk : (k < i < n)%nat.
    Hypothesis Rk : srow_ok g k k m T.
    Hypothesis Ri : srow_ok g k i m T.
    Hypothesis Hm : 0 < m.
    Hypothesis Hratio : T <= m * f_limit.
    Hypothesis Hlim : 4 * T <= f_limit.
    Hypothesis Hlimw : 4 * T <= w * f_limit.

    Let p := smag g k k.
    Let x := smag g i k.
    Let l := Rabs (f_real (g i k) / f_real (g k k)).
    Let beta := weighted (k + 1) n (smag g k).
    Let alpha := weighted (k + 1) n (smag g i).

    Lemma sstep_facts : 0 < p /\ f_real (g k k) <> 0 /\ 0 <= l /\ l * p = x /\ beta + m <= p /\ l * beta <= x /\
      x + alpha + sfloor <= T /\ beta + sfloor <= T /\ p <= T /\ x <= T /\ 0 <= alpha /\ 0 <= beta /\ l <= f_limit.
    Proof using Hw Hq Hqn Hf Hk Rk Ri Hm Hratio.
      destruct Rk as [Rk1 Rk2], Ri as [Ri1 Ri2]. rewrite weighted_skip in Rk1 by lia. rewrite (weighted_head n w k n) in Rk2, Ri2 by lia.
      change (beta + m <= p) in Rk1. change (p + beta + sfloor <= T) in Rk2. change (x + alpha + sfloor <= T) in Ri2.
      assert (Hb : 0 <= beta) by (apply (weighted_nonneg n w Hw); intro; apply smag_nonneg).
      assert (Ha : 0 <= alpha) by (apply (weighted_nonneg n w Hw); intro; apply smag_nonneg).
      assert (Hx : 0 <= x) by apply smag_nonneg. pose proof sfloor_nonneg as Hfl.
      assert (Hp : 0 < p) by lra. assert (Hp0 : f_real (g k k) <> 0).
      { intro E. unfold p, smag in Hp. rewrite E, Rabs_R0, Rmult_0_r in Hp. lra. }
      assert (Hl0 : 0 <= l) by apply Rabs_pos. assert (Hl : l * p = x).
      { unfold p, x, smag. pose proof (abs_ratio (f_real (g i k)) (f_real (g k k)) Hp0) as E. fold l in E. rewrite <- E. ring. }
      repeat apply conj; auto; try lra.
      - rewrite <- Hl. apply Rmult_le_compat_l; lra.
      - apply (Rmult_le_reg_r p); [auto|]. rewrite Hl. apply Rle_trans with (m * f_limit); [lra|].
        rewrite Rmult_comm. apply Rmult_le_compat_l; [|lra]. unfold f_limit. apply pow_le. lra.
    Qed.

    Definition selim_err (j : nat) : R :=
      f_u * smag g i j + f_gamma 3 * (l * smag g k j) + (1 + f_u) * f_eta * ((1 + f_u) * smag g k j + wt j).

    Lemma sstep_column j : (k < j <= n)%nat -> let r := f_eliminated g k i j in
      f_valid r /\ f_finite r = true /\
      wt j * Rabs (f_real r - (f_real (g i j) - f_real (g i k) / f_real (g k k) * f_real (g k j))) <= selim_err j.
    Proof using Hw Hq Hqn Hf Hk Rk Ri Hm Hratio Hlim Hlimw.
      intros Hj r. unfold r. rewrite f_eliminated_rest by lia.
      destruct sstep_facts as (Hp & Hp0 & Hl0 & Hl & Hbp & Hlb & Hi & Hb & HpT & HxT & Ha0 & Hb0 & Hlim').
      pose proof u_pos as Hu. pose proof u_tiny as Hu3. pose proof eta_pos as He. pose proof eta_u3 as He3. pose proof sfloor_nonneg as Hfl.
      assert (Hf' : forall a b, (a < n)%nat -> (b <= n)%nat -> f_valid (g a b)) by (intros; apply Hf; auto).
      assert (Hf'' : forall a b, (a < n)%nat -> (b <= n)%nat -> f_finite (g a b) = true) by (intros; apply Hf; auto).
      assert (He1 : f_eta <= / 1000) by nra. assert (Hx0 : 0 <= x) by apply smag_nonneg.
      assert (G : Rabs (f_real (g i j)) + (1 + f_u) * ((1 + f_u) * (l * Rabs (f_real (g k j))) + f_eta * Rabs (f_real (g k j))) + f_eta <= f_limit).
      { apply Rle_trans with (smag g i j + (1 + f_u) * ((1 + f_u) * (l * smag g k j) + f_eta * smag g k j) + f_eta).
        { pose proof (smag_ge g i j) as H1. pose proof (smag_ge g k j) as H2.
          assert (l * Rabs (f_real (g k j)) <= l * smag g k j) by (apply Rmult_le_compat_l; auto).
          assert (f_eta * Rabs (f_real (g k j)) <= f_eta * smag g k j) by (apply Rmult_le_compat_l; lra).
          assert ((1 + f_u) * (l * Rabs (f_real (g k j))) <= (1 + f_u) * (l * smag g k j)) by (apply Rmult_le_compat_l; lra).
          apply Rplus_le_compat_r, Rplus_le_compat; [auto|]. apply Rmult_le_compat_l; lra. }
        pose proof (smag_nonneg g i j) as H1. pose proof (smag_nonneg g k j) as H2.
        assert (C : exists W, 0 <= W /\ W * smag g i j <= T /\ W * smag g k j <= p /\ 4 * T <= W * f_limit /\ (W = 1 \/ W = w)).
        { destruct (Nat.eq_dec j n) as [->|Hne].
          - exists w. split; [lra|]. split; [|split; [|auto]].
            + apply Rle_trans with alpha; [|lra]. unfold alpha, LuDominant.weighted. pose proof (wsum_nonneg n (k + 1) n (smag g i) ltac:(intro; apply smag_nonneg)). lra.
            + apply Rle_trans with beta; [|lra]. unfold beta, LuDominant.weighted. pose proof (wsum_nonneg n (k + 1) n (smag g k) ltac:(intro; apply smag_nonneg)). lra.
          - exists 1. split; [lra|]. rewrite !Rmult_1_l. split; [|split; [|auto]].
            + apply Rle_trans with alpha; [|lra]. unfold alpha, LuDominant.weighted.
              pose proof (wsum_member n (k + 1) n (smag g i) j ltac:(lia) ltac:(lia) ltac:(intro; apply smag_nonneg)). pose proof (Rmult_le_pos w (smag g i n) ltac:(lra) (smag_nonneg _ _ _)). lra.
            + apply Rle_trans with beta; [|lra]. unfold beta, LuDominant.weighted.
              pose proof (wsum_member n (k + 1) n (smag g k) j ltac:(lia) ltac:(lia) ltac:(intro; apply smag_nonneg)). pose proof (Rmult_le_pos w (smag g k n) ltac:(lra) (smag_nonneg _ _ _)). lra. }
        destruct C as (W & HW & C1 & C2 & C3 & C4).
        set (a := smag g i j) in *. set (b := smag g k j) in *.
        assert (L4 : 4 <= f_limit) by (unfold f_limit; apply Rle_trans with (2 ^ 2); [lra|]; apply Rle_pow; [lra|]; apply Nat.leb_le; reflexivity).
        assert (W1 : 0 < W) by (destruct C4 as [->| ->]; lra).
        apply (Rmult_le_reg_l W); [exact W1|].
        assert (D1 : W * (l * b) <= T).
        { replace (W * (l * b)) with (l * (W * b)) by ring. apply Rle_trans with (l * p); [apply Rmult_le_compat_l; lra|lra]. }
        assert (D2 : W * (f_eta * b) <= f_eta * T).
        { replace (W * (f_eta * b)) with (f_eta * (W * b)) by ring. apply Rmult_le_compat_l; lra. }
        assert (D3 : 4 * W <= W * f_limit) by nra.
        replace (W * (a + (1 + f_u) * ((1 + f_u) * (l * b) + f_eta * b) + f_eta)) with
          (W * a + (1 + f_u) * ((1 + f_u) * (W * (l * b)) + W * (f_eta * b)) + W * f_eta) by ring.
        assert (HT : 0 <= T) by lra.
        assert (D4 : (1 + f_u) * ((1 + f_u) * (W * (l * b)) + W * (f_eta * b)) <= 1.5 * T).
        { apply Rle_trans with ((1 + f_u) * ((1 + f_u) * T + f_eta * T)).
          - apply Rmult_le_compat_l; [lra|]. apply Rplus_le_compat; [|exact D2]. apply Rmult_le_compat_l; lra.
          - replace ((1 + f_u) * ((1 + f_u) * T + f_eta * T)) with (((1 + f_u) * (1 + f_u + f_eta)) * T) by ring.
            apply Rmult_le_compat_r; [lra|]. nra. }
        assert (W * f_eta <= W) by nra. lra. }
      destruct (elim_step (g i j) (g i k) (g k k) (g k j)) as (V & F & E); auto; try (apply Hf''; lia); try (apply Hf'; lia).
      split; [exact V|]. split; [exact F|]. fold l in E.
      apply Rle_trans with (wt j * (f_u * Rabs (f_real (g i j)) + f_gamma 3 * (l * Rabs (f_real (g k j))) +
        (1 + f_u) * f_eta * ((1 + f_u) * Rabs (f_real (g k j)) + 1))).
      - apply Rmult_le_compat_l; [|exact E]. destruct (Hq j). lra.
      - right. unfold selim_err, smag. ring.
    Qed.

    Lemma sstep_quotient : let q := f_eliminated g k i k in f_valid q /\ f_finite q = true /\
      mag (f_eliminated g k) i k <= (1 + f_u) * l + f_eta /\ mag (f_eliminated g k) i k * p <= (1 + f_u) * T + f_eta * T.
    Proof using Hw Hq Hqn Hf Hk Rk Ri Hm Hratio.
      intros q. unfold q, mag. rewrite f_eliminated_quotient by lia. pose proof u_pos as Hu. pose proof eta_pos as He.
      destruct sstep_facts as (Hp & Hp0 & Hl0 & Hl & Hbp & Hlb & Hi & Hb & HpT & HxT & Ha0 & Hb0 & Hlim').
      destruct (Hf i k) as [V1 F1]; try lia. destruct (Hf k k) as [V2 F2]; try lia.
      destruct (div_step _ _ V1 V2 F1 F2 Hp0 Hlim') as (V & F & E). split; [exact V|]. split; [exact F|]. fold l in E.
      set (s := f_real (SFdiv 53 1024 (g i k) (g k k))) in *.
      assert (H1 : Rabs s <= (1 + f_u) * l + f_eta).
      { replace s with ((s - f_real (g i k) / f_real (g k k)) + f_real (g i k) / f_real (g k k)) by ring.
        apply Rle_trans with (1 := Rabs_triang _ _). fold l. lra. }
      split; [exact H1|]. apply Rle_trans with (((1 + f_u) * l + f_eta) * p); [apply Rmult_le_compat_r; lra|].
      rewrite Rmult_plus_distr_r, Rmult_assoc, Hl. apply Rplus_le_compat; apply Rmult_le_compat_l; lra.
    Qed.

    Lemma selim_err_sum : weighted (k + 1) n selim_err <= f_gamma 4 * T.
    Proof using Hw Hq Hqn Hf Hk Rk Ri Hm Hratio.
      destruct sstep_facts as (Hp & Hp0 & Hl0 & Hl & Hbp & Hlb & Hi & Hb & HpT & HxT & Ha0 & Hb0 & Hlim').
      pose proof u_pos as Hu. pose proof u_tiny as Hu3. pose proof eta_pos as He. pose proof eta_u3 as He3. pose proof sfloor_nonneg as Hfl.
      pose proof (gamma_nonneg 3) as Hg3.
      assert (E : weighted (k + 1) n selim_err = f_u * alpha + f_gamma 3 * l * beta + (1 + f_u) * f_eta * ((1 + f_u) * beta + weighted (k + 1) n wt)).
      { transitivity (weighted (k + 1) n (fun j => (f_u * smag g i j + f_gamma 3 * l * smag g k j) +
          (1 + f_u) * f_eta * ((1 + f_u) * smag g k j + wt j))).
        - unfold LuDominant.weighted, wsum, selim_err. f_equal; [|ring]. apply asum_ext. intros j _. destruct (_ && _)%nat; ring.
        - rewrite !weighted_lin. f_equal.
          + unfold alpha, beta. f_equal. transitivity (weighted (k + 1) n (fun j => 0 + f_u * smag g i j)).
            * unfold LuDominant.weighted, wsum. f_equal; [|ring]. apply asum_ext. intros j _. destruct (_ && _)%nat; ring.
            * rewrite weighted_lin. unfold LuDominant.weighted, wsum. rewrite rsum_zero; [ring|]. intros j _. destruct (_ && _)%nat; ring.
          + f_equal. transitivity (weighted (k + 1) n (fun j => wt j + (1 + f_u) * smag g k j)).
            * unfold LuDominant.weighted, wsum. f_equal; [|ring]. apply asum_ext. intros j _. destruct (_ && _)%nat; ring.
            * rewrite weighted_lin. unfold beta. ring. }
      rewrite E. assert (Hn : (0 < n)%nat) by lia. pose proof (weighted_q (k + 1) n Hn) as H1.
      assert (H2 : f_eta * (INR n * (K + w)) = f_u * f_u * sfloor) by (rewrite tiny_eta; unfold sfloor; ring).
      set (one := weighted (k + 1) n wt) in *. set (N := INR n * (K + w)) in *.
      assert (H3 : f_eta * one <= f_u * f_u * sfloor) by (rewrite <- H2; apply Rmult_le_compat_l; lra).
      assert (HT : sfloor <= T) by lra.
      assert (S1 : f_gamma 3 * l * beta <= f_gamma 3 * x) by (rewrite Rmult_assoc; apply Rmult_le_compat_l; lra).
      assert (G3 : f_u <= f_gamma 3).
      { replace f_u with (f_gamma 1) by (unfold f_gamma; ring). apply gamma_le. lia. }
      assert (S2 : f_u * alpha <= f_gamma 3 * alpha) by (apply Rmult_le_compat_r; lra).
      assert (S3 : f_u * alpha + f_gamma 3 * l * beta <= f_gamma 3 * (T - sfloor)).
      { apply Rle_trans with (f_gamma 3 * (x + alpha)); [lra|]. apply Rmult_le_compat_l; lra. }
      assert (S4 : (1 + f_u) * f_eta * ((1 + f_u) * beta + one) <= f_u * (T - sfloor) + 2 * f_u * sfloor).
      { replace ((1 + f_u) * f_eta * ((1 + f_u) * beta + one)) with ((1 + f_u) * (1 + f_u) * f_eta * beta + (1 + f_u) * (f_eta * one)) by ring.
        apply Rplus_le_compat.
        - apply Rmult_le_compat; try lra; [repeat apply Rmult_le_pos; lra|].
          assert (U2 : (1 + f_u) * (1 + f_u) <= 2 * 2) by (apply Rmult_le_compat; lra).
          assert (U3 : f_u * f_u <= / 1000 * / 1000) by (apply Rmult_le_compat; lra).
          assert (U4 : f_eta <= / 1000 * / 1000 * f_u) by (apply Rle_trans with (1 := He3), Rmult_le_compat_r; lra).
          apply Rle_trans with (2 * 2 * f_eta); [apply Rmult_le_compat_r; lra|lra].
        - apply Rle_trans with ((1 + f_u) * (f_u * f_u * sfloor)); [apply Rmult_le_compat_l; lra|].
          replace ((1 + f_u) * (f_u * f_u * sfloor)) with (((1 + f_u) * f_u) * (f_u * sfloor)) by ring.
          replace (2 * f_u * sfloor) with (2 * (f_u * sfloor)) by ring. apply Rmult_le_compat_r; [apply Rmult_le_pos; lra|].
          assert (f_u * f_u <= 1 * f_u) by (apply Rmult_le_compat_r; lra). lra. }
      rewrite (gamma_S 3). assert (0 <= f_u * sfloor) by (apply Rmult_le_pos; lra).
      assert (S5 : 0 <= (f_gamma 3 * f_u) * T) by (repeat apply Rmult_le_pos; lra).
      assert (S6 : f_u * sfloor <= f_gamma 3 * sfloor) by (apply Rmult_le_compat_r; lra). lra.
    Qed.

    Lemma srow_step : srow_ok (f_eliminated g k) (k + 1) i (m - f_gamma 4 * T) ((1 + f_u) ^ 4 * T).
    Proof using Hw Hq Hqn Hf Hk Rk Ri Hm Hratio Hlim Hlimw.
      destruct sstep_facts as (Hp & Hp0 & Hl0 & Hl & Hbp & Hlb & Hi & Hb & HpT & HxT & Ha0 & Hb0 & Hlim').
      pose proof selim_err_sum as HE.
      assert (U : forall j, (k < j <= n)%nat -> smag (f_eliminated g k) i j <= smag g i j + l * smag g k j + selim_err j).
      { intros j Hj. destruct (sstep_column j Hj) as (_ & _ & E). destruct (Hq j) as [Q1 _].
        set (r := f_real (f_eliminated g k i j)) in *. set (s := f_real (g i j) - f_real (g i k) / f_real (g k k) * f_real (g k j)) in *.
        apply Rle_trans with (wt j * (Rabs (f_real (g i j)) + l * Rabs (f_real (g k j)) + Rabs (r - s))).
        - unfold smag. fold r. apply Rmult_le_compat_l; [lra|]. replace r with (s + (r - s)) at 1 by ring.
          apply Rle_trans with (1 := Rabs_triang _ _). apply Rplus_le_compat_r.
          unfold s, Rminus. apply Rle_trans with (1 := Rabs_triang _ _). rewrite Rabs_Ropp, Rabs_mult. right. reflexivity.
        - unfold smag. lra. }
      assert (D : smag g i i - l * smag g k i - selim_err i <= smag (f_eliminated g k) i i).
      { destruct (sstep_column i ltac:(lia)) as (_ & _ & E). destruct (Hq i) as [Q1 _].
        set (r := f_real (f_eliminated g k i i)) in *. set (s := f_real (g i i) - f_real (g i k) / f_real (g k k) * f_real (g k i)) in *.
        assert (Rabs s - Rabs (r - s) <= Rabs r).
        { pose proof (Rabs_triang r (s - r)) as H. replace (r + (s - r)) with s in H by ring. rewrite (Rabs_minus_sym s r) in H. lra. }
        assert (Rabs (f_real (g i i)) - l * Rabs (f_real (g k i)) <= Rabs s).
        { unfold s, l. rewrite <- Rabs_mult. apply Rabs_triang_inv. }
        apply Rle_trans with (wt i * (Rabs (f_real (g i i)) - l * Rabs (f_real (g k i)) - Rabs (r - s))).
        - unfold smag. lra.
        - unfold smag. fold r. apply Rmult_le_compat_l; lra. }
      assert (L : forall e, weighted (k + 1) e (fun j => smag g i j + l * smag g k j + selim_err j) =
        weighted (k + 1) e (smag g i) + l * weighted (k + 1) e (smag g k) + weighted (k + 1) e selim_err).
      { intro e. rewrite <- weighted_lin, <- (Rmult_1_l (weighted (k + 1) e selim_err)), <- weighted_lin.
        unfold LuDominant.weighted, wsum. f_equal; [apply asum_ext; intros j _; destruct (_ && _)%nat|]; ring. }
      split.
      - apply Rle_trans with (weighted (k + 1) i (fun j => smag g i j + l * smag g k j + selim_err j) + (m - f_gamma 4 * T)).
        + apply Rplus_le_compat_r. apply (weighted_le n w Hw); [lia| |left; lia]. intros j Hj _. apply U. lia.
        + rewrite L. apply Rle_trans with (2 := D). destruct Ri as [Ri1 _]. rewrite weighted_head in Ri1 by lia. fold x in Ri1.
          unfold beta in Hlb. rewrite (weighted_all n w (k + 1) i) in HE, Hlb by lia. lra.
      - apply Rle_trans with (weighted (k + 1) n (fun j => smag g i j + l * smag g k j + selim_err j) + sfloor).
        + apply Rplus_le_compat_r. apply (weighted_le n w Hw); [lia| |right; apply U; lia]. intros j Hj _. apply U. lia.
        + rewrite L. fold alpha beta. replace ((1 + f_u) ^ 4 * T) with (T + f_gamma 4 * T) by (unfold f_gamma; ring). lra.
    Qed.
  End Step.

  Lemma srow_ok_weaken g k i m m' T T' : m' <= m -> T <= T' -> srow_ok g k i m T -> srow_ok g k i m' T'.
  Proof using. intros H1 H2 [R1 R2]. split; lra. Qed.

  Lemma srow_ok_ext g g' k i m T : (i < n)%nat -> (forall j, (j <= n)%nat -> g i j = g' i j) -> srow_ok g k i m T -> srow_ok g' k i m T.
  Proof using.
    intros Hi H [R1 R2]. unfold srow_ok. assert (E : forall j, (j <= n)%nat -> smag g i j = smag g' i j) by (intros j Hj; unfold smag; rewrite H by lia; reflexivity).
    rewrite <- (E i) by lia. rewrite <- (weighted_ext n w k i (smag g i) (smag g' i) E), <- (weighted_ext n w k n (smag g i) (smag g' i) E). split; auto.
  Qed.

  (** What is known after [k] rounds, from the rows [A] with the right hand side in column [n]. *)
  Section State.
    Variables (A : nat -> nat -> f64) (m T : R).
    Hypothesis HT0 : 0 <= T.
    Hypothesis Hgam : f_gamma (4 * n) <= 1.
    Let Tn := (1 + f_u) ^ (4 * n) * T.
    Let mu := m - f_gamma (4 * n) * T.
    Hypothesis Hmu : 0 < mu.
    Hypothesis Hratio : Tn <= mu * f_limit.
    Hypothesis Hlim : 8 * T <= f_limit.
    Hypothesis Hlimw : 8 * T <= w * f_limit.

    Definition scaled_state (k : nat) (g : nat -> nat -> f64) : Prop :=
      all_finite n g /\
      (forall i, (k <= i < n)%nat -> srow_ok g k i (m - f_gamma (4 * k) * T) ((1 + f_u) ^ (4 * k) * T)) /\
      (forall r, (r < k)%nat -> (r < n)%nat -> srow_ok g r r mu Tn) /\
      (forall r c, (c < k)%nat -> (c < r < n)%nat -> mag g r c * smag g c c <= (1 + f_u) ^ 2 * Tn) /\
      (forall r, (r < n)%nat -> g r n = rdiff fops (A r n) (Nat.min r k) (fun c => SFmul 53 1024 (g r c) (g c n))).

    Lemma spow_level k : (k <= n)%nat -> (1 + f_u) ^ (4 * k) * T <= Tn /\ mu <= m - f_gamma (4 * k) * T.
    Proof using HT0.
      clear - HT0. intro Hk. pose proof u_pos. split.
      - apply Rmult_le_compat_r; [auto|]. apply Rle_pow; [lra|lia].
      - unfold mu. assert (f_gamma (4 * k) * T <= f_gamma (4 * n) * T); [|lra].
        apply Rmult_le_compat_r; [auto|]. apply gamma_le. lia.
    Qed.

    Lemma sTn_le : Tn <= 2 * T.
    Proof using HT0 Hgam. apply Rmult_le_compat_r; [auto|]. unfold f_gamma in Hgam. lra. Qed.

    Lemma scaled_0 : all_finite n A -> (forall i, (i < n)%nat -> srow_ok A 0 i m T) -> scaled_state 0 A.
    Proof using.
      clear. intros HA HR. split; [exact HA|]. split; [|split; [|split]]; try (intros; lia).
      - intros i Hi. apply (srow_ok_weaken A 0 i m _ T); [|  |apply HR; lia]; unfold f_gamma; rewrite Nat.mul_0_r; cbn [pow]; lra.
      - intros r Hr. rewrite Nat.min_0_r. reflexivity.
    Qed.

    Lemma scaled_pivot k g : (k < n)%nat -> scaled_state k g -> mu <= smag g k k.
    Proof using Hw HT0 Hq.
      intros Hk (_ & H & _). destruct (H k ltac:(lia)) as [H1 _]. destruct (spow_level k ltac:(lia)) as [_ H2].
      pose proof (weighted_nonneg n w Hw k k (smag g k) ltac:(intro; apply smag_nonneg)). lra.
    Qed.

    Lemma scaled_next k g : (k < n)%nat -> scaled_state k g -> scaled_state (k + 1) (f_eliminated g k).
    Proof using Hw Hq Hqn HT0 Hgam Hmu Hratio Hlim Hlimw.
      intros Hk (Hf & HR & HD & HL & HY). destruct (spow_level k ltac:(lia)) as [P1 P2]. pose proof sTn_le as P3.
      set (mk := m - f_gamma (4 * k) * T) in *. set (Tk := (1 + f_u) ^ (4 * k) * T) in *.
      assert (Q1 : 0 < mk) by lra.
      assert (L0 : 0 <= f_limit) by (unfold f_limit; apply pow_le; lra).
      assert (Q2 : Tk <= mk * f_limit).
      { apply Rle_trans with (mu * f_limit); [lra|]. apply Rmult_le_compat_r; lra. }
      assert (Q3 : 4 * Tk <= f_limit) by lra. assert (Q4 : 4 * Tk <= w * f_limit) by lra.
      assert (G4 : mk - f_gamma 4 * Tk = m - f_gamma (4 * (k + 1)) * T).
      { unfold mk, Tk. replace (4 * (k + 1))%nat with (4 * k + 4)%nat by lia. rewrite gamma_add. unfold f_gamma. ring. }
      assert (T4 : (1 + f_u) ^ 4 * Tk = (1 + f_u) ^ (4 * (k + 1)) * T).
      { unfold Tk. replace (4 * (k + 1))%nat with (4 + 4 * k)%nat by lia. rewrite pow_add. ring. }
      pose proof u_pos as Hu. pose proof eta_pos as He. pose proof eta_u3 as He3. pose proof u_tiny as Hu3.
      assert (Rk := HR k ltac:(lia)).
      split; [|split; [|split; [|split]]].
      - intros i j Hi Hj. destruct (Nat.le_gt_cases i k) as [L|L]; [rewrite f_eliminated_above by auto; auto|].
        destruct (lt_eq_lt_dec j k) as [[J|J]|J].
        + rewrite f_eliminated_left by auto. auto.
        + subst j. destruct (sstep_quotient g k i mk Tk Hf ltac:(lia) Rk (HR i ltac:(lia)) Q1 Q2) as (V & F & _). auto.
        + destruct (sstep_column g k i mk Tk Hf ltac:(lia) Rk (HR i ltac:(lia)) Q1 Q2 Q3 Q4 j ltac:(lia)) as (V & F & _). auto.
      - intros i Hi. rewrite <- G4, <- T4. apply srow_step; auto; try lia. apply HR. lia.
      - intros r Hr Hn. apply (srow_ok_ext g); [auto| |].
        + intros j _. rewrite f_eliminated_above by lia. reflexivity.
        + destruct (Nat.eq_dec r k) as [->|]; [|apply HD; lia]. apply (srow_ok_weaken g k k mk mu Tk Tn); auto.
      - intros r c Hc Hr. unfold smag, mag. rewrite (f_eliminated_above g k c c) by lia.
        destruct (Nat.eq_dec c k) as [->|].
        + destruct (sstep_quotient g k r mk Tk Hf ltac:(lia) Rk (HR r ltac:(lia)) Q1 Q2) as (_ & _ & _ & E).
          apply Rle_trans with (1 := E). apply Rle_trans with (((1 + f_u) ^ 2) * Tk); [|apply Rmult_le_compat_l; [apply pow_le; lra|auto]].
          assert (0 <= Tk) by (unfold Tk; apply Rmult_le_pos; [apply pow_le; lra|auto]).
          rewrite <- Rmult_plus_distr_r. apply Rmult_le_compat_r; auto.
          assert (f_eta <= f_u); [|cbn [pow]; nra]. apply Rle_trans with (1 := He3).
          assert (f_u * f_u <= 1) by nra. nra.
        + rewrite f_eliminated_left by lia. apply HL; lia.
      - intros r Hr. destruct (Nat.le_gt_cases r k) as [L|L].
        + rewrite f_eliminated_above by auto. rewrite (HY r Hr) at 1. replace (Nat.min r (k + 1)) with (Nat.min r k) by lia.
          apply rdiff_ext. intros c Hc. rewrite !f_eliminated_above by lia. reflexivity.
        + replace (Nat.min r (k + 1)) with (S k) by lia. cbn [rdiff]. rewrite f_eliminated_rest by lia.
          cbn [fops sc_sub]. fold fops. f_equal.
          * rewrite (HY r Hr) at 1. rewrite Nat.min_r by lia. apply rdiff_ext. intros c Hc.
            rewrite f_eliminated_left, f_eliminated_above by lia. reflexivity.
          * rewrite f_eliminated_quotient, f_eliminated_above by lia. reflexivity.
    Qed.
  End State.
End Row.
