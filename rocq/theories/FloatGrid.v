(** The numbers of the square grid in double precision: the constants of C140 and C142 for the matrix with 4 on the diagonal
    and -1 for every edge of the grid. *)
From Coq Require Import ZArith Reals Lra Lia List SpecFloat Psatz.
From Verif Require Import Base ListFacts Csr DenseModel DenseFacts ScalarModel GeometryReal SparseModel SparseSpec
  SparseFacts SparseMul LuModel LuReal IterModel IterFacts IterLoop IterField IterReal FloatFacts FloatError IterFloat
  PropFloatLemmas FloatUnit PropIterLemmas LuSuccess FloatSweep FloatStops FloatSor PropStopLemmas Energy EnergyDrift FloatDrift
  SymmetricJacobi FloatDefJacobi ScaledSymmetric.
Import ListNotations.
Local Open Scope R_scope.

Lemma gamma_hundred k t : INR k <= t -> t * f_u <= / 200 -> f_gamma k <= 101 / 100 * (t * f_u).
Proof.
  intros Hk Ht. pose proof u_pos as Hu. pose proof (pos_INR k) as K0.
  assert (H1 : INR k * f_u <= t * f_u) by (apply Rmult_le_compat_r; lra).
  assert (H0 : 0 <= INR k * f_u) by (apply Rmult_le_pos; lra).
  apply Rle_trans with (1 := gamma_bound k ltac:(lra)). set (p := INR k * f_u) in *. set (r := t * f_u) in *. clearbody p r.
  apply (Rmult_le_reg_r (1 - p)); [lra|]. unfold Rdiv at 1. rewrite Rmult_assoc, Rinv_l, Rmult_1_r by lra. nra.
Qed.

Section Grid.
  Variable n : nat.
  Hypothesis Hn : (2 <= n <= 120)%nat.
  Let m := INR n + 1.
  Let l := 4 / m ^ 2 * 4.

  Lemma m_range : 3 <= m <= 121.
  Proof using Hn.
    unfold m. destruct Hn as [H1 H2]. apply le_INR in H1. apply le_INR in H2. rewrite (INR_IZR_INZ 120) in H2. cbn in H1, H2. lra.
  Qed.

  Lemma unknowns : sqrt (INR (n * n)) = INR n /\ INR (n * n) = INR n * INR n.
  Proof using Type. rewrite mult_INR. split; [apply sqrt_square, pos_INR|reflexivity]. Qed.

  Lemma many : INR (n * n + 5) <= m ^ 2.
  Proof using Hn.
    pose proof m_range as M. rewrite plus_INR, mult_INR. replace (INR n) with (m - 1) by (unfold m; ring).
    change (INR 5) with (1 + 1 + 1 + 1 + 1). lra.
  Qed.

  Lemma u_seven : m ^ 7 * f_u <= 43 / 1000.
  Proof using Hn.
    pose proof m_range as M. unfold f_u. apply (Rmult_le_reg_r (2 ^ 53)); [apply pow_lt; lra|].
    rewrite Rmult_assoc, Rinv_l, Rmult_1_r by (apply pow_nonzero; lra).
    apply Rle_trans with (121 ^ 7); [apply pow_incr; lra|]. lra.
  Qed.

  Lemma u_five : m ^ 5 * f_u * m ^ 2 <= 43 / 1000 /\ m ^ 5 * f_u <= 1 / 200 /\ m ^ 2 * f_u <= / 200 /\ 0 <= m ^ 5 * f_u.
  Proof using Hn.
    pose proof m_range as M. pose proof u_seven as U. pose proof u_pos as U0.
    assert (M2 : 9 <= m ^ 2) by nra. assert (P5 : 0 < m ^ 5) by (apply pow_lt; lra). assert (P2 : 0 < m ^ 2) by (apply pow_lt; lra).
    replace (m ^ 7 * f_u) with (m ^ 5 * f_u * m ^ 2) in U by ring.
    assert (Q : 0 <= m ^ 5 * f_u) by (apply Rmult_le_pos; lra). split; [exact U|].
    assert (Q2 : m ^ 5 * f_u <= 1 / 200) by nra. split; [exact Q2|]. split; [|exact Q].
    apply Rle_trans with (m ^ 5 * f_u); [|lra]. apply Rmult_le_compat_r; [lra|]. apply Rle_pow; [lra|lia].
  Qed.

  Lemma l_pos : 0 < l /\ sqrt l = 4 / m /\ / l = m ^ 2 / 16.
  Proof using Hn.
    pose proof m_range as M. assert (H : l = 4 / m * (4 / m)) by (unfold l; field; lra).
    assert (0 < 4 / m) by (apply Rdiv_lt_0_compat; lra). rewrite H. split; [apply Rmult_lt_0_compat; auto|].
    split; [apply sqrt_square; lra|field; lra].
  Qed.

  Lemma gamma_grid : 0 <= f_gamma (n * n + 5) <= 101 / 100 * (m ^ 2 * f_u).
  Proof using Hn. split; [apply gamma_nonneg|]. apply gamma_hundred; [exact many|apply u_five]. Qed.

  Lemma kappa_grid : 0 <= d_kappa (n * n) 8 l <= 202 / 100 * (m ^ 5 * f_u).
  Proof using Hn.
    pose proof m_range as M. pose proof gamma_grid as G. destruct l_pos as (L0 & _ & Li). unfold d_kappa.
    rewrite (proj1 unknowns). unfold Rdiv. rewrite Li.
    set (g := f_gamma (n * n + 5)) in *. clearbody g. replace (INR n) with (m - 1) by (unfold m; ring).
    assert (P2 : 0 < m ^ 2) by (apply pow_lt; lra).
    split; [apply Rmult_le_pos; [apply Rmult_le_pos; [|lra]|]; lra|].
    replace (4 * g * 8 * (m - 1) * (m ^ 2 / 16)) with (g * (2 * (m - 1) * m ^ 2)) by field.
    apply Rle_trans with (101 * / 100 * (m ^ 2 * f_u) * (2 * m * m ^ 2)); [|right; field].
    apply Rmult_le_compat; [lra|apply Rmult_le_pos; lra|lra|]. apply Rmult_le_compat_r; lra.
  Qed.

  Lemma kappa_small : 0 <= d_kappa (n * n) 8 l <= 11 / 1000 /\ d_kappa (n * n) 8 l <= 9 / 100 / m ^ 2 /\
    d_kappa (n * n) 8 l / (1 - d_kappa (n * n) 8 l) <= 9 / 100 / m ^ 2.
  Proof using Hn.
    pose proof m_range as M. pose proof kappa_grid as K. destruct u_five as (U7 & U5 & _ & U0). set (k := d_kappa (n * n) 8 l) in *. clearbody k.
    assert (P2 : 0 < m ^ 2) by (apply pow_lt; lra). split; [lra|].
    assert (H : k * m ^ 2 <= 87 / 1000).
    { apply Rle_trans with (202 / 100 * (m ^ 5 * f_u) * m ^ 2); [apply Rmult_le_compat_r; lra|]. lra. }
    split; apply (Rmult_le_reg_r (m ^ 2)); try lra.
    - replace (9 / 100 / m ^ 2 * m ^ 2) with (9 / 100) by (field; lra). lra.
    - replace (9 / 100 / m ^ 2 * m ^ 2) with (9 / 100) by (field; lra).
      replace (k / (1 - k) * m ^ 2) with (k * m ^ 2 / (1 - k)) by (field; lra).
      apply (Rmult_le_reg_r (1 - k)); [lra|]. unfold Rdiv at 1. rewrite Rmult_assoc, Rinv_l, Rmult_1_r by lra. lra.
  Qed.

  (** The factors with rounding. *)
  Lemma rates_grid : j_rate (n * n) 8 l (1 - 4 / m ^ 2) <= 1 - 3 / m ^ 2 /\
    d_rate (n * n) 8 l (1 - 4 / m ^ 2 / 8) <= 1 - 2 / 5 / m ^ 2 /\
    d_rate (n * n) 8 l (1 - 3 * (4 / m ^ 2) / 50) <= 1 - 3 / 20 / m ^ 2.
  Proof using Hn.
    pose proof m_range as M. destruct kappa_small as (K & K1 & K2). unfold j_rate, d_rate.
    set (k := d_kappa (n * n) 8 l) in *. set (r := k / (1 - k)) in *. clearbody k r.
    assert (P2 : 0 < m ^ 2) by (apply pow_lt; lra). assert (Pi : 0 < / m ^ 2) by (apply Rinv_0_lt_compat, P2).
    unfold Rdiv in *. set (t := / m ^ 2) in *. clearbody t. repeat split; lra.
  Qed.

  Section Floor.
    Variables (X E : R).
    Hypothesis HX : 0 <= X.
    Let P := f_u * X + f_eta.

    Lemma P_pos : 0 < P.
    Proof using HX. pose proof u_pos. pose proof eta_pos. unfold P. assert (0 <= f_u * X) by (apply Rmult_le_pos; lra). lra. Qed.

    Lemma pow_grid k : (k <= n * n + 5)%nat -> 1 <= (1 + f_u) ^ k <= 101 / 100.
    Proof using Hn.
      intro Hk. pose proof u_pos as U. pose proof gamma_grid as G. destruct u_five as (_ & _ & U2 & _). split; [apply pow_R1_Rle; lra|].
      apply Rle_trans with ((1 + f_u) ^ (n * n + 5)); [apply Rle_pow; [lra|exact Hk]|]. unfold f_gamma in G. lra.
    Qed.

    Lemma row_grid : 0 <= d_row (n * n) 8 X 0 <= 17 * (m ^ 2 * P).
    Proof using Hn HX.
      pose proof m_range as M. pose proof gamma_grid as G. pose proof u_pos as U. pose proof eta_pos as He.
      pose proof (pow_grid (n * n + 4) ltac:(lia)) as W. unfold d_row. rewrite (proj2 unknowns).
      set (g := f_gamma (n * n + 5)) in *. set (w := (1 + f_u) ^ (n * n + 4)) in *. clearbody g w.
      replace (INR n) with (m - 1) by (unfold m; ring). assert (P2 : 9 <= m ^ 2) by nra.
      assert (Q1 : 0 <= (m - 1) * (m - 1) * w <= 101 / 100 * m ^ 2).
      { split; [apply Rmult_le_pos; [apply Rmult_le_pos|]; lra|]. replace (101 / 100 * m ^ 2) with (m * m * (101 / 100)) by field.
        apply Rmult_le_compat; [apply Rmult_le_pos; lra|lra| |lra]. apply Rmult_le_compat; lra. }
      assert (Q2 : 0 <= g * X <= 101 / 100 * (m ^ 2 * f_u) * X) by (split; [apply Rmult_le_pos; lra|apply Rmult_le_compat_r; lra]).
      assert (Q3 : 0 <= f_eta * ((m - 1) * (m - 1) * w + 3 * (8 + 1)) <= f_eta * (101 / 100 * m ^ 2 + 3 * m ^ 2)).
      { split; [apply Rmult_le_pos; lra|apply Rmult_le_compat_l; lra]. }
      unfold P. assert (0 <= m ^ 2 * f_u * X) by (apply Rmult_le_pos; [apply Rmult_le_pos|]; lra).
      assert (0 <= f_eta * m ^ 2) by (apply Rmult_le_pos; lra). split; [lra|].
      replace (2 * g * 8 * (X + 0)) with (16 * (g * X)) by ring. lra.
    Qed.

    Lemma tau_grid : 0 <= d_tau (n * n) 8 l X <= 17 / 2 * (m ^ 4 * P).
    Proof using Hn HX.
      pose proof m_range as M. pose proof row_grid as R. pose proof P_pos as P0. destruct l_pos as (_ & Ls & _). unfold d_tau.
      rewrite (proj1 unknowns), Ls. set (r := d_row (n * n) 8 X 0) in *. clearbody r. replace (INR n) with (m - 1) by (unfold m; ring).
      replace (2 * ((m - 1) * r / (4 / m))) with ((m - 1) * m / 2 * r) by (field; lra).
      assert (H : 0 <= (m - 1) * m / 2 <= m * m / 2) by nra. split; [apply Rmult_le_pos; lra|].
      replace (17 / 2 * (m ^ 4 * P)) with (m * m / 2 * (17 * (m ^ 2 * P))) by field. apply Rmult_le_compat; lra.
    Qed.

    Lemma over_rate r c t : 0 <= t <= 17 / 2 * (m ^ 4 * P) -> 0 < c -> c / m ^ 2 <= 1 - r ->
      0 <= t / (1 - r) <= 17 / 2 / c * (m ^ 6 * P).
    Proof using Hn HX.
      intros Ht Hc Hr. pose proof m_range as M. pose proof P_pos as P0. assert (P2 : 0 < m ^ 2) by (apply pow_lt; lra).
      assert (C : 0 < c / m ^ 2) by (apply Rdiv_lt_0_compat; lra).
      split; [apply Rmult_le_pos; [lra|left; apply Rinv_0_lt_compat; lra]|].
      replace (17 / 2 / c * (m ^ 6 * P)) with (17 / 2 * (m ^ 4 * P) * / (c / m ^ 2)) by (field; lra).
      apply Rmult_le_compat; [lra|left; apply Rinv_0_lt_compat; lra|lra|]. apply Rinv_le_contravar; lra.
    Qed.

    Lemma floors_grid : 0 <= j_floor (n * n) 8 l (1 - 4 / m ^ 2) X <= 3 * (m ^ 6 * P) /\
      0 <= d_floor (n * n) 8 l (1 - 4 / m ^ 2 / 8) X <= 22 * (m ^ 6 * P) /\
      0 <= d_floor (n * n) 8 l (1 - 3 * (4 / m ^ 2) / 50) X <= 58 * (m ^ 6 * P).
    Proof using Hn HX.
      pose proof m_range as M. pose proof P_pos as P0. destruct rates_grid as (R1 & R2 & R3). pose proof tau_grid as T.
      destruct kappa_small as (K & _). unfold j_floor, d_floor.
      assert (M6 : 0 < m ^ 6 * P) by (apply Rmult_lt_0_compat; [apply pow_lt; lra|exact P0]).
      assert (TK : 0 <= d_tau (n * n) 8 l X / (1 - d_kappa (n * n) 8 l) <= d_tau (n * n) 8 l X * (101 / 99)).
      { split; [apply Rmult_le_pos; [lra|left; apply Rinv_0_lt_compat; lra]|]. apply Rmult_le_compat_l; [lra|].
        apply (Rmult_le_reg_r (1 - d_kappa (n * n) 8 l)); [lra|]. rewrite Rinv_l by lra. lra. }
      set (rj := j_rate (n * n) 8 l (1 - 4 / m ^ 2)) in *. set (r1 := d_rate (n * n) 8 l (1 - 4 / m ^ 2 / 8)) in *.
      set (r2 := d_rate (n * n) 8 l (1 - 3 * (4 / m ^ 2) / 50)) in *. set (t := d_tau (n * n) 8 l X) in *.
      set (tk := t / (1 - d_kappa (n * n) 8 l)) in *. clearbody rj r1 r2 tk t.
      assert (TS : 0 <= tk * (99 / 101) <= 17 / 2 * (m ^ 4 * P)) by lra.
      split; [|split].
      - pose proof (over_rate rj 3 t T ltac:(lra) ltac:(lra)). lra.
      - pose proof (over_rate r1 (2 / 5) _ TS ltac:(lra) ltac:(lra)) as H.
        replace (17 / 2 / (2 / 5)) with (85 / 4) in H by field.
        replace (tk * (99 / 101) / (1 - r1)) with (tk / (1 - r1) * (99 / 101)) in H by (unfold Rdiv; ring). lra.
      - pose proof (over_rate r2 (3 / 20) _ TS ltac:(lra) ltac:(lra)) as H.
        replace (17 / 2 / (3 / 20)) with (170 / 3) in H by field.
        replace (tk * (99 / 101) / (1 - r2)) with (tk / (1 - r2) * (99 / 101)) in H by (unfold Rdiv; ring). lra.
    Qed.

    (** Room for the magnitudes. *)
    Hypothesis HX9 : X <= 2 ^ 900.
    Hypothesis HE9 : 0 <= E <= 2 ^ 900.

    Lemma room_grid W : 0 <= W <= m ^ 8 * (X + E + 1) ->
      2 * (1 + / l) * ((1 + f_u) ^ (n * n + 1) * 8 * (X + W) + INR (n * n) * (1 + f_u) ^ (n * n) * f_eta + 1) + (X + W) + 3 * (1 + / l) <= f_limit.
    Proof using Hn HX HX9 HE9.
      intros HW. pose proof m_range as M. destruct l_pos as (_ & _ & Li). rewrite Li, (proj2 unknowns).
      pose proof (pow_grid (n * n + 1) ltac:(lia)) as W1. pose proof (pow_grid (n * n) ltac:(lia)) as W0.
      pose proof eta_pos as He0. pose proof eta_one as He.
      set (w1 := (1 + f_u) ^ (n * n + 1)) in *. set (w0 := (1 + f_u) ^ (n * n)) in *. clearbody w1 w0.
      replace (INR n) with (m - 1) by (unfold m; ring).
      set (G := X + E + 1) in *. assert (G1 : 1 <= G) by (unfold G; lra).
      assert (M8 : 1 <= m ^ 8) by (apply pow_R1_Rle; lra). assert (M2 : 9 <= m ^ 2 <= 121 ^ 2) by (split; [nra|apply pow_incr; lra]).
      assert (MG : G <= m ^ 8 * G) by nra. assert (MM : m ^ 2 * G <= m ^ 8 * G) by (apply Rmult_le_compat_r; [lra|apply Rle_pow; [lra|lia]]).
      set (B := m ^ 8 * G) in *. assert (XW : 0 <= X + W <= 2 * B) by (unfold G in MG; lra).
      assert (T1 : w1 * 8 * (X + W) <= 9 * (2 * B)) by (apply Rmult_le_compat; lra).
      assert (T2 : (m - 1) * (m - 1) * w0 * f_eta <= m ^ 2 * 2).
      { apply Rle_trans with (m * m * (101 / 100) * 1); [|replace (m * m) with (m ^ 2) by ring; lra].
        apply Rmult_le_compat; [apply Rmult_le_pos; [nra|lra]|lra| |lra]. apply Rmult_le_compat; nra. }
      assert (T3 : m ^ 2 <= B) by nra.
      assert (T4 : 2 * (1 + m ^ 2 / 16) * (w1 * 8 * (X + W) + (m - 1) * (m - 1) * w0 * f_eta + 1) <= 2 * (1 + 1000) * (30 * B)).
      { apply Rmult_le_compat; [lra| |lra|lra].
        assert (0 <= w1 * 8 * (X + W)) by (apply Rmult_le_pos; lra).
        assert (0 <= (m - 1) * (m - 1) * w0 * f_eta) by (apply Rmult_le_pos; [apply Rmult_le_pos; [nra|lra]|lra]). lra. }
      assert (T5 : B <= 2 ^ 56 * (2 ^ 900 * 4)).
      { unfold B. assert (2 ^ 900 >= 1) by (apply Rle_ge, pow_R1_Rle; lra). apply Rmult_le_compat; [lra|lra| |unfold G; lra].
        apply Rle_trans with (121 ^ 8); [apply pow_incr; lra|lra]. }
      apply Rle_trans with (2 ^ 20 * B); [lra|]. apply Rle_trans with (2 ^ 20 * (2 ^ 56 * (2 ^ 900 * 4))); [apply Rmult_le_compat_l; lra|].
      replace (2 ^ 20 * (2 ^ 56 * (2 ^ 900 * 4))) with (2 ^ (20 + (56 + (900 + 2)))) by (rewrite !pow_add; ring).
      unfold f_limit. apply Rle_pow; [lra|]. apply Nat.leb_le. reflexivity.
    Qed.

    Lemma scaled_by_l e : e / sqrt l = e * m / 4.
    Proof using Hn. destruct l_pos as (_ & Ls & _). rewrite Ls. pose proof m_range. field. lra. Qed.

    Lemma P_small : P * 200 <= X + 1.
    Proof using Hn HX.
      pose proof small_units as (U & Et & _). unfold P. assert (f_u * X <= / 1024 / 1024 * X) by (apply Rmult_le_compat_r; lra). lra.
    Qed.

    Lemma total_grid F : 0 <= F <= 58 * (m ^ 6 * P) -> 0 <= (F + 3 * m * E) * m / 4 <= m ^ 8 * (X + E + 1) / 4.
    Proof using Hn HX HE9.
      intros HF. pose proof m_range as M. pose proof P_small as PS. pose proof P_pos as P0.
      assert (M6 : m ^ 6 * P * 200 <= m ^ 6 * (X + 1)) by (rewrite Rmult_assoc; apply Rmult_le_compat_l; [apply pow_le; lra|lra]).
      assert (ME : 0 <= 3 * m * E <= m ^ 6 * E).
      { split; [apply Rmult_le_pos; lra|]. apply Rmult_le_compat_r; [lra|]. apply Rle_trans with (m ^ 2); [nra|apply Rle_pow; [lra|lia]]. }
      assert (S0 : 0 <= F + 3 * m * E <= m ^ 6 * (X + E + 1)) by lra.
      split; [apply Rmult_le_pos; [apply Rmult_le_pos; lra|lra]|].
      apply Rmult_le_compat_r; [lra|]. apply Rle_trans with (m ^ 6 * (X + E + 1) * m); [apply Rmult_le_compat_r; lra|].
      replace (m ^ 6 * (X + E + 1) * m) with (m ^ 7 * (X + E + 1)) by ring. apply Rmult_le_compat_r; [lra|]. apply Rle_pow; [lra|lia].
    Qed.

    Lemma d_room F : 0 <= F <= 58 * (m ^ 6 * P) -> d_no_overflow (n * n) 8 l X (F + 3 * m * E).
    Proof using Hn HX HX9 HE9.
      intros HF. unfold d_no_overflow. apply room_grid. unfold d_within. rewrite scaled_by_l.
      pose proof m_range as M. pose proof tau_grid as T. destruct kappa_small as (K & _). pose proof P_pos as P0.
      pose proof (total_grid F HF) as TF. pose proof P_small as PS.
      assert (T2 : 0 <= d_tau (n * n) 8 l X * m / 4 <= m ^ 8 * (X + E + 1) / 8).
      { split; [apply Rmult_le_pos; [apply Rmult_le_pos; lra|lra]|].
        apply Rle_trans with (17 / 2 * (m ^ 4 * P) * m / 4); [apply Rmult_le_compat_r; [lra|apply Rmult_le_compat_r; lra]|].
        replace (17 / 2 * (m ^ 4 * P) * m / 4) with (m ^ 5 * (17 / 8 * P)) by field.
        replace (m ^ 8 * (X + E + 1) / 8) with (m ^ 8 * ((X + E + 1) / 8)) by field.
        apply Rmult_le_compat; [apply pow_le; lra|lra|apply Rle_pow; [lra|lia]|lra]. }
      set (t := d_tau (n * n) 8 l X) in *. set (k := d_kappa (n * n) 8 l) in *. clearbody t k.
      replace ((F + 3 * m * E + t) / (1 - k) * m / 4) with (((F + 3 * m * E) * m / 4 + t * m / 4) * / (1 - k)) by (field; lra).
      set (B := m ^ 8 * (X + E + 1)) in *. assert (B0 : 0 <= B) by (apply Rmult_le_pos; [apply pow_le; lra|lra]).
      assert (I : 0 < / (1 - k) <= 2).
      { split; [apply Rinv_0_lt_compat; lra|]. apply (Rmult_le_reg_r (1 - k)); [lra|]. rewrite Rinv_l by lra. lra. }
      split; [apply Rmult_le_pos; lra|]. apply Rle_trans with (B / 2 * 2); [|lra]. apply Rmult_le_compat; lra.
    Qed.

    Lemma j_room F : 0 <= F <= 58 * (m ^ 6 * P) -> j_no_overflow (n * n) 8 l X (F + 3 * m * E).
    Proof using Hn HX HX9 HE9.
      intros HF. unfold j_no_overflow. rewrite scaled_by_l. apply room_grid. pose proof (total_grid F HF) as T.
      assert (0 <= m ^ 8 * (X + E + 1)) by (apply Rmult_le_pos; [apply pow_le; pose proof m_range; lra|lra]). lra.
    Qed.

    (** The errors of the components. *)
    Lemma error_grid F c r r' k : 0 <= F <= 4 * c * (m ^ 6 * P) -> 0 <= r <= r' ->
      (F + r ^ k * (3 * m * E)) / sqrt l <= c * m ^ 7 * P + r' ^ k * (m ^ 2 * E).
    Proof using Hn HX HE9.
      intros HF Hr. rewrite scaled_by_l. pose proof m_range as M. pose proof P_pos as P0.
      assert (R : 0 <= r ^ k <= r' ^ k) by (split; [apply pow_le; lra|apply pow_incr; lra]).
      assert (M2 : 0 <= m ^ 2 * E) by (apply Rmult_le_pos; [apply pow_le; lra|lra]).
      replace ((F + r ^ k * (3 * m * E)) * m / 4) with (F * (m / 4) + r ^ k * (3 / 4 * (m ^ 2 * E))) by field.
      apply Rplus_le_compat.
      - replace (c * m ^ 7 * P) with (4 * c * (m ^ 6 * P) * (m / 4)) by field. apply Rmult_le_compat_r; lra.
      - apply Rmult_le_compat; lra.
    Qed.
  End Floor.
End Grid.
