(** More lemmas behind C143: when the iterations on the grid stop. *)
From Coq Require Import ZArith Reals Lra Lia List SpecFloat Psatz.
From Verif Require Import Base ListFacts Csr DenseModel DenseFacts ScalarModel GeometryReal GraphModel GraphSpec SparseModel SparseSpec
  SparseFacts SparseMul LuModel LuReal IterModel IterFacts IterLoop IterField IterReal FloatFacts FloatError IterFloat
  PropFloatLemmas FloatUnit PropIterLemmas LuSuccess FloatSweep PropSweepLemmas FloatStops FloatSor PropStopLemmas Energy EnergyDrift
  FloatDrift PropDefiniteLemmas FloatDefStop PropDefiniteStopLemmas SymmetricJacobi FloatDefJacobi PropDefiniteJacobiLemmas GraphGen PropRelaxLemmas PropChainLemmas
  SparseSeq ScaledSymmetric FloatGrid GridSetup PropGridLemmas GridWhole.
Import ListNotations.
Local Open Scope R_scope.

(** The residual that an error of [B] leaves meets the tolerance, [r] and [rm] being the residuals of the first iteration. *)
Definition below (tol r rm B : R) : Prop := 10 * (B + f_theta) <= (tol - 2 * f_eta) * r /\ B + f_theta <= (tol - 2 * f_eta) * rm.

Section Numbers.
  Variables (n : nat) (X : R).
  Hypothesis Hn : (2 <= n <= 120)%nat.
  Hypothesis HX : 0 <= X <= 2 ^ 480.
  Let m := INR n + 1.
  Let P := f_u * X + f_eta.
  Let N := (n * n)%nat.

  Lemma resid_grid e B : 0 <= e <= B -> m ^ 7 * P <= B -> 0 <= d_resid N 8 X e <= 9 * B.
  Proof using Hn HX.
    intros He HB. pose proof (m_range n Hn) as M. fold m in M. pose proof (gamma_grid n Hn) as G. pose proof (pow_grid n Hn N ltac:(unfold N; lia)) as W.
    destruct (u_five n Hn) as (_ & _ & U2 & _). fold m in G, U2. pose proof (proj2 (unknowns n)) as NN. fold N in NN, G.
    assert (G1 : 0 <= f_gamma (N + 1) <= 101 / 100 * (m ^ 2 * f_u)).
    { split; [apply gamma_nonneg|]. apply Rle_trans with (2 := proj2 G). unfold f_gamma. pose proof u_pos. apply Rplus_le_compat_r, Rle_pow; [lra|lia]. }
    pose proof u_pos as U0. pose proof eta_pos as E0. unfold d_resid. rewrite NN.
    set (g := f_gamma (N + 1)) in *. set (w := (1 + f_u) ^ N) in *. clearbody g w. replace (INR n) with (m - 1) by (unfold m; ring).
    assert (M2 : 9 <= m ^ 2) by nra.
    assert (T1 : 0 <= g * e <= 101 / 100 * / 200 * e) by (split; [apply Rmult_le_pos; lra|apply Rmult_le_compat_r; lra]).
    assert (T2 : 0 <= g * X <= 101 / 100 * (m ^ 2 * f_u) * X) by (split; [apply Rmult_le_pos; lra|apply Rmult_le_compat_r; lra]).
    assert (T3 : 0 <= (m - 1) * (m - 1) * w * f_eta <= m ^ 2 * (101 / 100) * f_eta).
    { assert (0 <= (m - 1) * (m - 1) * w) by (apply Rmult_le_pos; [nra|lra]). split; [apply Rmult_le_pos; lra|]. apply Rmult_le_compat_r; [lra|].
      apply Rmult_le_compat; nra. }
    assert (T4 : m ^ 2 * P * 243 <= m ^ 7 * P).
    { assert (P0 : 0 < P) by (apply (P_pos X (proj1 HX))). replace (m ^ 7 * P) with (m ^ 2 * P * m ^ 5) by ring.
      apply Rmult_le_compat_l; [apply Rmult_le_pos; lra|]. apply Rle_trans with (3 ^ 5); [lra|apply pow_incr; lra]. }
    assert (T5 : m ^ 2 * P = m ^ 2 * f_u * X + m ^ 2 * f_eta) by (unfold P; ring).
    assert (0 <= m ^ 2 * f_u * X) by (apply Rmult_le_pos; [apply Rmult_le_pos; lra|lra]). assert (0 <= m ^ 2 * f_eta) by (apply Rmult_le_pos; lra).
    replace (g * (8 * (X + e))) with (8 * (g * X) + 8 * (g * e)) by ring. split; lra.
  Qed.

  Lemma meets_grid tol r rm T B : 0 < r -> 0 < rm -> 0 <= T <= 9 * B -> below tol r rm B -> meets N tol r rm T.
  Proof using Hn.
    intros Hr Hrm HT (H1 & H2). pose proof u_pos as U0. pose proof eta_pos as E0. pose proof small_units as (Us & _).
    assert (Th : 0 < f_theta) by (unfold f_theta; apply Rinv_0_lt_compat, pow_lt; lra).
    pose proof (pow_grid n Hn (N + 5) ltac:(unfold N; lia)) as W1. pose proof (pow_grid n Hn 5 ltac:(lia)) as W5.
    assert (W6 : 1 <= (1 + f_u) ^ 6 <= 102 / 100).
    { split; [apply pow_R1_Rle; lra|]. replace ((1 + f_u) ^ 6) with ((1 + f_u) ^ 5 * (1 + f_u)) by ring.
      apply Rle_trans with (101 / 100 * (1 + f_u)); [apply Rmult_le_compat_r; lra|lra]. }
    assert (W : 1 <= (1 + f_u) ^ (N + 11) <= 104 / 100).
    { replace (N + 11)%nat with (N + 5 + 6)%nat by lia. rewrite pow_add. split; [nra|].
      apply Rle_trans with (101 / 100 * (102 / 100)); [apply Rmult_le_compat; lra|lra]. }
    unfold meets. set (w := (1 + f_u) ^ (N + 11)) in *. set (w5 := (1 + f_u) ^ 5) in *. clearbody w w5.
    assert (Q1 : (B + f_theta) / r <= (tol - 2 * f_eta) / 10).
    { apply (Rmult_le_reg_r r); [exact Hr|]. unfold Rdiv at 1. rewrite Rmult_assoc, Rinv_l, Rmult_1_r by lra. lra. }
    assert (Q2 : (B + f_theta) / rm <= tol - 2 * f_eta).
    { apply (Rmult_le_reg_r rm); [exact Hrm|]. unfold Rdiv. rewrite Rmult_assoc, Rinv_l, Rmult_1_r by lra. exact H2. }
    assert (B0 : 0 <= B) by lra.
    assert (I : 0 < / r /\ 0 < / rm) by (split; apply Rinv_0_lt_compat; assumption).
    assert (T1 : 0 <= (T + 2 * f_theta) / r <= 9 * ((B + f_theta) / r)).
    { split; [apply Rmult_le_pos; lra|]. replace (9 * ((B + f_theta) / r)) with (9 * (B + f_theta) / r) by (unfold Rdiv; ring). apply Rmult_le_compat_r; lra. }
    assert (T2 : 0 <= (T + f_theta) / rm <= 9 * ((B + f_theta) / rm)).
    { split; [apply Rmult_le_pos; lra|]. replace (9 * ((B + f_theta) / rm)) with (9 * (B + f_theta) / rm) by (unfold Rdiv; ring). apply Rmult_le_compat_r; lra. }
    assert (S1 : w * ((T + 2 * f_theta) / r) <= 104 / 100 * ((T + 2 * f_theta) / r)) by (apply Rmult_le_compat_r; lra).
    assert (S2 : w5 * ((T + f_theta) / rm) <= 101 / 100 * ((T + f_theta) / rm)) by (apply Rmult_le_compat_r; lra).
    assert (tp : 0 <= (B + f_theta) / rm) by (apply Rmult_le_pos; lra). assert (f_u * tol <= / 1024 / 1024 * tol) by (apply Rmult_le_compat_r; lra).
    split; lra.
  Qed.

  Lemma room_stop e T B : 0 <= e <= B -> 0 <= T <= 9 * B -> B <= 2 ^ 495 -> room N (8 * (X + e) + T) T.
  Proof using Hn HX.
    intros He HT HB. pose proof (m_range n Hn) as M. fold m in M. pose proof (pow_grid n Hn N ltac:(unfold N; lia)) as W. pose proof (pow_grid n Hn 5 ltac:(lia)) as W5.
    pose proof eta_pos as E0. pose proof eta_one as E1. unfold room. rewrite (proj2 (unknowns n) : INR N = _). replace (INR n) with (m - 1) by (unfold m; ring).
    set (w := (1 + f_u) ^ N) in *. set (w5 := (1 + f_u) ^ 5) in *. clearbody w w5.
    assert (A : 2 ^ 480 <= 2 ^ 495) by (apply Rle_pow; [lra|lia]). assert (A1 : 1 <= 2 ^ 495) by (apply pow_R1_Rle; lra).
    assert (C1 : 2 ^ 6 * 2 ^ 495 <= f_limit) by (unfold f_limit; rewrite <- pow_add; apply Rle_pow; [lra|apply Nat.leb_le; reflexivity]).
    assert (C2 : 2 ^ 23 * (2 ^ 495 * 2 ^ 495) <= f_limit) by (unfold f_limit; rewrite <- !pow_add; apply Rle_pow; [lra|apply Nat.leb_le; reflexivity]).
    set (Q := 2 ^ 495) in *. clearbody Q. set (L := f_limit) in *. clearbody L. set (X4 := 2 ^ 480) in *. clearbody X4. split; [lra|].
    assert (T2 : 0 <= T ^ 2 <= 81 * (Q * Q)).
    { split; [apply pow2_ge_0|]. replace (81 * (Q * Q)) with ((9 * Q) ^ 2) by ring. apply pow_incr. lra. }
    assert (QQ : 1 <= Q * Q) by nra.
    assert (S : 0 <= w5 * T ^ 2 + f_eta <= 83 * (Q * Q)).
    { assert (0 <= w5 * T ^ 2 <= 101 / 100 * (81 * (Q * Q))) by (split; [apply Rmult_le_pos; lra|apply Rmult_le_compat; lra]). lra. }
    assert (Z : 0 <= 2 * ((m - 1) * (m - 1)) * w <= 2 * (120 * 120) * (101 / 100)).
    { split; [apply Rmult_le_pos; [nra|lra]|]. apply Rmult_le_compat; nra. }
    apply Rle_trans with (2 * (120 * 120) * (101 / 100) * (83 * (Q * Q))); [apply Rmult_le_compat; lra|lra].
  Qed.

  Variable E : R.
  Hypothesis HE : 0 <= E <= 2 ^ 480.

  Lemma size_grid c r k : 0 <= c <= 15 -> 0 <= r <= 1 -> c * m ^ 7 * P + r ^ k * (m ^ 2 * E) <= 2 ^ 495.
  Proof using Hn HX HE.
    intros Hc Hr. pose proof (m_range n Hn) as M. pose proof (u_seven n Hn) as U7. fold m in M, U7. pose proof eta_pos as E0.
    assert (R : 0 <= r ^ k <= 1) by (split; [apply pow_le; lra|rewrite <- (pow1 k); apply pow_incr; lra]).
    assert (M2 : 0 <= m ^ 2 <= 121 ^ 2) by (split; [apply pow_le; lra|apply pow_incr; lra]).
    assert (M7 : 0 <= m ^ 7) by (apply pow_le; lra).
    assert (Eu : f_eta <= f_u) by (unfold f_eta, f_u; apply Rinv_le_contravar; [apply pow_lt; lra|apply Rle_pow; [lra|apply Nat.leb_le; reflexivity]]).
    assert (P1 : 0 <= m ^ 7 * P <= 43 / 1000 * (X + 1)).
    { pose proof (P_pos X (proj1 HX)) as P0. fold P in P0. split; [apply Rmult_le_pos; lra|].
      apply Rle_trans with (m ^ 7 * (f_u * (X + 1))); [apply Rmult_le_compat_l; [lra|unfold P; lra]|].
      rewrite <- Rmult_assoc. apply Rmult_le_compat_r; lra. }
    assert (P2 : c * m ^ 7 * P <= X + 1).
    { rewrite Rmult_assoc. apply Rle_trans with (15 * (43 / 1000 * (X + 1))); [apply Rmult_le_compat; lra|lra]. }
    assert (P3 : r ^ k * (m ^ 2 * E) <= 1 * (121 ^ 2 * E)).
    { apply Rmult_le_compat; [lra|apply Rmult_le_pos; lra|lra|apply Rmult_le_compat_r; lra]. }
    assert (A1 : 1 <= 2 ^ 480) by (apply pow_R1_Rle; lra). replace (2 ^ 495) with (2 ^ 15 * 2 ^ 480) by (rewrite <- pow_add; reflexivity).
    set (Q := 2 ^ 480) in *. clearbody Q. lra.
  Qed.
End Numbers.

Section Stop.
  Variables (M : nat) (dbg : bool) (stray : option nat) (n : nat) (g : graph) (a : smat f64) (A : nat -> nat -> f64) (b : list f64)
    (h : nat -> f64) (xs : nat -> R) (X : R).
  Hypothesis D : grid_doubles dbg n g a A b h xs X.
  Let m := INR n + 1.
  Let P := f_u * X + f_eta.
  Let N := (n * n)%nat.
  Let l := 4 / m ^ 2 * 4.
  Variables (x : list f64) (f : nat -> f64) (E : R) (lim : limits f64) (rho : f64) (w : list f64) (fuel k : nat).
  Hypothesis Hx : is_vec N x f.
  Hypothesis Hf : finite_vec N f.
  Hypothesis HE : 0 <= E <= 2 ^ 480.
  Hypothesis HX : X <= 2 ^ 480.
  Hypothesis Hw : within N f xs E.
  Hypothesis Hmin : (min_iterations lim <= k)%nat.
  Hypothesis Hk : (1 <= k <= M)%nat.
  Hypothesis Hmax : (max_iteration lim < M)%nat.
  Hypothesis Hfuel : (Nat.max (min_iterations lim) (max_iteration lim + 1) < fuel)%nat.
  Hypothesis Htol : f_valid (tolerance lim) /\ f_finite (tolerance lim) = true /\ 0 <= f_real (tolerance lim) /\ 10 * f_real (tolerance lim) + 1 <= f_limit / 2.

  Let HE9 : 0 <= E <= 2 ^ 900.
  Proof using HE. clear - HE. assert (2 ^ 480 <= 2 ^ 900) by (apply Rle_pow; [lra|apply Nat.leb_le; reflexivity]). split; [apply HE|]. apply Rle_trans with (1 := proj2 HE). assumption. Qed.

  Lemma some_unknowns : (0 < N)%nat /\ (Z.of_nat N < 2 ^ 64)%Z.
  Proof using D. pose proof (gd_size _ _ _ _ _ _ _ _ _ D) as S. unfold N. clear - S. split; nia. Qed.

  (** The number of iterations from what the residual has to be. *)
  Lemma stop_numbers F c r r' : 0 <= F <= 4 * c * (m ^ 6 * P) -> 0 <= r <= r' -> r' <= 1 -> 1 <= c <= 15 ->
    let e := (F + r ^ k * (3 * m * E)) / sqrt l in let T := d_resid N 8 X e in
    room N (8 * (X + e) + T) T /\
    forall tol r0 rm0, 0 < r0 -> 0 < rm0 -> below tol r0 rm0 (c * m ^ 7 * P + r' ^ k * (m ^ 2 * E)) -> meets N tol r0 rm0 T.
  Proof using D HE HX.
    intros HF Hr Hr' Hc e T. pose proof (gd_size _ _ _ _ _ _ _ _ _ D) as Hn. pose proof (proj1 (proj1 (gd_X _ _ _ _ _ _ _ _ _ D))) as X0.
    assert (HX' : 0 <= X <= 2 ^ 480) by (split; assumption).
    pose proof (m_range n Hn) as Mr. pose proof (P_pos X X0) as P0. fold m in Mr. fold P in P0.
    set (B := c * m ^ 7 * P + r' ^ k * (m ^ 2 * E)).
    assert (He : 0 <= e <= B).
    { split; [|apply (error_grid n Hn X E X0 HE9 F c r r' k HF Hr)]. unfold e. destruct (l_pos n Hn) as (_ & Ls & _). fold m in Ls. fold l in Ls.
      rewrite Ls. apply Rmult_le_pos; [|left; apply Rinv_0_lt_compat, Rdiv_lt_0_compat; lra].
      assert (0 <= r ^ k) by (apply pow_le; lra). assert (0 <= r ^ k * (3 * m * E)) by (apply Rmult_le_pos; [lra|apply Rmult_le_pos; lra]). lra. }
    assert (HB : m ^ 7 * P <= B).
    { unfold B. assert (0 <= m ^ 7 * P) by (apply Rmult_le_pos; [apply pow_le; lra|lra]).
      assert (0 <= r' ^ k * (m ^ 2 * E)) by (apply Rmult_le_pos; [apply pow_le; lra|apply Rmult_le_pos; [apply pow_le; lra|lra]]).
      rewrite Rmult_assoc. nra. }
    pose proof (resid_grid n X Hn HX' e B He HB) as HT. fold N in HT. fold T in HT.
    split; [apply (room_stop n X Hn HX' e T B He HT); apply (size_grid n X Hn HX' E HE c r' k); lra|].
    intros tol r0 rm0 H1 H2 H3. apply (meets_grid n Hn tol r0 rm0 T B); assumption.
  Qed.

  Lemma grid_jacobi_stops x1 w1 u r0 rm0 : length u = N -> jacobi_step fops dbg stray a b (x, u) = Ok (x1, w1) ->
    compute_residual fops dbg stray a x1 b = Ok (r0, rm0) -> f_finite r0 = true -> 0 < f_real r0 -> 0 < f_real rm0 ->
    below (f_real (tolerance lim)) (f_real r0) (f_real rm0) (1 * m ^ 7 * P + (1 - 3 / m ^ 2) ^ k * (m ^ 2 * E)) ->
    exists x' w' cd f', jacobi_solve fops M dbg stray fuel lim w a x b = Ok (x', w', cd) /\ (cd_iteration cd <= k)%nat /\
      is_vec N x' f' /\ finite_vec N f' /\ within N f' xs (1 * m ^ 7 * P + (1 - 3 / m ^ 2) ^ cd_iteration cd * (m ^ 2 * E)).
  Proof using D Hx Hf HE HX Hw Hmin Hk Hmax Hfuel Htol.
    intros Hu S1 S2 S3 S4 S5 HB. destruct (grid_real _ _ _ _ _ _ _ _ _ D) as (G0 & G1 & G2 & G3).
    destruct (grid_numbers _ _ _ _ _ _ _ _ _ D) as ((Rj & Lj) & _). destruct (grid_floors _ _ _ _ _ _ _ _ _ D f E HE9 Hw) as (Fj & _ & _ & Sj & _ & _ & Oj & _ & _ & E0).
    fold m N l P in Rj, Lj, Fj, Sj, Oj, E0, G0, G1. pose proof (slower _ _ _ _ _ _ _ _ _ D 3 ltac:(lra)) as L3. fold m in L3.
    destruct (stop_numbers _ 1 _ _ Fj Rj ltac:(lra) ltac:(lra)) as (R1 & R2). destruct some_unknowns as (N1 & N2). destruct Htol as (T1 & T2 & T3 & T4).
    destruct (jacobi_stop M dbg stray N a A b h l 8 xs X (1 - 4 / m ^ 2) (grid_definite _ _ _ _ _ _ _ _ _ D) G0 G1 Lj N1 N2 lim x w f (3 * m * E) k fuel Hx Hf E0 Sj Oj
      Hmin Hk ltac:(lia) Hmax Hfuel T1 T2 T3 T4 R1 u x1 w1 r0 rm0 Hu S1 S2 S3 S4 S5 (R2 _ _ _ S4 S5 HB)) as (x' & w' & cd & f' & H1 & H2 & H3 & H4 & H5).
    exists x', w', cd, f'. repeat (split; [assumption|]).
    exact (shown dbg n g a A b h xs X D E HE9 _ 1 _ _ _ f' Fj Rj H5).
  Qed.

  Lemma grid_seidel_stops x1 w1 r0 rm0 : gauss_seidel_step fops dbg stray a b (x, []) = Ok (x1, w1) ->
    compute_residual fops dbg stray a x1 b = Ok (r0, rm0) -> f_finite r0 = true -> 0 < f_real r0 -> 0 < f_real rm0 ->
    below (f_real (tolerance lim)) (f_real r0) (f_real rm0) (6 * m ^ 7 * P + (1 - 2 / 5 / m ^ 2) ^ k * (m ^ 2 * E)) ->
    exists x' cd f', gauss_seidel_solve fops M dbg stray fuel lim a x b = Ok (x', cd) /\ (cd_iteration cd <= k)%nat /\
      is_vec N x' f' /\ finite_vec N f' /\ within N f' xs (6 * m ^ 7 * P + (1 - 2 / 5 / m ^ 2) ^ cd_iteration cd * (m ^ 2 * E)).
  Proof using D Hx Hf HE HX Hw Hmin Hk Hmax Hfuel Htol.
    intros S1 S2 S3 S4 S5 HB. destruct (grid_real _ _ _ _ _ _ _ _ _ D) as (G0 & G1 & G2 & G3).
    destruct (grid_numbers _ _ _ _ _ _ _ _ _ D) as (_ & (Rj & Lj) & _ & K). destruct (grid_floors _ _ _ _ _ _ _ _ _ D f E HE9 Hw) as (_ & Fj & _ & _ & Sj & _ & _ & Oj & _ & E0).
    fold m N l P in Rj, Lj, Fj, Sj, Oj, E0, G2, K. pose proof (slower _ _ _ _ _ _ _ _ _ D (2 / 5) ltac:(lra)) as L3. fold m in L3.
    destruct (stop_numbers _ 6 _ _ Fj Rj ltac:(lra) ltac:(lra)) as (R1 & R2). destruct some_unknowns as (N1 & N2). destruct Htol as (T1 & T2 & T3 & T4).
    destruct (gauss_seidel_stops M dbg stray N a A b h l 8 xs X (1 - 4 / m ^ 2 / 8) x f (3 * m * E) k lim fuel (grid_definite _ _ _ _ _ _ _ _ _ D) G2 K Lj N1 N2 Hx Hf E0 Sj Oj
      Hmin Hk Hmax Hfuel T1 T2 T3 T4 R1 x1 w1 r0 rm0 S1 S2 S3 S4 S5 (R2 _ _ _ S4 S5 HB)) as (x' & cd & f' & H1 & H2 & H3 & H4 & H5).
    exists x', cd, f'. repeat (split; [assumption|]).
    exact (shown dbg n g a A b h xs X D E HE9 _ 6 _ _ _ f' Fj Rj H5).
  Qed.

  Lemma grid_sor_stops x1 w1 r0 rm0 : sor_step fops dbg stray a b (x, []) = Ok (x1, w1) ->
    compute_residual fops dbg stray a x1 b = Ok (r0, rm0) -> f_finite r0 = true -> 0 < f_real r0 -> 0 < f_real rm0 ->
    below (f_real (tolerance lim)) (f_real r0) (f_real rm0) (15 * m ^ 7 * P + (1 - 3 / 20 / m ^ 2) ^ k * (m ^ 2 * E)) ->
    exists x' cd f', sor_solve fops M dbg stray fuel lim rho a x b = Ok (x', cd) /\ (cd_iteration cd <= k)%nat /\
      is_vec N x' f' /\ finite_vec N f' /\ within N f' xs (15 * m ^ 7 * P + (1 - 3 / 20 / m ^ 2) ^ cd_iteration cd * (m ^ 2 * E)).
  Proof using D Hx Hf HE HX Hw Hmin Hk Hmax Hfuel Htol.
    intros S1 S2 S3 S4 S5 HB. destruct (grid_real _ _ _ _ _ _ _ _ _ D) as (G0 & G1 & G2 & G3).
    destruct (grid_numbers _ _ _ _ _ _ _ _ _ D) as (_ & _ & (Rj & Lj) & K). destruct (grid_floors _ _ _ _ _ _ _ _ _ D f E HE9 Hw) as (_ & _ & Fj & _ & _ & Sj & _ & _ & Oj & E0).
    fold m N l P in Rj, Lj, Fj, Sj, Oj, E0, G3, K. pose proof (slower _ _ _ _ _ _ _ _ _ D (3 / 20) ltac:(lra)) as L3. fold m in L3.
    destruct (stop_numbers _ 15 _ _ Fj Rj ltac:(lra) ltac:(lra)) as (R1 & R2). destruct some_unknowns as (N1 & N2). destruct Htol as (T1 & T2 & T3 & T4).
    destruct (sor_stops M dbg stray N a A b h l 8 xs X (1 - 3 * (4 / m ^ 2) / 50) x f (3 * m * E) k lim rho fuel (grid_definite _ _ _ _ _ _ _ _ _ D) G3 K Lj N1 N2 Hx Hf E0 Sj Oj
      Hmin Hk Hmax Hfuel T1 T2 T3 T4 R1 x1 w1 r0 rm0 S1 S2 S3 S4 S5 (R2 _ _ _ S4 S5 HB)) as (x' & cd & f' & H1 & H2 & H3 & H4 & H5).
    exists x', cd, f'. repeat (split; [assumption|]).
    exact (shown dbg n g a A b h xs X D E HE9 _ 15 _ _ _ f' Fj Rj H5).
  Qed.
End Stop.

(** Two by two unknowns, ones on the right, zeros to start with, the tolerance 1/2. *)
Lemma squared r k p q : 0 <= r -> r ^ k <= p -> p * p <= q -> r ^ (k + k) <= q.
Proof. intros Hr Hp Hq. rewrite pow_add. assert (0 <= r ^ k) by (apply pow_le, Hr). apply Rle_trans with (p * p); [apply Rmult_le_compat; lra|exact Hq]. Qed.

Lemma two_below c r k rt rm : 0 <= c <= 15 -> 0 <= r -> r ^ k <= 2 / 1000 -> 2 / 5 <= rt -> 2 / 5 <= rm ->
  below (f_real f_half) rt rm (c * (INR 2 + 1) ^ 7 * (f_u * (1 / 2) + f_eta) + r ^ k * ((INR 2 + 1) ^ 2 * (1 / 2))).
Proof.
  intros Hc Hr Hk Ht Hm. rewrite half_real. destruct small_units as (U & Et & Th). pose proof u_pos as U0. pose proof eta_pos as E0.
  assert (R : 0 <= r ^ k) by (apply pow_le, Hr). change (INR 2) with (1 + 1).
  assert (C : c * (1 + 1 + 1) ^ 7 * (f_u * (1 / 2) + f_eta) <= 15 * (1 + 1 + 1) ^ 7 * (/ 2 ^ 53 * (1 / 2) + f_eta)).
  { apply Rmult_le_compat; [|unfold f_u in *; lra| |unfold f_u; lra]; [apply Rmult_le_pos; lra|apply Rmult_le_compat_r; lra]. }
  assert (C0 : 15 * (1 + 1 + 1) ^ 7 * (/ 2 ^ 53 * (1 / 2) + f_eta) <= 1 / 1000).
  { assert (f_eta <= / 2 ^ 53) by (unfold f_eta; apply Rinv_le_contravar; [apply pow_lt; lra|apply Rle_pow; [lra|apply Nat.leb_le; reflexivity]]).
    assert (/ 2 ^ 53 <= / 2 ^ 40) by (apply Rinv_le_contravar; [apply pow_lt; lra|apply Rle_pow; [lra|lia]]). lra. }
  unfold below. split; nra.
Qed.

Definition two_a : smat f64 := let m := fz (-1) in let d := fz 4 in
  mkS [0; 3; 6; 9; 12]%nat [0; 1; 2; 0; 1; 3; 0; 2; 3; 1; 2; 3]%nat [d; m; m; m; d; m; m; d; m; m; m; d] 4.

Lemma two_setup : run_ops (S754_zero false) 1000 true None (setup 2) s_default = Ok two_a.
Proof. vm_compute. reflexivity. Qed.

Lemma two_grid : exists g A, grid_doubles true 2 g two_a A (repeat (fz 1) 4) (fun _ => fz 1) (fun _ => 1 / 2) (1 / 2) /\
  is_vec 4 (repeat (fz 0) 4) (fun _ => fz 0) /\ finite_vec 4 (fun _ => fz 0) /\ within 4 (fun _ => fz 0) (fun _ => 1 / 2) (1 / 2).
Proof.
  assert (H2 : (2 <= 2)%nat) by lia. destruct (grid_spec true false 2 ltac:(lia)) as (g & Hg & _).
  destruct (setup_filled 1000 true None 2 g H2 Hg) as (a & A & Ea & Sa & St & Fa & Po).
  assert (Q : a = two_a) by (pose proof (eq_trans (eq_sym Ea) two_setup) as Q; injection Q as Q; exact Q). subst a.
  assert (P9 : 1 / 2 <= 2 ^ 900) by (apply Rle_trans with 1; [lra|apply pow_R1_Rle; lra]).
  exists g, A. split; [|split; [|split]].
  - constructor; auto; [lia| | | |].
    + split; [reflexivity|]. intros i Hi. apply nth_error_repeat. exact Hi.
    + intros i _. split; vm_compute; reflexivity.
    + apply (proj2 (Po (fun _ => 1 / 2) (fun _ => f_real (fz 1)))). rewrite fz1. intros [|[|x]] [|[|y]] Hx Hy; try lia; cbn; lra.
    + split; [split; [lra|exact P9]|]. intros. rewrite Rabs_pos_eq; lra.
  - split; [reflexivity|]. intros i Hi. apply nth_error_repeat. exact Hi.
  - intros i _. split; vm_compute; reflexivity.
  - intros i Hi. change (f_real (fz 0)) with 0. rewrite Rminus_0_l, Rabs_Ropp, Rabs_pos_eq; lra.
Qed.

Lemma two_jacobi : exists x1 w1 r rm, jacobi_step fops true None two_a (repeat (fz 1) 4) (repeat (fz 0) 4, repeat (fz 0) 4) = Ok (x1, w1) /\
  compute_residual fops true None two_a x1 (repeat (fz 1) 4) = Ok (r, rm) /\ f_finite r = true /\ 0 < f_real r /\ 0 < f_real rm /\
  below (f_real f_half) (f_real r) (f_real rm) (1 * (INR 2 + 1) ^ 7 * (f_u * (1 / 2) + f_eta) + (1 - 3 / (INR 2 + 1) ^ 2) ^ 32 * ((INR 2 + 1) ^ 2 * (1 / 2))).
Proof.
  assert (H : forall r rm, 2 / 5 <= f_real r -> 2 / 5 <= f_real rm -> 0 < f_real r /\ 0 < f_real rm /\
    below (f_real f_half) (f_real r) (f_real rm) (1 * (INR 2 + 1) ^ 7 * (f_u * (1 / 2) + f_eta) + (1 - 3 / (INR 2 + 1) ^ 2) ^ 32 * ((INR 2 + 1) ^ 2 * (1 / 2)))).
  { intros r rm Hr Hm. split; [lra|]. split; [lra|]. apply two_below; auto; [lra|change (INR 2) with (1 + 1); lra|].
    replace (1 - 3 / (INR 2 + 1) ^ 2) with (2 / 3) by (change (INR 2) with (1 + 1); field). lra. }
  do 4 eexists. split; [vm_compute; reflexivity|]. split; [vm_compute; reflexivity|]. split; [reflexivity|].
  apply H; cbn [f_real]; change (-53)%Z with (- Z.of_nat 53)%Z; rewrite powerRZ_neg', <- pow_powerRZ; lra.
Qed.

Lemma rate_256 : (1 - 2 / 5 / (INR 2 + 1) ^ 2) ^ 256 <= 2 / 1000.
Proof.
  replace (1 - 2 / 5 / (INR 2 + 1) ^ 2) with (43 / 45) by (change (INR 2) with (1 + 1); field). set (r := 43 / 45). assert (0 <= r) by (unfold r; lra).
    assert (A : r ^ 8 <= 70 / 100) by (unfold r; lra). change 256%nat with (128 + 128)%nat.
    apply (squared r 128 (4 / 1000)); [auto| |lra]. change 128%nat with (64 + 64)%nat. apply (squared r 64 (6 / 100)); [auto| |lra].
    change 64%nat with (32 + 32)%nat. apply (squared r 32 (241 / 1000)); [auto| |lra]. change 32%nat with (16 + 16)%nat.
    apply (squared r 16 (49 / 100)); [auto| |lra]. change 16%nat with (8 + 8)%nat. apply (squared r 8 (70 / 100)); [auto|exact A|lra].
Qed.

Lemma rate_512 : (1 - 3 / 20 / (INR 2 + 1) ^ 2) ^ 512 <= 2 / 1000.
Proof.
  replace (1 - 3 / 20 / (INR 2 + 1) ^ 2) with (59 / 60) by (change (INR 2) with (1 + 1); field). set (r := 59 / 60). assert (0 <= r) by (unfold r; lra).
    assert (A : r ^ 8 <= 875 / 1000) by (unfold r; lra). change 512%nat with (256 + 256)%nat. apply (squared r 256 (2 / 100)); [auto| |lra].
    change 256%nat with (128 + 128)%nat. apply (squared r 128 (12 / 100)); [auto| |lra]. change 128%nat with (64 + 64)%nat.
    apply (squared r 64 (346 / 1000)); [auto| |lra]. change 64%nat with (32 + 32)%nat. apply (squared r 32 (588 / 1000)); [auto| |lra].
    change 32%nat with (16 + 16)%nat. apply (squared r 16 (766 / 1000)); [auto| |lra]. change 16%nat with (8 + 8)%nat.
    apply (squared r 8 (875 / 1000)); [auto|exact A|lra].
Qed.

Lemma two_sweeps : (exists x1 w1 r rm, gauss_seidel_step fops true None two_a (repeat (fz 1) 4) (repeat (fz 0) 4, []) = Ok (x1, w1) /\
    compute_residual fops true None two_a x1 (repeat (fz 1) 4) = Ok (r, rm) /\ f_finite r = true /\ 0 < f_real r /\ 0 < f_real rm /\
    below (f_real f_half) (f_real r) (f_real rm) (6 * (INR 2 + 1) ^ 7 * (f_u * (1 / 2) + f_eta) + (1 - 2 / 5 / (INR 2 + 1) ^ 2) ^ 256 * ((INR 2 + 1) ^ 2 * (1 / 2)))) /\
  exists x1 w1 r rm, sor_step fops true None two_a (repeat (fz 1) 4) (repeat (fz 0) 4, []) = Ok (x1, w1) /\
    compute_residual fops true None two_a x1 (repeat (fz 1) 4) = Ok (r, rm) /\ f_finite r = true /\ 0 < f_real r /\ 0 < f_real rm /\
    below (f_real f_half) (f_real r) (f_real rm) (15 * (INR 2 + 1) ^ 7 * (f_u * (1 / 2) + f_eta) + (1 - 3 / 20 / (INR 2 + 1) ^ 2) ^ 512 * ((INR 2 + 1) ^ 2 * (1 / 2))).
Proof.
  assert (K : forall c r k, 0 <= c <= 15 -> 0 <= r -> r ^ k <= 2 / 1000 -> forall s sm, 2 / 5 <= f_real s -> 2 / 5 <= f_real sm -> 0 < f_real s /\ 0 < f_real sm /\
    below (f_real f_half) (f_real s) (f_real sm) (c * (INR 2 + 1) ^ 7 * (f_u * (1 / 2) + f_eta) + r ^ k * ((INR 2 + 1) ^ 2 * (1 / 2)))).
  { intros c r k Hc Hr Hk s sm Hs Hm. split; [lra|]. split; [lra|]. apply two_below; auto. }
  assert (N1 : 0 <= 1 - 2 / 5 / (INR 2 + 1) ^ 2) by (change (INR 2) with (1 + 1); lra).
  assert (N2 : 0 <= 1 - 3 / 20 / (INR 2 + 1) ^ 2) by (change (INR 2) with (1 + 1); lra).
  assert (C6 : 0 <= 6 <= 15) by lra. assert (C15 : 0 <= 15 <= 15) by lra.
  pose proof rate_256 as R1. pose proof rate_512 as R2.
  split; do 4 eexists; (split; [vm_compute; reflexivity|]); (split; [vm_compute; reflexivity|]); (split; [reflexivity|]).
  - apply (K 6 _ 256%nat C6 N1 R1); clear R1 R2 K; cbn [f_real]; [change (-54)%Z with (- Z.of_nat 54)%Z|change (-53)%Z with (- Z.of_nat 53)%Z]; rewrite powerRZ_neg', <- pow_powerRZ; lra.
  - apply (K 15 _ 512%nat C15 N2 R2); clear R1 R2 K; cbn [f_real]; [change (-53)%Z with (- Z.of_nat 53)%Z|change (-52)%Z with (- Z.of_nat 52)%Z]; rewrite powerRZ_neg', <- pow_powerRZ; lra.
Qed.
