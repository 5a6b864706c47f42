(** The direct solver in doubles on systems whose rows dominate after a scaling of the unknowns: the substitutions. *)
From Coq Require Import ZArith Reals Lra Lia List SpecFloat Psatz.
From Verif Require Import Base ListFacts DenseModel DenseFacts ScalarModel GeometryReal LuModel LuFacts LuReal
  FloatFacts FloatError IterFloat LuFloat PropFloatLemmas FloatUnit FloatSweep LuSuccess LuDominant LuDominantSolve LuScaled.
Import ListNotations.
Local Open Scope R_scope.

(** Scaled rows bound the inverse. *)
Lemma scaled_inverse_bound n (A : nat -> nat -> R) (wt e : nat -> R) m rho : 0 < m -> (forall j, 0 < wt j) ->
  (forall i, (i < n)%nat -> rsum n (fun j => if (j =? i)%nat then 0 else wt j * Rabs (A i j)) + m <= wt i * Rabs (A i i)) ->
  (forall i, (i < n)%nat -> Rabs (rsum n (fun j => A i j * e j)) <= rho) ->
  forall i, (i < n)%nat -> Rabs (e i) <= wt i * (rho / m).
Proof.
  intros Hm Hw HA Hr i Hi.
  assert (H : Rabs (e i / wt i) <= rho / m).
  { apply (inverse_bound n (fun i j => A i j * wt j) (fun j => e j / wt j) m rho Hm); auto.
    - intros r Hr'. specialize (HA r Hr'). rewrite (Rabs_mult (A r r)), (Rabs_pos_eq (wt r)) by apply Rlt_le, Hw.
      rewrite (Rmult_comm (Rabs (A r r))).
      erewrite asum_ext; [exact HA|]. intros j Hj. cbn beta. destruct (j =? r)%nat; [reflexivity|].
      rewrite Rabs_mult, (Rabs_pos_eq (wt j)) by apply Rlt_le, Hw. ring.
    - intros r Hr'. specialize (Hr r Hr'). erewrite asum_ext; [exact Hr|]. intros j Hj. cbn beta. specialize (Hw j). field. lra. }
  specialize (Hw i). unfold Rdiv in H at 1. rewrite Rabs_mult, (Rabs_pos_eq (/ wt i)) in H by (apply Rlt_le, Rinv_0_lt_compat, Hw).
  apply (Rmult_le_reg_l (/ wt i)); [apply Rinv_0_lt_compat, Hw|].
  replace (/ wt i * (wt i * (rho / m))) with (rho / m) by (field; lra). lra.
Qed.

Section Solve.
  Variables (n : nat) (w K : R) (wt : nat -> R) (A g : nat -> nat -> f64) (m T : R).
  Let X := / w.
  Let Tn := (1 + f_u) ^ (4 * n) * T.
  Let mu := m - f_gamma (4 * n) * T.
  Hypothesis Hw : 0 < w.
  Hypothesis Hq : forall j, 1 <= wt j <= K.
  Hypothesis Hqn : wt n = 1.
  Hypothesis HT0 : 0 <= T.
  Hypothesis Hgam : f_gamma (4 * n) <= 1.
  Hypothesis Hmu : 0 < mu.
  Hypothesis Hlimw : 8 * T <= w * f_limit.
  Hypothesis Hslack : f_gamma (n + 4) * Tn <= mu.
  Hypothesis HXlow : f_eta <= f_u * X.
  Hypothesis HXhigh : K * X <= f_limit.
  Hypothesis Hst : scaled_state n w K wt A m T n g.

  Variable z : nat -> f64.
  Hypothesis Hz : forall i, (i < n)%nat -> z i = SFdiv 53 1024
    (rdiff fops (g i n) (n - (i + 1)) (fun k => SFmul 53 1024 (g i (i + 1 + k)%nat) (z (i + 1 + k)%nat))) (g i i).

  Lemma X_pos : 0 < X.
  Proof using Hw. apply Rinv_0_lt_compat, Hw. Qed.

  Lemma Xw : X * w = 1.
  Proof using Hw. unfold X. field. lra. Qed.

  Lemma finished i : (i < n)%nat -> let D := smag wt g i i in
    wsum n (i + 1) n (smag wt g i) + w * mag g i n + mu <= D /\ D <= Tn /\ sfloor n w K <= Tn /\ mu <= D /\ 0 < D /\ 0 < Tn.
  Proof using Hw Hq Hqn Hmu Hst.
    intros Hi D. destruct Hst as (_ & _ & H & _). destruct (H i Hi Hi) as [H1 H2]. fold mu Tn in H1, H2.
    rewrite weighted_skip in H1 by auto. fold D in H1. pose proof (sfloor_nonneg n w K wt Hw Hq) as Hf.
    rewrite (weighted_all n w i i) in H2 by lia. fold D in H2. rewrite weighted_skip in H2 by auto.
    assert (H3 : 0 <= weighted n w (i + 1) n (smag wt g i)) by (apply weighted_nonneg; [auto|intro; apply (smag_nonneg K wt Hq)]).
    assert (En : smag wt g i n = mag g i n) by (unfold smag, mag; rewrite Hqn; ring).
    assert (H1' := H1). unfold weighted in H1'. rewrite En in H1'. split; [exact H1'|]. repeat split; lra.
  Qed.

  Lemma gamma_facts : (0 < n)%nat -> f_gamma (n + 4) <= 1 /\ f_gamma (n + 1) + f_u + (1 + f_u) ^ (n + 1) * f_u <= f_gamma (n + 4).
  Proof using Hw Hq Hqn Hmu Hst Hslack.
    intro Hn. destruct (finished 0 Hn) as (_ & H1 & _ & H2 & _ & H3). pose proof u_pos as Hu. split.
    - apply (Rmult_le_reg_r Tn); [auto|]. lra.
    - replace (n + 4)%nat with (n + 1 + 3)%nat by lia. rewrite (gamma_add (n + 1) 3). set (a := f_gamma (n + 1)).
      replace ((1 + f_u) ^ (n + 1)) with (1 + a) by (unfold a, f_gamma; ring). assert (0 <= a) by apply gamma_nonneg.
      assert (3 * f_u <= f_gamma 3) by (unfold f_gamma; cbn [pow]; nra).
      assert (a * (3 * f_u) <= a * f_gamma 3) by (apply Rmult_le_compat_l; auto).
      assert (0 <= a * f_u) by (apply Rmult_le_pos; lra). lra.
  Qed.

  Lemma small_count : INR n * f_eta <= X * (f_u * f_u * sfloor n w K).
  Proof using Hw Hq.
    pose proof X_pos as HX. pose proof eta_pos as He. replace (f_u * f_u * sfloor n w K) with (INR n * (K + w) * f_eta) by (unfold sfloor; rewrite tiny_eta; ring).
    replace (X * (INR n * (K + w) * f_eta)) with (INR n * f_eta * (X * K + X * w)) by ring. rewrite Xw.
    assert (0 <= INR n * f_eta) by (apply Rmult_le_pos; [apply pos_INR|lra]). pose proof (K_pos K wt Hq).
    assert (0 <= X * K) by (apply Rmult_le_pos; lra). nra.
  Qed.

  Lemma backward_finite i : (i < n)%nat -> f_valid (z i) /\ f_finite (z i) = true /\ Rabs (f_real (z i)) <= wt i * X.
  Proof using Hw Hq Hqn HT0 Hgam Hmu Hlimw Hslack HXlow HXhigh Hst Hz.
    assert (G : forall c i, (n - i <= c)%nat -> (i < n)%nat -> f_valid (z i) /\ f_finite (z i) = true /\ Rabs (f_real (z i)) <= wt i * X).
    { induction c as [|c IH]; intros k Hc Hk; [lia|]. rewrite Hz by auto.
      destruct (finished k Hk) as (H1 & H2 & H3 & H4 & H5 & H6). destruct (gamma_facts ltac:(lia)) as [G1 G2].
      pose proof (sTn_le n T HT0 Hgam) as H7. fold Tn in H7.
      pose proof X_pos as HX. pose proof u_pos as Hu. pose proof eta_pos as He. pose proof Xw as EX. pose proof small_count as Hsc.
      pose proof u_tiny as Hu3. pose proof (sfloor_nonneg n w K wt Hw Hq) as Hfl.
      destruct Hst as (Hf & _). destruct (Hf k n Hk ltac:(lia)) as [Vy Fy]. destruct (Hf k k Hk ltac:(lia)) as [Vd Fd].
      set (D := smag wt g k k) in *. set (q := (n - (k + 1))%nat).
      set (y := mag g k n) in *. set (ws := wsum n (k + 1) n (smag wt g k)) in *.
      assert (Hws : 0 <= ws) by (apply wsum_nonneg; intro; apply (smag_nonneg K wt Hq)). assert (Hy0 : 0 <= y) by apply Rabs_pos.
      set (S := y + rsum q (fun i => Rabs (f_real (g k (k + 1 + i)%nat) * f_real (z (k + 1 + i)%nat))) + INR q * f_eta).
      assert (HS : S <= X * (D - mu + f_u * f_u * sfloor n w K)).
      { unfold S. assert (A1 : rsum q (fun i => Rabs (f_real (g k (k + 1 + i)%nat) * f_real (z (k + 1 + i)%nat))) <= X * ws).
        { unfold ws. rewrite <- wsum_tail by auto. fold q. rewrite <- rsum_scale. apply rsum_le. intros e Hi. rewrite Rabs_mult.
          replace (X * smag wt g k (k + 1 + e)) with (Rabs (f_real (g k (k + 1 + e)%nat)) * (wt (k + 1 + e)%nat * X)) by (unfold smag; ring).
          apply Rmult_le_compat_l; [apply Rabs_pos|]. apply IH; unfold q in Hi; lia. }
        assert (A2 : y = X * (w * y)) by (rewrite <- Rmult_assoc, EX; ring).
        assert (A3 : INR q * f_eta <= INR n * f_eta) by (apply Rmult_le_compat_r; [lra|apply le_INR; unfold q; lia]).
        assert (A4 : X * (ws + w * y + mu) <= X * D) by (apply Rmult_le_compat_l; lra). lra. }
      assert (HS0 : 0 <= S).
      { unfold S. assert (0 <= rsum q (fun i => Rabs (f_real (g k (k + 1 + i)%nat) * f_real (z (k + 1 + i)%nat)))) by (apply rsum_nonneg; intros; apply Rabs_pos).
        assert (0 <= INR q * f_eta) by (apply Rmult_le_pos; [apply pos_INR|lra]). lra. }
      set (Q := (1 + f_u) ^ (n + 1)) in *. assert (HQ1 : 1 <= Q) by (apply pow_R1_Rle; lra).
      assert (EQ : f_gamma (n + 1) = Q - 1) by reflexivity. rewrite EQ in G2.
      assert (HF : Q * (D - mu + f_u * f_u * sfloor n w K) + f_u * D <= D).
      { assert (B1 : f_u * f_u * sfloor n w K <= f_u * Tn).
        { apply Rle_trans with (f_u * sfloor n w K); [|apply Rmult_le_compat_l; lra]. apply Rmult_le_compat_r; [auto|]. nra. }
        assert (B2 : (Q - 1 + f_u) * D <= (Q - 1 + f_u) * Tn) by (apply Rmult_le_compat_l; lra).
        assert (B3 : Q * (f_u * f_u * sfloor n w K) <= Q * (f_u * Tn)) by (apply Rmult_le_compat_l; lra).
        assert (B4 : (Q - 1 + f_u + Q * f_u) * Tn <= f_gamma (n + 4) * Tn) by (apply Rmult_le_compat_r; lra).
        assert (B5 : 1 * mu <= Q * mu) by (apply Rmult_le_compat_r; lra). lra. }
      assert (HQS : Q * S + f_u * X * D <= X * D).
      { assert (Q * S <= Q * (X * (D - mu + f_u * f_u * sfloor n w K))) by (apply Rmult_le_compat_l; lra).
        assert (X * (Q * (D - mu + f_u * f_u * sfloor n w K) + f_u * D) <= X * D) by (apply Rmult_le_compat_l; lra). lra. }
      assert (HPS : (1 + f_u) * ((1 + f_u) ^ (q + 1) * S) <= Q * S).
      { rewrite <- Rmult_assoc. apply Rmult_le_compat_r; [auto|]. change (1 + f_u) with ((1 + f_u)) at 1.
        replace ((1 + f_u) * (1 + f_u) ^ (q + 1)) with ((1 + f_u) ^ (q + 2)) by (replace (q + 2)%nat with (1 + (q + 1))%nat by lia; reflexivity).
        apply Rle_pow; [lra|unfold q; lia]. }
      assert (HXD : X * D <= f_limit).
      { apply Rle_trans with (X * (w * f_limit)); [apply Rmult_le_compat_l; lra|]. rewrite <- Rmult_assoc, EX. lra. }
      set (P := (1 + f_u) ^ (q + 1)) in *. assert (HP0 : 0 <= P * S) by (apply Rmult_le_pos; [apply pow_le; lra|auto]).
      assert (HuXD : 0 <= f_u * X * D) by (apply Rmult_le_pos; [apply Rmult_le_pos; lra|lra]).
      destruct (rdiff_finite (g k n) q (fun i => g k (k + 1 + i)%nat) (fun i => z (k + 1 + i)%nat) Vy Fy) as (Vv & Fv & Bv).
      - intros e Hi. apply Hf; unfold q in Hi; lia.
      - intros e Hi. split; apply IH; unfold q in Hi; lia.
      - change (P * S <= f_limit). assert (0 <= f_u * (P * S)) by (apply Rmult_le_pos; lra). lra.
      - change (Rabs (f_real (rdiff fops (g k n) q (fun i => SFmul 53 1024 (g k (k + 1 + i)%nat) (z (k + 1 + i)%nat)))) <= P * S) in Bv.
        cbv beta in Vv, Fv.
        set (v := rdiff fops (g k n) q (fun i => SFmul 53 1024 (g k (k + 1 + i)%nat) (z (k + 1 + i)%nat))) in *.
        assert (Hd0 : f_real (g k k) <> 0) by (intro E; unfold D, smag in H5; rewrite E, Rabs_R0 in H5; lra).
        destruct (Hq k) as [Q1 Q2].
        assert (Hratio : Rabs (f_real v / f_real (g k k)) * D = wt k * Rabs (f_real v)).
        { unfold D, smag. pose proof (abs_ratio (f_real v) (f_real (g k k)) Hd0) as E. rewrite <- E. ring. }
        set (t := Rabs (f_real v / f_real (g k k))) in *. assert (Ht0 : 0 <= t) by apply Rabs_pos.
        assert (HtX : (1 + f_u) * t + f_eta <= wt k * X).
        { apply (Rmult_le_reg_r D); [auto|]. rewrite Rmult_plus_distr_r, Rmult_assoc, Hratio.
          assert (B1 : f_eta * D <= f_u * X * D) by (apply Rmult_le_compat_r; lra).
          assert (B2 : (1 + f_u) * Rabs (f_real v) <= (1 + f_u) * (P * S)) by (apply Rmult_le_compat_l; lra).
          apply Rle_trans with (wt k * ((1 + f_u) * Rabs (f_real v) + f_u * X * D)).
          - assert (1 * (f_u * X * D) <= wt k * (f_u * X * D)) by (apply Rmult_le_compat_r; lra). lra.
          - rewrite (Rmult_assoc (wt k) X D). apply Rmult_le_compat_l; lra. }
        assert (HtL : t <= f_limit).
        { assert (wt k * X <= K * X) by (apply Rmult_le_compat_r; lra). assert (0 <= f_u * t) by (apply Rmult_le_pos; lra). lra. }
        assert (Hut : 0 <= f_u * t) by (apply Rmult_le_pos; lra).
        destruct (div_step v (g k k) Vv Vd Fv Fd Hd0) as (Vq & Fq & Eq); [fold t; exact HtL|].
        split; [exact Vq|]. split; [exact Fq|].
        set (r := f_real (SFdiv 53 1024 v (g k k))) in *. replace r with ((r - f_real v / f_real (g k k)) + f_real v / f_real (g k k)) by ring.
        apply Rle_trans with (1 := Rabs_triang _ _). fold t in Eq |- *. lra. }
    intro Hi. apply (G (n - i)%nat); auto.
  Qed.

  Lemma lower_bound i k : (i < n)%nat -> (k < n)%nat ->
    Rabs (f_lower g i k) * smag wt g k k <= (1 + f_u) ^ 2 * Tn /\ Rabs (f_lower g i k) <= (1 + f_u) ^ 2 * Tn / mu.
  Proof using Hw Hq Hqn Hmu Hst.
    intros Hi Hk. destruct (finished k Hk) as (_ & H2 & _ & H4 & H5 & H6). pose proof u_pos as Hu.
    assert (U : 1 <= (1 + f_u) ^ 2) by (apply pow_R1_Rle; lra).
    assert (UT : Tn <= (1 + f_u) ^ 2 * Tn) by nra.
    assert (L : Rabs (f_lower g i k) * smag wt g k k <= (1 + f_u) ^ 2 * Tn).
    { unfold f_lower. destruct (Nat.ltb_spec k i).
      - destruct Hst as (_ & _ & _ & HL & _). apply HL; lia.
      - destruct (Nat.eqb_spec k i); [rewrite Rabs_R1|rewrite Rabs_R0]; lra. }
    split; [exact L|]. apply (Rmult_le_reg_r mu); [auto|].
    replace ((1 + f_u) ^ 2 * Tn / mu * mu) with ((1 + f_u) ^ 2 * Tn) by (field; lra).
    apply Rle_trans with (2 := L). apply Rmult_le_compat_l; [apply Rabs_pos|auto].
  Qed.

  Lemma residual_small i : (i < n)%nat ->
    f_gamma (3 * n) * rsum n (fun k => rsum n (fun j => Rabs (f_lower g i k) * Rabs (f_upper g k j) * Rabs (f_real (z j)))) +
      (1 + f_u) ^ (2 * n) * f_eta *
        (INR n + rsum n (fun k => (INR n + Rabs (f_real (g k k))) * (Rabs (f_lower g i k) + Rabs (f_real (z k))))) <=
    14 * INR n * f_gamma (3 * n) * T * X.
  Proof using Hw Hq Hqn HT0 Hgam Hmu Hlimw Hslack HXlow HXhigh Hst Hz.
    intro Hi. pose proof u_pos as Hu. pose proof eta_pos as He. pose proof X_pos as HX. pose proof u_tiny as Hu3.
    pose proof (sTn_le n T HT0 Hgam) as H7. fold Tn in H7. pose proof (gamma_nonneg (3 * n)) as Hg.
    destruct (finished i Hi) as (_ & _ & Hfl & _ & _ & HTn). pose proof (sfloor_nonneg n w K wt Hw Hq) as Hfl0.
    assert (Hn : 1 <= INR n) by (apply (le_INR 1); lia).
    assert (U2 : (1 + f_u) ^ 2 <= 1.5) by (cbn [pow]; nra). assert (U20 : 0 <= (1 + f_u) ^ 2) by (apply pow_le; lra).
    set (T2 := (1 + f_u) ^ 2 * Tn) in *.
    assert (HT2 : T2 <= 3 * T).
    { unfold T2. apply Rle_trans with (1.5 * Tn); [apply Rmult_le_compat_r; lra|lra]. }
    assert (HT20 : 0 <= T2) by (apply Rmult_le_pos; lra).
    assert (HW : rsum n (fun k => rsum n (fun j => Rabs (f_lower g i k) * Rabs (f_upper g k j) * Rabs (f_real (z j)))) <= INR n * (6 * T * X)).
    { rewrite <- rsum_const. apply rsum_le. intros k Hk. destruct (finished k Hk) as (Hd & _ & _ & _ & Hd0 & _).
      destruct (lower_bound i k Hi Hk) as [HL _]. fold T2 in HL.
      apply Rle_trans with (rsum n (fun j => (Rabs (f_lower g i k) * X) * (wt j * Rabs (f_upper g k j)))).
      - apply rsum_le. intros j Hj. destruct (backward_finite j Hj) as (_ & _ & Hzj).
        replace (Rabs (f_lower g i k) * X * (wt j * Rabs (f_upper g k j))) with (Rabs (f_lower g i k) * Rabs (f_upper g k j) * (wt j * X)) by ring.
        apply Rmult_le_compat_l; [|auto]. apply Rmult_le_pos; apply Rabs_pos.
      - rewrite rsum_scale.
        assert (HU : rsum n (fun j => wt j * Rabs (f_upper g k j)) <= 2 * smag wt g k k).
        { replace (rsum n (fun j => wt j * Rabs (f_upper g k j))) with (wsum n k n (smag wt g k)).
          - rewrite wsum_head by lia. pose proof (Rmult_le_pos w (mag g k n) ltac:(lra) (Rabs_pos _)). lra.
          - apply asum_ext. intros j Hj. unfold f_upper. destruct (Nat.leb_spec k j), (Nat.eqb_spec j n); cbn; try lia; auto. rewrite Rabs_R0. ring. }
        apply Rle_trans with (Rabs (f_lower g i k) * X * (2 * smag wt g k k)).
        + apply Rmult_le_compat_l; [|auto]. apply Rmult_le_pos; [apply Rabs_pos|lra].
        + replace (Rabs (f_lower g i k) * X * (2 * smag wt g k k)) with (2 * X * (Rabs (f_lower g i k) * smag wt g k k)) by ring.
          replace (6 * T * X) with (2 * X * (3 * T)) by ring. apply Rmult_le_compat_l; lra. }
    assert (HTX : 0 <= T * X) by (apply Rmult_le_pos; lra).
    assert (G3 : 3 * INR n * f_u <= f_gamma (3 * n)).
    { clear - Hu. pose proof (poly (3 * n) f_u Hu) as H. rewrite mult_INR in H. change (INR 3) with (1 + 1 + 1) in H. unfold f_gamma. lra. }
    assert (HE : f_eta * (INR n + rsum n (fun k => (INR n + Rabs (f_real (g k k))) * (Rabs (f_lower g i k) + Rabs (f_real (z k))))) <= 10 * INR n * (f_u * (T * X))).
    { assert (Q1 : INR n * (T2 / mu) <= 2 / f_u).
      { assert (G4 : (INR n + 4) * f_u <= f_gamma (n + 4)).
        { clear - Hu. pose proof (poly (n + 4) f_u Hu) as H. rewrite plus_INR in H. change (INR 4) with (1 + 1 + 1 + 1) in H. unfold f_gamma. lra. }
        assert (G5 : (INR n + 4) * f_u * Tn <= mu) by (apply Rle_trans with (2 := Hslack), Rmult_le_compat_r; lra).
        apply (Rmult_le_reg_r (mu * f_u)); [apply Rmult_lt_0_compat; lra|].
        replace (INR n * (T2 / mu) * (mu * f_u)) with ((INR n * f_u) * T2) by (field; lra).
        replace (2 / f_u * (mu * f_u)) with (2 * mu) by (field; lra).
        apply Rle_trans with (2 * ((INR n + 4) * f_u * Tn)); [|lra]. unfold T2.
        replace (INR n * f_u * ((1 + f_u) ^ 2 * Tn)) with ((1 + f_u) ^ 2 * (INR n * f_u * Tn)) by ring.
        assert (0 <= INR n * f_u * Tn) by (apply Rmult_le_pos; [apply Rmult_le_pos|]; lra). assert (0 <= f_u * Tn) by (apply Rmult_le_pos; lra).
        apply Rle_trans with (1.5 * (INR n * f_u * Tn)); [apply Rmult_le_compat_r; lra|lra]. }
      assert (Q2 : rsum n (fun k => (INR n + Rabs (f_real (g k k))) * (Rabs (f_lower g i k) + Rabs (f_real (z k)))) <=
        INR n * (2 / f_u + 3 * T + INR n * (K * X) + 2 * T * X)).
      { rewrite <- rsum_const. apply rsum_le. intros k Hk. destruct (finished k Hk) as (_ & Hd & _ & _ & Hd0 & _).
        destruct (lower_bound i k Hi Hk) as [HL1 HL2]. fold T2 in HL1, HL2. destruct (backward_finite k Hk) as (_ & _ & Hzk).
        set (D := smag wt g k k) in *. set (L := Rabs (f_lower g i k)) in *. set (Z := Rabs (f_real (z k))) in *.
        set (d := Rabs (f_real (g k k))). assert (Hd' : d <= D) by apply (smag_ge K wt Hq). assert (0 <= d) by apply Rabs_pos.
        destruct (Hq k) as [W1 W2].
        assert (0 <= L) by apply Rabs_pos. assert (0 <= Z) by apply Rabs_pos.
        assert (R1 : INR n * L <= INR n * (T2 / mu)) by (apply Rmult_le_compat_l; lra).
        assert (R2 : INR n * Z <= INR n * (K * X)).
        { apply Rmult_le_compat_l; [lra|]. apply Rle_trans with (1 := Hzk). apply Rmult_le_compat_r; lra. }
        assert (R3 : d * Z <= (2 * T) * X).
        { apply Rle_trans with (d * (wt k * X)); [apply Rmult_le_compat_l; auto|].
          replace (d * (wt k * X)) with (D * X) by (unfold D, smag, d; ring). apply Rmult_le_compat_r; lra. }
        assert (R4 : d * L <= D * L) by (apply Rmult_le_compat_r; auto).
        lra. }
      apply Rle_trans with (f_eta * (INR n + INR n * (2 / f_u + 3 * T + INR n * (K * X) + 2 * T * X))); [apply Rmult_le_compat_l; lra|].
      set (N := INR n) in *. pose proof small_count as Hsc. fold N in Hsc.
      assert (FT : f_u * f_u * sfloor n w K <= f_u * f_u * (2 * T)) by (apply Rmult_le_compat_l; [apply Rmult_le_pos; lra|lra]).
      pose proof (K_pos K wt Hq) as HK.
      assert (Hc2 : N * f_eta * K <= f_u * f_u * sfloor n w K).
      { replace (f_u * f_u * sfloor n w K) with (N * (K + w) * f_eta) by (unfold sfloor, N; rewrite tiny_eta; ring).
        assert (0 <= N * f_eta) by (apply Rmult_le_pos; lra). assert (0 <= w * (N * f_eta)) by (apply Rmult_le_pos; lra). lra. }
      set (c := f_u * (T * X)). assert (Hc0 : 0 <= c) by (apply Rmult_le_pos; lra).
      assert (Huu : f_u * f_u <= / 1000 * f_u) by (apply Rmult_le_compat_r; lra).
      (* the five terms *)
      assert (T1 : N * f_eta <= 2 * f_u * c).
      { apply Rle_trans with (1 := Hsc). apply Rle_trans with (X * (f_u * f_u * (2 * T))); [apply Rmult_le_compat_l; lra|right; unfold c; ring]. }
      assert (T1' : 2 * f_u * c <= c) by (rewrite <- (Rmult_1_l c) at 2; apply Rmult_le_compat_r; lra).
      assert (TT2 : N * f_eta * (2 / f_u) <= 4 * c).
      { apply Rle_trans with (2 * f_u * c * (2 / f_u)); [|right; field; lra]. apply Rmult_le_compat_r; [|auto].
        apply Rlt_le, Rdiv_lt_0_compat; lra. }
      assert (TT3 : N * f_eta * (3 * T) <= 3 * N * c).
      { replace (N * f_eta * (3 * T)) with (3 * N * (f_eta * T)) by ring. apply Rmult_le_compat_l; [lra|].
        unfold c. replace (f_u * (T * X)) with (f_u * X * T) by ring. apply Rmult_le_compat_r; auto. }
      assert (T4 : N * f_eta * (N * (K * X)) <= N * c).
      { replace (N * f_eta * (N * (K * X))) with (N * (N * f_eta * K * X)) by ring. apply Rmult_le_compat_l; [lra|].
        unfold c. rewrite <- Rmult_assoc. apply Rmult_le_compat_r; [lra|]. apply Rle_trans with (1 := Hc2), Rle_trans with (1 := FT).
        apply Rle_trans with (/ 1000 * f_u * (2 * T)); [apply Rmult_le_compat_r; lra|].
        assert (0 <= f_u * T) by (apply Rmult_le_pos; lra). lra. }
      assert (T5 : N * f_eta * (2 * T * X) <= N * c).
      { pose proof eta_u3 as He3. assert (2 * f_eta <= f_u).
        { assert (f_u * f_u * f_u <= / 1000 * f_u * f_u) by (apply Rmult_le_compat_r; lra).
          assert (/ 1000 * (f_u * f_u) <= / 1000 * (/ 1000 * f_u)) by (apply Rmult_le_compat_l; lra). lra. }
        replace (N * f_eta * (2 * T * X)) with (N * (2 * f_eta * (T * X))) by ring. apply Rmult_le_compat_l; [lra|].
        unfold c. apply Rmult_le_compat_r; lra. }
      assert (c <= N * c) by (rewrite <- (Rmult_1_l c) at 1; apply Rmult_le_compat_r; lra). lra. }
    set (W := rsum n (fun k => rsum n _)) in *. set (V := f_eta * (INR n + _)) in HE.
    assert (EP : (1 + f_u) ^ (2 * n) <= 2).
    { apply Rle_trans with ((1 + f_u) ^ (4 * n)); [apply Rle_pow; [lra|lia]|]. unfold f_gamma in Hgam. lra. }
    assert (EP0 : 0 <= (1 + f_u) ^ (2 * n)) by (apply pow_le; lra).
    rewrite Rmult_assoc. fold V.
    assert (W1 : f_gamma (3 * n) * W <= f_gamma (3 * n) * (INR n * (6 * T * X))) by (apply Rmult_le_compat_l; auto).
    assert (V0 : 0 <= 10 * INR n * (f_u * (T * X))) by (apply Rmult_le_pos; [lra|apply Rmult_le_pos; lra]).
    assert (V1 : (1 + f_u) ^ (2 * n) * V <= 2 * (10 * INR n * (f_u * (T * X)))).
    { apply Rle_trans with ((1 + f_u) ^ (2 * n) * (10 * INR n * (f_u * (T * X)))); [apply Rmult_le_compat_l; auto|apply Rmult_le_compat_r; auto]. }
    assert (V2 : 3 * INR n * f_u * (T * X) <= f_gamma (3 * n) * (T * X)) by (apply Rmult_le_compat_r; auto).
    assert (V3 : f_gamma (3 * n) * (T * X) <= INR n * (f_gamma (3 * n) * (T * X))).
    { rewrite <- (Rmult_1_l (f_gamma (3 * n) * (T * X))) at 1. apply Rmult_le_compat_r; [apply Rmult_le_pos; auto|auto]. }
    assert (0 <= f_gamma (3 * n) * (T * X)) by (apply Rmult_le_pos; auto). lra.
  Qed.
End Solve.
