(** The direct solver in doubles on systems whose rows dominate after a scaling of the unknowns. *)
From Coq Require Import ZArith Reals Lra Lia List SpecFloat.
From Verif Require Import Base ListFacts DenseModel DenseFacts ScalarModel GeometryReal LuModel LuFacts LuReal
  FloatFacts FloatError IterFloat LuFloat PropFloatLemmas FloatUnit FloatSweep IterReal LuSuccess PropSuccessLemmas PropIterLemmas
  LuDominant LuDominantSolve LuScaled LuScaledSolve PropDominantLemmas.
Import ListNotations.
Local Open Scope R_scope.

(** The margin by which the diagonal of a row dominates when column [j] counts [wt j] times and the right hand side
    [/ X] times. *)
Definition scaled_margin n (wt : nat -> R) (A : nat -> nat -> f64) (B : nat -> f64) (X : R) (i : nat) : R :=
  wt i * Rabs (f_real (A i i)) - rsum n (fun j => if (j =? i)%nat then 0 else wt j * Rabs (f_real (A i j))) -
  Rabs (f_real (B i)) / X.

(** The size of a row, counted in the same way. *)
Definition scaled_size n (wt : nat -> R) (A : nat -> nat -> f64) (B : nat -> f64) (X : R) (i : nat) : R :=
  rsum n (fun j => wt j * Rabs (f_real (A i j))) + Rabs (f_real (B i)) / X.

Section Scaled.
  Variables (dbg : bool) (n : nat) (st : lu_state f64) (a : list (list f64)) (A : nat -> nat -> f64).
  Variables (x : list f64) (b : option (list f64)) (B : nat -> f64) (m X T K : R) (wt0 : nat -> R).
  Hypothesis Hq0 : forall j, (j < n)%nat -> 1 <= wt0 j <= K.
  Hypothesis (Hn : (0 < n)%nat) (Ha : is_mat n n a A) (Hb : is_vec n (other_of x b) B).
  Hypothesis HA : forall i j, (i < n)%nat -> (j < n)%nat -> f_valid (A i j) /\ f_finite (A i j) = true.
  Hypothesis HB : finite_vec n B.
  Hypothesis (Vt : f_valid (lu_tolerance st)) (Ft : f_finite (lu_tolerance st) = true) (Ht : 0 <= f_real (lu_tolerance st)).
  Hypothesis HX : / 2 ^ 1022 <= X.
  Hypothesis HXK : K * X <= f_limit.
  Hypothesis Hm : forall i, (i < n)%nat -> m <= scaled_margin n wt0 A B X i.
  Hypothesis HT : forall i, (i < n)%nat -> scaled_size n wt0 A B X i + INR n * (K + / X) / 2 ^ 969 <= T.
  Hypothesis Hg : K * f_real (lu_tolerance st) + f_gamma (5 * n + 4) * T <= m.
  Hypothesis HT1 : 8 * T <= f_limit.
  Hypothesis HTX : 8 * T * X <= f_limit.

  Let w := / X.
  Let wt j := if (j <? n)%nat then wt0 j else 1.

  Lemma wt_in j : (j < n)%nat -> wt j = wt0 j.
  Proof using Hn. intro H. unfold wt. destruct (Nat.ltb_spec j n); [reflexivity|lia]. Qed.

  Lemma wt_n : wt n = 1.
  Proof using. unfold wt. rewrite Nat.ltb_irrefl. reflexivity. Qed.

  Lemma K_one : 1 <= K.
  Proof using Hq0 Hn. specialize (Hq0 0%nat Hn). lra. Qed.

  Lemma wt_range j : 1 <= wt j <= K.
  Proof using Hq0 Hn. unfold wt. destruct (Nat.ltb_spec j n) as [H|H]; [apply Hq0, H|]. pose proof K_one. lra. Qed.

  Lemma wt_pos j : 0 < wt j.
  Proof using Hq0 Hn. pose proof (wt_range j). lra. Qed.
  Let A' r c := if (c =? n)%nat then B r else A r c.

  Lemma X_pos : 0 < X.
  Proof using HX. assert (0 < / 2 ^ 1022) by (apply Rinv_0_lt_compat, pow_lt; lra). lra. Qed.

  Lemma w_pos : 0 < w.
  Proof using HX. apply Rinv_0_lt_compat, X_pos. Qed.

  Lemma w_inv : / w = X.
  Proof using HX. unfold w. apply Rinv_inv. Qed.

  Let O i := rsum n (fun j => if (j =? i)%nat then 0 else wt j * Rabs (f_real (A i j))).

  Lemma O_eq i : rsum n (fun j => if (j =? i)%nat then 0 else wt0 j * Rabs (f_real (A i j))) = O i.
  Proof using Hn. apply asum_ext. intros j Hj. rewrite wt_in by auto. reflexivity. Qed.

  Lemma S_eq i : rsum n (fun j => wt0 j * Rabs (f_real (A i j))) = rsum n (fun j => wt j * Rabs (f_real (A i j))).
  Proof using Hn. apply asum_ext. intros j Hj. rewrite wt_in by auto. reflexivity. Qed.

  Lemma term_nonneg i j : 0 <= wt j * Rabs (f_real (A i j)).
  Proof using Hq0 Hn. apply Rmult_le_pos; [apply Rlt_le, wt_pos|apply Rabs_pos]. Qed.

  Lemma rhs_nonneg i : 0 <= Rabs (f_real (B i)) / X.
  Proof using HX. apply Rmult_le_pos; [apply Rabs_pos|apply Rlt_le, w_pos]. Qed.

  Lemma T_pos : 0 < T.
  Proof using Hq0 Hn HX HT.
    specialize (HT 0%nat Hn). pose proof w_pos as W. fold w in HT. pose proof K_one.
    assert (0 < INR n) by (apply lt_0_INR; auto).
    assert (0 < INR n * (K + w) / 2 ^ 969).
    { apply Rmult_lt_0_compat; [apply Rmult_lt_0_compat; lra|apply Rinv_0_lt_compat, pow_lt; lra]. }
    assert (0 <= scaled_size n wt0 A B X 0).
    { apply Rplus_le_le_0_compat; [|apply rhs_nonneg]. rewrite S_eq. apply rsum_nonneg; intros; apply term_nonneg. }
    lra.
  Qed.

  Lemma diag_le i : (i < n)%nat -> wt i * Rabs (f_real (A i i)) <= T.
  Proof using Hq0 Hn HX HT.
    intro Hi. specialize (HT i Hi). pose proof w_pos as W. fold w in HT. pose proof K_one.
    assert (0 <= INR n) by apply pos_INR.
    assert (0 <= INR n * (K + w) / 2 ^ 969).
    { apply Rmult_le_pos; [apply Rmult_le_pos; lra|apply Rlt_le, Rinv_0_lt_compat, pow_lt; lra]. }
    unfold scaled_size in HT. rewrite S_eq in HT. pose proof (rhs_nonneg i).
    assert (wt i * Rabs (f_real (A i i)) <= rsum n (fun j => wt j * Rabs (f_real (A i j)))).
    { apply (rsum_member n (fun j => wt j * Rabs (f_real (A i j)))); auto. intros; apply term_nonneg. }
    lra.
  Qed.

  Lemma off_nonneg i : 0 <= O i.
  Proof using Hq0 Hn. apply rsum_nonneg. intros j _. destruct (j =? i)%nat; [lra|apply term_nonneg]. Qed.

  Lemma m_diag i : (i < n)%nat -> O i + m <= wt i * Rabs (f_real (A i i)).
  Proof using Hn HX Hm.
    intro Hi. specialize (Hm i Hi). unfold scaled_margin in Hm. rewrite O_eq, <- wt_in in Hm by auto.
    pose proof (rhs_nonneg i). lra.
  Qed.

  Lemma m_le_T : m <= T.
  Proof using Hq0 Hn HX Hm HT.
    pose proof (m_diag 0%nat Hn). pose proof (diag_le 0%nat Hn). pose proof (off_nonneg 0%nat). lra.
  Qed.

  Lemma gamma_one : f_gamma (5 * n + 4) <= 1.
  Proof using Hq0 Hn HX Hm HT Hg Ht.
    pose proof T_pos as P. pose proof m_le_T. pose proof K_one as K1. assert (0 <= K * f_real (lu_tolerance st)) by (apply Rmult_le_pos; lra).
    apply (Rmult_le_reg_r T); [exact P|]. lra.
  Qed.

  Lemma gamma4_one : f_gamma (4 * n) <= 1.
  Proof using Hq0 Hn HX Hm HT Hg Ht. apply Rle_trans with (2 := gamma_one). apply gamma_le. lia. Qed.

  Let Tn := (1 + f_u) ^ (4 * n) * T.
  Let mu := m - f_gamma (4 * n) * T.

  Lemma mu_low : K * f_real (lu_tolerance st) + f_gamma (n + 4) * Tn <= mu.
  Proof using Hg Hn.
    unfold mu, Tn. assert (E : f_gamma (5 * n + 4) = f_gamma (4 * n) + (1 + f_u) ^ (4 * n) * f_gamma (n + 4)).
    { replace (5 * n + 4)%nat with (4 * n + (n + 4))%nat by lia. unfold f_gamma. rewrite (pow_add _ (4 * n)). ring. }
    rewrite E in Hg. lra.
  Qed.

  Lemma Tn_pos : 0 < Tn.
  Proof using Hq0 Hn HX HT. apply Rmult_lt_0_compat; [apply pow_lt; pose proof u_pos; lra|apply T_pos]. Qed.

  Lemma gamma_4u : 4 * f_u <= f_gamma (n + 4).
  Proof using Hn.
    apply Rle_trans with (f_gamma 4); [|apply gamma_le; lia]. pose proof u_pos.
    rewrite (gamma_S 3), (gamma_S 2), (gamma_S 1), (gamma_S 0). unfold f_gamma. cbn [pow]. nra.
  Qed.

  Lemma mu_pos : 0 < mu.
  Proof using Hq0 Hn HX HT Hg Ht.
    pose proof mu_low. pose proof K_one as K1. assert (0 <= K * f_real (lu_tolerance st)) by (apply Rmult_le_pos; lra). pose proof gamma_4u. pose proof u_pos. pose proof Tn_pos.
    assert (0 < f_gamma (n + 4) * Tn) by (apply Rmult_lt_0_compat; lra). lra.
  Qed.

  Lemma m_pos : 0 < m.
  Proof using Hq0 Hn HX HT Hg Ht.
    pose proof mu_pos as H. unfold mu in H. pose proof (gamma_nonneg (4 * n)). pose proof T_pos.
    assert (0 <= f_gamma (4 * n) * T) by (apply Rmult_le_pos; lra). lra.
  Qed.

  Lemma Tn_limit : Tn <= mu * f_limit.
  Proof using Hq0 Hn HX HT Hg Ht.
    pose proof mu_low. pose proof K_one as K1. assert (0 <= K * f_real (lu_tolerance st)) by (apply Rmult_le_pos; lra). pose proof gamma_4u. pose proof u_pos. pose proof Tn_pos as P.
    assert (L : 1 <= 4 * f_u * f_limit).
    { assert (E : f_limit = 2 ^ 970 * 2 ^ 53) by (unfold f_limit; rewrite <- pow_add; reflexivity).
      rewrite E. unfold f_u. assert (0 < 2 ^ 53) by (apply pow_lt; lra). assert (1 <= 2 ^ 970) by (apply pow_R1_Rle; lra).
      replace (4 * / 2 ^ 53 * (2 ^ 970 * 2 ^ 53)) with (4 * 2 ^ 970) by (field; apply Rgt_not_eq; auto). lra. }
    assert (L0 : 0 <= f_limit) by (unfold f_limit; apply pow_le; lra).
    apply Rle_trans with (4 * f_u * f_limit * Tn).
    - rewrite <- (Rmult_1_l Tn) at 1. apply Rmult_le_compat_r; lra.
    - apply Rle_trans with (f_gamma (n + 4) * Tn * f_limit).
      + replace (4 * f_u * f_limit * Tn) with (4 * f_u * (Tn * f_limit)) by ring.
        replace (f_gamma (n + 4) * Tn * f_limit) with (f_gamma (n + 4) * (Tn * f_limit)) by ring.
        apply Rmult_le_compat_r; auto. apply Rmult_le_pos; lra.
      + apply Rmult_le_compat_r; lra.
  Qed.

  Lemma T_w_limit : 8 * T <= w * f_limit.
  Proof using HX HTX.
    unfold w. pose proof X_pos. apply (Rmult_le_reg_r X); auto.
    replace (/ X * f_limit * X) with f_limit by (field; lra). exact HTX.
  Qed.

  Lemma A'_col r c : (c < n)%nat -> A' r c = A r c.
  Proof using Hn. intro H. unfold A'. destruct (Nat.eqb_spec c n); auto. lia. Qed.

  Lemma A'_rhs r : A' r n = B r.
  Proof using. unfold A'. rewrite Nat.eqb_refl. reflexivity. Qed.

  Lemma start : scaled_state n w K wt A' m T 0 A'.
  Proof using Hq0 Hn HX Hm HT HA HB.
    apply scaled_0.
    - intros i j Hi Hj. destruct (Nat.eq_dec j n) as [->|Hne]; [rewrite A'_rhs; apply HB, Hi|].
      rewrite A'_col by lia. apply HA; lia.
    - intros i Hi. specialize (Hm i Hi). specialize (HT i Hi). unfold scaled_margin in Hm. unfold scaled_size in HT.
      rewrite S_eq in HT. rewrite O_eq, <- wt_in in Hm by auto.
      unfold srow_ok, weighted, smag. rewrite A'_rhs, wt_n, A'_col, Rmult_1_l by auto.
      assert (E1 : wsum n 0 i (fun j => wt j * Rabs (f_real (A' i j))) = O i).
      { apply asum_ext. intros j Hj. rewrite A'_col by auto. cbn [Nat.leb andb]. destruct (j =? i)%nat; reflexivity. }
      assert (E2 : wsum n 0 n (fun j => wt j * Rabs (f_real (A' i j))) = rsum n (fun j => wt j * Rabs (f_real (A i j)))).
      { apply asum_ext. intros j Hj. rewrite A'_col by auto. destruct (Nat.eqb_spec j n); [lia|]. reflexivity. }
      unfold Rdiv in Hm, HT. fold w in Hm, HT. split.
      + change (wsum n 0 i (fun j => wt j * Rabs (f_real (A' i j))) + w * Rabs (f_real (B i)) + m <= wt i * Rabs (f_real (A i i))).
        rewrite E1. lra.
      + change (wsum n 0 n (fun j => wt j * Rabs (f_real (A' i j))) + w * Rabs (f_real (B i)) + sfloor n w K <= T).
        rewrite E2. unfold sfloor. rewrite tiny_pow. lra.
  Qed.

  Lemma factored : exists st' g, factorise fops dbg false st a = Ok (st', true) /\ is_mat n n (lu_matrix st') g /\
    scaled_state n w K wt A' m T n g.
  Proof using Hq0 Hn HX Hm HT HA HB Ha Hg Ht HT1 HTX Vt Ft.
    destruct (factorise_succeeds fops dbg false n st a A' (scaled_state n w K wt A' m T)) as (st' & g & E & Hg1 & Hi & _).
    - apply (is_mat_ext n n a A A' Ha). intros i j _ Hj. rewrite A'_col by auto. reflexivity.
    - discriminate.
    - exact start.
    - intros i g Hi Hs. split.
      + destruct Hs as (Hf & Hs). destruct (Hf i i Hi ltac:(lia)) as [V F].
        destruct (abs_real _ V F) as (Va & Fa & Ea). cbn [fops sc_lt sc_abs].
        destruct (SFltb (SFabs (g i i)) (lu_tolerance st)) eqn:El; [exfalso|reflexivity].
        apply (f_lt _ _ Va Vt Fa Ft) in El. rewrite Ea in El.
        pose proof (scaled_pivot n w K wt w_pos wt_range A' m T (Rlt_le _ _ T_pos) i g Hi (conj Hf Hs)) as P.
        unfold smag in P. pose proof mu_low as L. fold mu in P. destruct (wt_range i) as [W1 W2].
        assert (wt i * Rabs (f_real (g i i)) <= K * f_real (lu_tolerance st)) by (apply Rmult_le_compat; try lra; apply Rabs_pos).
        pose proof gamma_4u. pose proof u_pos. assert (0 < f_gamma (n + 4) * Tn) by (apply Rmult_lt_0_compat; [lra|apply Tn_pos]).
        lra.
      + exact (scaled_next n w K wt w_pos wt_range wt_n A' m T (Rlt_le _ _ T_pos) gamma4_one mu_pos Tn_limit HT1 T_w_limit i g Hi Hs).
    - exists st', g. auto.
  Qed.

  Lemma solved : exists st' x' d z, factorise fops dbg false st a = Ok (st', true) /\
    lu_solve fops dbg false st' x b = Ok (x', d) /\ cd_converged d = true /\ is_vec n x' z /\ finite_vec n z /\
    (forall i, (i < n)%nat -> Rabs (f_real (z i)) <= wt0 i * X) /\
    (forall i, (i < n)%nat ->
       Rabs (f_real (B i) - rsum n (fun j => f_real (A i j) * f_real (z j))) <= 14 * INR n * f_gamma (3 * n) * T * X).
  Proof using Hq0 Hn HX HXK Hm HT HA HB Ha Hb Hg Ht HT1 HTX Vt Ft.
    destruct factored as (st' & g & E & Hg1 & Hd).
    destruct (factorise_dool fops dbg false n st a A st' (F_tol_default dbg) Ha E) as (s & g2 & Hf & Hg2 & _ & Hs & Hdo).
    assert (Hs' : forall k, s k = k) by (apply Hs; reflexivity).
    assert (Eg : forall i j, (i < n)%nat -> (j < n)%nat -> g2 i j = g i j).
    { intros i j Hi Hj. pose proof (is_mat_get _ _ _ _ i j Hg1 Hi Hj) as E1.
      pose proof (is_mat_get _ _ _ _ i j Hg2 Hi Hj) as E2. congruence. }
    destruct (solve_ok fops dbg false n st' g2 s x b B Hf Hg2) as (x' & y & z & Es & Hx' & Hy & Hz); auto; try discriminate.
    { intros k Hk. rewrite Hs'. exact Hk. }
    assert (Ey : forall i, (i < n)%nat -> y i = g i n).
    { intro i. induction i as [i IH] using (well_founded_induction Nat.lt_wf_0). intro Hi.
      rewrite (Hy i Hi), Hs'. destruct Hd as (_ & _ & _ & _ & Hc). rewrite (Hc i Hi), A'_rhs, Nat.min_l by lia.
      apply (rdiff_ext fops). intros j Hj. cbn [fops sc_mul]. rewrite Eg by lia. rewrite (IH j Hj) by lia. reflexivity. }
    assert (Hz' : forall i, (i < n)%nat -> z i = SFdiv 53 1024 (rdiff fops (g i n) (n - (i + 1))
      (fun k => SFmul 53 1024 (g i (i + 1 + k)%nat) (z (i + 1 + k)%nat))) (g i i)).
    { intros i Hi. rewrite (Hz i Hi). rewrite Ey, Eg by auto. cbn [fops sc_div]. f_equal.
      apply (rdiff_ext fops). intros j Hj. cbn [fops sc_mul]. rewrite Eg by lia. reflexivity. }
    pose proof mu_low as L.
    assert (Hslack : f_gamma (n + 4) * Tn <= mu) by (pose proof K_one as K1; assert (0 <= K * f_real (lu_tolerance st)) by (apply Rmult_le_pos; lra); lra).
    assert (HX1 : f_eta <= f_u * / w) by (rewrite w_inv; apply eta_normal; lra).
    assert (HX2 : K * / w <= f_limit) by (rewrite w_inv; lra).
    pose proof (backward_finite n w K wt A' g m T w_pos wt_range wt_n (Rlt_le _ _ T_pos) gamma4_one mu_pos T_w_limit Hslack HX1 HX2 Hd z Hz') as Hfin.
    pose proof (residual_small n w K wt A' g m T w_pos wt_range wt_n (Rlt_le _ _ T_pos) gamma4_one mu_pos T_w_limit Hslack HX1 HX2 Hd z Hz') as Hres.
    rewrite w_inv in Hfin, Hres.
    exists st', x'. eexists. exists z. split; [exact E|]. split; [exact Es|]. split; [reflexivity|]. split; [exact Hx'|].
    split; [intros i Hi; destruct (Hfin i Hi) as (V & F & _); auto|].
    split; [intros i Hi; destruct (Hfin i Hi) as (_ & _ & P); rewrite <- wt_in by auto; auto|].
    intros i Hi.
    assert (Hdo' : dool fops n A n s g).
    { destruct Hdo as (H1 & H2 & H3). split; [|split; auto]. intros r c Hr Hc. rewrite <- Eg, (H1 r c Hr Hc) by auto.
      apply dool_entry_ext; auto. intros k Hk. rewrite !Eg by lia. auto. }
    pose proof (solve_residual n A g s) as R.
    specialize (R (fun i j Hi Hj => proj1 (HA i j Hi Hj)) Hdo').
    specialize (R (fun i j (Hi : (i < n)%nat) (Hj : (j < n)%nat) => proj2 (proj1 Hd i j Hi (Nat.lt_le_incl _ _ Hj)))).
    specialize (R B y z (fun i Hi => proj1 (HB i Hi))).
    refine (Rle_trans _ _ _ _ (Hres i Hi)).
    assert (R' : Rabs (f_real (B (s i)) - rsum n (fun j => f_real (A (s i) j) * f_real (z j))) <=
      f_gamma (3 * n) * rsum n (fun k => rsum n (fun j => Rabs (f_lower g i k) * Rabs (f_upper g k j) * Rabs (f_real (z j)))) +
      (1 + f_u) ^ (2 * n) * f_eta *
      (INR n + rsum n (fun k => (INR n + Rabs (f_real (g k k))) * (Rabs (f_lower g i k) + Rabs (f_real (z k)))))).
    { apply R; auto.
      - intros k Hk. rewrite (Hy k Hk). apply (rdiff_ext fops). intros j Hj. cbn [fops sc_mul]. rewrite Eg by lia. reflexivity.
      - intros k Hk. rewrite (Hz' k Hk), (Ey k Hk). reflexivity.
      - intros k Hk. apply Hfin, Hk. }
    rewrite (Hs' i) in R'. exact R'.
  Qed.

  Lemma exact_solution : exists xs, forall i, (i < n)%nat -> rsum n (fun j => f_real (A i j) * xs j) = f_real (B i).
  Proof using Hq0 Hn HX Hm HT Hg Ht.
    pose proof m_pos as M. pose proof m_le_T as MT. pose proof T_pos as P.
    destruct (solution_exists n (fun i j => f_real (A i j) * wt j) (fun i => f_real (B i)) (1 - m / T)) as (xs & Hxs).
    - split.
      + assert (0 < m / T) by (apply Rdiv_lt_0_compat; lra).
        assert (m / T <= 1) by (apply (Rmult_le_reg_r T); auto; unfold Rdiv; rewrite Rmult_assoc, Rinv_l; lra). lra.
      + assert (Es : forall i j, Rabs (f_real (A i j) * wt j) = wt j * Rabs (f_real (A i j))).
        { intros i j. rewrite Rabs_mult, (Rabs_pos_eq (wt j)) by apply Rlt_le, wt_pos. ring. }
        intros i Hi. pose proof (m_diag i Hi) as D. pose proof (off_nonneg i) as H0. pose proof (diag_le i Hi) as L.
        rewrite <- Es in D, L. split; [intro E; rewrite E, Rabs_R0 in D; lra|].
        assert (EO : rsum n (fun j => if (j =? i)%nat then 0 else Rabs (f_real (A i j) * wt j)) = O i).
        { apply asum_ext. intros j Hj. rewrite Es. reflexivity. }
        change (rsum n (fun j => if (j =? i)%nat then 0 else Rabs (f_real (A i j) * wt j)) <= (1 - m / T) * Rabs (f_real (A i i) * wt i)).
        rewrite EO. assert (m / T * Rabs (f_real (A i i) * wt i) <= m).
        { replace m with (m / T * T) at 2 by (field; lra). apply Rmult_le_compat_l; auto.
          apply Rlt_le, Rdiv_lt_0_compat; lra. }
        lra.
    - exists (fun j => wt j * xs j). intros i Hi. rewrite <- (Hxs i Hi). apply asum_ext. intros j Hj. ring.
  Qed.

  Lemma near xs ys rho : (forall i, (i < n)%nat -> rsum n (fun j => f_real (A i j) * xs j) = f_real (B i)) ->
    (forall i, (i < n)%nat -> Rabs (f_real (B i) - rsum n (fun j => f_real (A i j) * ys j)) <= rho) ->
    forall i, (i < n)%nat -> Rabs (ys i - xs i) <= wt0 i * (rho / m).
  Proof using Hq0 Hn HX Hm HT Hg Ht.
    intros Hx Hy i Hi. rewrite <- wt_in by auto.
    apply (scaled_inverse_bound n (fun i j => f_real (A i j)) wt (fun j => ys j - xs j) m rho); auto.
    - exact m_pos.
    - exact wt_pos.
    - exact m_diag.
    - intros r Hr. specialize (Hy r Hr). rewrite <- (Hx r Hr), Rabs_minus_sym, <- rsum_minus in Hy.
      erewrite asum_ext; [exact Hy|]. intros j Hj. cbn beta. ring.
  Qed.
End Scaled.

Lemma scaled_solved dbg n st a A x b B m X T K wt : is_mat n n a A -> is_vec n (other_of x b) B ->
  (forall i j, (i < n)%nat -> (j < n)%nat -> f_valid (A i j) /\ f_finite (A i j) = true) -> finite_vec n B ->
  f_valid (lu_tolerance st) -> f_finite (lu_tolerance st) = true -> 0 <= f_real (lu_tolerance st) ->
  (forall j, (j < n)%nat -> 1 <= wt j <= K) -> / 2 ^ 1022 <= X -> K * X <= f_limit ->
  (forall i, (i < n)%nat -> m <= scaled_margin n wt A B X i) ->
  (forall i, (i < n)%nat -> scaled_size n wt A B X i + INR n * (K + / X) / 2 ^ 969 <= T) ->
  K * f_real (lu_tolerance st) + f_gamma (5 * n + 4) * T <= m -> 8 * T <= f_limit -> 8 * T * X <= f_limit ->
  exists st' x' d z xs, factorise fops dbg false st a = Ok (st', true) /\
    lu_solve fops dbg false st' x b = Ok (x', d) /\ cd_converged d = true /\ is_vec n x' z /\ finite_vec n z /\
    (forall i, (i < n)%nat -> Rabs (f_real (z i)) <= wt i * X) /\
    (forall i, (i < n)%nat -> rsum n (fun j => f_real (A i j) * xs j) = f_real (B i)) /\
    (forall ys, (forall i, (i < n)%nat -> rsum n (fun j => f_real (A i j) * ys j) = f_real (B i)) ->
       forall i, (i < n)%nat -> ys i = xs i) /\
    (forall i, (i < n)%nat -> Rabs (f_real (z i) - xs i) <= wt i * (14 * INR n * f_gamma (3 * n) * T * X / m)).
Proof.
  intros Ha Hb HA HB Vt Ft Ht Hq HX HXK Hm HT Hg HT1 HTX.
  destruct n as [|n'] eqn:En.
  - destruct (factorise_succeeds fops dbg false 0 st a A (fun _ _ => True)) as (st' & g & E & Hg1 & _); auto; try discriminate.
    { intros i g Hi. lia. }
    destruct (factorise_dool fops dbg false 0 st a A st' (F_tol_default dbg) Ha E) as (s & g2 & Hf & Hg2 & _ & Hs & Hdo).
    destruct (solve_ok fops dbg false 0 st' g2 s x b B Hf Hg2) as (x' & y & z & Es & Hx' & Hy & Hz); auto; try discriminate.
    { intros k Hk. lia. }
    exists st', x'. eexists. exists z, (fun _ => 0). split; [exact E|]. split; [exact Es|]. split; [reflexivity|].
    split; [exact Hx'|]. repeat split; intros; lia.
  - rewrite <- En in *. assert (Hn : (0 < n)%nat) by lia. clear n' En.
    destruct (solved dbg n st a A x b B m X T K wt) as (st' & x' & d & z & E & Es & Hd & Hx' & Hz & HzX & Hres); auto.
    destruct (exact_solution n st A B m X T K wt) as (xs & Hxs); auto.
    exists st', x', d, z, xs. do 7 (split; [assumption|]). split.
    + intros ys Hys i Hi.
      assert (N : Rabs (ys i - xs i) <= wt i * (0 / m)).
      { apply (near n st A B m X T K wt Hq Hn Ht HX Hm HT Hg xs ys 0 Hxs); auto. intros r Hr. rewrite (Hys r Hr), Rminus_eq_0, Rabs_R0. lra. }
      unfold Rdiv in N. rewrite Rmult_0_l, Rmult_0_r in N. pose proof (Rabs_pos (ys i - xs i)) as P.
      destruct (Req_dec (ys i - xs i) 0) as [Z|Z]; [lra|]. apply Rabs_pos_lt in Z. lra.
    + apply (near n st A B m X T K wt Hq Hn Ht HX Hm HT Hg xs (fun i => f_real (z i)) _ Hxs Hres).
Qed.
