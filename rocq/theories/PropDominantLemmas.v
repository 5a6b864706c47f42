(** Lemmas behind C98. *)
From Coq Require Import ZArith Reals Lra Lia List SpecFloat.
From Verif Require Import Base ListFacts DenseModel DenseFacts ScalarModel GeometryReal LuModel LuFacts LuReal
  FloatFacts FloatError IterFloat LuFloat PropFloatLemmas FloatUnit FloatSweep IterReal LuSuccess PropSuccessLemmas PropIterLemmas
  LuDominant LuDominantSolve.
Import ListNotations.
Local Open Scope R_scope.

(** The margin by which the diagonal of a row dominates, the right hand side counted with the weight [/ X]. *)
Definition margin n (A : nat -> nat -> f64) (B : nat -> f64) (X : R) (i : nat) : R :=
  Rabs (f_real (A i i)) - off_diagonal n (fun r c => f_real (A r c)) i - Rabs (f_real (B i)) / X.

(** The size of a row, the right hand side counted with the weight [/ X]. *)
Definition row_size n (A : nat -> nat -> f64) (B : nat -> f64) (X : R) (i : nat) : R :=
  rsum n (fun j => Rabs (f_real (A i j))) + Rabs (f_real (B i)) / X.

Lemma abs_real x : f_valid x -> f_finite x = true ->
  f_valid (SFabs x) /\ f_finite (SFabs x) = true /\ f_real (SFabs x) = Rabs (f_real x).
Proof.
  destruct x as [s|s| |s m e]; cbn [f_finite]; try discriminate; intros V _.
  - split; [reflexivity|]. split; [reflexivity|]. cbn [SFabs f_real]. rewrite Rabs_R0. reflexivity.
  - split; [exact V|]. split; [reflexivity|]. cbn [SFabs f_real].
    assert (P : 0 < IZR (Z.pos m)) by (apply IZR_lt; lia).
    assert (Q : 0 < powerRZ 2 e) by (apply powerRZ_lt; lra).
    rewrite Rabs_mult, (Rabs_pos_eq (powerRZ 2 e)) by lra. f_equal. destruct s; rewrite ?Rabs_Ropp, Rabs_pos_eq; lra.
Qed.

Lemma tiny_pow : f_tiny = / 2 ^ 969.
Proof.
  unfold f_tiny, f_eta, f_u. replace 1075%nat with (53 + (53 + 969))%nat by reflexivity. rewrite !(pow_add 2).
  assert (0 < 2 ^ 53) by (apply pow_lt; lra). assert (0 < 2 ^ 969) by (apply pow_lt; lra).
  field; repeat split; apply Rgt_not_eq; auto.
Qed.

Lemma eta_normal X : / 2 ^ 1022 <= X -> f_eta <= f_u * X.
Proof.
  intro H. assert (E : f_eta = f_u * / 2 ^ 1022).
  { unfold f_eta, f_u. replace 1075%nat with (53 + 1022)%nat by reflexivity. rewrite (pow_add 2).
    assert (0 < 2 ^ 53) by (apply pow_lt; lra). assert (0 < 2 ^ 1022) by (apply pow_lt; lra).
    field; repeat split; apply Rgt_not_eq; auto. }
  rewrite E. apply Rmult_le_compat_l; auto. apply Rlt_le, u_pos.
Qed.

Section Dominant.
  Variables (dbg : bool) (n : nat) (st : lu_state f64) (a : list (list f64)) (A : nat -> nat -> f64).
  Variables (x : list f64) (b : option (list f64)) (B : nat -> f64) (m X T : R).
  Hypothesis (Hn : (0 < n)%nat) (Ha : is_mat n n a A) (Hb : is_vec n (other_of x b) B).
  Hypothesis HA : forall i j, (i < n)%nat -> (j < n)%nat -> f_valid (A i j) /\ f_finite (A i j) = true.
  Hypothesis HB : finite_vec n B.
  Hypothesis (Vt : f_valid (lu_tolerance st)) (Ft : f_finite (lu_tolerance st) = true) (Ht : 0 <= f_real (lu_tolerance st)).
  Hypothesis HX : / 2 ^ 1022 <= X <= f_limit.
  Hypothesis Hm : forall i, (i < n)%nat -> m <= margin n A B X i.
  Hypothesis HT : forall i, (i < n)%nat -> row_size n A B X i + INR n * (1 + / X) / 2 ^ 969 <= T.
  Hypothesis Hg : f_real (lu_tolerance st) + f_gamma (5 * n + 4) * T <= m.
  Hypothesis HT1 : 8 * T <= f_limit.
  Hypothesis HTX : 8 * T * X <= f_limit.

  Let w := / X.
  Let A' r c := if (c =? n)%nat then B r else A r c.

  Lemma X_pos : 0 < X.
  Proof using HX. destruct HX as [H _]. assert (0 < / 2 ^ 1022) by (apply Rinv_0_lt_compat, pow_lt; lra). lra. Qed.

  Lemma w_pos : 0 < w.
  Proof using HX. apply Rinv_0_lt_compat, X_pos. Qed.

  Lemma w_inv : / w = X.
  Proof using HX. unfold w. apply Rinv_inv. Qed.

  Lemma T_pos : 0 < T.
  Proof using Hn HX HT.
    specialize (HT 0%nat Hn). pose proof w_pos as W. fold w in HT.
    assert (0 < INR n) by (apply lt_0_INR; auto).
    assert (0 < INR n * (1 + w) / 2 ^ 969).
    { apply Rmult_lt_0_compat; [apply Rmult_lt_0_compat; lra|apply Rinv_0_lt_compat, pow_lt; lra]. }
    assert (0 <= row_size n A B X 0).
    { apply Rplus_le_le_0_compat; [apply rsum_nonneg; intros; apply Rabs_pos|].
      apply Rmult_le_pos; [apply Rabs_pos|fold w; lra]. }
    lra.
  Qed.

  Lemma diag_le i : (i < n)%nat -> Rabs (f_real (A i i)) <= T.
  Proof using Hn HX HT.
    intro Hi. specialize (HT i Hi). pose proof w_pos as W. fold w in HT.
    assert (0 <= INR n) by apply pos_INR.
    assert (0 <= INR n * (1 + w) / 2 ^ 969).
    { apply Rmult_le_pos; [apply Rmult_le_pos; lra|apply Rlt_le, Rinv_0_lt_compat, pow_lt; lra]. }
    unfold row_size in HT.
    assert (0 <= Rabs (f_real (B i)) / X) by (apply Rmult_le_pos; [apply Rabs_pos|fold w; lra]).
    assert (Rabs (f_real (A i i)) <= rsum n (fun j => Rabs (f_real (A i j)))).
    { apply (rsum_member n (fun j => Rabs (f_real (A i j)))); auto. intros; apply Rabs_pos. }
    lra.
  Qed.

  Lemma off_nonneg i : 0 <= off_diagonal n (fun r c => f_real (A r c)) i.
  Proof using. apply rsum_nonneg. intros j _. destruct (j =? i)%nat; [lra|apply Rabs_pos]. Qed.

  Lemma m_diag i : (i < n)%nat -> off_diagonal n (fun r c => f_real (A r c)) i + m <= Rabs (f_real (A i i)).
  Proof using HX Hm.
    intro Hi. specialize (Hm i Hi). unfold margin in Hm.
    assert (0 <= Rabs (f_real (B i)) / X) by (apply Rmult_le_pos; [apply Rabs_pos|apply Rlt_le, w_pos]). lra.
  Qed.

  Lemma m_le_T : m <= T.
  Proof using Hn HX Hm HT.
    pose proof (m_diag 0%nat Hn). pose proof (diag_le 0%nat Hn). pose proof (off_nonneg 0%nat). lra.
  Qed.

  Lemma gamma_one : f_gamma (5 * n + 4) <= 1.
  Proof using Hn HX Hm HT Hg Ht.
    pose proof T_pos as P. pose proof m_le_T. apply (Rmult_le_reg_r T); [exact P|]. lra.
  Qed.

  Lemma gamma4_one : f_gamma (4 * n) <= 1.
  Proof using Hn HX Hm HT Hg Ht. apply Rle_trans with (2 := gamma_one). apply gamma_le. lia. Qed.

  Let Tn := (1 + f_u) ^ (4 * n) * T.
  Let mu := m - f_gamma (4 * n) * T.

  Lemma mu_low : f_real (lu_tolerance st) + f_gamma (n + 4) * Tn <= mu.
  Proof using Hg Hn.
    unfold mu, Tn. assert (E : f_gamma (5 * n + 4) = f_gamma (4 * n) + (1 + f_u) ^ (4 * n) * f_gamma (n + 4)).
    { replace (5 * n + 4)%nat with (4 * n + (n + 4))%nat by lia. unfold f_gamma. rewrite (pow_add _ (4 * n)). ring. }
    rewrite E in Hg. lra.
  Qed.

  Lemma Tn_pos : 0 < Tn.
  Proof using Hn HX HT. apply Rmult_lt_0_compat; [apply pow_lt; pose proof u_pos; lra|apply T_pos]. Qed.

  Lemma gamma_4u : 4 * f_u <= f_gamma (n + 4).
  Proof using Hn.
    apply Rle_trans with (f_gamma 4); [|apply gamma_le; lia]. pose proof u_pos.
    rewrite (gamma_S 3), (gamma_S 2), (gamma_S 1), (gamma_S 0). unfold f_gamma. cbn [pow]. nra.
  Qed.

  Lemma mu_pos : 0 < mu.
  Proof using Hn HX HT Hg Ht.
    pose proof mu_low. pose proof gamma_4u. pose proof u_pos. pose proof Tn_pos.
    assert (0 < f_gamma (n + 4) * Tn) by (apply Rmult_lt_0_compat; lra). lra.
  Qed.

  Lemma m_pos : 0 < m.
  Proof using Hn HX HT Hg Ht.
    pose proof mu_pos as H. unfold mu in H. pose proof (gamma_nonneg (4 * n)). pose proof T_pos.
    assert (0 <= f_gamma (4 * n) * T) by (apply Rmult_le_pos; lra). lra.
  Qed.

  Lemma Tn_limit : Tn <= mu * f_limit.
  Proof using Hn HX HT Hg Ht.
    pose proof mu_low. pose proof gamma_4u. pose proof u_pos. pose proof Tn_pos as P.
    assert (L : 1 <= 4 * f_u * f_limit).
    { assert (E : f_limit = 2 ^ 970 * 2 ^ 53) by (unfold f_limit; rewrite <- pow_add; reflexivity).
      rewrite E. unfold f_u. assert (0 < 2 ^ 53) by (apply pow_lt; lra). assert (1 <= 2 ^ 970) by (apply pow_R1_Rle; lra).
      replace (4 * / 2 ^ 53 * (2 ^ 970 * 2 ^ 53)) with (4 * 2 ^ 970) by (field; apply Rgt_not_eq; auto). lra. }
    assert (L0 : 0 <= f_limit) by (unfold f_limit; apply pow_le; lra).
    apply Rle_trans with (4 * f_u * f_limit * Tn).
    - rewrite <- (Rmult_1_l Tn) at 1. apply Rmult_le_compat_r; lra.
    - apply Rle_trans with (f_gamma (n + 4) * Tn * f_limit).
      + replace (4 * f_u * f_limit * Tn) with (4 * f_u * (Tn * f_limit)) by ring.
        replace (f_gamma (n + 4) * Tn * f_limit) with (f_gamma (n + 4) * (Tn * f_limit)) by ring.
        apply Rmult_le_compat_r; auto. apply Rmult_le_pos; lra.
      + apply Rmult_le_compat_r; lra.
  Qed.

  Lemma T_w_limit : 8 * T <= w * f_limit.
  Proof using HX HTX.
    unfold w. pose proof X_pos. apply (Rmult_le_reg_r X); auto.
    replace (/ X * f_limit * X) with f_limit by (field; lra). exact HTX.
  Qed.

  Lemma A'_col r c : (c < n)%nat -> A' r c = A r c.
  Proof using Hn. intro H. unfold A'. destruct (Nat.eqb_spec c n); auto. lia. Qed.

  Lemma A'_rhs r : A' r n = B r.
  Proof using. unfold A'. rewrite Nat.eqb_refl. reflexivity. Qed.

  Lemma start : dominant_state n w A' m T 0 A'.
  Proof using Hn HX Hm HT HA HB.
    apply dominant_0.
    - intros i j Hi Hj. destruct (Nat.eq_dec j n) as [->|Hne]; [rewrite A'_rhs; apply HB, Hi|].
      rewrite A'_col by lia. apply HA; lia.
    - intros i Hi. specialize (Hm i Hi). specialize (HT i Hi). unfold margin in Hm. unfold row_size in HT. fold w in HT.
      unfold row_ok, weighted, mag. rewrite A'_rhs, A'_col by auto.
      assert (E1 : wsum n 0 i (fun j => Rabs (f_real (A' i j))) = off_diagonal n (fun r c => f_real (A r c)) i).
      { rewrite off_wsum. apply asum_ext. intros j Hj. rewrite A'_col by auto. reflexivity. }
      assert (E2 : wsum n 0 n (fun j => Rabs (f_real (A' i j))) = rsum n (fun j => Rabs (f_real (A i j)))).
      { apply asum_ext. intros j Hj. rewrite A'_col by auto. destruct (Nat.eqb_spec j n); [lia|]. reflexivity. }
      unfold Rdiv in Hm, HT. fold w in Hm, HT. split.
      + change (wsum n 0 i (fun j => Rabs (f_real (A' i j))) + w * Rabs (f_real (B i)) + m <= Rabs (f_real (A i i))).
        rewrite E1. lra.
      + change (wsum n 0 n (fun j => Rabs (f_real (A' i j))) + w * Rabs (f_real (B i)) + floor n w <= T).
        rewrite E2. unfold floor. rewrite tiny_pow. lra.
  Qed.

  Lemma factored : exists st' g, factorise fops dbg false st a = Ok (st', true) /\ is_mat n n (lu_matrix st') g /\
    dominant_state n w A' m T n g.
  Proof using Hn HX Hm HT HA HB Ha Hg Ht HT1 HTX Vt Ft.
    destruct (factorise_succeeds fops dbg false n st a A' (dominant_state n w A' m T)) as (st' & g & E & Hg1 & Hi & _).
    - apply (is_mat_ext n n a A A' Ha). intros i j _ Hj. rewrite A'_col by auto. reflexivity.
    - discriminate.
    - exact start.
    - intros i g Hi Hs. split.
      + destruct Hs as (Hf & Hs). destruct (Hf i i Hi ltac:(lia)) as [V F].
        destruct (abs_real _ V F) as (Va & Fa & Ea). cbn [fops sc_lt sc_abs].
        destruct (SFltb (SFabs (g i i)) (lu_tolerance st)) eqn:El; [exfalso|reflexivity].
        apply (f_lt _ _ Va Vt Fa Ft) in El. rewrite Ea in El.
        pose proof (dominant_pivot n w w_pos A' m T (Rlt_le _ _ T_pos) i g Hi (conj Hf Hs)) as P.
        unfold mag in P. pose proof mu_low as L. fold mu in P.
        assert (0 <= f_gamma (n + 4) * Tn) by (apply Rmult_le_pos; [apply gamma_nonneg|apply Rlt_le, Tn_pos]). lra.
      + exact (dominant_next n w w_pos A' m T (Rlt_le _ _ T_pos) gamma4_one mu_pos Tn_limit HT1 T_w_limit i g Hi Hs).
    - exists st', g. auto.
  Qed.

  Lemma solved : exists st' x' d z, factorise fops dbg false st a = Ok (st', true) /\
    lu_solve fops dbg false st' x b = Ok (x', d) /\ cd_converged d = true /\ is_vec n x' z /\ finite_vec n z /\
    (forall i, (i < n)%nat -> Rabs (f_real (z i)) <= X) /\
    (forall i, (i < n)%nat ->
       Rabs (f_real (B i) - rsum n (fun j => f_real (A i j) * f_real (z j))) <= 14 * INR n * f_gamma (3 * n) * T * X).
  Proof using Hn HX Hm HT HA HB Ha Hb Hg Ht HT1 HTX Vt Ft.
    destruct factored as (st' & g & E & Hg1 & Hd).
    destruct (factorise_dool fops dbg false n st a A st' (F_tol_default dbg) Ha E) as (s & g2 & Hf & Hg2 & _ & Hs & Hdo).
    assert (Hs' : forall k, s k = k) by (apply Hs; reflexivity).
    assert (Eg : forall i j, (i < n)%nat -> (j < n)%nat -> g2 i j = g i j).
    { intros i j Hi Hj. pose proof (is_mat_get _ _ _ _ i j Hg1 Hi Hj) as E1.
      pose proof (is_mat_get _ _ _ _ i j Hg2 Hi Hj) as E2. congruence. }
    destruct (solve_ok fops dbg false n st' g2 s x b B Hf Hg2) as (x' & y & z & Es & Hx' & Hy & Hz); auto; try discriminate.
    { intros k Hk. rewrite Hs'. exact Hk. }
    assert (Ey : forall i, (i < n)%nat -> y i = g i n).
    { intro i. induction i as [i IH] using (well_founded_induction Nat.lt_wf_0). intro Hi.
      rewrite (Hy i Hi), Hs'. destruct Hd as (_ & _ & _ & _ & Hc). rewrite (Hc i Hi), A'_rhs, Nat.min_l by lia.
      apply (rdiff_ext fops). intros j Hj. cbn [fops sc_mul]. rewrite Eg by lia. rewrite (IH j Hj) by lia. reflexivity. }
    assert (Hz' : forall i, (i < n)%nat -> z i = SFdiv 53 1024 (rdiff fops (g i n) (n - (i + 1))
      (fun k => SFmul 53 1024 (g i (i + 1 + k)%nat) (z (i + 1 + k)%nat))) (g i i)).
    { intros i Hi. rewrite (Hz i Hi). rewrite Ey, Eg by auto. cbn [fops sc_div]. f_equal.
      apply (rdiff_ext fops). intros j Hj. cbn [fops sc_mul]. rewrite Eg by lia. reflexivity. }
    pose proof mu_low as L.
    assert (Hslack : f_gamma (n + 4) * Tn <= mu) by lra.
    assert (HX1 : f_eta <= f_u * / w) by (rewrite w_inv; apply eta_normal; lra).
    assert (HX2 : / w <= f_limit) by (rewrite w_inv; lra).
    pose proof (backward_finite n w A' g m T w_pos (Rlt_le _ _ T_pos) gamma4_one mu_pos T_w_limit Hslack HX1 HX2 Hd z Hz') as Hfin.
    pose proof (residual_small n w A' g m T w_pos (Rlt_le _ _ T_pos) gamma4_one mu_pos T_w_limit Hslack HX1 HX2 Hd z Hz') as Hres.
    rewrite w_inv in Hfin, Hres.
    exists st', x'. eexists. exists z. split; [exact E|]. split; [exact Es|]. split; [reflexivity|]. split; [exact Hx'|].
    split; [intros i Hi; destruct (Hfin i Hi) as (V & F & _); auto|].
    split; [intros i Hi; destruct (Hfin i Hi) as (_ & _ & P); auto|].
    intros i Hi.
    assert (Hdo' : dool fops n A n s g).
    { destruct Hdo as (H1 & H2 & H3). split; [|split; auto]. intros r c Hr Hc. rewrite <- Eg, (H1 r c Hr Hc) by auto.
      apply dool_entry_ext; auto. intros k Hk. rewrite !Eg by lia. auto. }
    pose proof (solve_residual n A g s) as R.
    specialize (R (fun i j Hi Hj => proj1 (HA i j Hi Hj)) Hdo').
    specialize (R (fun i j (Hi : (i < n)%nat) (Hj : (j < n)%nat) => proj2 (proj1 Hd i j Hi (Nat.lt_le_incl _ _ Hj)))).
    specialize (R B y z (fun i Hi => proj1 (HB i Hi))).
    refine (Rle_trans _ _ _ _ (Hres i Hi)).
    assert (R' : Rabs (f_real (B (s i)) - rsum n (fun j => f_real (A (s i) j) * f_real (z j))) <=
      f_gamma (3 * n) * rsum n (fun k => rsum n (fun j => Rabs (f_lower g i k) * Rabs (f_upper g k j) * Rabs (f_real (z j)))) +
      (1 + f_u) ^ (2 * n) * f_eta *
      (INR n + rsum n (fun k => (INR n + Rabs (f_real (g k k))) * (Rabs (f_lower g i k) + Rabs (f_real (z k)))))).
    { apply R; auto.
      - intros k Hk. rewrite (Hy k Hk). apply (rdiff_ext fops). intros j Hj. cbn [fops sc_mul]. rewrite Eg by lia. reflexivity.
      - intros k Hk. rewrite (Hz' k Hk), (Ey k Hk). reflexivity.
      - intros k Hk. apply Hfin, Hk. }
    rewrite (Hs' i) in R'. exact R'.
  Qed.

  Lemma exact_solution : exists xs, forall i, (i < n)%nat -> rsum n (fun j => f_real (A i j) * xs j) = f_real (B i).
  Proof using Hn HX Hm HT Hg Ht.
    pose proof m_pos as M. pose proof m_le_T as MT. pose proof T_pos as P.
    apply (solution_exists n (fun i j => f_real (A i j)) (fun i => f_real (B i)) (1 - m / T)). split.
    - assert (0 < m / T) by (apply Rdiv_lt_0_compat; lra).
      assert (m / T <= 1) by (apply (Rmult_le_reg_r T); auto; unfold Rdiv; rewrite Rmult_assoc, Rinv_l; lra). lra.
    - intros i Hi. pose proof (m_diag i Hi) as D. pose proof (off_nonneg i) as O. pose proof (diag_le i Hi) as L.
      split; [intro E; rewrite E, Rabs_R0 in D; lra|].
      change (off_diagonal n (fun r c => f_real (A r c)) i <= (1 - m / T) * Rabs (f_real (A i i))).
      assert (m / T * Rabs (f_real (A i i)) <= m).
      { replace m with (m / T * T) at 2 by (field; lra). apply Rmult_le_compat_l; auto.
        apply Rlt_le, Rdiv_lt_0_compat; lra. }
      lra.
  Qed.

  Lemma near xs ys rho : (forall i, (i < n)%nat -> rsum n (fun j => f_real (A i j) * xs j) = f_real (B i)) ->
    (forall i, (i < n)%nat -> Rabs (f_real (B i) - rsum n (fun j => f_real (A i j) * ys j)) <= rho) ->
    forall i, (i < n)%nat -> Rabs (ys i - xs i) <= rho / m.
  Proof using Hn HX Hm HT Hg Ht.
    intros Hx Hy i Hi.
    apply (inverse_bound n (fun i j => f_real (A i j)) (fun j => ys j - xs j) m rho); auto.
    - exact m_pos.
    - exact m_diag.
    - intros r Hr. specialize (Hy r Hr). rewrite <- (Hx r Hr), Rabs_minus_sym, <- rsum_minus in Hy.
      erewrite asum_ext; [exact Hy|]. intros j Hj. cbn beta. ring.
  Qed.
End Dominant.

Lemma dominant_solved dbg n st a A x b B m X T : is_mat n n a A -> is_vec n (other_of x b) B ->
  (forall i j, (i < n)%nat -> (j < n)%nat -> f_valid (A i j) /\ f_finite (A i j) = true) -> finite_vec n B ->
  f_valid (lu_tolerance st) -> f_finite (lu_tolerance st) = true -> 0 <= f_real (lu_tolerance st) ->
  / 2 ^ 1022 <= X <= f_limit ->
  (forall i, (i < n)%nat -> m <= margin n A B X i) ->
  (forall i, (i < n)%nat -> row_size n A B X i + INR n * (1 + / X) / 2 ^ 969 <= T) ->
  f_real (lu_tolerance st) + f_gamma (5 * n + 4) * T <= m -> 8 * T <= f_limit -> 8 * T * X <= f_limit ->
  exists st' x' d z xs, factorise fops dbg false st a = Ok (st', true) /\
    lu_solve fops dbg false st' x b = Ok (x', d) /\ cd_converged d = true /\ is_vec n x' z /\ finite_vec n z /\
    (forall i, (i < n)%nat -> Rabs (f_real (z i)) <= X) /\
    (forall i, (i < n)%nat -> rsum n (fun j => f_real (A i j) * xs j) = f_real (B i)) /\
    (forall ys, (forall i, (i < n)%nat -> rsum n (fun j => f_real (A i j) * ys j) = f_real (B i)) ->
       forall i, (i < n)%nat -> ys i = xs i) /\
    (forall i, (i < n)%nat -> Rabs (f_real (z i) - xs i) <= 14 * INR n * f_gamma (3 * n) * T * X / m).
Proof.
  intros Ha Hb HA HB Vt Ft Ht HX Hm HT Hg HT1 HTX.
  destruct n as [|n'] eqn:En.
  - destruct (factorise_succeeds fops dbg false 0 st a A (fun _ _ => True)) as (st' & g & E & Hg1 & _); auto; try discriminate.
    { intros i g Hi. lia. }
    destruct (factorise_dool fops dbg false 0 st a A st' (F_tol_default dbg) Ha E) as (s & g2 & Hf & Hg2 & _ & Hs & Hdo).
    destruct (solve_ok fops dbg false 0 st' g2 s x b B Hf Hg2) as (x' & y & z & Es & Hx' & Hy & Hz); auto; try discriminate.
    { intros k Hk. lia. }
    exists st', x'. eexists. exists z, (fun _ => 0). split; [exact E|]. split; [exact Es|]. split; [reflexivity|].
    split; [exact Hx'|]. repeat split; intros; lia.
  - rewrite <- En in *. assert (Hn : (0 < n)%nat) by lia. clear n' En.
    destruct (solved dbg n st a A x b B m X T) as (st' & x' & d & z & E & Es & Hd & Hx' & Hz & HzX & Hres); auto.
    destruct (exact_solution n st A B m X T) as (xs & Hxs); auto.
    exists st', x', d, z, xs. do 7 (split; [assumption|]). split.
    + intros ys Hys i Hi.
      assert (N : Rabs (ys i - xs i) <= 0 / m).
      { apply (near n st A B m X T Hn Ht HX Hm HT Hg xs ys 0 Hxs); auto. intros r Hr. rewrite (Hys r Hr), Rminus_eq_0, Rabs_R0. lra. }
      unfold Rdiv in N. rewrite Rmult_0_l in N. pose proof (Rabs_pos (ys i - xs i)) as P.
      destruct (Req_dec (ys i - xs i) 0) as [Z|Z]; [lra|]. apply Rabs_pos_lt in Z. lra.
    + apply (near n st A B m X T Hn Ht HX Hm HT Hg xs (fun i => f_real (z i)) _ Hxs Hres).
Qed.

(* ------------------------------------------------------------------ the example *)
Definition tri_f : list (list f64) := [[fz 4; fz 1; fz 0]; [fz 1; fz 4; fz 1]; [fz 0; fz 1; fz 4]].
Definition tri_A (i j : nat) : f64 := nth j (nth i tri_f []) (fz 0).
Definition tri_b : list f64 := [fz 1; fz 2; fz 3].
Definition tri_B (i : nat) : f64 := nth i tri_b (fz 0).

Lemma fz_real : f_real (fz 0) = 0 /\ f_real (fz 1) = 1 /\ f_real (fz 2) = 2 /\ f_real (fz 3) = 3 /\ f_real (fz 4) = 4.
Proof.
  unfold fz. split; [|split; [|split; [|split]]].
  - vm_compute (f_of_Z 0). reflexivity.
  - vm_compute (f_of_Z 1). cbn [f_real]. change (-52)%Z with (- Z.of_nat 52)%Z. rewrite powerRZ_neg', <- pow_powerRZ. field_simplify; lra.
  - vm_compute (f_of_Z 2). cbn [f_real]. change (-51)%Z with (- Z.of_nat 51)%Z. rewrite powerRZ_neg', <- pow_powerRZ. field_simplify; lra.
  - vm_compute (f_of_Z 3). cbn [f_real]. change (-51)%Z with (- Z.of_nat 51)%Z. rewrite powerRZ_neg', <- pow_powerRZ. field_simplify; lra.
  - vm_compute (f_of_Z 4). cbn [f_real]. change (-50)%Z with (- Z.of_nat 50)%Z. rewrite powerRZ_neg', <- pow_powerRZ. field_simplify; lra.
Qed.

Lemma default_tolerance_f : f_valid (lu_tolerance (lu_default fops)) /\ f_finite (lu_tolerance (lu_default fops)) = true /\
  f_real (lu_tolerance (lu_default fops)) = / 2 ^ 46.
Proof.
  split; [reflexivity|]. split; [reflexivity|].
  let v := eval vm_compute in (lu_tolerance (lu_default fops)) in change (lu_tolerance (lu_default fops)) with v.
  cbn [f_real]. change (-98)%Z with (- Z.of_nat 98)%Z. rewrite powerRZ_neg', <- pow_powerRZ.
  field_simplify; lra.
Qed.

Lemma tri_hypotheses : is_mat 3 3 tri_f tri_A /\ is_vec 3 (other_of [] (Some tri_b)) tri_B /\
  (forall i j, (i < 3)%nat -> (j < 3)%nat -> f_valid (tri_A i j) /\ f_finite (tri_A i j) = true) /\ finite_vec 3 tri_B /\
  / 2 ^ 1022 <= 4 <= f_limit /\
  (forall i, (i < 3)%nat -> 1 <= margin 3 tri_A tri_B 4 i) /\
  (forall i, (i < 3)%nat -> row_size 3 tri_A tri_B 4 i + INR 3 * (1 + / 4) / 2 ^ 969 <= 8) /\
  f_real (lu_tolerance (lu_default fops)) + f_gamma (5 * 3 + 4) * 8 <= 1 /\ 8 * 8 <= f_limit /\ 8 * 8 * 4 <= f_limit.
Proof.
  destruct fz_real as (E0 & E1 & E2 & E3 & E4).
  assert (L9 : 2 ^ 9 <= f_limit) by (unfold f_limit; apply Rle_pow; [lra|apply Nat.leb_le; reflexivity]).
  split; [|split; [|split; [|split; [|split; [|split; [|split; [|split; [|split]]]]]]]].
  - split; [reflexivity|]. intros [|[|[|i]]] Hi; try lia; eexists; (split; [reflexivity|]); apply is_vec_self.
  - apply is_vec_self.
  - intros [|[|[|i]]] [|[|[|j]]] Hi Hj; try lia; split; reflexivity.
  - intros [|[|[|i]]] Hi; try lia; split; reflexivity.
  - split; [|lra]. apply Rle_trans with (/ 1); [|lra]. apply Rinv_le_contravar; [lra|apply pow_R1_Rle; lra].
  - intros [|[|[|i]]] Hi; try lia; unfold margin, off_diagonal, tri_A, tri_B, tri_f, tri_b; cbn [asum nth Nat.eqb];
      rewrite ?E0, ?E1, ?E2, ?E3, ?E4, ?Rabs_R0, ?Rabs_R1, ?(Rabs_pos_eq 2), ?(Rabs_pos_eq 3), ?(Rabs_pos_eq 4) by lra; lra.
  - assert (Ht : INR 3 * (1 + / 4) / 2 ^ 969 <= 1 / 2).
    { change (INR 3) with (1 + 1 + 1). assert (H : / 2 ^ 969 <= / 2 ^ 3).
      { apply Rinv_le_contravar; [lra|]. apply Rle_pow; [lra|apply Nat.leb_le; reflexivity]. }
      apply Rle_trans with ((1 + 1 + 1) * (1 + / 4) * / 2 ^ 3); [apply Rmult_le_compat_l; lra|lra]. }
    intros [|[|[|i]]] Hi; try lia; unfold row_size, tri_A, tri_B, tri_f, tri_b; cbn [asum nth];
      rewrite ?E0, ?E1, ?E2, ?E3, ?E4, ?Rabs_R0, ?Rabs_R1, ?(Rabs_pos_eq 2), ?(Rabs_pos_eq 3), ?(Rabs_pos_eq 4) by lra; lra.
  - destruct default_tolerance_f as (_ & _ & ->). assert (/ 2 ^ 46 <= / 2 ^ 1) by (apply Rinv_le_contravar; [lra|apply Rle_pow; [lra|lia]]).
    assert (f_gamma (5 * 3 + 4) <= 1 / 20); [|lra]. unfold f_gamma. pose proof u_tiny. pose proof u_pos.
    assert ((1 + f_u) ^ (5 * 3 + 4) <= (1001 / 1000) ^ (5 * 3 + 4)) by (apply pow_incr; lra).
    change (5 * 3 + 4)%nat with 19%nat in *. lra.
  - lra.
  - lra.
Qed.
