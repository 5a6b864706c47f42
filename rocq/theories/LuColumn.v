(** The direct solver in doubles on systems whose columns dominate after a scaling of the equations: the elimination.
    As LuScaled, down the columns and without a right hand side. *)
From Coq Require Import ZArith Reals Lra Lia List SpecFloat Psatz.
From Verif Require Import Base ListFacts DenseModel DenseFacts ScalarModel GeometryReal LuModel LuFacts LuReal
  FloatFacts FloatError IterFloat LuFloat PropFloatLemmas FloatUnit FloatSweep LuSuccess LuDominant PropCloseLemmas PropPivotLemmas.
Import ListNotations.
Local Open Scope R_scope.

Section Column.
  Variables (n : nat) (K : R) (wt : nat -> R).
  Hypothesis Hq : forall i, 1 <= wt i <= K.

  (** The magnitude of an entry, scaled with its row. *)
  Definition cmag (g : nat -> nat -> f64) (j i : nat) : R := wt i * Rabs (f_real (g i j)).

  Definition cfloor : R := INR n * K * f_tiny.

  Hypothesis Hfloor : cfloor <= 1.

  Definition entries (g : nat -> nat -> f64) : Prop := forall i j, (i < n)%nat -> (j < n)%nat -> number (g i j).

  (** Column [j] from row [k] on: dominated with margin [m], sum at most [T]. *)
  Definition col_ok (g : nat -> nat -> f64) (k j : nat) (m T : R) : Prop :=
    wsum n k j (cmag g j) + m <= cmag g j j /\ wsum n k n (cmag g j) + cfloor <= T.

  Lemma cK_pos : 1 <= K.
  Proof using Hq. specialize (Hq 0%nat). lra. Qed.

  Lemma cfloor_nonneg : 0 <= cfloor.
  Proof using Hq. pose proof tiny_pos. pose proof cK_pos. unfold cfloor. apply Rmult_le_pos; [apply Rmult_le_pos; [apply pos_INR|lra]|lra]. Qed.

  Lemma cmag_nonneg g j i : 0 <= cmag g j i.
  Proof using Hq. specialize (Hq i). apply Rmult_le_pos; [lra|apply Rabs_pos]. Qed.

  Lemma cmag_ge g j i : Rabs (f_real (g i j)) <= cmag g j i.
  Proof using Hq. specialize (Hq i). unfold cmag. pose proof (Rabs_pos (f_real (g i j))). nra. Qed.

  Lemma wsum_wt k e : wsum n k e wt <= INR n * K.
  Proof using Hq. rewrite <- rsum_const. apply rsum_le. intros j _. specialize (Hq j). destruct (_ && _); lra. Qed.

  Section Step.
    Variables (g : nat -> nat -> f64) (k j : nat) (m T : R).
    Hypothesis Hf : entries g.
    Hypothesis Hk : (k < j < n)%nat.
    Hypothesis Ck : col_ok g k k m T.
    Hypothesis Cj : col_ok g k j m T.
    Hypothesis Hm : 0 < m.
    Hypothesis Hlim : 4 * T <= f_limit.
    Hypothesis HKl : K <= f_limit.

    Let p := cmag g k k.
    Let x := cmag g j k.
    Let l := Rabs (f_real (g k j) / f_real (g k k)).
    Let beta := wsum n (k + 1) n (cmag g k).
    Let alpha := wsum n (k + 1) n (cmag g j).

    Lemma cstep_facts : 0 < p /\ f_real (g k k) <> 0 /\ 0 <= l /\ l * p = x /\ beta + m <= p /\ l * beta <= x /\
      x + alpha + cfloor <= T /\ p <= T /\ x <= T /\ 0 <= alpha /\ 0 <= beta.
    Proof using Hq Hk Ck Cj Hm.
      destruct Ck as [Rk1 Rk2], Cj as [Ri1 Ri2]. rewrite wsum_skip in Rk1 by lia. rewrite (wsum_head n k n) in Rk2, Ri2 by lia.
      change (beta + m <= p) in Rk1. change (p + beta + cfloor <= T) in Rk2. change (x + alpha + cfloor <= T) in Ri2.
      assert (Hb : 0 <= beta) by (apply wsum_nonneg; intro; apply cmag_nonneg).
      assert (Ha : 0 <= alpha) by (apply wsum_nonneg; intro; apply cmag_nonneg).
      assert (Hx : 0 <= x) by apply cmag_nonneg. pose proof cfloor_nonneg as Hfl.
      assert (Hp : 0 < p) by lra. assert (Hp0 : f_real (g k k) <> 0).
      { intro E. unfold p, cmag in Hp. rewrite E, Rabs_R0, Rmult_0_r in Hp. lra. }
      assert (Hl0 : 0 <= l) by apply Rabs_pos. assert (Hl : l * p = x).
      { unfold p, x, cmag. pose proof (abs_ratio (f_real (g k j)) (f_real (g k k)) Hp0) as E. fold l in E. rewrite <- E. ring. }
      repeat apply conj; auto; try lra. rewrite <- Hl. apply Rmult_le_compat_l; lra.
    Qed.

    (** The quotient of a row. *)
    Let q (i : nat) := Rabs (f_real (g i k) / f_real (g k k)).

    Lemma quotient_swap i : q i * Rabs (f_real (g k j)) = l * Rabs (f_real (g i k)).
    Proof using. unfold q, l, Rdiv. rewrite !Rabs_mult. ring. Qed.

    Lemma quotient_le i : (k < i < n)%nat -> wt i * q i <= wt k /\ cmag g k i <= p.
    Proof using Hq Hk Ck Cj Hm.
      intro Hi. destruct cstep_facts as (Hp & Hp0 & _ & _ & Hbp & _).
      assert (C : cmag g k i <= p).
      { apply Rle_trans with beta; [|lra]. unfold beta. apply (wsum_member n (k + 1) n (cmag g k) i); try lia. intro; apply cmag_nonneg. }
      split; [|exact C]. assert (A : 0 < Rabs (f_real (g k k))) by (apply Rabs_pos_lt, Hp0).
      apply (Rmult_le_reg_r (Rabs (f_real (g k k)))); [exact A|].
      rewrite Rmult_assoc. unfold q. rewrite abs_ratio by exact Hp0. exact C.
    Qed.

    Definition cerr (i : nat) : R :=
      f_u * cmag g j i + f_gamma 3 * (l * cmag g k i) + (1 + f_u) * f_eta * ((1 + f_u) * x + 1) * wt i.

    Lemma cstep_entry i : (k < i < n)%nat -> let r := f_eliminated g k i j in
      number r /\ wt i * Rabs (f_real r - (f_real (g i j) - f_real (g i k) / f_real (g k k) * f_real (g k j))) <= cerr i.
    Proof using Hq Hf Hk Ck Cj Hm Hlim HKl.
      intros Hi r. unfold r. rewrite f_eliminated_rest by lia.
      destruct cstep_facts as (Hp & Hp0 & Hl0 & Hl & Hbp & Hlb & HT & HpT & HxT & Ha0 & Hb0).
      destruct (quotient_le i Hi) as [Q1 Q2]. pose proof cfloor_nonneg as Hfl. pose proof cK_pos as K1.
      pose proof u_pos as Hu. pose proof u_tiny as Hu3. pose proof eta_pos as He. pose proof eta_u3 as He3.
      destruct (Hf i j ltac:(lia) ltac:(lia)) as [V1 F1]. destruct (Hf i k ltac:(lia) ltac:(lia)) as [V2 F2].
      destruct (Hf k k ltac:(lia) ltac:(lia)) as [V3 F3]. destruct (Hf k j ltac:(lia) ltac:(lia)) as [V4 F4].
      assert (He1 : f_eta <= / 1000) by nra.
      assert (Hq0 : 0 <= q i) by apply Rabs_pos. destruct (Hq i) as [W1 W2]. destruct (Hq k) as [W3 W4].
      assert (Ql : q i <= f_limit) by nra.
      pose proof (cmag_ge g j k) as X1. fold x in X1. pose proof (Rabs_pos (f_real (g k j))) as X0.
      assert (Hij : Rabs (f_real (g i j)) <= alpha).
      { apply Rle_trans with (1 := cmag_ge g j i). apply (wsum_member n (k + 1) n (cmag g j) i); try lia. intro; apply cmag_nonneg. }
      assert (Hqb : q i * Rabs (f_real (g k j)) <= x).
      { rewrite quotient_swap. apply Rle_trans with (l * p); [|lra]. apply Rmult_le_compat_l; [auto|].
        apply Rle_trans with (1 := cmag_ge g k i). exact Q2. }
      assert (L4 : 4 <= f_limit) by (unfold f_limit; apply Rle_trans with (2 ^ 2); [lra|]; apply Rle_pow; [lra|]; apply Nat.leb_le; reflexivity).
      destruct (elim_step (g i j) (g i k) (g k k) (g k j)) as (V & F & E); auto.
      - fold (q i). assert (P1 : (1 + f_u) * (q i * Rabs (f_real (g k j))) <= 1.1 * x) by (apply Rmult_le_compat; try lra; apply Rmult_le_pos; auto).
        assert (P2 : f_eta * Rabs (f_real (g k j)) <= / 1000 * x) by (apply Rmult_le_compat; lra).
        assert (P3 : (1 + f_u) * ((1 + f_u) * (q i * Rabs (f_real (g k j))) + f_eta * Rabs (f_real (g k j))) <= 1.1 * (1.2 * x)).
        { apply Rmult_le_compat; try lra. apply Rplus_le_le_0_compat; repeat apply Rmult_le_pos; lra. }
        lra.
      - split; [split; [exact V|exact F]|]. fold (q i) in E. rewrite quotient_swap in E.
        apply Rle_trans with (wt i * (f_u * Rabs (f_real (g i j)) + f_gamma 3 * (l * Rabs (f_real (g i k))) +
          (1 + f_u) * f_eta * ((1 + f_u) * x + 1))).
        + apply Rmult_le_compat_l; [lra|]. apply Rle_trans with (1 := E). apply Rplus_le_compat_l. apply Rmult_le_compat_l; [apply Rmult_le_pos; lra|].
          apply Rplus_le_compat_r. apply Rmult_le_compat_l; lra.
        + right. unfold cerr, cmag. ring.
    Qed.

    Lemma cstep_quotient i : (k < i < n)%nat -> number (f_eliminated g k i k).
    Proof using Hq Hf Hk Ck Cj Hm HKl.
      intros Hi. rewrite f_eliminated_quotient by lia. destruct cstep_facts as (Hp & Hp0 & _).
      destruct (quotient_le i Hi) as [Q1 _]. destruct (Hq i) as [W1 W2]. destruct (Hq k) as [W3 W4].
      assert (Hq0 : 0 <= q i) by apply Rabs_pos.
      destruct (Hf i k) as [V1 F1]; try lia. destruct (Hf k k) as [V2 F2]; try lia.
      destruct (div_step (g i k) (g k k) V1 V2 F1 F2 Hp0) as (V & F & _); [fold (q i); nra|]. split; auto.
    Qed.

    Lemma cerr_nonneg i : 0 <= cerr i.
    Proof using Hq.
      pose proof u_pos as Hu. pose proof eta_pos as He. pose proof (gamma_nonneg 3). destruct (Hq i) as [W _].
      assert (0 <= l) by apply Rabs_pos. pose proof (cmag_nonneg g j i). pose proof (cmag_nonneg g k i).
      assert (0 <= x) by apply cmag_nonneg. unfold cerr.
      apply Rplus_le_le_0_compat; [apply Rplus_le_le_0_compat|].
      - apply Rmult_le_pos; lra.
      - apply Rmult_le_pos; [auto|apply Rmult_le_pos; auto].
      - apply Rmult_le_pos; [apply Rmult_le_pos|lra]; [apply Rmult_le_pos; lra|].
        assert (0 <= (1 + f_u) * x) by (apply Rmult_le_pos; lra). lra.
    Qed.

    Lemma cerr_sum : wsum n (k + 1) n cerr <= f_gamma 4 * T.
    Proof using Hq Hfloor Hk Ck Cj Hm.
      destruct cstep_facts as (Hp & Hp0 & Hl0 & Hl & Hbp & Hlb & HT & HpT & HxT & Ha0 & Hb0).
      pose proof u_pos as Hu. pose proof u_tiny as Hu3. pose proof eta_pos as He. pose proof cfloor_nonneg as Hfl.
      pose proof (gamma_nonneg 3) as Hg3. set (c := (1 + f_u) * f_eta * ((1 + f_u) * x + 1)).
      assert (Hx0 : 0 <= x) by apply cmag_nonneg.
      assert (E : wsum n (k + 1) n cerr = f_u * alpha + f_gamma 3 * l * beta + c * wsum n (k + 1) n wt).
      { transitivity (wsum n (k + 1) n (fun i => (0 + f_u * cmag g j i) + f_gamma 3 * l * cmag g k i) + c * wsum n (k + 1) n wt).
        - rewrite <- wsum_lin. apply asum_ext. intros i _. unfold cerr. fold c. destruct (_ && _)%nat; ring.
        - f_equal. rewrite !wsum_lin. unfold alpha, beta. f_equal. unfold wsum at 1. rewrite rsum_zero; [ring|]. intros i _. destruct (_ && _)%nat; reflexivity. }
      rewrite E. pose proof (wsum_wt (k + 1) n) as H1. assert (Hw0 : 0 <= wsum n (k + 1) n wt) by (apply wsum_nonneg; intro i; destruct (Hq i); lra).
      assert (H2 : f_eta * (INR n * K) = f_u * f_u * cfloor) by (rewrite tiny_eta; unfold cfloor; ring).
      assert (H3 : f_eta * wsum n (k + 1) n wt <= f_u * f_u * cfloor) by (rewrite <- H2; apply Rmult_le_compat_l; lra).
      assert (S1 : f_gamma 3 * l * beta <= f_gamma 3 * x) by (rewrite Rmult_assoc; apply Rmult_le_compat_l; lra).
      assert (G3 : f_u <= f_gamma 3).
      { replace f_u with (f_gamma 1) by (unfold f_gamma; ring). apply gamma_le. lia. }
      assert (S2 : f_u * alpha <= f_gamma 3 * alpha) by (apply Rmult_le_compat_r; lra).
      assert (S3 : f_u * alpha + f_gamma 3 * l * beta <= f_gamma 3 * T).
      { apply Rle_trans with (f_gamma 3 * (x + alpha)); [lra|]. apply Rmult_le_compat_l; lra. }
      assert (S4 : c * wsum n (k + 1) n wt <= f_u * T).
      { replace (c * wsum n (k + 1) n wt) with ((1 + f_u) * ((1 + f_u) * x + 1) * (f_eta * wsum n (k + 1) n wt)) by (unfold c; ring).
        apply Rle_trans with ((1 + f_u) * ((1 + f_u) * x + 1) * (f_u * f_u * cfloor)).
        - apply Rmult_le_compat_l; [|exact H3]. apply Rmult_le_pos; [lra|]. assert (0 <= (1 + f_u) * x) by (apply Rmult_le_pos; lra). lra.
        - assert (U : f_u * f_u * cfloor <= / 1000 * f_u * cfloor) by (apply Rmult_le_compat_r; [auto|apply Rmult_le_compat_r; lra]).
          assert (A : (1 + f_u) * ((1 + f_u) * x + 1) <= 2 * (2 * x + 1)).
          { assert ((1 + f_u) * x <= 2 * x) by (apply Rmult_le_compat_r; lra). assert (0 <= (1 + f_u) * x) by (apply Rmult_le_pos; lra).
            apply Rmult_le_compat; lra. }
          apply Rle_trans with (2 * (2 * x + 1) * (/ 1000 * f_u * cfloor)).
          + apply Rmult_le_compat; [|apply Rmult_le_pos; [apply Rmult_le_pos; lra|auto]|exact A|exact U].
            apply Rmult_le_pos; [lra|]. assert (0 <= (1 + f_u) * x) by (apply Rmult_le_pos; lra). lra.
          + replace (2 * (2 * x + 1) * (/ 1000 * f_u * cfloor)) with (f_u * (4 / 1000 * (x * cfloor) + 2 / 1000 * cfloor)) by field.
            apply Rmult_le_compat_l; [lra|]. assert (x * cfloor <= x * 1) by (apply Rmult_le_compat_l; auto). lra. }
      rewrite (gamma_S 3). assert (HTp : 0 <= T) by lra.
      assert (0 <= (f_gamma 3 * f_u) * T) by (apply Rmult_le_pos; [apply Rmult_le_pos; lra|auto]). lra.
    Qed.

    Lemma col_step : col_ok (f_eliminated g k) (k + 1) j (m - f_gamma 4 * T) ((1 + f_u) ^ 4 * T).
    Proof using Hq Hfloor Hf Hk Ck Cj Hm Hlim HKl.
      destruct cstep_facts as (Hp & Hp0 & Hl0 & Hl & Hbp & Hlb & HT & HpT & HxT & Ha0 & Hb0). pose proof cerr_sum as HE.
      assert (U : forall i, (k < i < n)%nat -> cmag (f_eliminated g k) j i <= cmag g j i + l * cmag g k i + cerr i).
      { intros i Hi. destruct (cstep_entry i Hi) as (_ & E). destruct (Hq i) as [Q1 _].
        set (r := f_real (f_eliminated g k i j)) in *. set (s := f_real (g i j) - f_real (g i k) / f_real (g k k) * f_real (g k j)) in *.
        apply Rle_trans with (wt i * (Rabs (f_real (g i j)) + l * Rabs (f_real (g i k)) + Rabs (r - s))).
        - unfold cmag. fold r. apply Rmult_le_compat_l; [lra|]. replace r with (s + (r - s)) at 1 by ring.
          apply Rle_trans with (1 := Rabs_triang _ _). apply Rplus_le_compat_r.
          unfold s, Rminus. apply Rle_trans with (1 := Rabs_triang _ _). rewrite Rabs_Ropp, Rabs_mult. rewrite <- quotient_swap. right. reflexivity.
        - unfold cmag. lra. }
      assert (D : cmag g j j - l * cmag g k j - cerr j <= cmag (f_eliminated g k) j j).
      { destruct (cstep_entry j ltac:(lia)) as (_ & E). destruct (Hq j) as [Q1 _].
        set (r := f_real (f_eliminated g k j j)) in *. set (s := f_real (g j j) - f_real (g j k) / f_real (g k k) * f_real (g k j)) in *.
        assert (Rabs s - Rabs (r - s) <= Rabs r).
        { pose proof (Rabs_triang r (s - r)) as H. replace (r + (s - r)) with s in H by ring. rewrite (Rabs_minus_sym s r) in H. lra. }
        assert (Rabs (f_real (g j j)) - l * Rabs (f_real (g j k)) <= Rabs s).
        { rewrite <- quotient_swap. unfold s, q. rewrite <- Rabs_mult. apply Rabs_triang_inv. }
        apply Rle_trans with (wt j * (Rabs (f_real (g j j)) - l * Rabs (f_real (g j k)) - Rabs (r - s))).
        - unfold cmag. lra.
        - unfold cmag. fold r. apply Rmult_le_compat_l; lra. }
      assert (L : forall e, wsum n (k + 1) e (fun i => cmag g j i + l * cmag g k i + cerr i) =
        wsum n (k + 1) e (cmag g j) + l * wsum n (k + 1) e (cmag g k) + wsum n (k + 1) e cerr).
      { intro e. rewrite <- wsum_lin, <- (Rmult_1_l (wsum n (k + 1) e cerr)), <- wsum_lin.
        apply asum_ext; intros i _; destruct (_ && _)%nat; ring. }
      split.
      - apply Rle_trans with (wsum n (k + 1) j (fun i => cmag g j i + l * cmag g k i + cerr i) + (m - f_gamma 4 * T)).
        + apply Rplus_le_compat_r. apply wsum_le. intros i Hi _. apply U. lia.
        + rewrite L. apply Rle_trans with (2 := D). destruct Cj as [Ri1 _]. rewrite wsum_head in Ri1 by lia. fold x in Ri1.
          unfold beta in Hlb. rewrite (wsum_all n (k + 1) j) in HE, Hlb by lia. lra.
      - apply Rle_trans with (wsum n (k + 1) n (fun i => cmag g j i + l * cmag g k i + cerr i) + cfloor).
        + apply Rplus_le_compat_r. apply wsum_le. intros i Hi _. apply U. lia.
        + rewrite L. fold alpha beta. replace ((1 + f_u) ^ 4 * T) with (T + f_gamma 4 * T) by (unfold f_gamma; ring). lra.
    Qed.
  End Step.

  (** What is known after [k] rounds. *)
  Section State.
    Variables (m T : R).
    Hypothesis HT0 : 0 <= T.
    Hypothesis Hgam : f_gamma (4 * n) <= 1.
    Let Tn := (1 + f_u) ^ (4 * n) * T.
    Let mu := m - f_gamma (4 * n) * T.
    Hypothesis Hmu : 0 < mu.
    Hypothesis Hlim : 8 * T <= f_limit.
    Hypothesis HKl : K <= f_limit.

    Definition column_state (k : nat) (g : nat -> nat -> f64) : Prop :=
      entries g /\ (forall j, (k <= j < n)%nat -> col_ok g k j (m - f_gamma (4 * k) * T) ((1 + f_u) ^ (4 * k) * T)).

    Lemma cpow_level k : (k <= n)%nat -> (1 + f_u) ^ (4 * k) * T <= Tn /\ mu <= m - f_gamma (4 * k) * T.
    Proof using HT0.
      clear - HT0. intro Hk. pose proof u_pos. split.
      - apply Rmult_le_compat_r; [auto|]. apply Rle_pow; [lra|lia].
      - unfold mu. assert (f_gamma (4 * k) * T <= f_gamma (4 * n) * T); [|lra].
        apply Rmult_le_compat_r; [auto|]. apply gamma_le. lia.
    Qed.

    Lemma cTn_le : Tn <= 2 * T.
    Proof using HT0 Hgam. apply Rmult_le_compat_r; [auto|]. unfold f_gamma in Hgam. lra. Qed.

    Lemma column_0 A : entries A -> (forall j, (j < n)%nat -> col_ok A 0 j m T) -> column_state 0 A.
    Proof using.
      clear. intros HA HR. split; [exact HA|]. intros j Hj. destruct (HR j ltac:(lia)) as [C1 C2].
      split; unfold f_gamma; rewrite Nat.mul_0_r; cbn [pow]; lra.
    Qed.

    (** The diagonal is not smaller than what is below it when the weights do not decrease. *)
    Lemma column_pivot k g : (k < n)%nat -> column_state k g -> mu <= cmag g k k /\
      forall i, (k < i < n)%nat -> wt k <= wt i -> Rabs (f_real (g i k)) <= Rabs (f_real (g k k)).
    Proof using Hq HT0 Hmu.
      intros Hk (_ & H). destruct (H k ltac:(lia)) as [H1 _]. destruct (cpow_level k ltac:(lia)) as [_ H2].
      pose proof (wsum_nonneg n k k (cmag g k) ltac:(intro; apply cmag_nonneg)). split; [lra|]. intros i Hi Hw.
      pose proof (wsum_member n k k (cmag g k) i ltac:(lia) ltac:(lia) ltac:(intro; apply cmag_nonneg)) as M.
      assert (C : cmag g k i <= cmag g k k) by lra. unfold cmag in C. destruct (Hq k) as [W _].
      apply (Rmult_le_reg_l (wt k)); [lra|]. apply Rle_trans with (2 := C). apply Rmult_le_compat_r; [apply Rabs_pos|exact Hw].
    Qed.

    Lemma column_next k g : (k < n)%nat -> column_state k g -> column_state (k + 1) (f_eliminated g k).
    Proof using Hq Hfloor HT0 Hgam Hmu Hlim HKl.
      intros Hk (Hf & HC). destruct (cpow_level k ltac:(lia)) as [P1 P2]. pose proof cTn_le as P3.
      set (mk := m - f_gamma (4 * k) * T) in *. set (Tk := (1 + f_u) ^ (4 * k) * T) in *.
      assert (Q1 : 0 < mk) by lra. assert (Q3 : 4 * Tk <= f_limit) by lra.
      assert (G4 : mk - f_gamma 4 * Tk = m - f_gamma (4 * (k + 1)) * T).
      { unfold mk, Tk. replace (4 * (k + 1))%nat with (4 * k + 4)%nat by lia. rewrite gamma_add. unfold f_gamma. ring. }
      assert (T4 : (1 + f_u) ^ 4 * Tk = (1 + f_u) ^ (4 * (k + 1)) * T).
      { unfold Tk. replace (4 * (k + 1))%nat with (4 + 4 * k)%nat by lia. rewrite pow_add. ring. }
      assert (Ck := HC k ltac:(lia)). split.
      - intros i j Hi Hj. destruct (Nat.le_gt_cases i k) as [L|L]; [rewrite f_eliminated_above by auto; auto|].
        destruct (lt_eq_lt_dec j k) as [[J|J]|J].
        + rewrite f_eliminated_left by auto. auto.
        + subst j. apply (cstep_quotient g k i mk Tk Hf ltac:(lia) Ck (HC i ltac:(lia)) Q1 HKl i). lia.
        + apply (cstep_entry g k j mk Tk Hf ltac:(lia) Ck (HC j ltac:(lia)) Q1 Q3 HKl i). lia.
      - intros j Hj. rewrite <- G4, <- T4. apply col_step; auto; try lia. apply HC. lia.
    Qed.
  End State.
End Column.

(** The search for a pivot stays where it is when nothing below the diagonal is larger. *)
Lemma not_larger dbg e m : number e -> number m -> f_real e <= f_real m ->
  is_nearly_greater fops dbg e m (default_relative fops) (default_absolute fops) = Ok false.
Proof.
  intros He Hm H. unfold is_nearly_greater, is_nearly_less_equal, is_nearly_equal.
  rewrite !assert_ok' by (intro D; apply (F_tol_default dbg); exact D). cbn [bind]. cbn [fops sc_lt sc_eq]. fold fops.
  destruct (SFltb e m) eqn:E1; [reflexivity|]. apply (lt_num_false e m He Hm) in E1.
  assert (E : SFeqb e m = true) by (apply (f_eq e m He Hm); lra). rewrite E. reflexivity.
Qed.

Lemma search_stays dbg n m (g : nat -> nat -> f64) i : is_mat n n m g -> (i < n)%nat ->
  (forall k, (i <= k < n)%nat -> number (g k i)) -> (forall k, (i <= k < n)%nat -> Rabs (f_real (g k i)) <= Rabs (f_real (g i i))) ->
  / 2 ^ 45 < Rabs (f_real (g i i)) <= f_limit -> lu_search fops dbg m i = Ok i.
Proof.
  intros Hm Hi HN HL [Hb Hu]. unfold lu_search. rewrite (is_mat_cols _ _ _ _ Hm) by lia.
  match goal with |- context[forM (seq i (n - i)) ?F _] =>
    destruct (forM_seq_inv (fun k (s : f64 * nat) => snd s = i /\ (fst s = S754_zero false /\ (k = i) \/ fst s = SFabs (g i i)))
      i (n - i) F (sc_zero fops, i)) as (r & E & H) end.
  - split; [reflexivity|]. left. split; reflexivity.
  - intros k [mx im] Hk (Es & Hs). cbn [fst snd] in *. subst im.
    rewrite (is_mat_get _ _ _ _ _ _ Hm) by lia. cbn [bind]. cbn [fops sc_abs]. fold fops.
    destruct (number_abs _ (HN k ltac:(lia))) as [Na Ra]. destruct (number_abs _ (HN i ltac:(lia))) as [Ni Ri].
    destruct Hs as [[-> ->]| ->].
    + destruct (nearly_total fops dbg (SFabs (g i i)) (S754_zero false) (F_tol_default dbg)) as (gt & Eg). rewrite Eg. cbn [bind].
      eexists. split; [reflexivity|]. destruct gt; cbn [fst snd]; [split; [reflexivity|right; reflexivity]|exfalso].
      assert (N0 : number (S754_zero false)) by (split; reflexivity).
      pose proof (not_greater_f dbg _ _ Ni N0) as NG. rewrite Ri in NG. cbn [f_real] in NG. pose proof (Rabs_pos (f_real (g i i))) as P.
      specialize (NG P ltac:(lra) ltac:(lra) Eg). unfold near_f in NG. lra.
    + rewrite not_larger; auto; [|rewrite Ra, Ri; apply HL; lia]. cbn [bind]. eexists. split; [reflexivity|]. cbn [fst snd]. auto.
  - rewrite E. cbn [bind]. destruct H as (-> & _). reflexivity.
Qed.
