(** Gauss-Seidel and SOR in double precision on symmetric positive definite systems. *)
From Coq Require Import ZArith Reals Lra Lia List Sorted SpecFloat.
From Verif Require Import Base ListFacts Csr DenseModel DenseFacts ScalarModel GeometryReal SparseModel SparseSpec
  SparseFacts SparseMul LuModel LuReal IterModel IterFacts IterLoop IterField IterReal FloatFacts FloatError IterFloat
  PropFloatLemmas FloatUnit PropIterLemmas LuSuccess FloatSweep FloatStops FloatSor Energy EnergyDrift.
Import ListNotations.
Local Open Scope R_scope.

(** A sparse symmetric system of finite doubles: [l] bounds the quadratic form of the matrix from below, [ro] its rows,
    [xs] is the exact solution, [X] bounds it. *)
Record definite_doubles (n : nat) (a : smat f64) (A : nat -> nat -> f64) (b : list f64) (h : nat -> f64)
    (l ro : R) (xs : nat -> R) (X : R) : Prop := {
  df_square : sparse_square (S754_zero false) n a A;
  df_rhs : is_vec n b h;
  df_A : forall i j, (i < n)%nat -> (j < n)%nat -> f_valid (A i j) /\ f_finite (A i j) = true;
  df_h : forall i, (i < n)%nat -> f_valid (h i) /\ f_finite (h i) = true;
  df_sym : symmetric n (fun i j => f_real (A i j));
  df_form : coercivity n (fun i j => f_real (A i j)) l;
  df_rows : 0 <= ro /\ forall i, (i < n)%nat -> rsum n (fun j => Rabs (f_real (A i j))) <= ro;
  df_sol : forall i, (i < n)%nat -> rsum n (fun j => f_real (A i j) * xs j) = f_real (h i);
  df_X : 0 <= X /\ forall i, (i < n)%nat -> Rabs (xs i) <= X
}.

(** The error in the norm of the matrix. *)
Definition f_enorm n (A : nat -> nat -> f64) (f : nat -> f64) (xs : nat -> R) : R :=
  enorm n (fun i j => f_real (A i j)) (fun j => f_real (f j) - xs j).

(** Rounding in one row, as a change of the right hand side, while the errors of the components are at most [B]. *)
Definition d_row (n : nat) (ro X B : R) : R :=
  2 * f_gamma (n + 5) * ro * (X + B) + f_eta * (INR n * (1 + f_u) ^ (n + 4) + 3 * (ro + 1)).

Definition d_kappa (n : nat) (ro l : R) : R := 4 * f_gamma (n + 5) * ro * sqrt (INR n) / l.
Definition d_tau (n : nat) (ro l X : R) : R := 2 * (sqrt (INR n) * d_row n ro X 0 / sqrt l).

(** The factor of one sweep in double precision, [s] being the one of an exact sweep, and the distance at which rounding
    stops the progress. *)
Definition d_rate (n : nat) (ro l s : R) : R := s + d_kappa n ro l / (1 - d_kappa n ro l).
Definition d_floor (n : nat) (ro l s X : R) : R := d_tau n ro l X / (1 - d_kappa n ro l) / (1 - d_rate n ro l s).

(** The largest error of a component during a sweep that starts with an error of norm [E]. *)
Definition d_within (n : nat) (ro l X E : R) : R := (E + d_tau n ro l X) / (1 - d_kappa n ro l) / sqrt l.

Definition d_no_overflow (n : nat) (ro l X E : R) : Prop :=
  2 * (1 + / l) * ((1 + f_u) ^ (n + 1) * ro * (X + d_within n ro l X E) + INR n * (1 + f_u) ^ n * f_eta + 1) +
    (X + d_within n ro l X E) + 3 * (1 + / l) <= f_limit.

(** The two factors the solvers sweep with. *)
Definition sweep_pair (W : f64) (w : R) : Prop := (W = sc_one fops /\ w = 1) \/ (W = sor_factor fops /\ w = 3 / 2).

Section Definite.
  Variables (dbg : bool) (stray : option nat).
  Variables (n : nat) (a : smat f64) (A : nat -> nat -> f64) (b : list f64) (h : nat -> f64).
  Variables (l ro : R) (xs : nat -> R) (X : R).
  Hypothesis D : definite_doubles n a A b h l ro xs X.
  Let Ar i j := f_real (A i j).
  Let hr i := f_real (h i).

  Lemma diagonal_l i : (i < n)%nat -> 0 < l <= Ar i i.
  Proof using D.
    intro Hi. split; [apply (df_form _ _ _ _ _ _ _ _ _ D)|].
    apply (diagonal_ge n Ar l (df_sym _ _ _ _ _ _ _ _ _ D) (df_form _ _ _ _ _ _ _ _ _ D) i Hi).
  Qed.

  Lemma definite_rows : exists rs d, rows_of dbg stray n a b rs d h /\ srows_ok n rs /\
    forall k, (k < n)%nat -> d k = A k k.
  Proof using D.
    destruct (df_square _ _ _ _ _ _ _ _ _ D) as (Hw & Hr & Hc & HA). pose proof (df_rhs _ _ _ _ _ _ _ _ _ D) as Hb.
    assert (Hst : forall i, (i < n)%nat -> stored a i i (A i i)).
    { intros i Hi. destruct (stored_dec a i i Hw) as [(v & Hv)|Hn].
      - rewrite (proj1 (HA i i) v Hv). exact Hv.
      - pose proof (diagonal_l i Hi) as H. unfold Ar in H. rewrite (proj2 (HA i i) Hn) in H. cbn [f_real] in H. lra. }
    destruct (system_rows fops dbg stray n a b) as (rs & d & Hro & Hs & Hdi).
    { split; [auto|]. split; [auto|]. split; [auto|]. split; [apply Hb|]. eauto. }
    exists rs, d. split; [destruct Hro; constructor; auto|]. split; [exact Hs|].
    intros k Hk. symmetry. apply (proj1 (HA k k)), Hdi, Hk.
  Qed.

  (** One row. *)
  Lemma definite_row W w rs d f B i : sweep_pair W w -> rows_of dbg stray n a b rs d h -> srows_ok n rs ->
    (forall k, (k < n)%nat -> d k = A k k) -> (i < n)%nat -> 0 <= B -> finite_vec n f -> within n f xs B ->
    2 * (1 + / l) * ((1 + f_u) ^ (n + 1) * ro * (X + B) + INR n * (1 + f_u) ^ n * f_eta + 1) + (X + B) + 3 * (1 + / l) <= f_limit ->
    let z := swept fops rs d h W i f in f_valid z /\ f_finite z = true /\
      Ar i i * Rabs (f_real z - exact_row n Ar hr w i (fun j => f_real (f j))) <= w * d_row n ro X B.
  Proof using D.
    intros HW Hro Hso Hd Hi HB Hf He Hov. unfold swept. rewrite Hd by auto.
    pose proof u_pos as Hu. pose proof eta_pos as Heta. pose proof eta_one as Heta1. pose proof u_tiny as Hu1.
    destruct (diagonal_l i Hi) as [Hl Hlo]. destruct (df_rows _ _ _ _ _ _ _ _ _ D) as [Hro0 Hrows]. specialize (Hrows i Hi).
    destruct (df_X _ _ _ _ _ _ _ _ _ D) as [HX HXs].
    destruct (df_square _ _ _ _ _ _ _ _ _ D) as (Hwf & Hrow & Hc & HA).
    fold (Ar i) in Hrows. set (di := Ar i i) in *.
    assert (Hdro : di <= ro).
    { pose proof (rsum_member n (fun j => Rabs (Ar i j)) i Hi) as M. cbv beta in M. fold di in M.
      rewrite (Rabs_pos_eq di) in M by lra. apply Rle_trans with (2 := Hrows). apply M. intros; apply Rabs_pos. }
    set (P := (1 + f_u) ^ n) in *. assert (HP : 1 <= P) by (apply pow_R1_Rle; lra).
    set (e0 := INR n * P * f_eta) in *.
    assert (He0 : 0 <= e0) by (apply Rmult_le_pos; [apply Rmult_le_pos; [apply pos_INR|lra]|lra]).
    set (F := X + B) in *. assert (HF : 0 <= F) by (unfold F; lra).
    set (DD := ro * F). assert (HDD : 0 <= DD) by (apply Rmult_le_pos; auto).
    assert (Hil : 0 < / l) by (apply Rinv_0_lt_compat, Hl).
    pose proof (gamma_nonneg (n + 1)) as Hg1.
    assert (EP1 : (1 + f_u) ^ (n + 1) = 1 + f_gamma (n + 1)) by (unfold f_gamma; ring).
    assert (HW2 : forall j, (j < n)%nat -> Rabs (f_real (f j)) <= F).
    { intros j Hj. replace (f_real (f j)) with (xs j + (f_real (f j) - xs j)) by ring.
      apply Rle_trans with (1 := Rabs_triang _ _). specialize (HXs j Hj). specialize (He j Hj). unfold F. lra. }
    set (T := rsum n (fun j => Rabs (f_real (off_entry (A i) i j) * f_real (f j)))).
    assert (T0 : 0 <= T) by (apply rsum_nonneg; intros; apply Rabs_pos).
    assert (HT : T <= DD).
    { apply Rle_trans with (F * rsum n (fun j => Rabs (Ar i j))).
      - rewrite <- rsum_scale. apply rsum_le. intros j Hj. unfold off_entry. destruct (j =? i)%nat.
        + cbn [f_real]. rewrite Rmult_0_l, Rabs_R0. apply Rmult_le_pos; [auto|apply Rabs_pos].
        + rewrite Rabs_mult, Rmult_comm. apply Rmult_le_compat_r; [apply Rabs_pos|auto].
      - unfold DD. rewrite (Rmult_comm ro). apply Rmult_le_compat_l; auto. }
    set (q := (1 + f_gamma (n + 1)) * DD + e0).
    assert (Hq0 : 0 <= q) by (unfold q; apply Rplus_le_le_0_compat; [apply Rmult_le_pos; lra|auto]).
    assert (Hlim : 2 * (1 + / l) * (q + 1) + F + 3 * (1 + / l) <= f_limit).
    { rewrite EP1 in Hov. unfold q, DD. replace ((1 + f_gamma (n + 1)) * (ro * F)) with ((1 + f_gamma (n + 1)) * ro * F) by ring. exact Hov. }
    assert (Hqi : 0 <= / l * q) by (apply Rmult_le_pos; lra).
    assert (Hes : forall j v, In (j, v) (nth i rs []) <-> stored a i j v).
    { intros j v. symmetry. apply (srepr_stored _ _ _ _ _ (ro_repr _ _ _ _ _ _ _ _ Hro)). }
    set (o := off_sum fops i (nth i rs []) f (sc_zero fops)).
    set (ob := rsum n (fun j => if (j =? i)%nat then 0 else Ar i j * f_real (f j))).
    assert (HO : f_valid o /\ f_finite o = true /\
      Rabs (f_real o - rsum n (fun j => f_real (off_entry (A i) i j) * f_real (f j))) <= f_gamma (n + 1) * T + e0).
    { apply (off_error n (nth i rs []) (A i) f i).
      - apply Hso. rewrite (ro_len _ _ _ _ _ _ _ _ Hro). exact Hi.
      - intros j Hj. exact (ro_cols _ _ _ _ _ _ _ _ Hro i j Hi Hj).
      - intros j v Hj. apply (proj1 (HA i j)), Hes, Hj.
      - intros j Hj. apply (proj2 (HA i j)). intros v Hv. apply Hj. apply Hes in Hv. apply (in_map fst) in Hv. exact Hv.
      - intros j Hj. apply (df_A _ _ _ _ _ _ _ _ _ D); auto.
      - exact Hf.
      - fold T P e0. rewrite EP1. assert ((1 + f_gamma (n + 1)) * T <= (1 + f_gamma (n + 1)) * DD) by (apply Rmult_le_compat_l; lra).
        apply Rle_trans with q; [unfold q; lra|]. lra. }
    assert (Eob : rsum n (fun j => f_real (off_entry (A i) i j) * f_real (f j)) = ob).
    { unfold ob. apply asum_ext. intros j Hj. unfold off_entry, Ar. destruct (j =? i)%nat; [cbn [f_real]; ring|reflexivity]. }
    rewrite Eob in HO. destruct HO as (Vo & Fo & Eo).
    assert (Eo1 : Rabs (f_real o - ob) <= f_gamma (n + 1) * DD + e0).
    { apply Rle_trans with (1 := Eo). apply Rplus_le_compat_r, Rmult_le_compat_l; auto. }
    assert (Hho : Rabs (hr i - ob) <= DD).
    { assert (E : hr i - ob = rsum n (fun j => if (j =? i)%nat then Ar i j * xs j else - (Ar i j * (f_real (f j) - xs j)))).
      { unfold hr, ob. rewrite <- (df_sol _ _ _ _ _ _ _ _ _ D i Hi), <- rsum_minus. apply asum_ext. intros j Hj.
        unfold Ar. destruct (j =? i)%nat; ring. }
      rewrite E. apply Rle_trans with (1 := rsum_abs _ _). apply Rle_trans with (F * rsum n (fun j => Rabs (Ar i j))).
      - rewrite <- rsum_scale. apply rsum_le. intros j Hj. pose proof (Rabs_pos (Ar i j)) as A0.
        specialize (HXs j Hj). specialize (He j Hj). destruct (j =? i)%nat; [|rewrite Rabs_Ropp];
          rewrite Rabs_mult, (Rmult_comm F); apply Rmult_le_compat_l; auto; unfold F; lra.
      - unfold DD. rewrite (Rmult_comm ro). apply Rmult_le_compat_l; auto. }
    set (p := Rabs (hr i - f_real o)).
    assert (Hp : p <= q).
    { unfold p, q. replace (hr i - f_real o) with ((hr i - ob) + - (f_real o - ob)) by ring.
      apply Rle_trans with (1 := Rabs_triang _ _). rewrite Rabs_Ropp. lra. }
    assert (Hp0 : 0 <= p) by apply Rabs_pos.
    set (y := (hr i - f_real o) / di). assert (Hdi : di <> 0) by lra.
    assert (Hdy : di * Rabs y = p).
    { unfold p. rewrite <- (Rabs_pos_eq di) at 1 by lra. rewrite <- Rabs_mult. f_equal. unfold y. field. exact Hdi. }
    assert (Hy : Rabs y <= / l * q).
    { apply (Rmult_le_reg_l l); [exact Hl|]. rewrite <- Rmult_assoc, Rinv_r, Rmult_1_l by lra.
      apply Rle_trans with (2 := Hp). rewrite <- Hdy. apply Rmult_le_compat_r; [apply Rabs_pos|exact Hlo]. }
    pose proof (Rabs_pos y) as Hy0.
    destruct (Hf i Hi) as [Vfi Ffi]. destruct (df_h _ _ _ _ _ _ _ _ _ D i Hi) as [Vh Fh].
    destruct (df_A _ _ _ _ _ _ _ _ _ D i i Hi Hi) as [Vd Fd].
    specialize (HW2 i Hi). pose proof (Rabs_pos (f_real (f i))) as Hfi0.
    assert (Hu3 : (1 + f_u) ^ 2 <= 2) by (cbn [pow]; nra).
    assert (G13 : forall k, (1 + f_gamma k) * (1 + f_gamma (n + 1)) = 1 + f_gamma (n + 1 + k)).
    { intro k. unfold f_gamma. rewrite (pow_add (1 + f_u) (n + 1) k). ring. }
    assert (Eob2 : Rabs ((f_real o - ob) / di) * di <= f_gamma (n + 1) * DD + e0).
    { unfold Rdiv. rewrite Rabs_mult, Rabs_inv, (Rabs_pos_eq di), Rmult_assoc, Rinv_l, Rmult_1_r by lra. exact Eo1. }
    pose proof (gamma_nonneg (n + 5)) as Hg5. pose proof (gamma_nonneg 2) as Hg2. pose proof (gamma_nonneg 4) as Hg4.
    assert (Hdx : f_eta * di <= f_eta * ro) by (apply Rmult_le_compat_l; lra).
    assert (Hx0 : 0 <= f_eta * ro) by (apply Rmult_le_pos; lra).
    assert (HP4 : forall k, (k <= 4)%nat -> (1 + f_gamma k) * e0 <= f_eta * (INR n * (1 + f_u) ^ (n + 4))).
    { intros k Hk. replace (f_eta * (INR n * (1 + f_u) ^ (n + 4))) with ((1 + f_u) ^ 4 * e0)
        by (unfold e0, P; rewrite (pow_add (1 + f_u) n 4); ring).
      apply Rmult_le_compat_r; [exact He0|]. unfold f_gamma. apply Rle_trans with ((1 + f_u) ^ k); [lra|]. apply Rle_pow; [lra|exact Hk]. }
    unfold exact_row. fold ob di.
    destruct HW as [[-> ->]|[-> ->]].
    - destruct (new_value_one (A i i) (h i) o (f i)) as (Vz & Fz & Ez); auto.
      { fold (hr i) p. assert ((1 + f_u) * p <= 2 * p) by (apply Rmult_le_compat_r; lra). lra. }
      { fold (hr i) (Ar i i) di y. assert ((1 + f_u) ^ 2 * Rabs y <= 2 * Rabs y) by (apply Rmult_le_compat_r; lra). lra. }
      fold (hr i) (Ar i i) di y in Ez. split; [exact Vz|]. split; [exact Fz|].
      set (z := f_real (new_value fops (sc_one fops) (A i i) (h i) o (f i))) in *.
      replace (z - (1 * (hr i - ob) / di + (1 - 1) * f_real (f i))) with ((z - y) + - ((f_real o - ob) / di)) by (unfold y; field; exact Hdi).
      apply Rle_trans with (di * (Rabs (z - y) + Rabs ((f_real o - ob) / di))).
      { apply Rmult_le_compat_l; [lra|]. rewrite <- (Rabs_Ropp ((f_real o - ob) / di)). apply Rabs_triang. }
      assert (Ez2 : di * Rabs (z - y) <= f_gamma 2 * p + f_eta * di).
      { apply Rle_trans with (di * (f_gamma 2 * Rabs y + f_eta)); [apply Rmult_le_compat_l; lra|]. rewrite <- Hdy. right. ring. }
      assert (Ez3 : f_gamma 2 * p <= f_gamma 2 * q) by (apply Rmult_le_compat_l; auto).
      specialize (G13 2%nat). specialize (HP4 2%nat ltac:(lia)).
      assert (GG : f_gamma (n + 1 + 2) <= f_gamma (n + 5)) by (apply gamma_le; lia).
      assert (GD : f_gamma (n + 1 + 2) * DD <= f_gamma (n + 5) * DD) by (apply Rmult_le_compat_r; auto).
      assert (0 <= f_gamma (n + 5) * DD) by (apply Rmult_le_pos; auto).
      unfold d_row. fold F. replace (2 * f_gamma (n + 5) * ro * F) with (2 * (f_gamma (n + 5) * DD)) by (unfold DD; ring).
      assert (EE : f_gamma 2 * q + f_gamma (n + 1) * DD + e0 = f_gamma (n + 1 + 2) * DD + (1 + f_gamma 2) * e0).
      { unfold q. replace (f_gamma (n + 1 + 2)) with ((1 + f_gamma 2) * (1 + f_gamma (n + 1)) - 1) by lra. ring. }
      lra.
    - destruct (new_value_sor (A i i) (h i) o (f i)) as (Vz & Fz & Ez); auto.
      { fold (hr i) p. lra. }
      { fold (hr i) (Ar i i) di y. rewrite (Rabs_pos_eq di) by lra.
        assert (/ di <= / l) by (apply Rinv_le_contravar; auto).
        assert (3 * f_eta * (1 + / di) <= 3 * 1 * (1 + / l)).
        { assert (0 < / di) by (apply Rinv_0_lt_compat; lra). apply Rmult_le_compat; lra. }
        lra. }
      cbv zeta in Ez. fold (hr i) (Ar i i) di y in Ez. split; [exact Vz|]. split; [exact Fz|].
      set (z := f_real (new_value fops (sor_factor fops) (A i i) (h i) o (f i))) in *.
      replace (z - (3 / 2 * (hr i - ob) / di + (1 - 3 / 2) * f_real (f i))) with
        ((z - (3 / 2 * y - 1 / 2 * f_real (f i))) + - (3 / 2 * ((f_real o - ob) / di))) by (unfold y; field; exact Hdi).
      set (rr := 3 / 2 * y - 1 / 2 * f_real (f i)) in *.
      apply Rle_trans with (di * (Rabs (z - rr) + 3 / 2 * Rabs ((f_real o - ob) / di))).
      { apply Rmult_le_compat_l; [lra|]. apply Rle_trans with (1 := Rabs_triang _ _). rewrite Rabs_Ropp.
        rewrite (Rabs_mult (3 / 2)), (Rabs_pos_eq (3 / 2)) by lra. lra. }
      assert (Ez2 : di * Rabs (z - rr) <= f_gamma 4 * (3 / 2 * p + 1 / 2 * DD) + 3 * f_eta * (ro + 1)).
      { apply Rle_trans with (di * (f_gamma 4 * (3 / 2 * Rabs y + 1 / 2 * Rabs (f_real (f i))) + 3 * f_eta * (1 + / Rabs di)));
          [apply Rmult_le_compat_l; lra|]. rewrite (Rabs_pos_eq di) by lra.
        replace (di * (f_gamma 4 * (3 / 2 * Rabs y + 1 / 2 * Rabs (f_real (f i))) + 3 * f_eta * (1 + / di))) with
          (f_gamma 4 * (3 / 2 * (di * Rabs y) + 1 / 2 * (di * Rabs (f_real (f i)))) + 3 * (f_eta * di + f_eta)) by (field; exact Hdi).
        rewrite Hdy. apply Rplus_le_compat; [|lra]. apply Rmult_le_compat_l; [exact Hg4|].
        assert (di * Rabs (f_real (f i)) <= DD) by (apply Rmult_le_compat; lra). lra. }
      assert (Ez3 : f_gamma 4 * p <= f_gamma 4 * q) by (apply Rmult_le_compat_l; auto).
      specialize (G13 4%nat). specialize (HP4 4%nat ltac:(lia)).
      assert (GG : f_gamma 4 <= f_gamma (n + 5)) by (apply gamma_le; lia).
      replace (n + 1 + 4)%nat with (n + 5)%nat in G13 by lia.
      assert (GD : f_gamma 4 * DD <= f_gamma (n + 5) * DD) by (apply Rmult_le_compat_r; auto).
      assert (0 <= f_gamma (n + 5) * DD) by (apply Rmult_le_pos; auto).
      unfold d_row. fold F. replace (2 * f_gamma (n + 5) * ro * F) with (2 * (f_gamma (n + 5) * DD)) by (unfold DD; ring).
      assert (EE : f_gamma 4 * q + f_gamma (n + 1) * DD + e0 = f_gamma (n + 5) * DD + (1 + f_gamma 4) * e0).
      { unfold q. replace (f_gamma (n + 5)) with ((1 + f_gamma 4) * (1 + f_gamma (n + 1)) - 1) by lra. ring. }
      lra.
  Qed.

  Lemma tau_nonneg : 0 <= d_tau n ro l X.
  Proof using D.
    destruct (df_rows _ _ _ _ _ _ _ _ _ D) as [Hro0 _]. destruct (df_X _ _ _ _ _ _ _ _ _ D) as [HX _].
    destruct (df_form _ _ _ _ _ _ _ _ _ D) as [Hl _]. pose proof u_pos. pose proof eta_pos. pose proof (gamma_nonneg (n + 5)).
    unfold d_tau, d_row. apply Rmult_le_pos; [lra|].
    apply Rmult_le_pos; [|left; apply Rinv_0_lt_compat, sqrt_lt_R0, Hl]. apply Rmult_le_pos; [apply sqrt_pos|].
    apply Rplus_le_le_0_compat.
    - apply Rmult_le_pos; [|lra]. apply Rmult_le_pos; lra.
    - apply Rmult_le_pos; [lra|]. apply Rplus_le_le_0_compat; [|lra]. apply Rmult_le_pos; [apply pos_INR|apply pow_le; lra].
  Qed.

  Lemma kappa_nonneg : 0 <= d_kappa n ro l.
  Proof using D.
    destruct (df_rows _ _ _ _ _ _ _ _ _ D) as [Hro0 _]. destruct (df_form _ _ _ _ _ _ _ _ _ D) as [Hl _].
    pose proof (gamma_nonneg (n + 5)). unfold d_kappa. apply Rmult_le_pos; [|left; apply Rinv_0_lt_compat, Hl].
    apply Rmult_le_pos; [|apply sqrt_pos]. apply Rmult_le_pos; lra.
  Qed.

  Lemma row_tau E : 2 * (sqrt (INR n) * d_row n ro X (E / sqrt l) / sqrt l) = d_kappa n ro l * E + d_tau n ro l X.
  Proof using D.
    destruct (df_form _ _ _ _ _ _ _ _ _ D) as [Hl _]. assert (Hq : 0 < sqrt l) by (apply sqrt_lt_R0, Hl).
    unfold d_kappa, d_tau, d_row. rewrite <- (sqrt_sqrt l) at 3 by lra. field. lra.
  Qed.

  Lemma definite_of_form : positive_definite n Ar.
  Proof using D.
    destruct (df_form _ _ _ _ _ _ _ _ _ D) as [Hl Hc]. intros e (i & Hi & He). specialize (Hc e). fold Ar in Hc.
    apply Rlt_le_trans with (2 := Hc). apply Rmult_lt_0_compat; [exact Hl|].
    apply (rsum_pos n _ i); [intros; apply Rle_0_sqr|exact Hi|].
    destruct (Rtotal_order (e i) 0) as [|[|]]; [nra|contradiction|nra].
  Qed.

  (** One sweep. *)
  Lemma definite_sweep W w s x f E : sweep_pair W w -> sweep_factor n Ar w s -> d_kappa n ro l < 1 ->
    is_vec n x f -> finite_vec n f -> f_enorm n A f xs <= E -> d_no_overflow n ro l X E ->
    exists x' f', forward_sweep fops dbg stray a None x b W = Ok x' /\ is_vec n x' f' /\ finite_vec n f' /\
      f_enorm n A f' xs <= d_rate n ro l s * E + d_tau n ro l X / (1 - d_kappa n ro l).
  Proof using D.
    intros HW Hs Hk Hx Hf HE Hov. destruct definite_rows as (rs & d & Hro & Hso & Hd).
    destruct (seidel_sweep_ok fops dbg stray n a b rs d h x f W Hro Hx) as (x' & z & Es & Hx' & Hz).
    exists x', z. split; [exact Es|]. split; [exact Hx'|].
    pose proof tau_nonneg as Ht. pose proof kappa_nonneg as Hk0.
    pose proof (df_sym _ _ _ _ _ _ _ _ _ D) as Hsym. pose proof (df_form _ _ _ _ _ _ _ _ _ D) as Hform.
    fold Ar in Hsym, Hform. pose proof (proj1 Hform) as Hl.
    assert (Hq : 0 < sqrt l) by (apply sqrt_lt_R0, Hl).
    assert (E0 : 0 <= E) by (apply Rle_trans with (2 := HE); apply sqrt_pos).
    set (E1 := (E + d_tau n ro l X) / (1 - d_kappa n ro l)).
    assert (HE1 : E + (d_kappa n ro l * E1 + d_tau n ro l X) = E1) by (unfold E1; field; lra).
    assert (E10 : 0 <= E1).
    { unfold E1. apply Rmult_le_pos; [lra|]. left. apply Rinv_0_lt_compat. lra. }
    set (B := E1 / sqrt l). assert (HB : 0 <= B) by (unfold B; apply Rmult_le_pos; [auto|left; apply Rinv_0_lt_compat, Hq]).
    unfold d_no_overflow, d_within in Hov. fold E1 B in Hov.
    assert (Hw : 0 < w < 2 /\ w <= 3 / 2) by (destruct HW as [[_ ->]|[_ ->]]; lra).
    set (m := d_row n ro X B).
    assert (Hm2 : 2 * (sqrt (INR n) * m / sqrt l) = d_kappa n ro l * E1 + d_tau n ro l X) by apply row_tau.
    assert (Hm : 0 <= m).
    { unfold m, d_row. destruct (df_rows _ _ _ _ _ _ _ _ _ D) as [Hro0 _]. destruct (df_X _ _ _ _ _ _ _ _ _ D) as [HX _].
      pose proof u_pos. pose proof eta_pos. pose proof (gamma_nonneg (n + 5)).
      apply Rplus_le_le_0_compat; [apply Rmult_le_pos; [apply Rmult_le_pos|]; lra|].
      apply Rmult_le_pos; [lra|]. apply Rplus_le_le_0_compat; [|lra]. apply Rmult_le_pos; [apply pos_INR|apply pow_le; lra]. }
    pose proof (df_sol _ _ _ _ _ _ _ _ _ D) as Hsol.
    set (fr := fun j => f_real (f j)). set (zr := fun j => f_real (z j)).
    set (dl := fun i => zr i - exact_row n Ar hr w i (mixed fr zr i)).
    assert (G : forall k, (k <= n)%nat -> forall i, (i < k)%nat -> f_valid (z i) /\ f_finite (z i) = true /\ Ar i i * Rabs (dl i) <= w * m).
    { induction k as [|k IH]; intros Hkn i Hi; [lia|].
      destruct (Nat.eq_dec i k) as [->|Hne]; [|apply IH; lia]. specialize (IH ltac:(lia)).
      set (g := fun j => if (j <? k)%nat then z j else f j).
      assert (Eg : forall j, f_real (g j) = mixed fr zr k j) by (intro j; unfold g, mixed; destruct (j <? k)%nat; reflexivity).
      assert (Fg : finite_vec n g).
      { intros j Hj. unfold g. destruct (Nat.ltb_spec j k) as [L|L]; [|auto]. destruct (IH j L) as (V & F & _). auto. }
      assert (Ng : enorm n Ar (fun j => mixed fr zr k j - xs j) <= E1).
      { rewrite <- HE1, <- Hm2. apply Rle_trans with (enorm n Ar (fun j => fr j - xs j) + 2 * (sqrt (INR n) * m / sqrt l));
          [|apply Rplus_le_compat_r; exact HE].
        apply (partial_norm n Ar hr xs w l fr zr dl Hsym Hform (proj1 Hw) Hsol k m); auto; try lia.
        - apply Hw.
        - intros j Hj. unfold dl. ring.
        - intros j Hj. apply (IH j Hj). }
      assert (Wg : within n g xs B).
      { intros j Hj. rewrite Eg. apply Rle_trans with (1 := component_bound n Ar l Hform (fun j => mixed fr zr k j - xs j) j Hj).
        unfold B. apply Rmult_le_compat_r; [left; apply Rinv_0_lt_compat, Hq|exact Ng]. }
      rewrite (Hz k) by lia. fold g.
      destruct (definite_row W w rs d g B k HW Hro Hso Hd ltac:(lia) HB Fg Wg Hov) as (V & F & R1).
      split; [exact V|]. split; [exact F|]. fold m in R1. unfold dl.
      assert (Ez : zr k = f_real (swept fops rs d h W k g)) by (unfold zr; rewrite (Hz k) by lia; reflexivity). rewrite Ez.
      replace (exact_row n Ar hr w k (mixed fr zr k)) with (exact_row n Ar hr w k (fun j => f_real (g j))); [exact R1|].
      unfold exact_row. rewrite Eg. do 4 f_equal. apply asum_ext. intros j Hj. rewrite Eg. reflexivity. }
    assert (G' : forall i, (i < n)%nat -> f_valid (z i) /\ f_finite (z i) = true /\ Ar i i * Rabs (dl i) <= w * m) by (intros; apply (G n); auto).
    split; [intros i Hi; destruct (G' i Hi) as (V & F & _); auto|].
    apply Rle_trans with (s * enorm n Ar (fun j => fr j - xs j) + 2 * (sqrt (INR n) * m / sqrt l)).
    - apply (sweep_norm n Ar hr xs w l fr zr dl Hsym Hform (proj1 Hw) Hsol s m Hs definite_of_form Hm).
      + intros i Hi. unfold dl. ring.
      + intros i Hi. apply (G' i Hi).
    - rewrite Hm2. destruct Hs as [Hs _].
      assert (s * enorm n Ar (fun j => fr j - xs j) <= s * E) by (apply Rmult_le_compat_l; [lra|exact HE]).
      replace (d_rate n ro l s * E + d_tau n ro l X / (1 - d_kappa n ro l)) with (s * E + (d_kappa n ro l * E1 + d_tau n ro l X)); [lra|].
      unfold d_rate, E1. field. lra.
  Qed.

  (** Any number of sweeps. *)
  Definition d_level (s E0 : R) (k : nat) : R := d_floor n ro l s X + d_rate n ro l s ^ k * E0.

  Lemma definite_times W w s (step : list f64 * list f64 -> res (list f64 * list f64)) x u f E0 k :
    sweep_pair W w -> sweep_factor n Ar w s -> d_kappa n ro l < 1 -> d_rate n ro l s < 1 ->
    (forall x u, step (x, u) = (do x' <- forward_sweep fops dbg stray a None x b W; Ok (x', u))) ->
    is_vec n x f -> finite_vec n f -> 0 <= E0 -> f_enorm n A f xs <= d_level s E0 0 -> d_no_overflow n ro l X (d_level s E0 0) ->
    exists x' f', times step k (x, u) = Ok (x', u) /\ is_vec n x' f' /\ finite_vec n f' /\ f_enorm n A f' xs <= d_level s E0 k.
  Proof using D.
    intros HW Hs Hk Hr Hst Hx Hf HE He Ho. pose proof tau_nonneg as Ht. pose proof kappa_nonneg as Hk0.
    assert (Hq0 : 0 <= d_kappa n ro l / (1 - d_kappa n ro l)).
    { apply Rmult_le_pos; [auto|left; apply Rinv_0_lt_compat; lra]. }
    assert (Hr0 : 0 <= d_rate n ro l s) by (unfold d_rate; destruct Hs; lra).
    assert (HF : d_rate n ro l s * d_floor n ro l s X + d_tau n ro l X / (1 - d_kappa n ro l) = d_floor n ro l s X) by (unfold d_floor; field; lra).
    destruct (df_form _ _ _ _ _ _ _ _ _ D) as [Hl _]. assert (Hq : 0 < sqrt l) by (apply sqrt_lt_R0, Hl).
    induction k as [|k (x' & f' & E & Hx' & Hf' & He')].
    - exists x, f. split; [reflexivity|auto].
    - destruct (definite_sweep W w s x' f' (d_level s E0 k)) as (y & g & Ey & Hy & Hg & Heg); auto.
      { assert (L2 : d_level s E0 k <= d_level s E0 0).
        { unfold d_level. assert (P1 : d_rate n ro l s ^ k <= 1) by (rewrite <- (pow1 k); apply pow_incr; lra).
          assert (d_rate n ro l s ^ k * E0 <= 1 * E0) by (apply Rmult_le_compat_r; auto). cbn [pow]. lra. }
        assert (W2 : d_within n ro l X (d_level s E0 k) <= d_within n ro l X (d_level s E0 0)).
        { unfold d_within, Rdiv. apply Rmult_le_compat_r; [left; apply Rinv_0_lt_compat, Hq|].
          apply Rmult_le_compat_r; [left; apply Rinv_0_lt_compat; lra|]. lra. }
        unfold d_no_overflow in *. apply Rle_trans with (2 := Ho).
        apply Rplus_le_compat_r. apply Rplus_le_compat; [|lra]. apply Rmult_le_compat_l.
        - assert (0 < / l) by (apply Rinv_0_lt_compat, Hl). lra.
        - apply Rplus_le_compat_r, Rplus_le_compat_r. apply Rmult_le_compat_l; [|lra].
          apply Rmult_le_pos; [apply pow_le; pose proof u_pos; lra|apply (df_rows _ _ _ _ _ _ _ _ _ D)]. }
      exists y, g. cbn [times]. rewrite E. cbn [bind]. rewrite Hst, Ey. cbn [bind]. split; [reflexivity|].
      split; [exact Hy|]. split; [exact Hg|]. apply Rle_trans with (1 := Heg). right. unfold d_level. cbn [pow]. lra.
  Qed.
End Definite.
