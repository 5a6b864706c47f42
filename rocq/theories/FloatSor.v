(** Rounding errors of the sweeps of SOR (factor 3/2) in double precision. *)
From Coq Require Import ZArith Reals Lra Lia List Sorted SpecFloat Psatz.
From Flocq Require Import Core BinarySingleNaN.
From Verif Require Import Base ListFacts DenseModel DenseFacts ScalarModel GeometryReal SparseModel SparseSpec
  SparseFacts SparseSeq LuReal IterModel IterFacts IterLoop IterField IterReal FloatFacts FloatError IterFloat
  PropFloatLemmas FloatUnit PropIterLemmas LuSuccess SparseMul FloatSweep FloatStops.
Import ListNotations.
Local Open Scope R_scope.

Lemma factor_real : f_real (sor_factor fops) = 3 / 2.
Proof.
  replace (sor_factor fops) with (S754_finite false 6755399441055744 (-52)) by (vm_compute; reflexivity).
  cbn [f_real]. change (-52)%Z with (- Z.of_nat 52)%Z. rewrite powerRZ_neg', <- pow_powerRZ.
  field_simplify; [|lra..]; lra.
Qed.

Lemma rest_real : f_real (SFsub 53 1024 (f_of_Z 1) (sor_factor fops)) = - (1 / 2).
Proof.
  replace (SFsub 53 1024 (f_of_Z 1) (sor_factor fops)) with (S754_finite true 4503599627370496 (-53)) by (vm_compute; reflexivity).
  cbn [f_real]. change (-53)%Z with (- Z.of_nat 53)%Z. rewrite powerRZ_neg', <- pow_powerRZ.
  field_simplify; [|lra..]; lra.
Qed.

Lemma near_abs z y e : Rabs (z - y) <= e -> Rabs z <= Rabs y + e.
Proof.
  intro H. replace z with (y + (z - y)) by ring. apply Rle_trans with (1 := Rabs_triang _ _). lra.
Qed.

(** One new value with the factor 3/2. *)
Lemma new_value_sor d b o x : f_valid d -> f_valid b -> f_valid o -> f_valid x ->
  f_finite d = true -> f_finite b = true -> f_finite o = true -> f_finite x = true -> f_real d <> 0 ->
  let p := Rabs (f_real b - f_real o) in let y := (f_real b - f_real o) / f_real d in
  2 * p + 1 <= f_limit -> 2 * Rabs y + Rabs (f_real x) + 3 * f_eta * (1 + / Rabs (f_real d)) <= f_limit ->
  let z := new_value fops (sor_factor fops) d b o x in f_valid z /\ f_finite z = true /\
    Rabs (f_real z - (3 / 2 * y - 1 / 2 * f_real x)) <=
      f_gamma 4 * (3 / 2 * Rabs y + 1 / 2 * Rabs (f_real x)) + 3 * f_eta * (1 + / Rabs (f_real d)).
Proof.
  intros Vd Vb Vo Vx Fd Fb Fo Fx Hd p y H1 H2 z. unfold z, new_value. cbn [fops sc_one sc_add sc_mul sc_sub sc_div].
  pose proof u_pos as Hu. pose proof eta_pos as He. pose proof u_tiny as Hu1. pose proof eta_one as He1.
  assert (V1 : f_valid (f_of_Z 1)) by reflexivity.
  assert (Vw : f_valid (sor_factor fops)) by (vm_compute; reflexivity).
  assert (Fw : f_finite (sor_factor fops) = true) by (vm_compute; reflexivity).
  set (g := SFsub 53 1024 (f_of_Z 1) (sor_factor fops)).
  assert (Vg : f_valid g) by (apply f_sub_valid; auto).
  assert (Fg : f_finite g = true) by (vm_compute; reflexivity).
  assert (Rg : f_real g = - (1 / 2)) by exact rest_real.
  clearbody g.
  assert (HD : 0 < Rabs (f_real d)) by (apply Rabs_pos_lt, Hd).
  set (D := / Rabs (f_real d)) in *. assert (D0 : 0 < D) by (apply Rinv_0_lt_compat, HD).
  assert (Hp0 : 0 <= p) by apply Rabs_pos. assert (Hy0 : 0 <= Rabs y) by apply Rabs_pos.
  assert (Hx0 : 0 <= Rabs (f_real x)) by apply Rabs_pos.
  assert (Eyp : Rabs y = p * D) by (unfold y, Rdiv; rewrite Rabs_mult, Rabs_inv; reflexivity).
  (* the difference *)
  set (s := SFsub 53 1024 b o). assert (Vs : f_valid s) by (apply f_sub_valid; auto).
  assert (Fs : f_finite s = true) by (apply f_sub_finite; auto; fold p; lra).
  destruct (f_sub_error b o Vb Vo Fs) as (e & Hde & Es). fold s in Es.
  assert (Hs : Rabs (f_real s - (f_real b - f_real o)) <= f_u * p).
  { rewrite Es. replace ((f_real b - f_real o) * (1 + e) - (f_real b - f_real o)) with (e * (f_real b - f_real o)) by ring.
    rewrite Rabs_mult. fold p. apply Rmult_le_compat_r; auto. }
  pose proof (near_abs _ _ _ Hs) as Hs'. fold p in Hs'.
  (* times 3/2 *)
  assert (Es2 : Rabs (f_real (sor_factor fops) * f_real s) = 3 / 2 * Rabs (f_real s)).
  { rewrite factor_real, Rabs_mult, (Rabs_pos_eq (3 / 2)) by lra. reflexivity. }
  assert (Hup : f_u * p <= / 1000 * p) by (apply Rmult_le_compat_r; auto).
  set (v := SFmul 53 1024 (sor_factor fops) s). assert (Vv : f_valid v) by (apply f_mul_valid; auto).
  assert (Fv : f_finite v = true) by (apply f_mul_finite; auto; rewrite Es2; lra).
  destruct (operations_error (sor_factor fops) s Vw Vs) as (_ & _ & Hmul & _). destruct (Hmul Fv) as (_ & _ & Ev). fold v in Ev.
  rewrite Es2 in Ev. rewrite factor_real in Ev.
  assert (Hv : Rabs (f_real v - 3 / 2 * (f_real b - f_real o)) <= f_gamma 2 * (3 / 2 * p) + f_eta).
  { replace (f_real v - 3 / 2 * (f_real b - f_real o)) with
      ((f_real v - 3 / 2 * f_real s) + 3 / 2 * (f_real s - (f_real b - f_real o))) by ring.
    apply Rle_trans with (1 := Rabs_triang _ _). rewrite (Rabs_mult (3 / 2)), (Rabs_pos_eq (3 / 2)) by lra.
    assert (f_u * (3 / 2 * Rabs (f_real s)) <= f_u * (3 / 2 * (p + f_u * p))) by (apply Rmult_le_compat_l; lra).
    unfold f_gamma. nra. }
  (* divided by the diagonal *)
  set (t := f_real v / f_real d).
  assert (Ht : Rabs (t - 3 / 2 * y) <= f_gamma 2 * (3 / 2 * Rabs y) + f_eta * D).
  { replace (t - 3 / 2 * y) with ((f_real v - 3 / 2 * (f_real b - f_real o)) * / f_real d) by (unfold t, y; field; exact Hd).
    rewrite Rabs_mult, Rabs_inv. fold D. rewrite Eyp.
    apply Rle_trans with ((f_gamma 2 * (3 / 2 * p) + f_eta) * D); [apply Rmult_le_compat_r; lra|right; ring]. }
  assert (G2 : f_gamma 2 <= 1 / 400) by (unfold f_gamma; nra).
  assert (G20 : 0 <= f_gamma 2) by apply gamma_nonneg.
  assert (HeD : 0 <= f_eta * D) by (apply Rmult_le_pos; lra).
  assert (Hg2 : f_gamma 2 * Rabs y <= 1 / 400 * Rabs y) by (apply Rmult_le_compat_r; auto).
  pose proof (near_abs _ _ _ Ht) as Ht'. rewrite Rabs_mult, (Rabs_pos_eq (3 / 2)) in Ht' by lra.
  assert (H2' : 2 * Rabs y + Rabs (f_real x) + 3 * f_eta + 3 * (f_eta * D) <= f_limit) by lra.
  set (q := SFdiv 53 1024 v d). assert (Vq : f_valid q) by (apply f_div_valid; auto).
  assert (Fq : f_finite q = true) by (apply f_div_finite; auto; fold t; lra).
  destruct (operations_error v d Vv Vd) as (_ & _ & _ & Hdiv & _). destruct (Hdiv Fd Fq) as (_ & _ & Eq).
  fold q t in Eq.
  assert (Hq : Rabs (f_real q - 3 / 2 * y) <= f_gamma 3 * (3 / 2 * Rabs y) + (1 + f_u) * (f_eta * D) + f_eta).
  { replace (f_real q - 3 / 2 * y) with ((f_real q - t) + (t - 3 / 2 * y)) by ring.
    apply Rle_trans with (1 := Rabs_triang _ _).
    assert (f_u * Rabs t <= f_u * (3 / 2 * Rabs y + (f_gamma 2 * (3 / 2 * Rabs y) + f_eta * D))) by (apply Rmult_le_compat_l; lra).
    replace (f_gamma 3) with (f_gamma 2 * (1 + f_u) + f_u) by (rewrite <- gamma_S; reflexivity). lra. }
  (* the part of the old value *)
  assert (Eg : Rabs (f_real g * f_real x) = 1 / 2 * Rabs (f_real x)).
  { rewrite Rg, Rabs_mult, Rabs_Ropp, (Rabs_pos_eq (1 / 2)) by lra. reflexivity. }
  set (w := SFmul 53 1024 g x). assert (Vww : f_valid w) by (apply f_mul_valid; auto).
  assert (Fww : f_finite w = true) by (apply f_mul_finite; auto; rewrite Eg; lra).
  destruct (operations_error g x Vg Vx) as (_ & _ & Hmul2 & _). destruct (Hmul2 Fww) as (_ & _ & Ew). fold w in Ew.
  rewrite Eg, Rg in Ew.
  (* the sum *)
  assert (Hux : f_u * Rabs (f_real x) <= / 1000 * Rabs (f_real x)) by (apply Rmult_le_compat_r; auto).
  assert (G3 : f_gamma 3 <= 1 / 200) by (unfold f_gamma; nra).
  assert (Hg3 : f_gamma 3 * Rabs y <= 1 / 200 * Rabs y) by (apply Rmult_le_compat_r; auto).
  assert (HuD : f_u * (f_eta * D) <= / 1000 * (f_eta * D)) by (apply Rmult_le_compat_r; auto).
  assert (Hue : f_u * f_eta <= / 1000 * f_eta) by (apply Rmult_le_compat_r; lra).
  set (r := 3 / 2 * y - 1 / 2 * f_real x).
  assert (Hr : Rabs r <= 3 / 2 * Rabs y + 1 / 2 * Rabs (f_real x)).
  { unfold r. apply Rle_trans with (1 := Rabs_triang _ _). rewrite Rabs_Ropp, !Rabs_mult, !(Rabs_pos_eq (_ / _)) by lra. lra. }
  set (c := f_gamma 3 * (3 / 2 * Rabs y) + (1 + f_u) * (f_eta * D) + f_eta + f_u * (1 / 2 * Rabs (f_real x)) + f_eta).
  assert (Hsum : Rabs (f_real q + f_real w - r) <= c).
  { replace (f_real q + f_real w - r) with ((f_real q - 3 / 2 * y) + (f_real w - - (1 / 2) * f_real x)) by (unfold r; field).
    apply Rle_trans with (1 := Rabs_triang _ _). unfold c. lra. }
  pose proof (near_abs _ _ _ Hsum) as Hsum'.
  assert (Fr : f_finite (SFadd 53 1024 q w) = true).
  { apply f_add_finite; auto. apply Rle_trans with (1 := Hsum'). unfold c. lra. }
  split; [apply f_add_valid; auto|]. split; [exact Fr|].
  destruct (operations_error q w Vq Vww) as (Hadd & _). destruct (Hadd Fr) as (_ & _ & Ea).
  set (zz := f_real (SFadd 53 1024 q w)) in *.
  replace (zz - r) with ((zz - (f_real q + f_real w)) + (f_real q + f_real w - r)) by ring.
  apply Rle_trans with (1 := Rabs_triang _ _).
  assert (f_u * Rabs (f_real q + f_real w) <= f_u * (3 / 2 * Rabs y + 1 / 2 * Rabs (f_real x) + c)) by (apply Rmult_le_compat_l; lra).
  assert (G4 : f_gamma 4 = f_gamma 3 * (1 + f_u) + f_u) by (rewrite <- gamma_S; reflexivity).
  assert (Hg4 : f_u + f_u * (1 + f_u) <= f_gamma 4).
  { apply Rle_trans with (f_gamma 2); [unfold f_gamma; cbn [pow]; lra|]. apply gamma_le. lia. }
  assert (Hxx : (f_u + f_u * (1 + f_u)) * (1 / 2 * Rabs (f_real x)) <= f_gamma 4 * (1 / 2 * Rabs (f_real x))).
  { apply Rmult_le_compat_r; [lra|exact Hg4]. }
  assert (Hu2 : f_u * (f_u * (f_eta * D)) <= / 1000 * (f_eta * D)).
  { apply Rle_trans with (f_u * (/ 1000 * (f_eta * D))); [apply Rmult_le_compat_l; lra|]. lra. }
  rewrite G4. rewrite G4 in Hxx. unfold c in *. lra.
Qed.

(* ------------------------------------------------------------------ dominant systems *)
(** The factor of one sweep, the error a sweep adds and the level the error sinks to. *)
Definition s_rate (n : nat) (q : R) : R := (1 + 3 * q) / 2 * (1 + f_u) ^ (n + 5).
Definition s_step (n : nat) (X lo : R) : R :=
  2 * f_gamma (n + 5) * X + f_eta * (3 + (3 + 2 * INR n * (1 + f_u) ^ (n + 4)) / lo).
Definition s_floor (n : nat) (q X lo : R) : R := s_step n X lo / (1 - s_rate n q).

(** No operation overflows while the errors are at most [E]. *)
Definition s_no_overflow n (A : nat -> nat -> f64) lo X E : Prop :=
  forall i, (i < n)%nat ->
    2 * (Rabs (f_real (A i i)) + 1) * (3 * X + 2 * E + INR n * (1 + f_u) ^ n * f_eta / lo) + 3 * (1 + / lo) <= f_limit.

Section Dominant.
  Variables (dbg : bool) (stray : option nat).
  Variables (n : nat) (a : smat f64) (A : nat -> nat -> f64) (b : list f64) (h : nat -> f64).
  Variables (q lo : R) (xs : nat -> R) (X : R).
  Hypothesis D : dominant_doubles n a A b h q lo xs X.

  (** The sum beside the diagonal and the value of a row before the relaxation. *)
  Lemma row_value rs d f E i : rows_of dbg stray n a b rs d h -> srows_ok n rs ->
    (i < n)%nat -> 0 <= E -> finite_vec n f -> within n f xs E ->
    Rabs (f_real (A i i)) * (2 * X + E + INR n * (1 + f_u) ^ n * f_eta / lo) <= f_limit ->
    let o := off_sum fops i (nth i rs []) f (sc_zero fops) in f_valid o /\ f_finite o = true /\
      Rabs ((f_real (h i) - f_real o) / f_real (A i i) - xs i) <=
        q * (1 + f_gamma (n + 1)) * E + q * f_gamma (n + 1) * X + INR n * (1 + f_u) ^ n * f_eta / lo.
  Proof using D.
    cbv zeta.
    intros Hro Hso Hi HE Hf He Hov.
    pose proof (q_bounds n a A b h q lo xs X D) as (Hq & Hr & Hq1 & Hqp & Hqg). pose proof u_pos as Hu. pose proof eta_pos as Heta.
    destruct (dd_lo _ _ _ _ _ _ _ _ _ D) as [Hl Hlo]. specialize (Hlo i Hi).
    destruct (dd_X _ _ _ _ _ _ _ _ _ D) as [HX HXs].
    destruct (dd_square _ _ _ _ _ _ _ _ _ D) as (Hw & Hrow & Hc & HA).
    set (di := f_real (A i i)) in *. assert (HD : 0 < Rabs di) by lra.
    assert (Hdi : di <> 0) by (intro H0; rewrite H0, Rabs_R0 in HD; lra).
    set (P := (1 + f_u) ^ n) in *. assert (HP : 1 <= P) by (apply pow_R1_Rle; lra).
    set (e0 := INR n * P * f_eta) in *.
    assert (He0 : 0 <= e0) by (apply Rmult_le_pos; [apply Rmult_le_pos; [apply pos_INR|lra]|lra]).
    set (c := e0 / lo) in *. assert (Hc0 : 0 <= c) by (apply Rmult_le_pos; [auto|apply Rlt_le, Rinv_0_lt_compat, Hl]).
    assert (Hce : e0 <= Rabs di * c).
    { replace e0 with (lo * c) by (unfold c; field; lra). apply Rmult_le_compat_r; auto. }
    set (Y := 2 * X + E + c) in *. assert (HY0 : 0 <= Y) by (unfold Y; lra).
    assert (HDY0 : 0 <= Rabs di * Y) by (apply Rmult_le_pos; lra).
    assert (HDl : Rabs di * Y <= f_limit) by exact Hov.
    (* the row *)
    set (os := rsum n (fun j => if (j =? i)%nat then 0 else f_real (A i j) * xs j)).
    assert (Ex : xs i = (f_real (h i) - os) / di).
    { assert (Eh : f_real (h i) = di * xs i + os).
      { rewrite <- (dd_sol _ _ _ _ _ _ _ _ _ D i Hi). unfold os. rewrite (rsum_out n i) by auto. reflexivity. }
      rewrite Eh. field. exact Hdi. }
    assert (HW : forall j, (j < n)%nat -> Rabs (f_real (f j)) <= X + E).
    { intros j Hj. replace (f_real (f j)) with (xs j + (f_real (f j) - xs j)) by ring.
      apply Rle_trans with (1 := Rabs_triang _ _). specialize (HXs j Hj). specialize (He j Hj). lra. }
    set (T := rsum n (fun j => Rabs (f_real (off_entry (A i) i j) * f_real (f j)))).
    assert (T0 : 0 <= T) by (apply rsum_nonneg; intros; apply Rabs_pos).
    assert (Hdom := dd_dom _ _ _ _ _ _ _ _ _ D i Hi). fold di in Hdom.
    assert (HT : T <= q * Rabs di * (X + E)).
    { apply Rle_trans with ((X + E) * rsum n (fun j => if (j =? i)%nat then 0 else Rabs (f_real (A i j)))).
      - rewrite <- rsum_scale. apply rsum_le. intros j Hj. unfold off_entry. destruct (j =? i)%nat.
        + cbn [f_real]. rewrite Rmult_0_l, Rabs_R0. lra.
        + rewrite Rabs_mult, Rmult_comm. apply Rmult_le_compat_r; [apply Rabs_pos|auto].
      - rewrite Rmult_comm. apply Rmult_le_compat_r; [lra|exact Hdom]. }
    assert (Hes : forall j v, In (j, v) (nth i rs []) <-> stored a i j v).
    { intros j v. symmetry. apply (srepr_stored _ _ _ _ _ (ro_repr _ _ _ _ _ _ _ _ Hro)). }
    set (o := off_sum fops i (nth i rs []) f (sc_zero fops)).
    assert (HO : f_valid o /\ f_finite o = true /\
      Rabs (f_real o - rsum n (fun j => f_real (off_entry (A i) i j) * f_real (f j))) <= f_gamma (n + 1) * T + e0).
    { apply (off_error n (nth i rs []) (A i) f i).
      - apply Hso. rewrite (ro_len _ _ _ _ _ _ _ _ Hro). exact Hi.
      - intros j Hj. exact (ro_cols _ _ _ _ _ _ _ _ Hro i j Hi Hj).
      - intros j v Hj. apply (proj1 (HA i j)), Hes, Hj.
      - intros j Hj. apply (proj2 (HA i j)). intros v Hv. apply Hj. apply Hes in Hv. apply (in_map fst) in Hv. exact Hv.
      - intros j Hj. apply (dd_A _ _ _ _ _ _ _ _ _ D); auto.
      - exact Hf.
      - fold T e0. assert ((1 + f_u) ^ (n + 1) * T <= Rabs di * (X + E)).
        { apply Rle_trans with ((1 + f_u) ^ (n + 1) * (q * Rabs di * (X + E))).
          - apply Rmult_le_compat_l; [apply pow_le; lra|exact HT].
          - apply Rle_trans with ((q * (1 + f_u) ^ (n + 1)) * (Rabs di * (X + E))); [right; ring|].
            rewrite <- (Rmult_1_l (Rabs di * (X + E))) at 2. apply Rmult_le_compat_r; [|exact Hqp].
            apply Rmult_le_pos; lra. }
        apply Rle_trans with (2 := HDl). replace (Rabs di * Y) with (Rabs di * (X + E) + Rabs di * X + Rabs di * c) by (unfold Y; ring).
        assert (0 <= Rabs di * X) by (apply Rmult_le_pos; lra). unfold e0, P in *. lra. }
    destruct HO as (Vo & Fo & Eo).
    split; [exact Vo|]. split; [exact Fo|].
    set (B1 := q * (1 + f_gamma (n + 1)) * E + q * f_gamma (n + 1) * X + c).
    set (y := (f_real (h i) - f_real o) / di).
    pose proof (gamma_nonneg (n + 1)) as Hg.
    rewrite Ex. replace (y - (f_real (h i) - os) / di) with ((os - f_real o) / di) by (unfold y; field; exact Hdi).
      unfold Rdiv. rewrite Rabs_mult, Rabs_inv. apply (Rmult_le_reg_r (Rabs di)); [exact HD|].
      rewrite Rmult_assoc, Rinv_l, Rmult_1_r by lra.
      set (of := rsum n (fun j => f_real (off_entry (A i) i j) * f_real (f j))) in *.
      assert (Hof : Rabs (os - of) <= q * Rabs di * E).
      { unfold os, of. rewrite <- rsum_minus. apply Rle_trans with (1 := rsum_abs _ _).
        apply Rle_trans with (E * rsum n (fun j => if (j =? i)%nat then 0 else Rabs (f_real (A i j)))).
        - rewrite <- rsum_scale. apply rsum_le. intros j Hj. unfold off_entry. destruct (j =? i)%nat.
          + cbn [f_real]. rewrite Rmult_0_l, Rminus_0_r, Rabs_R0. lra.
          + replace (f_real (A i j) * xs j - f_real (A i j) * f_real (f j)) with (f_real (A i j) * (xs j - f_real (f j))) by ring.
            rewrite Rabs_mult, Rmult_comm. apply Rmult_le_compat_r; [apply Rabs_pos|]. rewrite Rabs_minus_sym. auto.
        - rewrite Rmult_comm. apply Rmult_le_compat_r; [lra|exact Hdom]. }
      replace (os - f_real o) with ((os - of) + - (f_real o - of)) by ring.
      apply Rle_trans with (1 := Rabs_triang _ _). rewrite Rabs_Ropp.
      assert (f_gamma (n + 1) * T <= f_gamma (n + 1) * (q * Rabs di * (X + E))) by (apply Rmult_le_compat_l; auto).
      unfold B1. nra.
  Qed.

  Hypothesis Hsor : s_rate n q < 1.

  Lemma s_rate_nonneg : 0 <= s_rate n q.
  Proof using D.
    destruct (dd_rate _ _ _ _ _ _ _ _ _ D) as [Hq _]. pose proof u_pos.
    apply Rmult_le_pos; [lra|apply pow_le; lra].
  Qed.

  Lemma s_step_nonneg : 0 <= s_step n X lo.
  Proof using D.
    unfold s_step. pose proof (gamma_nonneg (n + 5)). pose proof eta_pos. destruct (dd_X _ _ _ _ _ _ _ _ _ D) as [HX _].
    destruct (dd_lo _ _ _ _ _ _ _ _ _ D) as [Hl _]. pose proof u_pos.
    assert (0 <= INR n * (1 + f_u) ^ (n + 4)) by (apply Rmult_le_pos; [apply pos_INR|apply pow_le; lra]).
    assert (0 <= (3 + 2 * INR n * (1 + f_u) ^ (n + 4)) / lo).
    { apply Rmult_le_pos; [lra|apply Rlt_le, Rinv_0_lt_compat, Hl]. }
    assert (0 <= f_gamma (n + 5) * X) by (apply Rmult_le_pos; auto).
    assert (0 <= f_eta * (3 + (3 + 2 * INR n * (1 + f_u) ^ (n + 4)) / lo)) by (apply Rmult_le_pos; lra). lra.
  Qed.

  (** One row. *)
  Lemma s_row_step rs d f E i : rows_of dbg stray n a b rs d h -> srows_ok n rs ->
    (forall k, (k < n)%nat -> d k = A k k) ->
    (i < n)%nat -> 0 <= E -> finite_vec n f -> within n f xs E -> s_no_overflow n A lo X E ->
    let z := swept fops rs d h (sor_factor fops) i f in f_valid z /\ f_finite z = true /\
      Rabs (f_real z - xs i) <= s_rate n q * E + s_step n X lo.
  Proof using D Hsor.
    intros Hro Hso Hd Hi HE Hf He Hov. unfold swept. rewrite Hd by auto.
    pose proof (q_bounds n a A b h q lo xs X D) as (Hq & Hr & Hq1 & Hqp & Hqg).
    pose proof u_pos as Hu. pose proof eta_pos as Heta. pose proof eta_one as Heta1.
    destruct (dd_lo _ _ _ _ _ _ _ _ _ D) as [Hl Hlo]. specialize (Hlo i Hi).
    destruct (dd_X _ _ _ _ _ _ _ _ _ D) as [HX HXs]. specialize (HXs i Hi).
    specialize (Hov i Hi).
    pose proof (row_value rs d f E i Hro Hso Hi HE Hf He) as RV. cbv zeta in RV.
    set (di := f_real (A i i)) in *. assert (HD : 0 < Rabs di) by lra.
    assert (Hdi : di <> 0) by (intro H0; rewrite H0, Rabs_R0 in HD; lra).
    set (P := (1 + f_u) ^ n) in *. assert (HP : 1 <= P) by (apply pow_R1_Rle; lra).
    set (c := INR n * P * f_eta / lo) in *.
    assert (Hc0 : 0 <= c).
    { apply Rmult_le_pos; [|apply Rlt_le, Rinv_0_lt_compat, Hl].
      apply Rmult_le_pos; [apply Rmult_le_pos; [apply pos_INR|lra]|lra]. }
    assert (Hil : 0 < / lo) by (apply Rinv_0_lt_compat, Hl).
    assert (Hid : / Rabs di <= / lo) by (apply Rinv_le_contravar; auto).
    set (Y := 3 * X + 2 * E + c) in *. assert (HY0 : 0 <= Y) by (unfold Y; lra).
    assert (HDY0 : 0 <= Rabs di * Y) by (apply Rmult_le_pos; lra).
    assert (Hyw : 2 * X + E + c <= Y) by (unfold Y; lra).
    destruct RV as (Vo & Fo & Ey).
    { apply Rle_trans with (Rabs di * Y); [apply Rmult_le_compat_l; lra|lra]. }
    set (o := off_sum fops i (nth i rs []) f (sc_zero fops)) in *.
    set (y := (f_real (h i) - f_real o) / di) in *.
    set (B1 := q * (1 + f_gamma (n + 1)) * E + q * f_gamma (n + 1) * X + c) in *.
    assert (HB : B1 <= E + X + c).
    { unfold B1. assert (q * (1 + f_gamma (n + 1)) * E <= 1 * E) by (apply Rmult_le_compat_r; [auto|unfold f_gamma; lra]).
      assert (q * f_gamma (n + 1) * X <= 1 * X) by (apply Rmult_le_compat_r; auto). lra. }
    pose proof (near_abs _ _ _ Ey) as Hyy. pose proof (Rabs_pos y) as Hy0.
    assert (Hyle : Rabs y <= X + B1) by lra.
    pose proof (near_abs _ _ _ (He i Hi)) as Hfx. pose proof (Rabs_pos (f_real (f i))) as Hf0.
    assert (HDY : Rabs (f_real (h i) - f_real o) = Rabs di * Rabs y).
    { rewrite <- Rabs_mult. f_equal. unfold y. field. exact Hdi. }
    assert (HDYle : Rabs di * Rabs y <= Rabs di * Y) by (apply Rmult_le_compat_l; lra).
    assert (He3 : 3 * f_eta * (1 + / Rabs di) <= 3 * f_eta * (1 + / lo)) by (apply Rmult_le_compat_l; lra).
    assert (He4 : 3 * f_eta * (1 + / lo) <= 3 * 1 * (1 + / lo)) by (apply Rmult_le_compat_r; lra).
    destruct (Hf i Hi) as [Vfi Ffi]. destruct (dd_h _ _ _ _ _ _ _ _ _ D i Hi) as [Vh Fh].
    destruct (dd_A _ _ _ _ _ _ _ _ _ D i i Hi Hi) as [Vd Fd].
    destruct (new_value_sor (A i i) (h i) o (f i)) as (Vz & Fz & Ez); auto.
    { rewrite HDY. lra. }
    { fold di y. unfold Y in *. lra. }
    fold di y in Ez. split; [exact Vz|]. split; [exact Fz|].
    set (z := f_real (new_value fops (sor_factor fops) (A i i) (h i) o (f i))) in *.
    set (r := 3 / 2 * y - 1 / 2 * f_real (f i)) in *.
    replace (z - xs i) with ((z - r) + (3 / 2 * (y - xs i) + - (1 / 2) * (f_real (f i) - xs i))) by (unfold r; field).
    apply Rle_trans with (1 := Rabs_triang _ _).
    assert (T : Rabs (3 / 2 * (y - xs i) + - (1 / 2) * (f_real (f i) - xs i)) <= 3 / 2 * B1 + 1 / 2 * E).
    { apply Rle_trans with (1 := Rabs_triang _ _). rewrite !Rabs_mult, Rabs_Ropp, !(Rabs_pos_eq (_ / _)) by lra.
      specialize (He i Hi). lra. }
    pose proof (gamma_nonneg 4) as Hg4.
    assert (Hz : Rabs (z - r) <= f_gamma 4 * (3 / 2 * (X + B1) + 1 / 2 * (X + E)) + 3 * f_eta * (1 + / lo)).
    { apply Rle_trans with (1 := Ez). apply Rplus_le_compat; [|lra]. apply Rmult_le_compat_l; [exact Hg4|]. lra. }
    apply Rle_trans with ((1 + f_gamma 4) * (3 / 2 * B1 + 1 / 2 * E) + 2 * f_gamma 4 * X + 3 * f_eta * (1 + / lo)); [lra|].
    assert (G5 : (1 + f_gamma 4) * (1 + f_gamma (n + 1)) = (1 + f_u) ^ (n + 5)).
    { unfold f_gamma. replace (n + 5)%nat with (4 + (n + 1))%nat by lia. rewrite (pow_add (1 + f_u) 4 (n + 1)). ring. }
    assert (G4 : (1 + f_gamma 4) * c = f_eta * (INR n * (1 + f_u) ^ (n + 4) / lo)).
    { unfold c, P, f_gamma. replace (n + 4)%nat with (4 + n)%nat by lia. rewrite (pow_add (1 + f_u) 4 n). field. lra. }
    assert (G6 : f_gamma (n + 5) = (1 + f_u) ^ (n + 5) - 1) by reflexivity.
    assert (G7 : f_gamma 4 <= f_gamma (n + 5)) by (apply gamma_le; lia).
    assert (G8 : (1 + f_gamma 4) <= (1 + f_u) ^ (n + 5)) by (unfold f_gamma in *; lra).
    assert (Hq3 : 3 * q <= 1).
    { unfold s_rate in Hsor. assert (P1 : 1 <= (1 + f_u) ^ (n + 5)) by (apply pow_R1_Rle; lra).
      assert ((1 + 3 * q) / 2 * 1 <= (1 + 3 * q) / 2 * (1 + f_u) ^ (n + 5)) by (apply Rmult_le_compat_l; lra). lra. }
    unfold s_rate, s_step.
    replace ((1 + f_gamma 4) * (3 / 2 * B1 + 1 / 2 * E) + 2 * f_gamma 4 * X + 3 * f_eta * (1 + / lo)) with
      (3 / 2 * q * ((1 + f_gamma 4) * (1 + f_gamma (n + 1))) * E + (1 + f_gamma 4) * (1 / 2 * E) +
       (3 / 2 * q * ((1 + f_gamma 4) * (1 + f_gamma (n + 1)) - 1 - f_gamma 4) + 2 * f_gamma 4) * X +
       3 / 2 * ((1 + f_gamma 4) * c) + 3 * f_eta * (1 + / lo)) by (unfold B1; field; lra).
    rewrite G5, G4.
    assert (T1 : (1 + f_gamma 4) * (1 / 2 * E) <= (1 + f_u) ^ (n + 5) * (1 / 2 * E)) by (apply Rmult_le_compat_r; lra).
    assert (T2 : (3 / 2 * q * ((1 + f_u) ^ (n + 5) - 1 - f_gamma 4) + 2 * f_gamma 4) * X <= 2 * f_gamma (n + 5) * X).
    { apply Rmult_le_compat_r; [exact HX|]. rewrite <- G6.
      assert (3 / 2 * q * (f_gamma (n + 5) - f_gamma 4) <= 1 / 2 * (f_gamma (n + 5) - f_gamma 4)) by (apply Rmult_le_compat_r; lra).
      lra. }
    assert (T3 : 0 <= f_eta * (INR n * (1 + f_u) ^ (n + 4) / lo)).
    { apply Rmult_le_pos; [lra|]. apply Rmult_le_pos; [|lra]. apply Rmult_le_pos; [apply pos_INR|apply pow_le; lra]. }
    replace (f_eta * (3 + (3 + 2 * INR n * (1 + f_u) ^ (n + 4)) / lo)) with
      (3 * f_eta * (1 + / lo) + 2 * (f_eta * (INR n * (1 + f_u) ^ (n + 4) / lo))) by (field; lra).
    lra.
  Qed.

  Lemma s_floor_fixed : s_rate n q * s_floor n q X lo + s_step n X lo = s_floor n q X lo.
  Proof using Hsor. unfold s_floor. field. lra. Qed.

  Lemma s_floor_nonneg : 0 <= s_floor n q X lo.
  Proof using D Hsor. apply Rmult_le_pos; [apply s_step_nonneg|]. apply Rlt_le, Rinv_0_lt_compat. lra. Qed.

  Lemma s_no_overflow_le E E' : E' <= E -> s_no_overflow n A lo X E -> s_no_overflow n A lo X E'.
  Proof using Type.
    intros H Ho i Hi. specialize (Ho i Hi). apply Rle_trans with (2 := Ho).
    apply Rplus_le_compat_r, Rmult_le_compat_l; [pose proof (Rabs_pos (f_real (A i i))); lra|]. lra.
  Qed.

  Lemma sor_float x w f E : is_vec n x f -> finite_vec n f -> s_floor n q X lo <= E -> within n f xs E ->
    s_no_overflow n A lo X E ->
    exists x' f', sor_step fops dbg stray a b (x, w) = Ok (x', w) /\ is_vec n x' f' /\ finite_vec n f' /\
      within n f' xs (s_rate n q * E + s_step n X lo).
  Proof using D Hsor.
    intros Hx Hf HE He Ho. destruct (doubles_rows dbg stray n a A b h q lo xs X D) as (rs & d & Hro & Hso & Hd).
    destruct (seidel_sweep_ok fops dbg stray n a b rs d h x f (sor_factor fops) Hro Hx) as (x' & z & Es & Hx' & Hz).
    exists x', z. unfold sor_step. cbn [fst snd]. rewrite Es. split; [reflexivity|]. split; [exact Hx'|].
    pose proof s_floor_fixed as HF. pose proof s_floor_nonneg as HF0.
    assert (HE' : s_rate n q * E + s_step n X lo <= E).
    { assert ((1 - s_rate n q) * s_floor n q X lo <= (1 - s_rate n q) * E) by (apply Rmult_le_compat_l; lra). lra. }
    assert (G : forall i, (i < n)%nat -> f_valid (z i) /\ f_finite (z i) = true /\
      Rabs (f_real (z i) - xs i) <= s_rate n q * E + s_step n X lo).
    { intro i. induction i as [i IH] using lt_wf_ind. intro Hi. rewrite Hz by auto.
      apply (s_row_step rs d _ E i); auto; [lra|..].
      - intros j Hj. destruct (Nat.ltb_spec j i) as [L|L]; [|auto]. destruct (IH j L Hj) as (V & F & _). auto.
      - intros j Hj. destruct (Nat.ltb_spec j i) as [L|L]; [|auto]. destruct (IH j L Hj) as (_ & _ & B). lra. }
    split; intros i Hi; destruct (G i Hi) as (V & F & B); [split; [exact V|exact F]|exact B].
  Qed.

  (** The level of the error after k sweeps. *)
  Definition s_level (E0 : R) (k : nat) : R := s_floor n q X lo + s_rate n q ^ k * E0.

  Lemma s_level_step E0 k : s_rate n q * s_level E0 k + s_step n X lo = s_level E0 (S k).
  Proof using Hsor. unfold s_level. pose proof s_floor_fixed. cbn [pow]. lra. Qed.

  Lemma s_level_bounds E0 k : 0 <= E0 -> s_floor n q X lo <= s_level E0 k <= s_level E0 0.
  Proof using D Hsor.
    intro H. unfold s_level. pose proof s_rate_nonneg as H0.
    assert (P0 : 0 <= s_rate n q ^ k) by (apply pow_le; auto).
    assert (P1 : s_rate n q ^ k <= 1) by (rewrite <- (pow1 k); apply pow_incr; lra).
    assert (0 <= s_rate n q ^ k * E0) by (apply Rmult_le_pos; auto).
    assert (s_rate n q ^ k * E0 <= 1 * E0) by (apply Rmult_le_compat_r; auto). cbn [pow]. lra.
  Qed.

  Lemma sor_float_times x f w E0 k : is_vec n x f -> finite_vec n f -> 0 <= E0 ->
    within n f xs (s_level E0 0) -> s_no_overflow n A lo X (s_level E0 0) ->
    exists x' f', times (sor_step fops dbg stray a b) k (x, w) = Ok (x', w) /\ is_vec n x' f' /\
      finite_vec n f' /\ within n f' xs (s_level E0 k).
  Proof using D Hsor.
    intros Hx Hf HE He Ho. induction k as [|k (x' & f' & E & Hx' & Hf' & He')].
    - exists x, f. split; [reflexivity|auto].
    - destruct (s_level_bounds E0 k HE) as [L1 L2].
      destruct (sor_float x' w f' (s_level E0 k)) as (y & g & Ey & Hy & Hg & Heg); auto.
      { apply s_no_overflow_le with (2 := Ho). exact L2. }
      exists y, g. cbn [times]. rewrite E. cbn [bind]. rewrite s_level_step in Heg. auto.
  Qed.
End Dominant.
