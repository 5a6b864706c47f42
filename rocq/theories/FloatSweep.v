(** Rounding errors of the sweeps of Jacobi and Gauss-Seidel in double precision. *)
From Coq Require Import ZArith Reals Lra Lia List Sorted SpecFloat Psatz.
From Flocq Require Import Core BinarySingleNaN.
From Verif Require Import Base ListFacts DenseModel DenseFacts ScalarModel GeometryReal SparseModel SparseSpec
  SparseFacts SparseSeq LuReal IterModel IterFacts IterLoop IterField IterReal FloatFacts FloatError IterFloat
  PropFloatLemmas FloatUnit PropIterLemmas LuSuccess SparseMul.
Import ListNotations.
Local Open Scope R_scope.

Local Notation rnd := (round radix2 (FLT_exp (-1074) 53) ZnearestE).

Lemma f_sub_error x y : f_valid x -> f_valid y -> f_finite (SFsub 53 1024 x y) = true ->
  exists d, Rabs d <= f_u /\ f_real (SFsub 53 1024 x y) = (f_real x - f_real y) * (1 + d).
Proof.
  intros Hx Hy Hf. destruct (f_sub_round x y Hx Hy Hf) as (Fx & Fy & E). rewrite E.
  destruct (valid_SF2B x Hx) as (a & _ & <- & _), (valid_SF2B y Hy) as (b & _ & <- & _).
  destruct (rnd_plus a (Bopp b)) as (d & Hd & Ed). exists d. split; [exact Hd|].
  rewrite B2R_Bopp in Ed. exact Ed.
Qed.

Lemma f_sub_finite x y : f_valid x -> f_valid y -> f_finite x = true -> f_finite y = true ->
  Rabs (f_real x - f_real y) <= f_limit -> f_finite (SFsub 53 1024 x y) = true.
Proof.
  intros Hx Hy. destruct (valid_SF2B x Hx) as (a & <- & <- & <-), (valid_SF2B y Hy) as (b & <- & <- & <-). intros Fa Fb H.
  rewrite sub_equiv, B2SF_finite. pose proof (Bminus_correct 53 1024 Hprec Hmax mode_NE a b Fa Fb) as C.
  rewrite (rnd_below _ H) in C. apply C.
Qed.

Lemma rnd_real x : f_valid x -> rnd (f_real x) = f_real x.
Proof.
  intro Hx. destruct (valid_SF2B x Hx) as (a & _ & <- & _). apply round_generic; [apply valid_rnd_N|apply B2R_format].
Qed.

Lemma one_real : f_real (f_of_Z 1) = 1.
Proof. vm_compute (f_of_Z 1). cbn [f_real]. change (-52)%Z with (- Z.of_nat 52)%Z. rewrite powerRZ_neg', <- pow_powerRZ. field_simplify; [|lra..]; lra. Qed.

(** One new value with the factor 1. *)
Lemma new_value_one d b o x : f_valid d -> f_valid b -> f_valid o -> f_valid x ->
  f_finite d = true -> f_finite b = true -> f_finite o = true -> f_finite x = true -> f_real d <> 0 ->
  (1 + f_u) * Rabs (f_real b - f_real o) <= f_limit ->
  (1 + f_u) ^ 2 * Rabs ((f_real b - f_real o) / f_real d) + f_eta <= f_limit ->
  let z := new_value fops (sc_one fops) d b o x in f_valid z /\ f_finite z = true /\
    Rabs (f_real z - (f_real b - f_real o) / f_real d) <= f_gamma 2 * Rabs ((f_real b - f_real o) / f_real d) + f_eta.
Proof.
  intros Vd Vb Vo Vx Fd Fb Fo Fx Hd H1 H2 z. unfold z, new_value. cbn [fops sc_one sc_add sc_mul sc_sub sc_div].
  pose proof u_pos as Hu. pose proof eta_pos as He.
  set (p := f_real b - f_real o) in *. set (y := p / f_real d) in *.
  assert (V1 : f_valid (f_of_Z 1)) by reflexivity.
  assert (F1 : f_finite (f_of_Z 1) = true) by reflexivity.
  assert (Hp0 : 0 <= Rabs p) by apply Rabs_pos. assert (Hy0 : 0 <= Rabs y) by apply Rabs_pos.
  set (s := SFsub 53 1024 b o). assert (Vs : f_valid s) by (apply f_sub_valid; auto).
  assert (Fs : f_finite s = true) by (apply f_sub_finite; auto; fold p; nra).
  destruct (f_sub_error b o Vb Vo Fs) as (e & Hde & Es). fold s p in Es.
  assert (Hs : Rabs (f_real s) <= (1 + f_u) * Rabs p).
  { rewrite Es, Rabs_mult, Rmult_comm. apply Rmult_le_compat_r; [auto|].
    apply Rle_trans with (1 := Rabs_triang _ _). rewrite Rabs_R1. lra. }
  set (v := SFmul 53 1024 (f_of_Z 1) s). assert (Vv : f_valid v) by (apply f_mul_valid; auto).
  assert (Fv : f_finite v = true) by (apply f_mul_finite; auto; rewrite one_real, Rmult_1_l; lra).
  assert (Ev : f_real v = f_real s).
  { destruct (f_mul_round _ _ V1 Vs Fv) as (_ & _ & E). fold v in E. rewrite E, one_real, Rmult_1_l. apply rnd_real, Vs. }
  assert (Eq : f_real v / f_real d = y * (1 + e)) by (rewrite Ev, Es; unfold y; field; exact Hd).
  assert (Hq : Rabs (y * (1 + e)) <= (1 + f_u) * Rabs y).
  { rewrite Rabs_mult, Rmult_comm. apply Rmult_le_compat_r; [auto|].
    apply Rle_trans with (1 := Rabs_triang _ _). rewrite Rabs_R1. lra. }
  set (q := SFdiv 53 1024 v d). assert (Vq : f_valid q) by (apply f_div_valid; auto).
  assert (Fq : f_finite q = true).
  { apply f_div_finite; auto. rewrite Eq. apply Rle_trans with (1 := Hq). nra. }
  destruct (operations_error v d Vv Vd) as (_ & _ & _ & Hdiv & _). destruct (Hdiv Fd Fq) as (_ & _ & Eqq).
  fold q in Eqq. rewrite Eq in Eqq.
  assert (Hqq : Rabs (f_real q) <= (1 + f_u) ^ 2 * Rabs y + f_eta).
  { replace (f_real q) with ((f_real q - y * (1 + e)) + y * (1 + e)) by ring.
    apply Rle_trans with (1 := Rabs_triang _ _). nra. }
  assert (Ez : exists g, SFmul 53 1024 (SFsub 53 1024 (f_of_Z 1) (f_of_Z 1)) x = S754_zero g).
  { replace (SFsub 53 1024 (f_of_Z 1) (f_of_Z 1)) with (S754_zero false) by (vm_compute; reflexivity).
    destruct x; try discriminate Fx; eexists; reflexivity. }
  destruct Ez as (g & ->).
  assert (Vz : f_valid (S754_zero g)) by reflexivity.
  assert (Fr : f_finite (SFadd 53 1024 q (S754_zero g)) = true).
  { apply f_add_finite; auto. cbn [f_real]. rewrite Rplus_0_r. lra. }
  split; [apply f_add_valid; auto|]. split; [exact Fr|].
  destruct (f_add_round _ _ Vq Vz Fr) as (_ & _ & ->). cbn [f_real]. rewrite Rplus_0_r, rnd_real by auto.
  replace (f_real q - y) with ((f_real q - y * (1 + e)) + y * e) by ring.
  apply Rle_trans with (1 := Rabs_triang _ _). rewrite (Rabs_mult y e).
  assert (Rabs y * Rabs e <= Rabs y * f_u) by (apply Rmult_le_compat_l; auto).
  unfold f_gamma. nra.
Qed.

(** The sum beside the diagonal. *)
Definition off_entry (Ar : nat -> f64) (i j : nat) : f64 := if (j =? i)%nat then S754_zero false else Ar j.

Lemma off_sum_full {S} (O : sops S) i es f s :
  off_sum O i es f s = full_sum O (filter (fun e => negb (fst e =? i)%nat) es) f s.
Proof.
  revert s; induction es as [|e es IH]; intro s; [reflexivity|]. unfold off_sum, full_sum. cbn [fold_left filter].
  destruct (fst e =? i)%nat; cbn [negb fold_left]; apply IH.
Qed.

Lemma filter_sorted (P : nat * f64 -> bool) es : StronglySorted lt (map fst es) -> StronglySorted lt (map fst (filter P es)).
Proof.
  induction es as [|e es IH]; intro H; [constructor|]. cbn [filter map] in *. inversion H as [|? ? H1 H2]; subst.
  destruct (P e); [|auto]. cbn [map]. constructor; [auto|]. rewrite Forall_forall in *. intros j Hj.
  apply in_map_iff in Hj as (e' & <- & Hj). apply filter_In in Hj as [Hj _]. apply H2, in_map, Hj.
Qed.

Lemma off_error n (es : list (nat * f64)) (Ar f : nat -> f64) i :
  StronglySorted lt (map fst es) -> (forall j, In j (map fst es) -> (j < n)%nat) ->
  (forall j v, In (j, v) es -> Ar j = v) -> (forall j, ~ In j (map fst es) -> Ar j = S754_zero false) ->
  (forall j, (j < n)%nat -> f_valid (Ar j) /\ f_finite (Ar j) = true) ->
  (forall j, (j < n)%nat -> f_valid (f j) /\ f_finite (f j) = true) ->
  let T := rsum n (fun j => Rabs (f_real (off_entry Ar i j) * f_real (f j))) in
  (1 + f_u) ^ (n + 1) * T + INR n * (1 + f_u) ^ n * f_eta <= f_limit ->
  let r := off_sum fops i es f (S754_zero false) in f_valid r /\ f_finite r = true /\
    Rabs (f_real r - rsum n (fun j => f_real (off_entry Ar i j) * f_real (f j))) <=
      f_gamma (n + 1) * T + INR n * (1 + f_u) ^ n * f_eta.
Proof.
  intros Hs Hlt Hin Hout HA Hf T HT r. unfold r. rewrite off_sum_full. set (es' := filter _ es).
  assert (Hs' : StronglySorted lt (map fst es')) by (apply filter_sorted, Hs).
  assert (Hlt' : forall j, In j (map fst es') -> (j < n)%nat).
  { intros j Hj. apply in_map_iff in Hj as (e & <- & He). apply filter_In in He as [He _]. apply Hlt, in_map, He. }
  assert (Hin' : forall j v, In (j, v) es' -> off_entry Ar i j = v).
  { intros j v Hj. apply filter_In in Hj as [Hj Hn]. cbn [fst] in Hn. unfold off_entry.
    destruct (j =? i)%nat; [discriminate|]. apply Hin, Hj. }
  assert (Hout' : forall j, ~ In j (map fst es') -> off_entry Ar i j = S754_zero false).
  { intros j Hj. unfold off_entry. destruct (Nat.eqb_spec j i) as [|Hne]; [reflexivity|]. apply Hout. intro H. apply Hj.
    apply in_map_iff in H as (e & <- & He). apply in_map, filter_In. split; [exact He|].
    destruct (Nat.eqb_spec (fst e) i); [lia|reflexivity]. }
  assert (HA' : forall j, (j < n)%nat -> f_valid (off_entry Ar i j) /\ f_finite (off_entry Ar i j) = true).
  { intros j Hj. unfold off_entry. destruct (j =? i)%nat; [split; reflexivity|auto]. }
  destruct (row_error n es' (off_entry Ar i) f Hs' Hlt' Hin' Hout' (fun j Hj => proj1 (HA' j Hj)) (fun j Hj => proj1 (Hf j Hj)))
    as [V E].
  assert (F : f_finite (full_sum fops es' f (S754_zero false)) = true); [|split; [exact V|split; [exact F|exact (E F)]]].
  rewrite full_sum_fsum. set (k := length es').
  assert (Hk : (k <= n)%nat).
  { unfold k. rewrite <- (map_length fst es'), <- (seq_length n 0). apply NoDup_incl_length.
    - clear - Hs'. induction (map fst es') as [|j l IH]; constructor; inversion Hs'; subst.
      + intro H. rewrite Forall_forall in H2. specialize (H2 _ H). lia.
      + apply IH; auto.
    - intros j Hj. apply in_seq. specialize (Hlt' j Hj). lia. }
  assert (Hent : forall t, (t < k)%nat -> (f_valid (snd (entry t es')) /\ f_finite (snd (entry t es')) = true) /\ (fst (entry t es') < n)%nat).
  { intros t Ht. assert (H : In (entry t es') es') by (apply nth_In, Ht). destruct (entry t es') as [j v] eqn:Ee.
    assert (Hj : (j < n)%nat) by (apply Hlt'; apply in_map_iff; exists (j, v); auto).
    cbn [fst snd]. split; [|exact Hj]. rewrite <- (Hin' j v H). apply HA', Hj. }
  apply (inner_finite k (fun t => snd (entry t es')) (fun t => f (fst (entry t es')))).
  { intros t Ht. apply Hent, Ht. }
  { intros t Ht. apply Hf, Hent, Ht. }
  unfold inner_bound.
  pose proof (entries_sum n es' (off_entry Ar i) (fun j v => Rabs (f_real v * f_real (f j))) Hs' Hlt' Hin' Hout') as E2.
  cbv beta in E2. fold k in E2. rewrite E2 by (intro; cbn [f_real]; rewrite Rmult_0_l; apply Rabs_R0). fold T.
  pose proof u_pos. pose proof eta_pos. apply Rle_trans with (2 := HT).
  assert (T0 : 0 <= T) by (apply rsum_nonneg; intros; apply Rabs_pos).
  pose proof (gamma_le (k + 1) (n + 1) ltac:(lia)) as Hg.
  assert (INR k * (1 + f_u) ^ k * f_eta <= INR n * (1 + f_u) ^ n * f_eta).
  { apply Rmult_le_compat_r; [lra|]. apply Rmult_le_compat; [apply pos_INR|apply pow_le; lra|apply le_INR, Hk|apply Rle_pow; [lra|lia]]. }
  assert (f_gamma (k + 1) * T <= f_gamma (n + 1) * T) by (apply Rmult_le_compat_r; auto).
  unfold f_gamma in *. lra.
Qed.

(* ------------------------------------------------------------------ dominant systems *)
(** The factor of one sweep, the error a sweep adds and the level the error sinks to. *)
Definition f_rate (n : nat) (q : R) : R := q * (1 + f_u) ^ (n + 3).
Definition f_step (n : nat) (X lo : R) : R := f_gamma (n + 3) * X + f_eta * (1 + INR n * (1 + f_u) ^ (n + 2) / lo).
Definition f_floor (n : nat) (q X lo : R) : R := f_step n X lo / (1 - f_rate n q).

(** A system of finite doubles with dominant rows: the sum of the absolute values beside the diagonal is at most
    q times the one on the diagonal, [xs] is the exact solution and [X], [lo] bound it and the diagonal. *)
Record dominant_doubles (n : nat) (a : smat f64) (A : nat -> nat -> f64) (b : list f64) (h : nat -> f64)
    (q lo : R) (xs : nat -> R) (X : R) : Prop := {
  dd_square : sparse_square (S754_zero false) n a A;
  dd_rhs : is_vec n b h;
  dd_A : forall i j, (i < n)%nat -> (j < n)%nat -> f_valid (A i j) /\ f_finite (A i j) = true;
  dd_h : forall i, (i < n)%nat -> f_valid (h i) /\ f_finite (h i) = true;
  dd_rate : 0 <= q /\ f_rate n q < 1;
  dd_lo : 0 < lo /\ forall i, (i < n)%nat -> lo <= Rabs (f_real (A i i));
  dd_dom : forall i, (i < n)%nat ->
    rsum n (fun j => if (j =? i)%nat then 0 else Rabs (f_real (A i j))) <= q * Rabs (f_real (A i i));
  dd_sol : forall i, (i < n)%nat -> rsum n (fun j => f_real (A i j) * xs j) = f_real (h i);
  dd_X : 0 <= X /\ forall i, (i < n)%nat -> Rabs (xs i) <= X
}.

(** No operation overflows while the errors are at most [E]. *)
Definition no_overflow n (A : nat -> nat -> f64) lo X E : Prop :=
  forall i, (i < n)%nat ->
    2 * (Rabs (f_real (A i i)) + 1) * (2 * X + E + INR n * (1 + f_u) ^ n * f_eta / lo) + 1 <= f_limit.

Definition finite_vec n (f : nat -> f64) : Prop := forall i, (i < n)%nat -> f_valid (f i) /\ f_finite (f i) = true.
Definition within n (f : nat -> f64) (xs : nat -> R) (E : R) : Prop :=
  forall i, (i < n)%nat -> Rabs (f_real (f i) - xs i) <= E.

Section Dominant.
  Variables (dbg : bool) (stray : option nat).
  Variables (n : nat) (a : smat f64) (A : nat -> nat -> f64) (b : list f64) (h : nat -> f64).
  Variables (q lo : R) (xs : nat -> R) (X : R).
  Hypothesis D : dominant_doubles n a A b h q lo xs X.

  Lemma q_bounds : 0 <= q /\ q * (1 + f_u) ^ (n + 3) < 1 /\ q < 1 /\ q * (1 + f_u) ^ (n + 1) <= 1 /\ q * f_gamma (n + 1) <= 1.
  Proof using D.
    destruct (dd_rate _ _ _ _ _ _ _ _ _ D) as [Hq Hr]. unfold f_rate in Hr. pose proof u_pos as Hu.
    assert (P1 : 1 <= (1 + f_u) ^ (n + 1)) by (apply pow_R1_Rle; lra).
    assert (P3 : (1 + f_u) ^ (n + 1) <= (1 + f_u) ^ (n + 3)) by (apply Rle_pow; [lra|lia]).
    assert (q * 1 <= q * (1 + f_u) ^ (n + 1)) by (apply Rmult_le_compat_l; auto).
    assert (q * (1 + f_u) ^ (n + 1) <= q * (1 + f_u) ^ (n + 3)) by (apply Rmult_le_compat_l; auto).
    unfold f_gamma. repeat split; lra.
  Qed.

  Lemma step_nonneg : 0 <= f_step n X lo.
  Proof using D.
    unfold f_step. pose proof (gamma_nonneg (n + 3)). pose proof eta_pos. destruct (dd_X _ _ _ _ _ _ _ _ _ D) as [HX _].
    destruct (dd_lo _ _ _ _ _ _ _ _ _ D) as [Hl _]. pose proof u_pos.
    assert (0 <= INR n * (1 + f_u) ^ (n + 2) / lo).
    { apply Rmult_le_pos; [apply Rmult_le_pos; [apply pos_INR|apply pow_le; lra]|apply Rlt_le, Rinv_0_lt_compat, Hl]. }
    assert (0 <= f_gamma (n + 3) * X) by (apply Rmult_le_pos; auto).
    assert (0 <= f_eta * (1 + INR n * (1 + f_u) ^ (n + 2) / lo)) by (apply Rmult_le_pos; lra). lra.
  Qed.

  (** One row. *)
  Lemma row_step rs d f E i : rows_of dbg stray n a b rs d h -> srows_ok n rs ->
    (forall k, (k < n)%nat -> d k = A k k) ->
    (i < n)%nat -> 0 <= E -> finite_vec n f -> within n f xs E -> no_overflow n A lo X E ->
    let z := swept fops rs d h (sc_one fops) i f in f_valid z /\ f_finite z = true /\
      Rabs (f_real z - xs i) <= f_rate n q * E + f_step n X lo.
  Proof using D.
    intros Hro Hso Hd Hi HE Hf He Hov. unfold swept. rewrite Hd by auto.
    pose proof q_bounds as (Hq & Hr & Hq1 & Hqp & Hqg). pose proof u_pos as Hu. pose proof eta_pos as Heta.
    destruct (dd_lo _ _ _ _ _ _ _ _ _ D) as [Hl Hlo]. specialize (Hlo i Hi).
    destruct (dd_X _ _ _ _ _ _ _ _ _ D) as [HX HXs].
    destruct (dd_square _ _ _ _ _ _ _ _ _ D) as (Hw & Hrow & Hc & HA).
    set (di := f_real (A i i)) in *. assert (HD : 0 < Rabs di) by lra.
    assert (Hdi : di <> 0) by (intro H0; rewrite H0, Rabs_R0 in HD; lra).
    specialize (Hov i Hi). fold di in Hov.
    set (P := (1 + f_u) ^ n) in *. assert (HP : 1 <= P) by (apply pow_R1_Rle; lra).
    set (e0 := INR n * P * f_eta) in *.
    assert (He0 : 0 <= e0) by (apply Rmult_le_pos; [apply Rmult_le_pos; [apply pos_INR|lra]|lra]).
    set (c := e0 / lo) in *. assert (Hc0 : 0 <= c) by (apply Rmult_le_pos; [auto|apply Rlt_le, Rinv_0_lt_compat, Hl]).
    assert (Hce : e0 <= Rabs di * c).
    { replace e0 with (lo * c) by (unfold c; field; lra). apply Rmult_le_compat_r; auto. }
    set (Y := 2 * X + E + c) in *. assert (HY0 : 0 <= Y) by (unfold Y; lra).
    assert (HDY0 : 0 <= Rabs di * Y) by (apply Rmult_le_pos; lra).
    assert (HDl : Rabs di * Y <= f_limit) by lra.
    (* the row *)
    set (os := rsum n (fun j => if (j =? i)%nat then 0 else f_real (A i j) * xs j)).
    assert (Ex : xs i = (f_real (h i) - os) / di).
    { assert (Eh : f_real (h i) = di * xs i + os).
      { rewrite <- (dd_sol _ _ _ _ _ _ _ _ _ D i Hi). unfold os. rewrite (rsum_out n i) by auto. reflexivity. }
      rewrite Eh. field. exact Hdi. }
    assert (HW : forall j, (j < n)%nat -> Rabs (f_real (f j)) <= X + E).
    { intros j Hj. replace (f_real (f j)) with (xs j + (f_real (f j) - xs j)) by ring.
      apply Rle_trans with (1 := Rabs_triang _ _). specialize (HXs j Hj). specialize (He j Hj). lra. }
    set (T := rsum n (fun j => Rabs (f_real (off_entry (A i) i j) * f_real (f j)))).
    assert (T0 : 0 <= T) by (apply rsum_nonneg; intros; apply Rabs_pos).
    assert (Hdom := dd_dom _ _ _ _ _ _ _ _ _ D i Hi). fold di in Hdom.
    assert (HT : T <= q * Rabs di * (X + E)).
    { apply Rle_trans with ((X + E) * rsum n (fun j => if (j =? i)%nat then 0 else Rabs (f_real (A i j)))).
      - rewrite <- rsum_scale. apply rsum_le. intros j Hj. unfold off_entry. destruct (j =? i)%nat.
        + cbn [f_real]. rewrite Rmult_0_l, Rabs_R0. lra.
        + rewrite Rabs_mult, Rmult_comm. apply Rmult_le_compat_r; [apply Rabs_pos|auto].
      - rewrite Rmult_comm. apply Rmult_le_compat_r; [lra|exact Hdom]. }
    assert (Hes : forall j v, In (j, v) (nth i rs []) <-> stored a i j v).
    { intros j v. symmetry. apply (srepr_stored _ _ _ _ _ (ro_repr _ _ _ _ _ _ _ _ Hro)). }
    set (o := off_sum fops i (nth i rs []) f (sc_zero fops)).
    assert (HO : f_valid o /\ f_finite o = true /\
      Rabs (f_real o - rsum n (fun j => f_real (off_entry (A i) i j) * f_real (f j))) <= f_gamma (n + 1) * T + e0).
    { apply (off_error n (nth i rs []) (A i) f i).
      - apply Hso. rewrite (ro_len _ _ _ _ _ _ _ _ Hro). exact Hi.
      - intros j Hj. exact (ro_cols _ _ _ _ _ _ _ _ Hro i j Hi Hj).
      - intros j v Hj. apply (proj1 (HA i j)), Hes, Hj.
      - intros j Hj. apply (proj2 (HA i j)). intros v Hv. apply Hj. apply Hes in Hv. apply (in_map fst) in Hv. exact Hv.
      - intros j Hj. apply (dd_A _ _ _ _ _ _ _ _ _ D); auto.
      - exact Hf.
      - fold T e0. assert ((1 + f_u) ^ (n + 1) * T <= Rabs di * (X + E)).
        { apply Rle_trans with ((1 + f_u) ^ (n + 1) * (q * Rabs di * (X + E))).
          - apply Rmult_le_compat_l; [apply pow_le; lra|exact HT].
          - apply Rle_trans with ((q * (1 + f_u) ^ (n + 1)) * (Rabs di * (X + E))); [right; ring|].
            rewrite <- (Rmult_1_l (Rabs di * (X + E))) at 2. apply Rmult_le_compat_r; [|exact Hqp].
            apply Rmult_le_pos; lra. }
        apply Rle_trans with (2 := HDl). replace (Rabs di * Y) with (Rabs di * (X + E) + Rabs di * X + Rabs di * c) by (unfold Y; ring).
        assert (0 <= Rabs di * X) by (apply Rmult_le_pos; lra). unfold e0, P in *. lra. }
    destruct HO as (Vo & Fo & Eo).
    set (B1 := q * (1 + f_gamma (n + 1)) * E + q * f_gamma (n + 1) * X + c).
    set (y := (f_real (h i) - f_real o) / di).
    pose proof (gamma_nonneg (n + 1)) as Hg.
    assert (Hy : Rabs (y - xs i) <= B1).
    { rewrite Ex. replace (y - (f_real (h i) - os) / di) with ((os - f_real o) / di) by (unfold y; field; exact Hdi).
      unfold Rdiv. rewrite Rabs_mult, Rabs_inv. apply (Rmult_le_reg_r (Rabs di)); [exact HD|].
      rewrite Rmult_assoc, Rinv_l, Rmult_1_r by lra.
      set (of := rsum n (fun j => f_real (off_entry (A i) i j) * f_real (f j))) in *.
      assert (Hof : Rabs (os - of) <= q * Rabs di * E).
      { unfold os, of. rewrite <- rsum_minus. apply Rle_trans with (1 := rsum_abs _ _).
        apply Rle_trans with (E * rsum n (fun j => if (j =? i)%nat then 0 else Rabs (f_real (A i j)))).
        - rewrite <- rsum_scale. apply rsum_le. intros j Hj. unfold off_entry. destruct (j =? i)%nat.
          + cbn [f_real]. rewrite Rmult_0_l, Rminus_0_r, Rabs_R0. lra.
          + replace (f_real (A i j) * xs j - f_real (A i j) * f_real (f j)) with (f_real (A i j) * (xs j - f_real (f j))) by ring.
            rewrite Rabs_mult, Rmult_comm. apply Rmult_le_compat_r; [apply Rabs_pos|]. rewrite Rabs_minus_sym. auto.
        - rewrite Rmult_comm. apply Rmult_le_compat_r; [lra|exact Hdom]. }
      replace (os - f_real o) with ((os - of) + - (f_real o - of)) by ring.
      apply Rle_trans with (1 := Rabs_triang _ _). rewrite Rabs_Ropp.
      assert (f_gamma (n + 1) * T <= f_gamma (n + 1) * (q * Rabs di * (X + E))) by (apply Rmult_le_compat_l; auto).
      unfold B1. nra. }
    assert (HB : B1 <= E + X + c).
    { unfold B1. assert (q * (1 + f_gamma (n + 1)) * E <= 1 * E) by (apply Rmult_le_compat_r; [auto|unfold f_gamma; lra]).
      assert (q * f_gamma (n + 1) * X <= 1 * X) by (apply Rmult_le_compat_r; auto). lra. }
    assert (Hyy : Rabs y <= X + B1).
    { replace y with (xs i + (y - xs i)) by ring. apply Rle_trans with (1 := Rabs_triang _ _). specialize (HXs i Hi). lra. }
    assert (HY : Rabs y <= Y) by (unfold Y; lra).
    pose proof (Rabs_pos y) as Hy0. pose proof u_small as Hu4.
    assert (HDY : Rabs (f_real (h i) - f_real o) = Rabs di * Rabs y).
    { rewrite <- Rabs_mult. f_equal. unfold y. field. exact Hdi. }
    assert (HDYle : Rabs di * Rabs y <= Rabs di * Y) by (apply Rmult_le_compat_l; lra).
    assert (HDy0 : 0 <= Rabs di * Rabs y) by (apply Rmult_le_pos; lra).
    assert (Heta1 : f_eta <= 1).
    { unfold f_eta. rewrite <- Rinv_1. apply Rinv_le_contravar; [lra|]. apply pow_R1_Rle. lra. }
    destruct (Hf i Hi) as [Vfi Ffi]. destruct (dd_h _ _ _ _ _ _ _ _ _ D i Hi) as [Vh Fh].
    destruct (dd_A _ _ _ _ _ _ _ _ _ D i i Hi Hi) as [Vd Fd].
    destruct (new_value_one (A i i) (h i) o (f i)) as (Vz & Fz & Ez); auto.
    { rewrite HDY. assert ((1 + f_u) * (Rabs di * Rabs y) <= 2 * (Rabs di * Rabs y)) by (apply Rmult_le_compat_r; lra). lra. }
    { fold di y. assert ((1 + f_u) ^ 2 * Rabs y <= 2 * Rabs y) by (apply Rmult_le_compat_r; [lra|]; nra). lra. }
    fold di y in Ez. split; [exact Vz|]. split; [exact Fz|].
    set (z := f_real (new_value fops (sc_one fops) (A i i) (h i) o (f i))) in *.
    replace (z - xs i) with ((z - y) + (y - xs i)) by ring. apply Rle_trans with (1 := Rabs_triang _ _).
    pose proof (gamma_nonneg 2) as Hg2.
    assert (Hzy : Rabs (z - y) <= f_gamma 2 * (X + B1) + f_eta).
    { apply Rle_trans with (1 := Ez). apply Rplus_le_compat_r, Rmult_le_compat_l; auto. }
    apply Rle_trans with ((1 + f_gamma 2) * B1 + f_gamma 2 * X + f_eta); [lra|].
    assert (G3 : (1 + f_gamma 2) * (1 + f_gamma (n + 1)) = (1 + f_u) ^ (n + 3)).
    { unfold f_gamma. replace (n + 3)%nat with (2 + (n + 1))%nat by lia. rewrite (pow_add (1 + f_u) 2 (n + 1)). ring. }
    assert (G4 : (1 + f_gamma 2) * c = f_eta * (INR n * (1 + f_u) ^ (n + 2) / lo)).
    { unfold c, e0, P, f_gamma. replace (n + 2)%nat with (2 + n)%nat by lia. rewrite (pow_add (1 + f_u) 2 n). field. lra. }
    assert (G5 : f_gamma (n + 3) = (1 + f_u) ^ (n + 3) - 1) by reflexivity.
    assert (G6 : f_gamma 2 <= f_gamma (n + 3)) by (apply gamma_le; lia).
    unfold f_rate, f_step.
    replace ((1 + f_gamma 2) * B1 + f_gamma 2 * X + f_eta) with
      (q * ((1 + f_gamma 2) * (1 + f_gamma (n + 1))) * E +
       (q * ((1 + f_gamma 2) * (1 + f_gamma (n + 1)) - 1) + (1 - q) * f_gamma 2) * X + f_eta + (1 + f_gamma 2) * c)
      by (unfold B1; ring).
    rewrite G3, G4, <- G5.
    assert ((q * f_gamma (n + 3) + (1 - q) * f_gamma 2) * X <= f_gamma (n + 3) * X); [|lra].
    apply Rmult_le_compat_r; [exact HX|].
    assert ((1 - q) * f_gamma 2 <= (1 - q) * f_gamma (n + 3)) by (apply Rmult_le_compat_l; lra). lra.
  Qed.

  Lemma doubles_rows : exists rs d, rows_of dbg stray n a b rs d h /\ srows_ok n rs /\
    forall k, (k < n)%nat -> d k = A k k.
  Proof using D.
    destruct (dd_square _ _ _ _ _ _ _ _ _ D) as (Hw & Hr & Hc & HA). pose proof (dd_rhs _ _ _ _ _ _ _ _ _ D) as Hb.
    destruct (dd_lo _ _ _ _ _ _ _ _ _ D) as [Hl Hlo].
    assert (Hst : forall i, (i < n)%nat -> stored a i i (A i i)).
    { intros i Hi. destruct (stored_dec a i i Hw) as [(v & Hv)|Hn].
      - rewrite (proj1 (HA i i) v Hv). exact Hv.
      - specialize (Hlo i Hi). rewrite (proj2 (HA i i) Hn) in Hlo. cbn [f_real] in Hlo. rewrite Rabs_R0 in Hlo. lra. }
    destruct (system_rows fops dbg stray n a b) as (rs & d & Hro & Hs & Hdi).
    { split; [auto|]. split; [auto|]. split; [auto|]. split; [apply Hb|]. eauto. }
    exists rs, d. split; [destruct Hro; constructor; auto|]. split; [exact Hs|].
    intros k Hk. symmetry. apply (proj1 (HA k k)), Hdi, Hk.
  Qed.

  Lemma floor_fixed : f_rate n q * f_floor n q X lo + f_step n X lo = f_floor n q X lo.
  Proof using D. destruct (dd_rate _ _ _ _ _ _ _ _ _ D) as [_ Hr]. unfold f_floor. field. lra. Qed.

  Lemma floor_nonneg : 0 <= f_floor n q X lo.
  Proof using D.
    destruct (dd_rate _ _ _ _ _ _ _ _ _ D) as [_ Hr]. apply Rmult_le_pos; [apply step_nonneg|].
    apply Rlt_le, Rinv_0_lt_compat. lra.
  Qed.

  Lemma rate_nonneg : 0 <= f_rate n q.
  Proof using D. destruct (dd_rate _ _ _ _ _ _ _ _ _ D) as [Hq _]. pose proof u_pos. apply Rmult_le_pos; [auto|apply pow_le; lra]. Qed.

  Lemma no_overflow_le E E' : E' <= E -> no_overflow n A lo X E -> no_overflow n A lo X E'.
  Proof using Type.
    intros H Ho i Hi. specialize (Ho i Hi). apply Rle_trans with (2 := Ho).
    apply Rplus_le_compat_r, Rmult_le_compat_l; [pose proof (Rabs_pos (f_real (A i i))); lra|]. lra.
  Qed.

  Lemma jacobi_float x w f E : is_vec n x f -> length w = n -> finite_vec n f -> 0 <= E -> within n f xs E ->
    no_overflow n A lo X E ->
    exists x' f', jacobi_step fops dbg stray a b (x, w) = Ok (x', x) /\ is_vec n x' f' /\ finite_vec n f' /\
      within n f' xs (f_rate n q * E + f_step n X lo).
  Proof using D.
    intros Hx Hw Hf HE He Ho. destruct doubles_rows as (rs & d & Hro & Hso & Hd).
    destruct (jacobi_sweep_ok fops dbg stray n a b rs d h x w f (sc_one fops) Hro Hx Hw) as (x' & Es & Hx').
    exists x'. eexists. unfold jacobi_step. cbn [fst snd]. rewrite Es. split; [reflexivity|]. split; [exact Hx'|].
    pose proof (fun i Hi => row_step rs d f E i Hro Hso Hd Hi HE Hf He Ho) as H.
    split; intros i Hi; destruct (H i Hi) as (V & F & B); [split; [exact V|exact F]|exact B].
  Qed.

  (** The errors within a sweep of Gauss-Seidel do not grow above the level. *)
  Lemma seidel_float x w f E : is_vec n x f -> finite_vec n f -> f_floor n q X lo <= E -> within n f xs E ->
    no_overflow n A lo X E ->
    exists x' f', gauss_seidel_step fops dbg stray a b (x, w) = Ok (x', w) /\ is_vec n x' f' /\ finite_vec n f' /\
      within n f' xs (f_rate n q * E + f_step n X lo).
  Proof using D.
    intros Hx Hf HE He Ho. destruct doubles_rows as (rs & d & Hro & Hso & Hd).
    destruct (seidel_sweep_ok fops dbg stray n a b rs d h x f (sc_one fops) Hro Hx) as (x' & z & Es & Hx' & Hz).
    exists x', z. unfold gauss_seidel_step. cbn [fst snd]. rewrite Es. split; [reflexivity|]. split; [exact Hx'|].
    pose proof floor_fixed as HF. pose proof floor_nonneg as HF0. destruct (dd_rate _ _ _ _ _ _ _ _ _ D) as [_ Hr].
    assert (HE' : f_rate n q * E + f_step n X lo <= E).
    { assert ((1 - f_rate n q) * f_floor n q X lo <= (1 - f_rate n q) * E) by (apply Rmult_le_compat_l; lra). lra. }
    assert (G : forall i, (i < n)%nat -> f_valid (z i) /\ f_finite (z i) = true /\
      Rabs (f_real (z i) - xs i) <= f_rate n q * E + f_step n X lo).
    { intro i. induction i as [i IH] using lt_wf_ind. intro Hi. rewrite Hz by auto.
      apply (row_step rs d _ E i); auto; [lra|..].
      - intros j Hj. destruct (Nat.ltb_spec j i) as [L|L]; [|auto]. destruct (IH j L Hj) as (V & F & _). auto.
      - intros j Hj. destruct (Nat.ltb_spec j i) as [L|L]; [|auto]. destruct (IH j L Hj) as (_ & _ & B). lra. }
    split; intros i Hi; destruct (G i Hi) as (V & F & B); [split; [exact V|exact F]|exact B].
  Qed.

  (** The level of the error after k sweeps. *)
  Definition level (E0 : R) (k : nat) : R := f_floor n q X lo + f_rate n q ^ k * E0.

  Lemma level_step E0 k : f_rate n q * level E0 k + f_step n X lo = level E0 (S k).
  Proof using D. unfold level. pose proof floor_fixed. cbn [pow]. lra. Qed.

  Lemma level_bounds E0 k : 0 <= E0 -> f_floor n q X lo <= level E0 k <= level E0 0.
  Proof using D.
    intro H. unfold level. pose proof rate_nonneg as H0. destruct (dd_rate _ _ _ _ _ _ _ _ _ D) as [_ Hr].
    assert (P0 : 0 <= f_rate n q ^ k) by (apply pow_le; auto).
    assert (P1 : f_rate n q ^ k <= 1) by (rewrite <- (pow1 k); apply pow_incr; lra).
    assert (0 <= f_rate n q ^ k * E0) by (apply Rmult_le_pos; auto).
    assert (f_rate n q ^ k * E0 <= 1 * E0) by (apply Rmult_le_compat_r; auto). cbn [pow]. lra.
  Qed.

  Lemma jacobi_float_times x f w E0 k : is_vec n x f -> length w = n -> finite_vec n f -> 0 <= E0 ->
    within n f xs (level E0 0) -> no_overflow n A lo X (level E0 0) ->
    exists x' w' f', times (jacobi_step fops dbg stray a b) k (x, w) = Ok (x', w') /\ is_vec n x' f' /\ length w' = n /\
      finite_vec n f' /\ within n f' xs (level E0 k).
  Proof using D.
    intros Hx Hw Hf HE He Ho. induction k as [|k (x' & w' & f' & E & Hx' & Hw' & Hf' & He')].
    - exists x, w, f. split; [reflexivity|auto].
    - destruct (level_bounds E0 k HE) as [L1 L2]. pose proof floor_nonneg.
      destruct (jacobi_float x' w' f' (level E0 k)) as (y & g & Ey & Hy & Hg & Heg); auto; [lra|..].
      { apply no_overflow_le with (2 := Ho). exact L2. }
      exists y, x', g. cbn [times]. rewrite E. cbn [bind]. rewrite level_step in Heg.
      split; [exact Ey|]. split; [exact Hy|]. split; [apply Hx'|]. auto.
  Qed.

  Lemma seidel_float_times x f w E0 k : is_vec n x f -> finite_vec n f -> 0 <= E0 ->
    within n f xs (level E0 0) -> no_overflow n A lo X (level E0 0) ->
    exists x' f', times (gauss_seidel_step fops dbg stray a b) k (x, w) = Ok (x', w) /\ is_vec n x' f' /\
      finite_vec n f' /\ within n f' xs (level E0 k).
  Proof using D.
    intros Hx Hf HE He Ho. induction k as [|k (x' & f' & E & Hx' & Hf' & He')].
    - exists x, f. split; [reflexivity|auto].
    - destruct (level_bounds E0 k HE) as [L1 L2].
      destruct (seidel_float x' w f' (level E0 k)) as (y & g & Ey & Hy & Hg & Heg); auto.
      { apply no_overflow_le with (2 := Ho). exact L2. }
      exists y, g. cbn [times]. rewrite E. cbn [bind]. rewrite level_step in Heg. auto.
  Qed.
End Dominant.
