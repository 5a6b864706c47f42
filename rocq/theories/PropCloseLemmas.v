(** Lemmas behind C127. *)
From Coq Require Import ZArith Reals Lra Lia List SpecFloat Psatz.
From Flocq Require Import Core BinarySingleNaN.
From Verif Require Import Base ScalarModel ScalarFacts FloatFacts FloatError IterFloat PropFloatLemmas FloatUnit FloatSweep OrderFacts
  PropIterLemmas PropOrderLemmas PropIntLemmas PropOddLemmas LuSign PropNormLemmas.
Import ListNotations.
Local Open Scope R_scope.

Local Notation rnd := (round radix2 (FLT_exp (-1074) 53) ZnearestE).
Local Notation top := (S754_finite false 9007199254740991 971).

(** A valid finite double. *)
Definition number (x : f64) : Prop := f_valid x /\ f_finite x = true.

(** The relative tolerance as documented: at most one and not negative, in debug builds at least the machine epsilon. *)
Definition relative (dbg : bool) (rel : f64) : Prop := number rel /\ tol_ok dbg rel /\ 0 <= f_real rel <= 1.

Lemma top_real : f_real top = bpow radix2 1024 - bpow radix2 971.
Proof.
  rewrite f_real_SF2R. cbn [SF2R]. unfold F2R. cbn [Fnum Fexp cond_Zopp].
  replace 9007199254740991%Z with (2 ^ 53 - 1)%Z by reflexivity. rewrite minus_IZR.
  replace (IZR (2 ^ 53)) with (bpow radix2 53) by reflexivity.
  replace (bpow radix2 1024) with (bpow radix2 53 * bpow radix2 971) by (rewrite <- bpow_plus; reflexivity). ring.
Qed.

Lemma small_real e : (0 <= e)%Z -> f_real (S754_finite false 4503599627370496 (- 52 - e)) = / 2 ^ Z.to_nat e.
Proof.
  intro He. rewrite f_real_SF2R. cbn [SF2R]. unfold F2R. cbn [Fnum Fexp cond_Zopp].
  replace (IZR (Z.pos 4503599627370496)) with (bpow radix2 52) by reflexivity. rewrite <- bpow_plus.
  replace (52 + (- 52 - e))%Z with (- e)%Z by lia. rewrite bpow_opp. f_equal. rewrite <- (Z2Nat.id e He) at 1.
  rewrite bpow_powerRZ. symmetry. exact (pow_powerRZ 2 (Z.to_nat e)).
Qed.

Lemma number_top : number top.
Proof. split; vm_compute; reflexivity. Qed.

Lemma top_largest x : number x -> Rabs (f_real x) <= f_real top.
Proof.
  intros [V _]. destruct (valid_SF2B x V) as (a & _ & <- & _). rewrite top_real.
  exact (abs_B2R_le_emax_minus_prec 53 1024 Hprec a).
Qed.

Lemma after_one x : number x -> 1 < f_real x -> 1 + / 2 ^ 52 <= f_real x.
Proof.
  intros [V _] H. destruct (valid_SF2B x V) as (a & _ & E & _). rewrite <- E in *.
  assert (S1 : succ radix2 (FLT_exp (-1074) 53) 1 = 1 + / 2 ^ 52).
  { rewrite succ_eq_pos by lra. f_equal. change 1 with (bpow radix2 0) at 1. rewrite ulp_bpow.
    change (FLT_exp (-1074) 53 (0 + 1)) with (- (52))%Z. rewrite bpow_opp. f_equal. rewrite bpow_powerRZ. symmetry. exact (pow_powerRZ 2 52). }
  rewrite <- S1. apply succ_le_lt; [apply FLT_exp_valid; reflexivity| |apply B2R_format|exact H].
  change 1 with (bpow radix2 0). apply generic_format_bpow. vm_compute. discriminate.
Qed.

Lemma limits : number (sc_max fops) /\ number (sc_eps fops) /\ f_real (sc_eps fops) = / 2 ^ 52 /\
  (forall x, number x -> Rabs (f_real x) <= f_real (sc_max fops)) /\
  (forall x, number x -> 1 < f_real x -> 1 + / 2 ^ 52 <= f_real x) /\
  (exists x, number x /\ f_real x = 1 + / 2 ^ 52) /\
  f_real (default_absolute fops) = / 2 ^ 46 /\ f_real (default_relative fops) = / 2 ^ 36.
Proof.
  split; [exact number_top|]. split; [split; vm_compute; reflexivity|]. split; [exact (small_real 52 ltac:(lia))|].
  split; [exact top_largest|]. split; [exact after_one|]. split.
  - exists (S754_finite false 4503599627370497 (-52)). split; [split; vm_compute; reflexivity|].
    rewrite f_real_SF2R. cbn [SF2R]. unfold F2R. cbn [Fnum Fexp cond_Zopp].
    change (-52)%Z with (- (52))%Z. rewrite bpow_opp. replace (bpow radix2 52) with (2 ^ 52) by (rewrite bpow_powerRZ; exact (pow_powerRZ 2 52)).
    replace (IZR (Z.pos 4503599627370497)) with (2 ^ 52 + 1); [field; apply pow_nonzero; lra|].
    rewrite (pow_IZR 2 52), <- plus_IZR. reflexivity.
  - split.
    + replace (default_absolute fops) with (S754_finite false 4503599627370496 (- 52 - 46)) by (vm_compute; reflexivity). exact (small_real 46 ltac:(lia)).
    + replace (default_relative fops) with (S754_finite false 4503599627370496 (- 52 - 36)) by (vm_compute; reflexivity). exact (small_real 36 ltac:(lia)).
Qed.

(* ------------------------------------------------------------------ the tolerance *)
Lemma f_eq x y : number x -> number y -> (SFeqb x y = true <-> f_real x = f_real y).
Proof.
  intros [Vx Fx] [Vy Fy]. destruct (valid_SF2B x Vx) as (a & Ea & <- & Ga), (valid_SF2B y Vy) as (b & Eb & <- & Gb).
  rewrite <- Ga in Fx. rewrite <- Gb in Fy.
  rewrite <- Ea, <- Eb. pose proof (Beqb_correct 53 1024 a b Fx Fy) as H. unfold Beqb in H. rewrite H.
  destruct (Req_bool_spec (B2R a) (B2R b)); split; auto; try discriminate; contradiction.
Qed.

Lemma lt_num x y : number x -> number y -> (SFltb x y = true <-> f_real x < f_real y).
Proof. intros [Vx Fx] [Vy Fy]. apply f_lt; auto. Qed.

Lemma lt_num_false x y : number x -> number y -> (SFltb x y = false <-> f_real y <= f_real x).
Proof.
  intros Hx Hy. pose proof (lt_num x y Hx Hy) as H. destruct (SFltb x y); split; intro K; try discriminate; auto.
  - pose proof (proj1 H eq_refl). lra.
  - destruct (Rle_or_lt (f_real y) (f_real x)) as [L|L]; [exact L|]. apply H in L. discriminate.
Qed.

(** The threshold of is_nearly_equal. *)
Definition threshold (a b rel abs : f64) : f64 :=
  std_max fops abs (SFmul 53 1024 rel (std_min fops (SFadd 53 1024 (SFabs a) (SFabs b)) top)).

Lemma nearly_value dbg a b rel abs : tol_ok dbg rel ->
  is_nearly_equal fops dbg a b rel abs = Ok (SFeqb a b || SFltb (SFabs (SFsub 53 1024 a b)) (threshold a b rel abs)).
Proof.
  intro T. unfold is_nearly_equal, ASSERT_DEBUG. destruct dbg.
  - destruct (T eq_refl) as [T1 T2]. cbn [fops sc_le sc_eps sc_one] in *. rewrite T1, T2. cbn [ASSERT bind]. change (sc_eq fops a b) with (SFeqb a b). destruct (SFeqb a b); reflexivity.
  - cbn [bind]. change (sc_eq fops a b) with (SFeqb a b). destruct (SFeqb a b); reflexivity.
Qed.

Lemma number_abs x : number x -> number (SFabs x) /\ f_real (SFabs x) = Rabs (f_real x).
Proof. intros [V F]. split; [split; [apply abs_valid, V|rewrite abs_finite; exact F]|apply abs_real_all, V]. Qed.

Lemma abs_sign x : f_valid x -> f_finite x = true -> exists a : binary_float 53 1024, B2SF a = SFabs x /\ is_finite a = true /\ Bsign a = false /\ B2R a = Rabs (f_real x).
Proof.
  intros V F. destruct (valid_SF2B _ (abs_valid x V)) as (a & E & R & G). exists a. split; [exact E|]. rewrite G, abs_finite, R, (abs_real_all x V).
  split; [exact F|]. split; [|reflexivity]. destruct a; destruct x; cbn in E; try discriminate; inversion E; reflexivity.
Qed.

Lemma sum_min a b : number a -> number b ->
  let s := SFadd 53 1024 (SFabs a) (SFabs b) in let m := std_min fops s top in
  nonneg m /\ (f_finite s = true -> m = s) /\ f_valid s.
Proof.
  intros [Va Fa] [Vb Fb] s m. destruct (abs_sign a Va Fa) as (a' & Ea & Ga & Sa & Ra), (abs_sign b Vb Fb) as (b' & Eb & Gb & Sb & Rb).
  assert (Vs : f_valid s) by (apply f_add_valid; apply abs_valid; auto).
  assert (K : f_finite s = true \/ s = S754_infinity false).
  { unfold s. rewrite <- Ea, <- Eb, add_equiv. pose proof (Bplus_correct 53 1024 Hprec Hmax mode_NE a' b' Ga Gb) as C.
    destruct (Rlt_bool _ _); [left; rewrite B2SF_finite; apply C|]. right. destruct C as [C _]. rewrite C, Sa. reflexivity. }
  assert (N0 : 0 <= f_real top) by (apply Rle_trans with (2 := top_largest top number_top); apply Rabs_pos).
  destruct K as [K|K].
  - assert (E : m = s).
    { unfold m, std_min. cbn [fops sc_lt]. rewrite (proj2 (lt_num_false top s number_top (conj Vs K))); [reflexivity|].
      apply Rle_trans with (1 := Rle_abs _). apply top_largest. split; auto. }
    rewrite E. split; [|split; auto]. split; [exact Vs|]. split; [exact K|].
    destruct (f_add_round _ _ (abs_valid a Va) (abs_valid b Vb) K) as (_ & _ & R). fold s in R. rewrite R, <- rnd_zero. apply rnd_mono.
    rewrite !abs_real_all by auto. apply Rplus_le_le_0_compat; apply Rabs_pos.
  - assert (E : m = top) by (unfold m; rewrite K; reflexivity). rewrite E. split; [split; [apply number_top|split; [apply number_top|exact N0]]|].
    split; [rewrite K; discriminate|exact Vs].
Qed.

Lemma mul_one rel m : number rel -> 0 <= f_real rel <= 1 -> nonneg m ->
  nonneg (SFmul 53 1024 rel m) /\ f_real (SFmul 53 1024 rel m) = rnd (f_real rel * f_real m) /\ f_real (SFmul 53 1024 rel m) <= f_real m.
Proof.
  intros [Vr Fr] Hr (Vm & Fm & Pm).
  assert (B : f_real (S754_zero false) <= rnd (f_real rel * f_real m) <= f_real m).
  { cbn [f_real]. split; [rewrite <- rnd_zero; apply rnd_mono, Rmult_le_pos; lra|]. rewrite <- (rnd_valid m Vm) at 2. apply rnd_mono. nra. }
  assert (F : f_finite (SFmul 53 1024 rel m) = true) by (apply (mul_inside rel m (S754_zero false) m); auto; reflexivity).
  destruct (f_mul_round _ _ Vr Vm F) as (_ & _ & E). rewrite E. cbn [f_real] in B.
  split; [|split; [reflexivity|apply B]]. split; [apply f_mul_valid; auto|]. split; [exact F|]. rewrite E. apply B.
Qed.

Lemma max_num x y : number x -> number y -> number (std_max fops x y) /\ f_real (std_max fops x y) = Rmax (f_real x) (f_real y).
Proof.
  intros Hx Hy. unfold std_max. cbn [fops sc_lt]. destruct (SFltb x y) eqn:E.
  - apply lt_num in E; auto. split; [exact Hy|]. rewrite Rmax_right; lra.
  - apply lt_num_false in E; auto. split; [exact Hx|]. rewrite Rmax_left; lra.
Qed.

Lemma threshold_ok a b rel abs : number a -> number b -> number rel -> 0 <= f_real rel <= 1 -> number abs ->
  let m := std_min fops (SFadd 53 1024 (SFabs a) (SFabs b)) top in
  number (threshold a b rel abs) /\ f_real (threshold a b rel abs) = Rmax (f_real abs) (rnd (f_real rel * f_real m)).
Proof.
  intros Ha Hb Hr Lr Hs m. destruct (sum_min a b Ha Hb) as (Pm & _). fold m in Pm.
  destruct (mul_one rel m Hr Lr Pm) as ((Vp & Fp & _) & E & _). unfold threshold. fold m. rewrite <- E. apply max_num; auto. split; auto.
Qed.

(* ------------------------------------------------------------------ larger tolerances *)
Lemma nearly_monotone dbg a b rel rel' abs abs' : number a -> number b -> relative dbg rel -> relative dbg rel' -> number abs -> number abs' ->
  f_real rel <= f_real rel' -> f_real abs <= f_real abs' ->
  is_nearly_equal fops dbg a b rel abs = Ok true -> is_nearly_equal fops dbg a b rel' abs' = Ok true.
Proof.
  intros Ha Hb (Nr & Tr & Lr) (Nr' & Tr' & Lr') Hs Hs' L1 L2. rewrite !nearly_value by auto. intro E. f_equal. injection E as E.
  apply Bool.orb_true_iff in E as [E|E]; [rewrite E; reflexivity|]. rewrite Bool.orb_true_iff. right.
  destruct (threshold_ok a b rel abs Ha Hb Nr Lr Hs) as (N & R), (threshold_ok a b rel' abs' Ha Hb Nr' Lr' Hs') as (N' & R').
  set (m := std_min fops _ _) in R, R'. destruct (sum_min a b Ha Hb) as ((_ & _ & Pm) & _). fold m in Pm.
  assert (LT : f_real (threshold a b rel abs) <= f_real (threshold a b rel' abs')).
  { rewrite R, R'. apply Rle_max_compat_l with (x := 0) in L2 || idtac. apply Rmax_lub.
    - apply Rle_trans with (1 := L2), Rmax_l.
    - apply Rle_trans with (2 := Rmax_r _ _). apply rnd_mono, Rmult_le_compat_r; auto. }
  set (x := SFabs (SFsub 53 1024 a b)) in *. assert (Vx : f_valid x) by (apply abs_valid, f_sub_valid; [apply Ha|apply Hb]).
  destruct (f_finite x) eqn:F.
  - apply lt_num; [split; auto|auto|]. apply lt_num in E; [|split; auto|auto]. lra.
  - exfalso. revert E F. generalize (threshold a b rel abs) N. intros t [Vt Ft]. unfold x. generalize (SFsub 53 1024 a b). intros y.
    destruct y as [s|s| |s e1 e2]; try discriminate; destruct t as [s'|s'| |s' e1 e2]; try discriminate; cbn; destruct s'; discriminate.
Qed.

(* ------------------------------------------------------------------ what it means *)
Lemma nearly_meaning dbg a b rel abs : number a -> number b -> relative dbg rel -> number abs ->
  Rabs (f_real a) + Rabs (f_real b) <= f_limit ->
  let T := Rmax (f_real abs) (f_real rel * (Rabs (f_real a) + Rabs (f_real b))) in
  let D := Rabs (f_real a - f_real b) in
  exists e, is_nearly_equal fops dbg a b rel abs = Ok e /\
    (e = true -> D <= (1 + f_u) ^ 4 * T + 2 * f_eta) /\ (e = false -> T <= (1 + f_u) ^ 5 * D + 2 * f_eta /\ D <> 0).
Proof.
  intros Ha Hb (Nr & Tr & Lr) Hs HL T D. rewrite nearly_value by auto. eexists. split; [reflexivity|].
  pose proof u_pos as Hu. pose proof u_tiny as Hut. pose proof eta_pos as He.
  destruct (number_abs a Ha) as [[Vaa Faa] Ra], (number_abs b Hb) as [[Vab Fab] Rb].
  destruct (threshold_ok a b rel abs Ha Hb Nr Lr Hs) as (N & R). destruct (sum_min a b Ha Hb) as ((_ & _ & Pm) & Em & Vs).
  set (s := SFadd 53 1024 (SFabs a) (SFabs b)) in *. pose proof (Rabs_pos (f_real a)) as Pa. pose proof (Rabs_pos (f_real b)) as Pb.
  assert (Fs : f_finite s = true) by (apply f_add_finite; auto; rewrite Ra, Rb, Rabs_pos_eq; lra). rewrite (Em Fs) in *. clear Em.
  destruct (f_add_error _ _ Vaa Vab Fs) as (_ & _ & d1 & Hd1 & Es). fold s in Es. rewrite Ra, Rb in Es. set (S := Rabs (f_real a) + Rabs (f_real b)) in *.
  destruct (rnd_error (f_real rel * f_real s)) as (d2 & e2 & Hd2 & He2 & E2). rewrite E2, Es in R.
  assert (Fd : f_finite (SFsub 53 1024 a b) = true).
  { apply f_sub_finite; [apply Ha|apply Hb|apply Ha|apply Hb|]. unfold Rminus. apply Rle_trans with (1 := Rabs_triang _ _). rewrite Rabs_Ropp. exact HL. }
  assert (Vd : f_valid (SFsub 53 1024 a b)) by (apply f_sub_valid; [apply Ha|apply Hb]).
  destruct (f_sub_error a b (proj1 Ha) (proj1 Hb) Fd) as (d3 & Hd3 & E3).
  destruct (number_abs _ (conj Vd Fd)) as [Nd Rd]. rewrite E3, Rabs_mult in Rd. fold D in Rd.
  apply Rabs_le_inv in Hd1, Hd2, Hd3, He2. rewrite (Rabs_pos_eq (1 + d3)) in Rd by lra.
  assert (PD : 0 <= D) by apply Rabs_pos. assert (PS : 0 <= S) by (unfold S; lra).
  assert (PP : 0 <= f_real rel * S) by (apply Rmult_le_pos; lra). set (P := f_real rel * S) in *.
  assert (PT : 0 <= T) by (apply Rle_trans with (1 := PP), Rmax_r).
  replace (f_real rel * (S * (1 + d1)) * (1 + d2) + e2) with (P * ((1 + d1) * (1 + d2)) + e2) in R by (unfold P; ring).
  assert (G : (1 - f_u) * (1 + f_u) ^ 2 >= 1) by nra.
  assert (C2 : 1 - 2 * f_u <= (1 + d1) * (1 + d2) <= (1 + f_u) ^ 2).
  { split; [nra|]. cbn [pow]. rewrite Rmult_1_r. apply Rmult_le_compat; lra. }
  split; intro E.
  - apply Bool.orb_true_iff in E as [E|E].
    + apply f_eq in E; auto. unfold D. rewrite E, Rminus_diag_eq, Rabs_R0 by reflexivity.
      apply Rplus_le_le_0_compat; [apply Rmult_le_pos; [apply pow_le; lra|exact PT]|lra].
    + apply lt_num in E; auto. rewrite Rd, R in E.
      assert (B : D * (1 + d3) <= (1 + f_u) ^ 2 * T + f_eta).
      { apply Rle_trans with (1 := Rlt_le _ _ E). apply Rmax_lub.
        - assert (f_real abs <= T) by apply Rmax_l. assert (1 <= (1 + f_u) ^ 2) by (apply pow_R1_Rle; lra). nra.
        - assert (P <= T) by apply Rmax_r. assert (P * ((1 + d1) * (1 + d2)) <= T * (1 + f_u) ^ 2) by (apply Rmult_le_compat; lra || nra). lra. }
      assert (B1 : D * (1 - f_u) <= (1 + f_u) ^ 2 * T + f_eta) by (apply Rle_trans with (2 := B); apply Rmult_le_compat_l; lra).
      assert (B2 : D <= (D * (1 - f_u)) * (1 + f_u) ^ 2) by nra.
      apply Rle_trans with (1 := B2). apply Rle_trans with (((1 + f_u) ^ 2 * T + f_eta) * (1 + f_u) ^ 2).
      * apply Rmult_le_compat_r; [apply pow_le; lra|exact B1].
      * replace ((1 + f_u) ^ 4) with ((1 + f_u) ^ 2 * (1 + f_u) ^ 2) by ring. assert ((1 + f_u) ^ 2 <= 2) by nra. nra.
  - apply Bool.orb_false_iff in E as [E0 E]. apply lt_num_false in E; auto. rewrite Rd, R in E.
    assert (ND : D <> 0).
    { intro Z. unfold D in Z. assert (Z' : f_real a = f_real b) by (destruct (Req_dec (f_real a - f_real b) 0) as [Q|Q]; [lra|apply Rabs_no_R0 in Q; contradiction]).
      apply f_eq in Z'; auto. congruence. }
    split; [|exact ND].
    assert (B1 : f_real abs <= D * (1 + f_u)) by (apply Rle_trans with (D * (1 + d3)); [apply Rle_trans with (2 := E), Rmax_l|apply Rmult_le_compat_l; lra]).
    assert (B2 : P * (1 - 2 * f_u) <= D * (1 + f_u) + f_eta).
    { assert (P * (1 - 2 * f_u) <= P * ((1 + d1) * (1 + d2))) by (apply Rmult_le_compat_l; lra).
      assert (P * ((1 + d1) * (1 + d2)) + e2 <= D * (1 + d3)) by (apply Rle_trans with (2 := E), Rmax_r).
      assert (D * (1 + d3) <= D * (1 + f_u)) by (apply Rmult_le_compat_l; lra). lra. }
    replace ((1 + f_u) ^ 5) with ((1 + f_u) * (1 + f_u) ^ 4) by ring.
    assert (C1 : 1 + 4 * f_u <= (1 + f_u) ^ 4) by (assert (1 + 2 * f_u <= (1 + f_u) ^ 2) by nra; replace ((1 + f_u) ^ 4) with ((1 + f_u) ^ 2 * (1 + f_u) ^ 2) by ring; nra).
    assert (C4 : (1 + f_u) ^ 4 <= 2).
    { assert (K : 0 <= (1 + f_u) ^ 2 <= 5 / 4) by nra. replace ((1 + f_u) ^ 4) with ((1 + f_u) ^ 2 * (1 + f_u) ^ 2) by ring. nra. }
    set (c := (1 + f_u) ^ 4) in *. assert (PQ : 0 <= D * (1 + f_u)) by (apply Rmult_le_pos; lra).
    apply Rmax_lub.
    + apply Rle_trans with (1 := B1). replace ((1 + f_u) * c * D) with (D * (1 + f_u) * c) by ring. set (q := D * (1 + f_u)) in *. nra.
    + assert (G2 : 1 <= (1 - 2 * f_u) * c) by nra.
      assert (B3 : P <= P * (1 - 2 * f_u) * c) by (rewrite Rmult_assoc; rewrite <- (Rmult_1_r P) at 1; apply Rmult_le_compat_l; lra).
      apply Rle_trans with (1 := B3). apply Rle_trans with ((D * (1 + f_u) + f_eta) * c).
      * apply Rmult_le_compat_r; [lra|exact B2].
      * replace ((1 + f_u) * c * D) with (D * (1 + f_u) * c) by ring. set (q := D * (1 + f_u)) in *. nra.
Qed.

(* ------------------------------------------------------------------ zero and infinity *)
Lemma nearly_zero dbg x rel abs : number x -> relative dbg rel -> number abs ->
  exists e, is_nearly_equal fops dbg x (S754_zero false) rel abs = Ok e /\
    (e = true <-> f_real x = 0 \/ Rabs (f_real x) < f_real abs).
Proof.
  intros Hx (Nr & Tr & Lr) Hs. rewrite nearly_value by auto. eexists. split; [reflexivity|].
  assert (Nz : number (S754_zero false)) by (split; reflexivity).
  assert (Ex : SFsub 53 1024 x (S754_zero false) = x \/ (f_real x = 0 /\ SFeqb x (S754_zero false) = true)).
  { destruct x as [s|s| |s m e]; [right; split; reflexivity|left; reflexivity|left; reflexivity|left; reflexivity]. }
  destruct (number_abs x Hx) as [Na Ra].
  destruct Ex as [Ex|[E0 E1]]; [|rewrite E1; cbn [orb]; split; auto].
  rewrite Ex. destruct (threshold_ok x (S754_zero false) rel abs Hx Nz Nr Lr Hs) as (N & R).
  rewrite Bool.orb_true_iff, (f_eq _ _ Hx Nz), (lt_num _ _ Na N), Ra. cbn [f_real].
  assert (M : f_real (std_min fops (SFadd 53 1024 (SFabs x) (SFabs (S754_zero false))) top) = Rabs (f_real x)).
  { destruct (sum_min x (S754_zero false) Hx Nz) as (_ & Em & Vs). 
    assert (A : SFadd 53 1024 (SFabs x) (SFabs (S754_zero false)) = SFabs x) by (destruct x; reflexivity).
    rewrite Em by (rewrite A; apply Na). rewrite A. exact Ra. }
  rewrite M in R. rewrite R.
  assert (K : rnd (f_real rel * Rabs (f_real x)) <= Rabs (f_real x)).
  { rewrite <- Ra. rewrite <- (rnd_valid _ (proj1 Na)) at 2. apply rnd_mono. rewrite Ra. pose proof (Rabs_pos (f_real x)). nra. }
  split; intros [H|H]; auto; right.
  - destruct (Rlt_or_le (Rabs (f_real x)) (f_real abs)) as [L|L]; [exact L|]. pose proof (Rmax_lub _ _ _ L K). lra.
  - apply Rlt_le_trans with (1 := H), Rmax_l.
Qed.

Lemma nearly_infinite dbg x s rel abs : tol_ok dbg rel ->
  exists e, is_nearly_equal fops dbg (S754_infinity s) x rel abs = Ok e /\ (e = true <-> x = S754_infinity s).
Proof.
  intros T. rewrite nearly_value by auto. eexists. split; [reflexivity|]. generalize (threshold (S754_infinity s) x rel abs). intro t.
  destruct x as [s'|s'| |s' m e]; destruct s; try destruct s'; destruct t as [s2|s2| |s2 m2 e2]; try destruct s2; cbn; split; intro H; congruence.
Qed.

(* ------------------------------------------------------------------ negation *)
Lemma near_abs s x y : near s x y -> SFabs y = SFabs x.
Proof. intros [->|(p & q & -> & ->)]; [|reflexivity]. destruct s; [|reflexivity]. destruct x; reflexivity. Qed.

Lemma sub_opp_opp a b : SFabs (SFsub 53 1024 (SFopp a) (SFopp b)) = SFabs (SFsub 53 1024 a b).
Proof. apply (near_abs true). apply near_sub; left; reflexivity. Qed.

Lemma compare_opp a b : SFcompare (SFopp a) (SFopp b) = SFcompare b a.
Proof.
  destruct a as [s|s| |s m e], b as [t|t| |t n k]; try destruct s; try destruct t; try reflexivity; cbn.
  all: rewrite (Z.compare_antisym k e); destruct (Z.compare k e); try reflexivity; change (Pos.compare_cont Eq) with Pos.compare; cbn [CompOpp];
    rewrite (Pos.compare_antisym n m); destruct (Pos.compare n m); reflexivity.
Qed.

Lemma nearly_opposite dbg a b rel abs :
  is_nearly_equal fops dbg (SFopp a) (SFopp b) rel abs = is_nearly_equal fops dbg a b rel abs.
Proof.
  unfold is_nearly_equal. change (sc_eq fops) with SFeqb. cbn [fops sc_abs sc_sub sc_add]. fold fops. rewrite sub_opp_opp, !abs_opp.
  replace (SFeqb (SFopp a) (SFopp b)) with (SFeqb a b); [reflexivity|]. rewrite SFeqb_sym. unfold SFeqb. rewrite compare_opp. reflexivity.
Qed.

Lemma less_opposite dbg a b rel abs :
  is_nearly_less fops dbg (SFopp a) (SFopp b) rel abs = is_nearly_greater fops dbg a b rel abs.
Proof.
  unfold is_nearly_less, is_nearly_greater, is_nearly_less_equal, is_nearly_greater_equal. rewrite nearly_opposite.
  replace (sc_lt fops (SFopp b) (SFopp a)) with (sc_lt fops a b); [reflexivity|]. cbn [fops sc_lt]. unfold SFltb. rewrite compare_opp. reflexivity.
Qed.

(** 1, 1 + 3/2^37 and 1 + 3/2^36. *)
Definition near1 : f64 := f_of_Z 1.
Definition near2 : f64 := S754_finite false 4503599627468800 (-52).
Definition near3 : f64 := S754_finite false 4503599627567104 (-52).

Lemma not_transitive : exists a b c : f64, number a /\ number b /\ number c /\
  (forall dbg, is_nearly_equal fops dbg a b (default_relative fops) (default_absolute fops) = Ok true) /\
  (forall dbg, is_nearly_equal fops dbg b c (default_relative fops) (default_absolute fops) = Ok true) /\
  (forall dbg, is_nearly_equal fops dbg a c (default_relative fops) (default_absolute fops) = Ok false).
Proof.
  exists near1, near2, near3. repeat split; try (vm_compute; reflexivity); intros []; vm_compute; reflexivity.
Qed.

Lemma default_relative_ok dbg : relative dbg (default_relative fops).
Proof.
  split; [split; vm_compute; reflexivity|]. split; [apply default_tol_ok|].
  replace (f_real (default_relative fops)) with (/ 2 ^ 36) by (symmetry; apply limits). split.
  - apply Rlt_le, Rinv_0_lt_compat, pow_lt. lra.
  - rewrite <- Rinv_1. apply Rinv_le_contravar; [lra|apply pow_R1_Rle; lra].
Qed.

Lemma default_absolute_number : number (default_absolute fops).
Proof. split; vm_compute; reflexivity. Qed.
