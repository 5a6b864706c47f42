(** The floats of [SingleModel] as real numbers. *)
From Coq Require Import ZArith Reals Lra Lia SpecFloat Psatz.
From Flocq Require Import Core BinarySingleNaN Relative.
From Verif Require Import Base ScalarModel FloatFacts SingleModel.
Local Open Scope R_scope.

(** A float. *)
Definition s_valid (x : f32) : Prop := SpecFloat.valid_binary 24 128 x = true.
(** Unit roundoff and half of the smallest positive float. *)
Definition s_u : R := / 2 ^ 24.
Definition s_eta : R := / 2 ^ 150.

#[global] Instance Hprec32 : FLX.Prec_gt_0 24 := eq_refl _.
#[global] Instance Hmax32 : Prec_lt_emax 24 128 := eq_refl _.
Local Notation B32 := (binary_float 24 128).
Notation rnd32 := (round radix2 (FLT_exp (-149) 24) ZnearestE).

Lemma s_SF2B x : s_valid x -> exists y : B32, B2SF y = x /\ B2R y = f_real x /\ is_finite y = f_finite x.
Proof.
  intro H. exists (SF2B x H). split; [apply B2SF_SF2B|]. rewrite f_real_SF2R. split; [|destruct x; reflexivity].
  rewrite <- (SF2R_B2SF 24 128), B2SF_SF2B. reflexivity.
Qed.
Lemma sB2SF_valid (y : B32) : s_valid (B2SF y).
Proof. apply valid_binary_B2SF. Qed.
Lemma sB2SF_real (y : B32) : f_real (B2SF y) = B2R y.
Proof. rewrite f_real_SF2R. apply SF2R_B2SF. Qed.
Lemma sB2SF_finite (y : B32) : f_finite (B2SF y) = is_finite y.
Proof. destruct y; reflexivity. Qed.

Lemma s_round_aux_equiv sx mx ex lx : SpecFloat.binary_round_aux 24 128 sx mx ex lx = binary_round_aux 24 128 mode_NE sx mx ex lx.
Proof.
  unfold SpecFloat.binary_round_aux, binary_round_aux. set (mrse := shr_fexp _ _ _). destruct mrse as [mrs e]. cbn.
  rewrite (round_nearest_even_equiv sx). reflexivity.
Qed.
Lemma s_round_equiv s m e : SpecFloat.binary_round 24 128 s m e = binary_round 24 128 mode_NE s m e.
Proof.
  unfold SpecFloat.binary_round, binary_round, shl_align_fexp. set (mez := shl_align _ _ _).
  destruct mez as [mz ez]. apply s_round_aux_equiv.
Qed.
Lemma s_normalize_equiv m e szero : SpecFloat.binary_normalize 24 128 m e szero =
  B2SF (binary_normalize 24 128 Hprec32 Hmax32 mode_NE m e szero).
Proof. destruct m; cbn [SpecFloat.binary_normalize binary_normalize]; [reflexivity|..]; rewrite B2SF_SF2B; apply s_round_equiv. Qed.
Lemma s_mul_equiv (x y : B32) : SFmul 24 128 (B2SF x) (B2SF y) = B2SF (Bmult mode_NE x y).
Proof.
  destruct x as [sx|sx| |sx mx ex Bx], y as [sy|sy| |sy my ey By]; [reflexivity.. |].
  cbn [SFmul Bmult B2SF]. rewrite B2SF_SF2B. apply s_round_aux_equiv.
Qed.
Lemma s_div_equiv (x y : B32) : SFdiv 24 128 (B2SF x) (B2SF y) = B2SF (Bdiv mode_NE x y).
Proof.
  destruct x as [sx|sx| |sx mx ex Bx], y as [sy|sy| |sy my ey By]; [reflexivity.. |].
  cbn [SFdiv Bdiv B2SF]. rewrite B2SF_SF2B. set (melz := SFdiv_core_binary _ _ _ _ _ _).
  destruct melz as [[mz ez] lz]. apply s_round_aux_equiv.
Qed.

Lemma s_u_bpow : s_u = / 2 * bpow radix2 (-24 + 1).
Proof. exact (eq_trans (half_inv 23) (f_equal (Rmult (/ 2)) (eq_sym (bpow_inv 23)))). Qed.
Lemma s_eta_bpow : s_eta = / 2 * bpow radix2 (-149).
Proof. exact (eq_trans (half_inv 149) (f_equal (Rmult (/ 2)) (eq_sym (bpow_inv 149)))). Qed.
Lemma s_u_pos : 0 < s_u.
Proof. unfold s_u. apply Rinv_0_lt_compat, pow_lt. lra. Qed.
Lemma s_eta_pos : 0 < s_eta.
Proof. unfold s_eta. apply Rinv_0_lt_compat, pow_lt. lra. Qed.
Lemma bpow_pow k : bpow radix2 (Z.of_nat k) = 2 ^ k.
Proof. rewrite bpow_powerRZ. change (IZR radix2) with 2. rewrite <- pow_powerRZ. reflexivity. Qed.

Lemma b127 : bpow radix2 127 = 2 ^ 127.
Proof. exact (bpow_pow 127). Qed.
Lemma b128 : bpow radix2 128 = 2 ^ 128.
Proof. exact (bpow_pow 128). Qed.
Lemma b149 : bpow radix2 (-149) = / 2 ^ 149.
Proof. exact (bpow_inv 149). Qed.

Lemma rnd32_error x : exists d e, Rabs d <= s_u /\ Rabs e <= s_eta /\ rnd32 x = x * (1 + d) + e.
Proof.
  destruct (error_N_FLT radix2 (-149) 24 eq_refl (fun t => negb (Z.even t)) x) as (d & e & Hd & He & _ & E).
  exists d, e. rewrite s_u_bpow, s_eta_bpow. auto.
Qed.

(** Below half of the range nothing overflows, above the range everything does. *)
Lemma rnd32_below x : Rabs x <= 2 ^ 127 -> Rlt_bool (Rabs (rnd32 x)) (bpow radix2 128) = true.
Proof.
  intro H. apply Rlt_bool_true. apply Rle_lt_trans with (bpow radix2 127); [|apply bpow_lt; lia].
  apply abs_round_le_generic; [apply FLT_exp_valid; reflexivity|apply valid_rnd_N| |].
  - apply generic_format_bpow. unfold FLT_exp. lia.
  - rewrite b127. exact H.
Qed.
Lemma rnd32_above x : 2 ^ 128 <= Rabs x -> Rlt_bool (Rabs (rnd32 x)) (bpow radix2 128) = false.
Proof.
  intro H. apply Rlt_bool_false. apply abs_round_ge_generic; [apply FLT_exp_valid; reflexivity|apply valid_rnd_N| |].
  - apply generic_format_bpow. unfold FLT_exp. lia.
  - rewrite b128. exact H.
Qed.

Lemma F2R_cond s m e : F2R (Float radix2 (if s : bool then Zneg m else Zpos m) e) = f_real (S754_finite s m e).
Proof. rewrite f_real_SF2R. destruct s; reflexivity. Qed.

Lemma real_sign s m e : Rlt_bool (f_real (S754_finite s m e)) 0 = s.
Proof.
  rewrite f_real_SF2R. destruct s; cbn [SF2R cond_Zopp].
  - apply Rlt_bool_true, F2R_lt_0. reflexivity.
  - apply Rlt_bool_false, F2R_ge_0. cbn. lia.
Qed.

Lemma narrow_valid x : f_valid x -> s_valid (narrow x).
Proof.
  intro H. destruct x as [s|s| |s m e]; try reflexivity. unfold narrow, convert. rewrite s_normalize_equiv. apply sB2SF_valid.
Qed.
Lemma narrow_round x : f_finite x = true -> Rabs (f_real x) <= 2 ^ 127 ->
  f_finite (narrow x) = true /\ f_real (narrow x) = rnd32 (f_real x).
Proof.
  intros F H. destruct x as [s|s| |s m e]; try discriminate.
  - split; [reflexivity|]. cbn [f_real narrow convert]. symmetry. apply round_0. apply valid_rnd_N.
  - unfold narrow, convert. rewrite s_normalize_equiv, sB2SF_finite, sB2SF_real.
    pose proof (binary_normalize_correct 24 128 Hprec32 Hmax32 mode_NE (if s then Zneg m else Zpos m) e s) as C.
    cbv zeta in C. rewrite F2R_cond in C. change (round_mode mode_NE) with ZnearestE in C.
    change (SpecFloat.fexp 24 128) with (FLT_exp (-149) 24) in C. rewrite (rnd32_below _ H) in C. split; apply C.
Qed.
Lemma narrow_infinite x : f_finite x = true -> 2 ^ 128 <= Rabs (f_real x) -> narrow x = S754_infinity (Rlt_bool (f_real x) 0).
Proof.
  intros F H. assert (0 < 2 ^ 128) by (apply pow_lt; lra). destruct x as [s|s| |s m e]; try discriminate.
  - cbn [f_real] in H. rewrite Rabs_R0 in H. lra.
  - unfold narrow, convert. rewrite s_normalize_equiv.
    pose proof (binary_normalize_correct 24 128 Hprec32 Hmax32 mode_NE (if s then Zneg m else Zpos m) e s) as C.
    cbv zeta in C. rewrite F2R_cond in C. change (round_mode mode_NE) with ZnearestE in C.
    change (SpecFloat.fexp 24 128) with (FLT_exp (-149) 24) in C. rewrite (rnd32_above _ H) in C. rewrite C. reflexivity.
Qed.

(** The values of floats. *)
Lemma s_format x : s_valid x -> generic_format radix2 (FLT_exp (-149) 24) (f_real x).
Proof. intro H. destruct (s_SF2B x H) as (b & _ & <- & _). apply generic_format_B2R. Qed.
Lemma s_format_wide x : s_valid x -> generic_format radix2 (FLT_exp (-1074) 53) (f_real x).
Proof.
  intro H. apply generic_inclusion_mag with (2 := s_format x H). intros _. unfold FLT_exp. lia.
Qed.
Lemma s_lt x : s_valid x -> Rabs (f_real x) < 2 ^ 128.
Proof.
  intro H. destruct (s_SF2B x H) as (b & _ & <- & _). rewrite <- b128. apply abs_B2R_lt_emax.
Qed.
Lemma s_least x : s_valid x -> f_real x <> 0 -> / 2 ^ 149 <= Rabs (f_real x).
Proof.
  intros H N. rewrite <- b149.
  destruct (FLT_format_generic radix2 (-149) 24 _ (s_format x H)) as [g E _ Hg].
  rewrite E in *. assert (Fnum g <> 0%Z) by (intro K; apply N; unfold F2R; rewrite K; ring).
  unfold F2R. rewrite Rabs_mult, (Rabs_pos_eq (bpow _ _)) by apply bpow_ge_0. rewrite <- abs_IZR.
  apply Rle_trans with (1 * bpow radix2 (Fexp g)).
  - rewrite Rmult_1_l. apply bpow_le. exact Hg.
  - apply Rmult_le_compat_r; [apply bpow_ge_0|]. apply IZR_le. lia.
Qed.

(** A float becomes the double of the same value. *)
Lemma widen_exact x : s_valid x -> f_valid (widen x) /\ f_finite (widen x) = f_finite x /\ f_real (widen x) = f_real x.
Proof.
  intro H. destruct x as [s|s| |s m e]; try (split; [reflexivity|split; reflexivity]).
  unfold widen, convert. rewrite binary_normalize_equiv. split; [apply B2SF_valid|]. rewrite B2SF_finite, B2SF_real.
  pose proof (binary_normalize_correct 53 1024 Hprec Hmax mode_NE (if s then Zneg m else Zpos m) e s) as C.
  cbv zeta in C. rewrite F2R_cond in C. change (round_mode mode_NE) with ZnearestE in C.
  change (SpecFloat.fexp 53 1024) with (FLT_exp (-1074) 53) in C.
  rewrite (round_generic radix2 (FLT_exp (-1074) 53) ZnearestE _ (s_format_wide _ H)) in C.
  rewrite Rlt_bool_true in C; [split; apply C|]. apply Rlt_le_trans with (1 := s_lt _ H).
  rewrite <- b128. apply bpow_le. lia.
Qed.

(** And back. *)
Lemma s_of_real x y : s_valid x -> s_valid y -> f_finite x = true -> f_finite y = true -> f_real x = f_real y ->
  f_real x <> 0 -> x = y.
Proof.
  intros Hx Hy. destruct (s_SF2B x Hx) as (a & <- & <- & <-), (s_SF2B y Hy) as (b & <- & <- & <-). intros Fa Fb E N.
  f_equal. apply B2R_inj; auto; apply is_finite_strict_B2R; [exact N|rewrite <- E; exact N].
Qed.
Lemma real_nonzero s m e : f_real (S754_finite s m e) <> 0.
Proof. rewrite f_real_SF2R. cbn [SF2R]. intro E. apply eq_0_F2R in E. destruct s; discriminate. Qed.
Lemma round_trip x : s_valid x -> narrow (widen x) = x.
Proof.
  intro H. destruct x as [s|s| |s m e]; try reflexivity. destruct (widen_exact _ H) as (V & F & E).
  pose proof (real_nonzero s m e) as N. set (x := S754_finite s m e) in *. cbn [f_finite] in F.
  remember (widen x) as w eqn:W. clear W. change (f_finite x) with true in F.
  pose proof (binary_normalize_correct 24 128 Hprec32 Hmax32 mode_NE) as C.
  destruct w as [t|t| |t p q]; try discriminate.
  - exfalso. cbn [f_real] in E. auto.
  - assert (K : f_finite (narrow (S754_finite t p q)) = true /\ f_real (narrow (S754_finite t p q)) = f_real x).
    { unfold narrow, convert. rewrite s_normalize_equiv, sB2SF_finite, sB2SF_real. specialize (C (if t then Zneg p else Zpos p) q t).
      cbv zeta in C. rewrite F2R_cond, E in C. change (round_mode mode_NE) with ZnearestE in C.
      change (SpecFloat.fexp 24 128) with (FLT_exp (-149) 24) in C.
      rewrite (round_generic radix2 (FLT_exp (-149) 24) ZnearestE _ (s_format _ H)) in C.
      rewrite Rlt_bool_true in C; [split; apply C|]. rewrite b128. apply s_lt, H. }
    destruct K as [K1 K2]. apply s_of_real; auto.
    + apply narrow_valid, V.
    + rewrite K2. exact N.
Qed.

(** Products. *)
Lemma s_mul_valid x y : s_valid x -> s_valid y -> s_valid (s_mul x y).
Proof.
  intros Hx Hy. destruct (s_SF2B x Hx) as (a & <- & _), (s_SF2B y Hy) as (b & <- & _). unfold s_mul. rewrite s_mul_equiv.
  apply sB2SF_valid.
Qed.
Lemma s_mul_round x y : s_valid x -> s_valid y -> f_finite x = true -> f_finite y = true ->
  Rabs (f_real x * f_real y) <= 2 ^ 127 -> f_finite (s_mul x y) = true /\ f_real (s_mul x y) = rnd32 (f_real x * f_real y).
Proof.
  intros Hx Hy. destruct (s_SF2B x Hx) as (a & <- & <- & <-), (s_SF2B y Hy) as (b & <- & <- & <-). intros Fa Fb H.
  unfold s_mul. rewrite s_mul_equiv, sB2SF_finite, sB2SF_real. pose proof (Bmult_correct 24 128 Hprec32 Hmax32 mode_NE a b) as C.
  change (round_mode mode_NE) with ZnearestE in C. change (SpecFloat.fexp 24 128) with (FLT_exp (-149) 24) in C.
  rewrite (rnd32_below _ H) in C. destruct C as (-> & -> & _). rewrite Fa, Fb. split; reflexivity.
Qed.
Lemma s_mul_infinite x y : s_valid x -> s_valid y -> f_finite x = true -> f_finite y = true ->
  2 ^ 128 <= Rabs (f_real x * f_real y) -> exists s, s_mul x y = S754_infinity s.
Proof.
  intros Hx Hy. destruct (s_SF2B x Hx) as (a & <- & <- & <-), (s_SF2B y Hy) as (b & <- & <- & <-). intros Fa Fb H.
  unfold s_mul. rewrite s_mul_equiv. pose proof (Bmult_correct 24 128 Hprec32 Hmax32 mode_NE a b) as C.
  change (round_mode mode_NE) with ZnearestE in C. change (SpecFloat.fexp 24 128) with (FLT_exp (-149) 24) in C.
  rewrite (rnd32_above _ H) in C. rewrite C. eexists. reflexivity.
Qed.
