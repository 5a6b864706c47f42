(** The doubles of [fops] as real numbers. The rounding of the operations is taken from Flocq; SpecFloat and
    Flocq define the same operations. *)
From Coq Require Import ZArith Reals Lra Lia SpecFloat Psatz.
From Flocq Require Import Core BinarySingleNaN Relative Plus_error.
From Verif Require Import Base ScalarModel.
Local Open Scope R_scope.

(** The values of a double: 53 significant bits, exponents up to 1024. *)
Definition f_valid (x : f64) : Prop := SpecFloat.valid_binary 53 1024 x = true.

Definition f_finite (x : f64) : bool :=
  match x with S754_zero _ => true | S754_finite _ _ _ => true | _ => false end.

(** (-1)^s m 2^e. *)
Definition f_real (x : f64) : R :=
  match x with
  | S754_finite s m e => (if s then - IZR (Zpos m) else IZR (Zpos m)) * powerRZ 2 e
  | _ => 0
  end.

(** Unit roundoff and half of the smallest positive double. *)
Definition f_u : R := / 2 ^ 53.
Definition f_eta : R := / 2 ^ 1075.

#[global] Instance Hprec : FLX.Prec_gt_0 53 := eq_refl _.
#[global] Instance Hmax : Prec_lt_emax 53 1024 := eq_refl _.

Local Notation B64 := (binary_float 53 1024).
Local Notation rnd := (round radix2 (FLT_exp (-1074) 53) ZnearestE).

Lemma f_real_SF2R x : f_real x = SF2R radix2 x.
Proof.
  destruct x as [s|s| |s m e]; try reflexivity. cbn [f_real SF2R]. unfold F2R. cbn [Fnum Fexp].
  rewrite bpow_powerRZ. destruct s; reflexivity.
Qed.

Lemma f_finite_SF x : f_finite x = is_finite_SF x.
Proof. destruct x; reflexivity. Qed.

Lemma valid_SF2B x : f_valid x -> exists y : B64, B2SF y = x /\ B2R y = f_real x /\ is_finite y = f_finite x.
Proof.
  intro H. exists (SF2B x H). split; [apply B2SF_SF2B|]. rewrite f_real_SF2R. split; [|destruct x; reflexivity].
  rewrite <- (SF2R_B2SF 53 1024), B2SF_SF2B. reflexivity.
Qed.

Lemma B2SF_valid (y : B64) : f_valid (B2SF y).
Proof. apply valid_binary_B2SF. Qed.

Lemma B2SF_real (y : B64) : f_real (B2SF y) = B2R y.
Proof. rewrite f_real_SF2R. apply SF2R_B2SF. Qed.

Lemma B2SF_finite (y : B64) : f_finite (B2SF y) = is_finite y.
Proof. destruct y; reflexivity. Qed.

(* ------------------------------------------------------------------ the same operations *)
Lemma round_nearest_even_equiv s m l : round_nearest_even m l = choice_mode mode_NE s m l.
Proof.
  destruct l as [|c]; [reflexivity|]. destruct c; [|reflexivity..].
  cbn. unfold Round.cond_incr. destruct (Z.even m); reflexivity.
Qed.

Lemma binary_round_aux_equiv sx mx ex lx : SpecFloat.binary_round_aux 53 1024 sx mx ex lx =
  binary_round_aux 53 1024 mode_NE sx mx ex lx.
Proof.
  unfold SpecFloat.binary_round_aux, binary_round_aux. set (mrse := shr_fexp _ _ _). destruct mrse as [mrs e]. cbn.
  rewrite (round_nearest_even_equiv sx). reflexivity.
Qed.

Lemma binary_round_equiv s m e : SpecFloat.binary_round 53 1024 s m e = binary_round 53 1024 mode_NE s m e.
Proof.
  unfold SpecFloat.binary_round, binary_round, shl_align_fexp. set (mez := shl_align _ _ _).
  destruct mez as [mz ez]. apply binary_round_aux_equiv.
Qed.

Lemma binary_normalize_equiv m e szero : SpecFloat.binary_normalize 53 1024 m e szero =
  B2SF (binary_normalize 53 1024 Hprec Hmax mode_NE m e szero).
Proof. destruct m; cbn [SpecFloat.binary_normalize binary_normalize]; [reflexivity|..]; rewrite B2SF_SF2B; apply binary_round_equiv. Qed.

Lemma add_equiv (x y : B64) : SFadd 53 1024 (B2SF x) (B2SF y) = B2SF (Bplus mode_NE x y).
Proof.
  destruct x as [sx|sx| |sx mx ex Bx], y as [sy|sy| |sy my ey By];
    [first [reflexivity|cbn; destruct (Bool.eqb _ _); reflexivity].. |].
  apply binary_normalize_equiv.
Qed.

Lemma sub_equiv (x y : B64) : SFsub 53 1024 (B2SF x) (B2SF y) = B2SF (Bminus mode_NE x y).
Proof.
  destruct x as [sx|sx| |sx mx ex Bx], y as [sy|sy| |sy my ey By];
    [first [reflexivity|cbn; destruct (Bool.eqb _ _); reflexivity].. |].
  cbn. unfold Zminus. rewrite <- cond_Zopp_negb. apply binary_normalize_equiv.
Qed.

Lemma mul_equiv (x y : B64) : SFmul 53 1024 (B2SF x) (B2SF y) = B2SF (Bmult mode_NE x y).
Proof.
  destruct x as [sx|sx| |sx mx ex Bx], y as [sy|sy| |sy my ey By]; [reflexivity.. |].
  cbn [SFmul Bmult B2SF]. rewrite B2SF_SF2B. apply binary_round_aux_equiv.
Qed.

Lemma div_equiv (x y : B64) : SFdiv 53 1024 (B2SF x) (B2SF y) = B2SF (Bdiv mode_NE x y).
Proof.
  destruct x as [sx|sx| |sx mx ex Bx], y as [sy|sy| |sy my ey By]; [reflexivity.. |].
  cbn [SFdiv Bdiv B2SF]. rewrite B2SF_SF2B. set (melz := SFdiv_core_binary _ _ _ _ _ _).
  destruct melz as [[mz ez] lz]. apply binary_round_aux_equiv.
Qed.

Lemma sqrt_equiv (x : B64) : SFsqrt 53 1024 (B2SF x) = B2SF (Bsqrt mode_NE x).
Proof.
  destruct x as [sx|sx| |sx mx ex Bx]; [first [reflexivity|destruct sx; reflexivity].. |].
  destruct sx; [reflexivity|]. cbn [SFsqrt Bsqrt B2SF]. rewrite B2SF_SF2B. set (melz := SFsqrt_core_binary _ _ _ _).
  destruct melz as [[mz ez] lz]. apply binary_round_aux_equiv.
Qed.

(* ------------------------------------------------------------------ rounding *)
Lemma bpow_inv k : bpow radix2 (- Z.of_nat k) = / 2 ^ k.
Proof. rewrite bpow_opp, bpow_powerRZ. change (IZR radix2) with 2. rewrite <- pow_powerRZ. reflexivity. Qed.

Lemma half_inv k : / 2 ^ (S k) = / 2 * / 2 ^ k.
Proof. rewrite <- tech_pow_Rmult. apply Rinv_mult. Qed.

Lemma eta_bpow : f_eta = / 2 * bpow radix2 (-1074).
Proof. exact (eq_trans (half_inv 1074) (f_equal (Rmult (/ 2)) (eq_sym (bpow_inv 1074)))). Qed.

Lemma u_bpow : f_u = / 2 * bpow radix2 (-53 + 1).
Proof. exact (eq_trans (half_inv 52) (f_equal (Rmult (/ 2)) (eq_sym (bpow_inv 52)))). Qed.

Lemma u_pos : 0 < f_u.
Proof. unfold f_u. apply Rinv_0_lt_compat, pow_lt. lra. Qed.

Lemma eta_pos : 0 < f_eta.
Proof. unfold f_eta. apply Rinv_0_lt_compat, pow_lt. lra. Qed.

(** The two forms of the error of a rounding. *)
Lemma rnd_error x : exists d e, Rabs d <= f_u /\ Rabs e <= f_eta /\ rnd x = x * (1 + d) + e.
Proof.
  destruct (error_N_FLT radix2 (-1074) 53 eq_refl (fun t => negb (Z.even t)) x) as (d & e & Hd & He & _ & E).
  exists d, e. rewrite u_bpow, eta_bpow. auto.
Qed.

Lemma rnd_error_back x : exists d e, Rabs d <= f_u /\ Rabs e <= f_eta /\ x = rnd x * (1 + d) + e.
Proof.
  destruct (Rle_or_lt (bpow radix2 (-1074 + 53 - 1)) (Rabs x)) as [H|H].
  - assert (Hr : Rabs (rnd x - x) <= f_u * Rabs (rnd x)).
    { rewrite u_bpow. exact (relative_error_N_FLT_round radix2 (-1074) 53 eq_refl (fun t => negb (Z.even t)) x H). }
    destruct (Req_dec (rnd x) 0) as [E|E].
    + rewrite E, Rabs_R0, Rmult_0_r in Hr. rewrite E. exists 0, 0. rewrite Rabs_R0.
      split; [left; apply u_pos|]. split; [left; apply eta_pos|].
      assert (Rabs (0 - x) = 0) by (apply Rle_antisym; [exact Hr|apply Rabs_pos]).
      destruct (Req_dec x 0); [lra|]. exfalso. apply (Rabs_no_R0 (0 - x)); [lra|auto].
    + exists ((x - rnd x) / rnd x), 0. rewrite Rabs_R0. split; [|split; [left; apply eta_pos|field; exact E]].
      unfold Rdiv. rewrite Rabs_mult, Rabs_inv. apply (Rmult_le_reg_r (Rabs (rnd x))); [apply Rabs_pos_lt, E|].
      rewrite Rmult_assoc, Rinv_l, Rmult_1_r by (apply Rabs_no_R0, E). rewrite Rabs_minus_sym. exact Hr.
  - exists 0, (x - rnd x). rewrite Rabs_R0. split; [left; apply u_pos|]. split; [|ring]. rewrite Rabs_minus_sym.
    apply Rle_trans with (1 := error_le_half_ulp radix2 (FLT_exp (-1074) 53) (fun t => negb (Z.even t)) x).
    rewrite eta_bpow. rewrite ulp_FLT_small; [apply Rle_refl|reflexivity|].
    apply Rlt_le_trans with (1 := H). apply bpow_le. lia.
Qed.

Lemma B2R_format (x : B64) : generic_format radix2 (FLT_exp (-1074) 53) (B2R x).
Proof. apply generic_format_B2R. Qed.

Lemma rnd_plus (x y : B64) : exists d, Rabs d <= f_u /\ rnd (B2R x + B2R y) = (B2R x + B2R y) * (1 + d).
Proof.
  destruct (FLT_plus_error_N_ex radix2 (-1074) 53 (fun t => negb (Z.even t)) _ _ (B2R_format x) (B2R_format y)) as (d & Hd & E).
  exists d. split; [|exact E]. apply Rle_trans with (1 := Hd). rewrite u_bpow. apply u_rod1pu_ro_le_u_ro.
Qed.

Lemma rnd_plus_back (x y : B64) : exists d, Rabs d <= f_u /\ B2R x + B2R y = rnd (B2R x + B2R y) * (1 + d).
Proof.
  destruct (FLT_plus_error_N_round_ex radix2 (-1074) 53 (fun t => negb (Z.even t)) _ _ (B2R_format x) (B2R_format y)) as (d & Hd & E).
  exists d. split; [|exact E]. rewrite u_bpow. exact Hd.
Qed.

Lemma rnd_minus_back (x y : B64) : exists d, Rabs d <= f_u /\ B2R x - B2R y = rnd (B2R x - B2R y) * (1 + d).
Proof.
  destruct (FLT_plus_error_N_round_ex radix2 (-1074) 53 (fun t => negb (Z.even t)) _ _ (B2R_format x)
    (generic_format_opp _ _ _ (B2R_format y))) as (d & Hd & E).
  exists d. split; [|exact E]. rewrite u_bpow. exact Hd.
Qed.

(* ------------------------------------------------------------------ the operations *)
Ltac take H b := destruct (valid_SF2B _ H) as (b & <- & _ & _).

Lemma f_add_valid x y : f_valid x -> f_valid y -> f_valid (SFadd 53 1024 x y).
Proof. intros Hx Hy. take Hx a. take Hy b. rewrite add_equiv. apply B2SF_valid. Qed.

Lemma f_sub_valid x y : f_valid x -> f_valid y -> f_valid (SFsub 53 1024 x y).
Proof. intros Hx Hy. take Hx a. take Hy b. rewrite sub_equiv. apply B2SF_valid. Qed.

Lemma f_mul_valid x y : f_valid x -> f_valid y -> f_valid (SFmul 53 1024 x y).
Proof. intros Hx Hy. take Hx a. take Hy b. rewrite mul_equiv. apply B2SF_valid. Qed.

Lemma f_div_valid x y : f_valid x -> f_valid y -> f_valid (SFdiv 53 1024 x y).
Proof. intros Hx Hy. take Hx a. take Hy b. rewrite div_equiv. apply B2SF_valid. Qed.

Lemma f_sqrt_valid x : f_valid x -> f_valid (SFsqrt 53 1024 x).
Proof. intros Hx. take Hx a. rewrite sqrt_equiv. apply B2SF_valid. Qed.

Lemma overflow_infinite (b : B64) s : is_finite b = true -> B2SF b = binary_overflow 53 1024 mode_NE s -> False.
Proof. intros H E. rewrite <- B2SF_finite, E in H. destruct s; discriminate. Qed.

Lemma f_add_round x y : f_valid x -> f_valid y -> f_finite (SFadd 53 1024 x y) = true ->
  f_finite x = true /\ f_finite y = true /\ f_real (SFadd 53 1024 x y) = rnd (f_real x + f_real y).
Proof.
  intros Hx Hy Hf. take Hx a. take Hy b. rewrite add_equiv in Hf |- *. rewrite B2SF_finite in Hf. rewrite !B2SF_finite, !B2SF_real.
  assert (Hab : is_finite a = true /\ is_finite b = true).
  { destruct a as [sa|sa| |sa ma ea Ba], b as [sb|sb| |sb mb eb Bb]; try (split; reflexivity); cbn in Hf; try discriminate.
    destruct (Bool.eqb sa sb); discriminate. }
  destruct Hab as [Ha Hb]. split; [exact Ha|]. split; [exact Hb|].
  pose proof (Bplus_correct 53 1024 Hprec Hmax mode_NE a b Ha Hb) as H. destruct (Rlt_bool _ _).
  - apply H.
  - destruct H as [H _]. exfalso. apply (overflow_infinite _ _ Hf H).
Qed.

Lemma f_sub_round x y : f_valid x -> f_valid y -> f_finite (SFsub 53 1024 x y) = true ->
  f_finite x = true /\ f_finite y = true /\ f_real (SFsub 53 1024 x y) = rnd (f_real x - f_real y).
Proof.
  intros Hx Hy Hf. take Hx a. take Hy b. rewrite sub_equiv in Hf |- *. rewrite B2SF_finite in Hf. rewrite !B2SF_finite, !B2SF_real.
  assert (Hab : is_finite a = true /\ is_finite b = true).
  { destruct a as [sa|sa| |sa ma ea Ba], b as [sb|sb| |sb mb eb Bb]; try (split; reflexivity); cbn in Hf; try discriminate.
    destruct (Bool.eqb sa (negb sb)); discriminate. }
  destruct Hab as [Ha Hb]. split; [exact Ha|]. split; [exact Hb|].
  pose proof (Bminus_correct 53 1024 Hprec Hmax mode_NE a b Ha Hb) as H. destruct (Rlt_bool _ _).
  - apply H.
  - destruct H as [H _]. exfalso. apply (overflow_infinite _ _ Hf H).
Qed.

Lemma f_mul_round x y : f_valid x -> f_valid y -> f_finite (SFmul 53 1024 x y) = true ->
  f_finite x = true /\ f_finite y = true /\ f_real (SFmul 53 1024 x y) = rnd (f_real x * f_real y).
Proof.
  intros Hx Hy Hf. take Hx a. take Hy b. rewrite mul_equiv in Hf |- *. rewrite B2SF_finite in Hf. rewrite !B2SF_finite, !B2SF_real.
  assert (Hab : is_finite a = true /\ is_finite b = true).
  { destruct a as [sa|sa| |sa ma ea Ba], b as [sb|sb| |sb mb eb Bb]; try (split; reflexivity); discriminate. }
  destruct Hab as [Ha Hb]. split; [exact Ha|]. split; [exact Hb|].
  pose proof (Bmult_correct 53 1024 Hprec Hmax mode_NE a b) as H. destruct (Rlt_bool _ _).
  - apply H.
  - exfalso. apply (overflow_infinite _ _ Hf H).
Qed.

(** The divisor has to be finite: a quotient by infinity is zero. *)
Lemma f_div_round x y : f_valid x -> f_valid y -> f_finite y = true -> f_finite (SFdiv 53 1024 x y) = true ->
  f_finite x = true /\ f_real y <> 0 /\ f_real (SFdiv 53 1024 x y) = rnd (f_real x / f_real y).
Proof.
  intros Hx Hy Hb Hf. take Hx a. take Hy b. rewrite div_equiv in Hf |- *. rewrite B2SF_finite in Hf.
  rewrite B2SF_finite in Hb. rewrite !B2SF_finite, !B2SF_real.
  assert (Ha : is_finite a = true).
  { destruct a as [sa|sa| |sa ma ea Ba], b as [sb|sb| |sb mb eb Bb]; try reflexivity; discriminate. }
  assert (Hn : B2R b <> 0).
  { destruct b as [sb|sb| |sb mb eb Bb]; try discriminate.
    - destruct a; discriminate.
    - cbn [B2R]. intro E. apply eq_0_F2R in E. destruct sb; discriminate. }
  split; [exact Ha|]. split; [exact Hn|].
  pose proof (Bdiv_correct 53 1024 Hprec Hmax mode_NE a b Hn) as H. destruct (Rlt_bool _ _).
  - apply H.
  - exfalso. apply (overflow_infinite _ _ Hf H).
Qed.

Lemma f_sqrt_round x : f_valid x -> f_finite (SFsqrt 53 1024 x) = true ->
  f_finite x = true /\ 0 <= f_real x /\ f_real (SFsqrt 53 1024 x) = rnd (sqrt (f_real x)).
Proof.
  intros Hx Hf. take Hx a. rewrite sqrt_equiv in Hf |- *. rewrite B2SF_finite in Hf. rewrite !B2SF_finite, !B2SF_real.
  assert (Ha : is_finite a = true /\ 0 <= B2R a).
  { destruct a as [sa|[]| |[] ma ea Ba]; try discriminate; (split; [reflexivity|]); cbn [B2R]; try lra.
    apply F2R_ge_0. cbn. lia. }
  split; [apply Ha|]. split; [apply Ha|].
  apply (Bsqrt_correct 53 1024 Hprec Hmax mode_NE a).
Qed.
