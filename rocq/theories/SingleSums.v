(** Sums of floats, for C136. *)
From Coq Require Import List ZArith Reals Lra Lia SpecFloat Psatz.
From Flocq Require Import Core BinarySingleNaN Relative Plus_error Sterbenz Ulp.
From Verif Require Import Base DenseModel DenseFacts DenseOps ScalarModel GeometryModel GeometryReal FloatFacts FloatError
  PropFloatLemmas PropGeoFloatLemmas SingleModel SingleFacts PropSingleLemmas SingleOps.
Import ListNotations.
Local Open Scope R_scope.
Local Notation B32 := (binary_float 24 128).

Lemma s_add_equiv (x y : B32) : SFadd 24 128 (B2SF x) (B2SF y) = B2SF (Bplus mode_NE x y).
Proof.
  destruct x as [sx|sx| |sx mx ex Bx], y as [sy|sy| |sy my ey By];
    [first [reflexivity|cbn; destruct (Bool.eqb _ _); reflexivity].. |].
  apply s_normalize_equiv.
Qed.
Lemma s_sub_equiv (x y : B32) : SFsub 24 128 (B2SF x) (B2SF y) = B2SF (Bminus mode_NE x y).
Proof.
  destruct x as [sx|sx| |sx mx ex Bx], y as [sy|sy| |sy my ey By];
    [first [reflexivity|cbn; destruct (Bool.eqb _ _); reflexivity].. |].
  cbn. unfold Zminus. rewrite <- cond_Zopp_negb. apply s_normalize_equiv.
Qed.

(** What is rounded to a finite float: everything below half the way from the largest float to 2^128. *)
Definition s_over : R := 2 ^ 128 - 2 ^ 103.

Lemma b103 : bpow radix2 103 = 2 ^ 103.
Proof. exact (bpow_pow 103). Qed.
Lemma b104 : bpow radix2 104 = 2 * 2 ^ 103.
Proof. rewrite <- b103. change 104%Z with (1 + 103)%Z. rewrite bpow_plus. reflexivity. Qed.

#[local] Instance flt32 : Valid_exp (FLT_exp (-149) 24).
Proof. apply FLT_exp_valid. reflexivity. Qed.

Lemma pred128 : pred radix2 (FLT_exp (-149) 24) (bpow radix2 128) = 2 ^ 128 - 2 * 2 ^ 103.
Proof. rewrite pred_bpow. change (FLT_exp (-149) 24 128) with 104%Z. rewrite b104, b128. reflexivity. Qed.
Lemma format128 : generic_format radix2 (FLT_exp (-149) 24) (bpow radix2 128).
Proof. apply generic_format_bpow. unfold FLT_exp. lia. Qed.
Lemma succ128 : succ radix2 (FLT_exp (-149) 24) (2 ^ 128 - 2 * 2 ^ 103) = 2 ^ 128.
Proof. rewrite <- pred128, succ_pred by (apply flt32 || apply format128). apply b128. Qed.
Lemma small103 : 0 < 2 ^ 103 /\ 2 * (2 * 2 ^ 103) <= 2 ^ 128.
Proof.
  split; [apply pow_lt; lra|]. apply Rle_trans with (2 ^ 105); [right; ring|]. apply Rle_pow; [lra|]. apply Nat.leb_le. reflexivity.
Qed.

Lemma over_below x : Rabs x < s_over -> Rlt_bool (Rabs (rnd32 x)) (bpow radix2 128) = true.
Proof.
  intro H. apply Rlt_bool_true. rewrite <- round_NE_abs by typeclasses eauto.
  apply Rle_lt_trans with (2 ^ 128 - 2 * 2 ^ 103); [|rewrite b128; pose proof small103; lra].
  apply round_N_le_midp.
  - apply flt32.
  - rewrite <- pred128. apply generic_format_pred; [apply flt32|apply format128].
  - rewrite succ128. unfold s_over in H. lra.
Qed.
Lemma over_above x : s_over < Rabs x -> Rlt_bool (Rabs (rnd32 x)) (bpow radix2 128) = false.
Proof.
  intro H. apply Rlt_bool_false. rewrite <- round_NE_abs by typeclasses eauto. apply round_N_ge_midp.
  - apply flt32.
  - apply format128.
  - rewrite pred128, b128. unfold s_over in H. lra.
Qed.

(** A sum has no error from underflow. *)
Lemma sum32_error x y : s_valid x -> s_valid y -> Rabs (rnd32 (f_real x + f_real y) - (f_real x + f_real y)) <= s_u * Rabs (f_real x + f_real y).
Proof.
  intros Hx Hy. destruct (Rle_or_lt (bpow radix2 (-149 + 24 - 1)) (Rabs (f_real x + f_real y))) as [L|L].
  - rewrite s_u_bpow. apply (relative_error_N_FLT radix2 (-149) 24); [reflexivity|exact L].
  - rewrite round_generic.
    + rewrite Rminus_diag_eq, Rabs_R0 by reflexivity. apply Rmult_le_pos; [apply Rlt_le, s_u_pos|apply Rabs_pos].
    + apply valid_rnd_N.
    + apply FLT_format_plus_small; [reflexivity|apply s_format, Hx|apply s_format, Hy|]. apply Rlt_le, Rlt_le_trans with (1 := L).
      apply bpow_le. lia.
Qed.
Lemma s_opp_valid x : s_valid x -> s_valid (SFopp x).
Proof. intro H. destruct x; exact H. Qed.

Lemma s_add_valid x y : s_valid x -> s_valid y -> s_valid (s_add x y).
Proof.
  intros Hx Hy. destruct (s_SF2B x Hx) as (a & <- & _), (s_SF2B y Hy) as (b & <- & _). unfold s_add. rewrite s_add_equiv.
  apply sB2SF_valid.
Qed.
Lemma s_sub_valid x y : s_valid x -> s_valid y -> s_valid (s_sub x y).
Proof.
  intros Hx Hy. destruct (s_SF2B x Hx) as (a & <- & _), (s_SF2B y Hy) as (b & <- & _). unfold s_sub. rewrite s_sub_equiv.
  apply sB2SF_valid.
Qed.
Lemma s_add_round x y : single x -> single y -> Rabs (f_real x + f_real y) < s_over ->
  single (s_add x y) /\ f_real (s_add x y) = rnd32 (f_real x + f_real y).
Proof.
  intros [Hx Fx] [Hy Fy] H. split; [split; [apply s_add_valid; auto|]|]; revert Fx Fy H;
  destruct (s_SF2B x Hx) as (a & <- & <- & <-), (s_SF2B y Hy) as (b & <- & <- & <-); intros Fa Fb H;
  unfold s_add; rewrite s_add_equiv, ?sB2SF_finite, ?sB2SF_real; pose proof (Bplus_correct 24 128 Hprec32 Hmax32 mode_NE a b Fa Fb) as C;
  change (round_mode mode_NE) with ZnearestE in C; change (SpecFloat.fexp 24 128) with (FLT_exp (-149) 24) in C;
  rewrite (over_below _ H) in C; apply C.
Qed.
Lemma s_sub_round x y : single x -> single y -> Rabs (f_real x - f_real y) < s_over ->
  single (s_sub x y) /\ f_real (s_sub x y) = rnd32 (f_real x - f_real y).
Proof.
  intros [Hx Fx] [Hy Fy] H. split; [split; [apply s_sub_valid; auto|]|]; revert Fx Fy H;
  destruct (s_SF2B x Hx) as (a & <- & <- & <-), (s_SF2B y Hy) as (b & <- & <- & <-); intros Fa Fb H;
  unfold s_sub; rewrite s_sub_equiv, ?sB2SF_finite, ?sB2SF_real; pose proof (Bminus_correct 24 128 Hprec32 Hmax32 mode_NE a b Fa Fb) as C;
  change (round_mode mode_NE) with ZnearestE in C; change (SpecFloat.fexp 24 128) with (FLT_exp (-149) 24) in C;
  rewrite (over_below _ H) in C; apply C.
Qed.
Lemma sign_bound (a : B32) : is_finite a = true -> if Bsign a then B2R a <= 0 else 0 <= B2R a.
Proof.
  intro F. destruct a as [s|s| |s m e B]; try discriminate; cbn; [destruct s; lra|]. destruct s; cbn.
  - apply F2R_le_0. cbn. lia.
  - apply F2R_ge_0. cbn. lia.
Qed.
Lemma over_pos : 0 < s_over.
Proof. unfold s_over. pose proof small103. lra. Qed.
Lemma s_add_over x y : single x -> single y -> s_over < Rabs (f_real x + f_real y) ->
  s_add x y = S754_infinity (Rlt_bool (f_real x + f_real y) 0).
Proof.
  intros [Hx Fx] [Hy Fy] H. revert Fx Fy H.
  destruct (s_SF2B x Hx) as (a & <- & <- & <-), (s_SF2B y Hy) as (b & <- & <- & <-). intros Fa Fb H.
  unfold s_add. rewrite s_add_equiv. pose proof (Bplus_correct 24 128 Hprec32 Hmax32 mode_NE a b Fa Fb) as C.
  change (round_mode mode_NE) with ZnearestE in C. change (SpecFloat.fexp 24 128) with (FLT_exp (-149) 24) in C.
  rewrite (over_above _ H) in C. destruct C as [C E]. rewrite C. cbn. f_equal. pose proof over_pos.
  pose proof (sign_bound a Fa) as Sa. pose proof (sign_bound b Fb) as Sb. rewrite <- E in Sb. destruct (Bsign a); symmetry.
  - apply Rlt_bool_true. rewrite Rabs_left1 in H by lra. lra.
  - apply Rlt_bool_false. lra.
Qed.
Lemma s_sub_over x y : single x -> single y -> s_over < Rabs (f_real x - f_real y) ->
  s_sub x y = S754_infinity (Rlt_bool (f_real x - f_real y) 0).
Proof.
  intros [Hx Fx] [Hy Fy] H. revert Fx Fy H.
  destruct (s_SF2B x Hx) as (a & <- & <- & <-), (s_SF2B y Hy) as (b & <- & <- & <-). intros Fa Fb H.
  unfold s_sub. rewrite s_sub_equiv. pose proof (Bminus_correct 24 128 Hprec32 Hmax32 mode_NE a b Fa Fb) as C.
  change (round_mode mode_NE) with ZnearestE in C. change (SpecFloat.fexp 24 128) with (FLT_exp (-149) 24) in C.
  rewrite (over_above _ H) in C. destruct C as [C E]. rewrite C. cbn. f_equal. pose proof over_pos.
  pose proof (sign_bound a Fa) as Sa. pose proof (sign_bound b Fb) as Sb. rewrite E in Sa. destruct (Bsign b); cbn in Sa |- *.
  - symmetry. rewrite E. cbn. apply Rlt_bool_false. lra.
  - symmetry. rewrite E. cbn. apply Rlt_bool_true. rewrite Rabs_left1 in H by lra. lra.
Qed.

Lemma s_sub_error x y : s_valid x -> s_valid y -> Rabs (rnd32 (f_real x - f_real y) - (f_real x - f_real y)) <= s_u * Rabs (f_real x - f_real y).
Proof.
  intros Hx Hy. pose proof (sum32_error x (SFopp y) Hx (s_opp_valid y Hy)) as E.
  assert (K : f_real (SFopp y) = - f_real y).
  { destruct y as [s|s| |s m e]; try (cbn [SFopp f_real]; ring). rewrite !f_real_SF2R. cbn [SFopp SF2R].
    rewrite <- F2R_Zopp. f_equal. destruct s; reflexivity. }
  rewrite K in E. exact E.
Qed.

(** The two operations. *)
Definition sum_op (op : f32 -> f32 -> f32) (exact : R -> R -> R) : Prop :=
  op = s_add /\ exact = Rplus \/ op = s_sub /\ exact = Rminus.

Lemma sum_ok op exact x y : sum_op op exact -> single x -> single y -> Rabs (exact (f_real x) (f_real y)) < s_over ->
  single (op x y) /\ Rabs (f_real (op x y) - exact (f_real x) (f_real y)) <= s_u * Rabs (exact (f_real x) (f_real y)).
Proof.
  intros [[-> ->]|[-> ->]] Hx Hy H.
  - destruct (s_add_round x y Hx Hy H) as [S E]. split; [exact S|]. rewrite E. apply sum32_error; [apply Hx|apply Hy].
  - destruct (s_sub_round x y Hx Hy H) as [S E]. split; [exact S|]. rewrite E. apply s_sub_error; [apply Hx|apply Hy].
Qed.
Lemma sum_over op exact x y : sum_op op exact -> single x -> single y ->
  (s_over < exact (f_real x) (f_real y) -> op x y = S754_infinity false) /\
  (exact (f_real x) (f_real y) < - s_over -> op x y = S754_infinity true).
Proof.
  pose proof over_pos. intros Hop Hx Hy.
  assert (G : s_over < Rabs (exact (f_real x) (f_real y)) -> op x y = S754_infinity (Rlt_bool (exact (f_real x) (f_real y)) 0)).
  { destruct Hop as [[-> ->]|[-> ->]]; [apply s_add_over|apply s_sub_over]; auto. }
  split; intro L; rewrite G.
  - rewrite Rlt_bool_false by lra. reflexivity.
  - rewrite Rabs_pos_eq; lra.
  - rewrite Rlt_bool_true by lra. reflexivity.
  - rewrite Rabs_left; lra.
Qed.
Lemma sum_valid op exact x y : sum_op op exact -> s_valid x -> s_valid y -> s_valid (op x y).
Proof. intros [[-> ->]|[-> ->]]; [apply s_add_valid|apply s_sub_valid]. Qed.

Lemma sterbenz32 x y : single x -> single y -> f_real y / 2 <= f_real x <= 2 * f_real y ->
  single (s_sub x y) /\ f_real (s_sub x y) = f_real x - f_real y.
Proof.
  intros Hx Hy B. assert (L : Rabs (f_real x - f_real y) < s_over).
  { pose proof (s_lt y (proj1 Hy)) as Ly. pose proof (s_lt x (proj1 Hx)) as Lx.
    assert (Fy : f_real y <= 2 ^ 128 - 2 * 2 ^ 103 /\ f_real x <= 2 ^ 128 - 2 * 2 ^ 103).
    { rewrite <- pred128. rewrite <- b128 in Ly, Lx. split; apply pred_ge_gt; try apply flt32; try apply format128.
      - apply s_format, Hy.
      - apply Rle_lt_trans with (1 := Rle_abs _) (2 := Ly).
      - apply s_format, Hx.
      - apply Rle_lt_trans with (1 := Rle_abs _) (2 := Lx). }
    unfold s_over. pose proof small103. apply Rabs_def1; lra. }
  destruct (s_sub_round x y Hx Hy L) as [S E]. split; [exact S|]. rewrite E. apply round_generic; [apply valid_rnd_N|].
  apply sterbenz; [apply flt32|apply FLT_exp_monotone|apply s_format, Hx|apply s_format, Hy|exact B].
Qed.

(** Vectors. *)
Lemma single_sums dbg junk op exact n0 n1 n v f w g : sum_op op exact -> is_vec n v f -> is_vec n w g -> vtyped n0 v -> vtyped n1 w ->
  singles n f -> singles n g ->
  exists u h, v_op s_zero dbg junk op n0 n1 v w = Ok u /\ v_op_assign dbg op v (Some w) = Ok u /\ is_vec n u h /\
    forall i, (i < n)%nat -> let z := exact (f_real (f i)) (f_real (g i)) in
      (Rabs z < s_over -> single (h i) /\ Rabs (f_real (h i) - z) <= s_u * Rabs z) /\
      (s_over < z -> h i = S754_infinity false) /\ (z < - s_over -> h i = S754_infinity true).
Proof.
  intros Hop Hv Hw T0 T1 Hf Hg. destruct (v_op_ok s_zero op dbg junk n0 n1 n v f w g Hv Hw T0 T1) as (u & E & Hu).
  destruct (v_op_assign_ok op dbg n v f w g Hv Hw) as (u' & E' & Hu').
  exists u, (fun i => op (f i) (g i)). split; [exact E|]. split.
  - rewrite E'. f_equal. apply (is_vec_eq n u' u _ _ Hu' Hu). reflexivity.
  - split; [exact Hu|]. intros i Hi z. split; [intro H; apply sum_ok; auto|apply (sum_over op exact); auto].
Qed.
