(** Unit vectors on doubles, C49. *)
From Coq Require Import ZArith Reals Lra Lia SpecFloat Psatz.
From Flocq Require Import Core BinarySingleNaN Relative.
From Verif Require Import Base ListFacts DenseModel DenseFacts ScalarModel GeometryModel GeometryReal PropGeometryLemmas
  FloatFacts FloatError IterFloat PropFloatLemmas.
Local Open Scope R_scope.

Lemma u_tiny : f_u <= / 1000.
Proof.
  unfold f_u. apply Rinv_le_contravar; [lra|]. apply Rle_trans with (2 ^ 10); [lra|]. apply Rle_pow; [lra|]. apply Nat.leb_le. reflexivity.
Qed.

Lemma rsum_member n f i : (i < n)%nat -> (forall j, (j < n)%nat -> 0 <= f j) -> f i <= rsum n f.
Proof.
  intros Hi H. apply Rle_trans with (rsum n (fun j => if (j =? i)%nat then f i else 0)).
  - clear H. induction n as [|n IH]; [lia|]. cbn [asum]. destruct (Nat.eqb_spec n i) as [->|Hne].
    + assert (E : rsum i (fun j => if (j =? i)%nat then f i else 0) = 0); [|lra].
      rewrite (asum_ext _ _ i _ (fun _ => 0)); [rewrite rsum_const; ring|]. intros j Hj. destruct (Nat.eqb_spec j i); [lia|auto].
    + specialize (IH ltac:(lia)). lra.
  - apply rsum_le. intros j Hj. destruct (Nat.eqb_spec j i) as [->|]; [lra|auto].
Qed.

Lemma f_div_finite x y : f_valid x -> f_valid y -> f_finite x = true -> f_finite y = true -> f_real y <> 0 ->
  Rabs (f_real x / f_real y) <= f_limit -> f_finite (SFdiv 53 1024 x y) = true.
Proof.
  intros Hx Hy. destruct (valid_SF2B x Hx) as (a & <- & <- & <-), (valid_SF2B y Hy) as (b & <- & <- & <-). intros Fa Fb H0 H.
  rewrite div_equiv, B2SF_finite. pose proof (Bdiv_correct 53 1024 Hprec Hmax mode_NE a b H0) as C.
  rewrite (rnd_below _ H) in C. destruct C as (_ & -> & _). exact Fa.
Qed.

(** The quotient of numbers far from the ends of the range. *)
Lemma f_div_near x y : f_valid x -> f_valid y -> f_finite y = true -> f_finite (SFdiv 53 1024 x y) = true ->
  / 2 ^ 1022 <= Rabs (f_real x / f_real y) ->
  exists d, Rabs d <= f_u /\ f_real (SFdiv 53 1024 x y) = f_real x / f_real y * (1 + d).
Proof.
  intros Hx Hy Fy F H. destruct (f_div_round x y Hx Hy Fy F) as (_ & _ & E). rewrite E.
  destruct (relative_error_N_FLT_ex radix2 (-1074) 53 eq_refl (fun t => negb (Z.even t)) (f_real x / f_real y)) as (d & Hd & Er).
  - apply Rle_trans with (2 := H). right. exact (bpow_inv 1022).
  - exists d. rewrite u_bpow. auto.
Qed.

Lemma pow_gamma_low m t : 1 <= (1 + f_u) ^ m * t -> t <= (1 + f_u) ^ m -> Rabs (t - 1) <= f_gamma m.
Proof.
  intros H1 H2. pose proof u_pos. unfold f_gamma. set (P := (1 + f_u) ^ m) in *.
  assert (HP : 1 <= P) by (apply pow_R1_Rle; lra). unfold Rabs. destruct (Rcase_abs (t - 1)); [|lra].
  assert (P * (1 - t) <= P * (P - 1)); [|nra]. nra.
Qed.

Lemma bernoulli n : 1 + INR n * f_u <= (1 + f_u) ^ n.
Proof. pose proof u_pos. induction n as [|n IH]; [cbn; lra|]. rewrite S_INR. cbn [pow]. pose proof (pos_INR n). nra. Qed.

(** The sum of the squares. *)
Lemma squares_bound n (x : nat -> f64) : (forall i, (i < n)%nat -> f_valid (x i)) ->
  let S := fsum n (fun i => SFmul 53 1024 (x i) (x i)) in let X := rsum n (fun i => f_real (x i) ^ 2) in
  f_finite S = true -> INR n * f_u <= / 4 -> / 2 ^ 1000 <= X ->
  0 <= f_real S /\ f_real S <= (1 + f_u) ^ (2 * n + 1) * X /\ X <= (1 + f_u) ^ (2 * n + 2) * f_real S.
Proof.
  intros Vx S X FS Hn HX. pose proof u_pos as Hu. pose proof eta_pos as He. pose proof (pos_INR n) as Hn0.
  set (q := fun i => SFmul 53 1024 (x i) (x i)).
  assert (Vq : forall i, (i < n)%nat -> f_valid (q i)) by (intros; apply f_mul_valid; auto).
  destruct (fsum_error n q Vq FS) as [Fq _].
  assert (Hq : forall i, (i < n)%nat -> 0 <= f_real (q i) /\ f_real (q i) <= (1 + f_u) * f_real (x i) ^ 2 + f_eta /\
    f_real (x i) ^ 2 <= (1 + f_u) ^ 2 * (f_real (q i) + f_eta)).
  { intros i Hi. destruct (f_mul_error _ _ (Vx i Hi) (Vx i Hi) (Fq i Hi)) as (_ & _ & d & e & Hd & Hee & E).
    destruct (f_mul_round _ _ (Vx i Hi) (Vx i Hi) (Fq i Hi)) as (_ & _ & Er).
    assert (Hs : 0 <= f_real (x i) * f_real (x i)) by apply Rle_0_sqr. fold (q i) in E, Er. apply Rabs_le_between in Hee.
    replace (f_real (x i) ^ 2) with (f_real (x i) * f_real (x i)) by ring. split.
    - rewrite Er. apply round_ge_generic; [apply FLT_exp_valid; reflexivity|apply valid_rnd_N|apply generic_format_0|exact Hs].
    - split; [rewrite E; pose proof (grow _ d Hs Hd); lra|]. apply Rle_trans with (1 := shrink _ d Hs Hd).
      apply Rmult_le_compat_l; [apply pow_le; lra|lra]. }
  destruct (fsum_nonneg n q) as (P0 & P1 & P2); [intros i Hi; split; [apply Vq|apply Hq]; auto|exact FS|].
  fold S in P0, P1, P2. set (Q := rsum n (fun i => f_real (q i))) in *.
  assert (HX0 : 0 < X) by (apply Rlt_le_trans with (2 := HX); apply Rinv_0_lt_compat, pow_lt; lra).
  assert (B1 : Q <= (1 + f_u) * X + INR n * f_eta).
  { unfold Q, X. rewrite <- rsum_const, <- rsum_scale, <- rsum_plus. apply rsum_le. intros i Hi. apply Hq, Hi. }
  assert (B2 : X <= (1 + f_u) ^ 2 * (Q + INR n * f_eta)).
  { unfold Q, X. rewrite <- rsum_const, <- rsum_plus, <- rsum_scale. apply rsum_le. intros i Hi. apply Hq, Hi. }
  assert (HE : f_eta <= f_u / 8 * X).
  { apply Rle_trans with (f_u / 8 * / 2 ^ 1000); [|apply Rmult_le_compat_l; lra]. unfold f_eta, f_u, Rdiv.
    replace 8 with (2 ^ 3) by ring. rewrite <- !Rinv_mult, <- !pow_add. apply Rinv_le_contravar; [apply pow_lt; lra|].
    apply Rle_pow; [lra|]. apply Nat.leb_le. reflexivity. }
  assert (HnE : INR n * f_eta <= INR n * f_u / 8 * X).
  { replace (INR n * f_u / 8 * X) with (INR n * (f_u / 8 * X)) by field. apply Rmult_le_compat_l; auto. }
  pose proof (bernoulli n) as Hb. assert (Hp : 0 < (1 + f_u) ^ n) by (apply pow_lt; lra).
  split; [exact P0|]. split.
  - apply Rle_trans with (1 := P1). replace (2 * n + 1)%nat with (n + (n + 1))%nat by lia. rewrite pow_add, Rmult_assoc.
    apply Rmult_le_compat_l; [lra|]. apply Rle_trans with (1 := B1). rewrite pow_add, pow_1.
    apply Rle_trans with ((1 + INR n * f_u) * (1 + f_u) * X); [|apply Rmult_le_compat_r; [lra|apply Rmult_le_compat_r; lra]].
    set (t := INR n * f_u) in *. assert (Ht0 : 0 <= t) by (apply Rmult_le_pos; lra).
    assert (Htu : 0 <= t * f_u) by (apply Rmult_le_pos; lra).
    apply Rle_trans with ((1 + f_u + t / 8) * X); [lra|]. apply Rmult_le_compat_r; lra.
  - assert (B3 : X <= (1 + f_u) ^ (n + 2) * f_real S + (1 + f_u) ^ 2 * (INR n * f_u / 8 * X)).
    { apply Rle_trans with (1 := B2). rewrite Rmult_plus_distr_l. apply Rplus_le_compat.
      - replace (n + 2)%nat with (2 + n)%nat by lia. rewrite pow_add, Rmult_assoc. apply Rmult_le_compat_l; [apply pow_le; lra|exact P2].
      - apply Rmult_le_compat_l; [apply pow_le; lra|exact HnE]. }
    pose proof u_tiny as Ht. assert (H2 : (1 + f_u) ^ 2 <= 2) by nra.
    assert (B4 : (1 + f_u) ^ 2 * (INR n * f_u / 8 * X) <= INR n * f_u / 4 * X).
    { assert (0 <= INR n * f_u) by (apply Rmult_le_pos; lra). assert (0 <= INR n * f_u / 8 * X) by (apply Rmult_le_pos; lra). nra. }
    assert (B5 : X * (1 - INR n * f_u / 4) <= (1 + f_u) ^ (n + 2) * f_real S) by lra.
    replace (2 * n + 2)%nat with (n + (n + 2))%nat by lia. rewrite pow_add, Rmult_assoc.
    apply Rle_trans with ((1 + f_u) ^ n * (X * (1 - INR n * f_u / 4))); [|apply Rmult_le_compat_l; [lra|exact B5]].
    apply Rle_trans with ((1 + INR n * f_u) * (X * (1 - INR n * f_u / 4))).
    + set (t := INR n * f_u) in *. assert (0 <= t) by (apply Rmult_le_pos; lra).
      assert (1 <= (1 + t) * (1 - t / 4)) by nra. nra.
    + apply Rmult_le_compat_r; [apply Rmult_le_pos; [lra|]; set (t := INR n * f_u) in *; lra|exact Hb].
Qed.

Lemma unit_float n v f : is_vec n v f -> (forall i, (i < n)%nat -> f_valid (f i) /\ f_finite (f i) = true) ->
  INR n * f_u <= / 4 -> let X := rsum n (fun i => f_real (f i) ^ 2) in / 2 ^ 1000 <= X <= 2 ^ 1000 ->
  exists w g, f_unit v = Ok w /\ is_vec n w g /\
    (forall i, (i < n)%nat -> f_finite (g i) = true /\
       Rabs (f_real (g i) - f_real (f i) / sqrt X) <= f_gamma (n + 6) * Rabs (f_real (f i) / sqrt X) + f_eta).
Proof.
  intros Hv Hf Hn X HX. pose proof u_pos as Hu. pose proof u_tiny as Hut. pose proof eta_pos as He. pose proof (pos_INR n) as Hn0.
  assert (HX0 : 0 < X) by (apply Rlt_le_trans with (2 := proj1 HX); apply Rinv_0_lt_compat, pow_lt; lra).
  assert (HX2 : rsum n (fun i => Rabs (f_real (f i) * f_real (f i))) = X).
  { apply asum_ext. intros i _. rewrite Rabs_pos_eq by apply Rle_0_sqr. ring. }
  assert (Hpow : (1 + f_u) ^ n <= 4 / 3).
  { pose proof (gamma_bound n ltac:(lra)) as G. unfold f_gamma in G.
    assert (INR n * f_u / (1 - INR n * f_u) <= / 3); [|lra]. set (t := INR n * f_u) in *.
    apply Rmult_le_reg_r with (1 - t); [lra|]. unfold Rdiv. rewrite Rmult_assoc, Rinv_l by lra. lra. }
  assert (Hpow1 : 1 <= (1 + f_u) ^ n) by (apply pow_R1_Rle; lra).
  assert (Hk : forall k, (k <= 6)%nat -> (1 + f_u) ^ (n + k) <= 3 / 2).
  { intros k Hk. apply Rle_trans with ((1 + f_u) ^ (n + 6)); [apply Rle_pow; [lra|lia]|]. rewrite pow_add.
    apply Rle_trans with (4 / 3 * (1 + / 1000) ^ 6); [|lra]. apply Rmult_le_compat; [lra|apply pow_le; lra|exact Hpow|apply pow_incr; lra]. }
  set (S := fsum n (fun i => SFmul 53 1024 (f i) (f i))).
  assert (FS : f_finite S = true).
  { apply inner_finite; auto. unfold inner_bound. rewrite HX2. unfold f_gamma.
    assert (H1 : (1 + f_u) ^ (n + 1) <= 3 / 2) by (apply Hk; lia).
    assert (H2 : INR n * (1 + f_u) ^ n * f_eta <= 1).
    { assert (f_eta <= f_u).
      { unfold f_eta, f_u. apply Rinv_le_contravar; [apply pow_lt; lra|]. apply Rle_pow; [lra|]. apply Nat.leb_le. reflexivity. }
      assert (INR n * f_eta <= / 4) by nra. nra. }
    assert (H3 : X * (3 / 2) + 1 <= f_limit).
    { unfold f_limit. apply Rle_trans with (4 * 2 ^ 1000).
      - assert (1 <= 2 ^ 1000) by (apply pow_R1_Rle; lra). lra.
      - replace 4 with (2 ^ 2) by ring. rewrite <- pow_add. apply Rle_pow; [lra|]. apply Nat.leb_le. reflexivity. }
    nra. }
  destruct (squares_bound n f (fun i Hi => proj1 (Hf i Hi)) FS Hn (proj1 HX)) as (S0 & S1 & S2). fold S X in S0, S1, S2.
  assert (VS : f_valid S) by (apply fsum_valid; intros i Hi; apply f_mul_valid; apply Hf, Hi).
  set (N := SFsqrt 53 1024 S). assert (FN : f_finite N = true) by (apply f_sqrt_finite; auto).
  destruct (f_sqrt_error S VS FN) as (_ & _ & dN & HdN & EN). fold N in EN.
  assert (VN : f_valid N) by (apply f_sqrt_valid, VS).
  set (rX := sqrt X). assert (HrX : 0 < rX) by (apply sqrt_lt_R0, HX0).
  pose proof (sqrt_pos (f_real S)) as HrS.
  assert (Hsq : forall k, sqrt ((1 + f_u) ^ (2 * k)) = (1 + f_u) ^ k).
  { intro k. replace ((1 + f_u) ^ (2 * k)) with (Rsqr ((1 + f_u) ^ k)) by (unfold Rsqr; rewrite <- pow_add; f_equal; lia).
    apply sqrt_Rsqr. apply pow_le. lra. }
  assert (R1 : sqrt (f_real S) <= (1 + f_u) ^ (n + 1) * rX).
  { rewrite <- Hsq. unfold rX. rewrite <- sqrt_mult_alt by (apply pow_le; lra). apply sqrt_le_1_alt.
    apply Rle_trans with (1 := S1). apply up_le; [lia|lra]. }
  assert (R2 : rX <= (1 + f_u) ^ (n + 1) * sqrt (f_real S)).
  { rewrite <- Hsq. unfold rX. rewrite <- sqrt_mult_alt by (apply pow_le; lra). apply sqrt_le_1_alt.
    apply Rle_trans with (1 := S2). apply up_le; [lia|lra]. }
  assert (N1 : f_real N <= (1 + f_u) ^ (n + 2) * rX).
  { rewrite EN. apply Rle_trans with (1 := grow _ dN HrS HdN). replace (n + 2)%nat with (Datatypes.S (n + 1)) by lia.
    rewrite <- tech_pow_Rmult, Rmult_assoc. apply Rmult_le_compat_l; [lra|exact R1]. }
  assert (N2 : rX <= (1 + f_u) ^ (n + 3) * f_real N).
  { apply Rle_trans with (1 := R2). replace (n + 3)%nat with (n + 1 + 2)%nat by lia. rewrite (pow_add _ (n + 1) 2), Rmult_assoc.
    apply Rmult_le_compat_l; [apply pow_le; lra|]. rewrite EN. apply shrink; auto. }
  assert (NP : 0 < f_real N).
  { apply Rmult_lt_reg_l with ((1 + f_u) ^ (n + 3)); [apply pow_lt; lra|]. rewrite Rmult_0_r. lra. }
  assert (Hb : 2 ^ 1000 = 2 ^ 500 * 2 ^ 500) by (rewrite <- pow_add; reflexivity).
  assert (P500 : 0 < 2 ^ 500) by (apply pow_lt; lra).
  assert (X1 : rX <= 2 ^ 500).
  { unfold rX. rewrite <- (sqrt_Rsqr (2 ^ 500)) by lra. apply sqrt_le_1_alt. unfold Rsqr. rewrite <- Hb. apply HX. }
  assert (X2 : / 2 ^ 500 <= rX).
  { unfold rX. assert (0 < / 2 ^ 500) by (apply Rinv_0_lt_compat; exact P500).
    rewrite <- (sqrt_Rsqr (/ 2 ^ 500)) by lra. apply sqrt_le_1_alt. unfold Rsqr. rewrite <- Rinv_mult, <- Hb. apply HX. }
  set (K := SFdiv 53 1024 (f_of_Z 1) N).
  assert (V1 : f_valid (f_of_Z 1)) by (vm_compute; reflexivity). assert (F1 : f_finite (f_of_Z 1) = true) by (vm_compute; reflexivity).
  assert (E1 : f_real (f_of_Z 1) = 1).
  { change (f_of_Z 1) with (S754_finite false 4503599627370496 (-52)). unfold f_real.
    replace (IZR 4503599627370496) with (2 ^ 52) by (rewrite pow_IZR; reflexivity).
    change (powerRZ 2 (-52)) with (/ 2 ^ 52). apply Rinv_r. apply pow_nonzero. lra. }
  assert (Hdiv : f_real (f_of_Z 1) / f_real N = / f_real N) by (rewrite E1; unfold Rdiv; ring).
  assert (HiN : 0 < / f_real N) by (apply Rinv_0_lt_compat, NP).
  assert (I1 : / f_real N <= 2 * 2 ^ 500).
  { apply Rmult_le_reg_r with (f_real N); [exact NP|]. rewrite Rinv_l by lra.
    assert (rX <= 3 / 2 * f_real N) by (apply Rle_trans with (1 := N2); apply Rmult_le_compat_r; [lra|apply Hk; lia]).
    apply Rle_trans with (2 * 2 ^ 500 * (2 / 3 * rX)); [|apply Rmult_le_compat_l; lra].
    assert (2 ^ 500 * / 2 ^ 500 <= 2 ^ 500 * rX) by (apply Rmult_le_compat_l; lra). rewrite Rinv_r in H0 by lra. lra. }
  assert (I2 : / (2 * 2 ^ 500) <= / f_real N).
  { apply Rinv_le_contravar; [exact NP|]. apply Rle_trans with (1 := N1). apply Rmult_le_compat; [apply pow_le; lra|lra| |exact X1].
    apply Rle_trans with (3 / 2); [apply Hk; lia|lra]. }
  assert (FK : f_finite K = true).
  { apply f_div_finite; auto; [lra|]. rewrite Hdiv, Rabs_pos_eq by lra. apply Rle_trans with (1 := I1). unfold f_limit.
    rewrite tech_pow_Rmult. apply Rle_pow; [lra|]. apply Nat.leb_le. reflexivity. }
  destruct (f_div_near (f_of_Z 1) N V1 VN FN FK) as (dK & HdK & EK).
  { rewrite Hdiv, Rabs_pos_eq by lra. apply Rle_trans with (2 := I2). rewrite tech_pow_Rmult.
    apply Rinv_le_contravar; [apply pow_lt; lra|]. apply Rle_pow; [lra|]. apply Nat.leb_le. reflexivity. }
  fold K in EK. rewrite Hdiv in EK. assert (VK : f_valid K) by (apply f_div_valid; auto).
  (* the vector *)
  assert (EL : lp_norm fops (fun x _ => x) (fun _ x => x) 2 v = Ok N).
  { exact (f_equal (fun s => Ok (SFsqrt 53 1024 s))
      (fold_asum (S754_zero false) (SFadd 53 1024) n v f (fun b => SFmul 53 1024 b b) Hv)). }
  assert (ER : sc_inf_recip fops N = false).
  { change (sc_inf_recip fops N) with (match K with S754_infinity _ => true | _ => false end). destruct K; auto; discriminate. }
  destruct (v_scale_ext (SFmul 53 1024) n v f K Hv) as (w & Ew & Hw).
  exists w, (fun i => SFmul 53 1024 (f i) K). split; [|split; [exact Hw|]].
  { unfold f_unit, unit_vector. rewrite EL. cbn [bind]. rewrite ER. exact Ew. }
  intros i Hi. destruct (Hf i Hi) as [Vi Fi].
  (* the factor *)
  set (T := f_real K * rX).
  assert (HT : f_real K * rX = / f_real N * rX * (1 + dK)) by (rewrite EK; ring).
  assert (Hr0 : 0 <= / f_real N * rX) by (apply Rmult_le_pos; lra).
  assert (T1 : T <= (1 + f_u) ^ (n + 4)).
  { unfold T. rewrite HT. apply Rle_trans with (1 := grow _ dK Hr0 HdK). replace (n + 4)%nat with (Datatypes.S (n + 3)) by lia.
    rewrite <- tech_pow_Rmult. apply Rmult_le_compat_l; [lra|]. apply Rmult_le_reg_l with (f_real N); [exact NP|].
    rewrite <- Rmult_assoc, Rinv_r, Rmult_1_l, (Rmult_comm (f_real N)) by lra. exact N2. }
  assert (T2 : 1 <= (1 + f_u) ^ (n + 4) * T).
  { apply Rle_trans with ((1 + f_u) ^ (n + 2) * (/ f_real N * rX)).
    - apply Rmult_le_reg_l with (f_real N); [exact NP|].
      replace (f_real N * ((1 + f_u) ^ (n + 2) * (/ f_real N * rX))) with ((1 + f_u) ^ (n + 2) * rX) by (field; lra). lra.
    - replace (n + 4)%nat with (n + 2 + 2)%nat by lia. rewrite (pow_add _ (n + 2) 2), Rmult_assoc.
      apply Rmult_le_compat_l; [apply pow_le; lra|]. unfold T. rewrite HT. apply shrink; auto. }
  assert (HT0 : 0 <= T).
  { unfold T. rewrite HT. apply keep_sign; auto. }
  set (W := f_real (f i) / rX). assert (EW : f_real (f i) = W * rX) by (unfold W; field; lra).
  assert (HW : Rabs W <= 1).
  { unfold W, Rdiv. rewrite Rabs_mult, (Rabs_pos_eq (/ rX)) by (left; apply Rinv_0_lt_compat, HrX).
    apply Rmult_le_reg_r with rX; [exact HrX|]. rewrite Rmult_assoc, Rinv_l, Rmult_1_r, Rmult_1_l by lra.
    rewrite <- sqrt_Rsqr_abs. unfold rX. apply sqrt_le_1_alt. unfold X, Rsqr.
    replace (f_real (f i) * f_real (f i)) with (f_real (f i) ^ 2) by ring.
    apply (rsum_member n (fun i => f_real (f i) ^ 2) i Hi). intros; apply pow2_ge_0. }
  assert (Eprod : f_real (f i) * f_real K = W * T) by (rewrite EW; unfold T; ring).
  assert (FU : f_finite (SFmul 53 1024 (f i) K) = true).
  { apply f_mul_finite; auto. rewrite Eprod, Rabs_mult, (Rabs_pos_eq T HT0). apply Rle_trans with (1 * (3 / 2)).
    - apply Rmult_le_compat; auto using Rabs_pos. apply Rle_trans with (1 := T1). apply Hk. lia.
    - unfold f_limit. apply Rle_trans with (2 ^ 1); [lra|]. apply Rle_pow; [lra|]. apply Nat.leb_le. reflexivity. }
  split; [exact FU|]. destruct (f_mul_error _ _ Vi VK FU) as (_ & _ & d & e & Hd & Hee & E). rewrite E, Eprod.
  replace (W * T * (1 + d) + e - W) with (W * (T * (1 + d) - 1) + e) by ring. apply Rle_trans with (1 := Rabs_triang _ _).
  apply Rplus_le_compat; [|exact Hee]. rewrite Rabs_mult, Rmult_comm. apply Rmult_le_compat_r; [apply Rabs_pos|].
  apply pow_gamma_low.
  - apply Rle_trans with (1 := T2). replace (n + 6)%nat with (n + 4 + 2)%nat by lia. rewrite (pow_add _ (n + 4) 2), Rmult_assoc.
    apply Rmult_le_compat_l; [apply pow_le; lra|]. apply shrink; auto.
  - apply Rle_trans with (1 := grow _ d HT0 Hd). apply Rle_trans with ((1 + f_u) * (1 + f_u) ^ (n + 4)).
    + apply Rmult_le_compat_l; [lra|exact T1].
    + rewrite tech_pow_Rmult. apply Rle_pow; [lra|lia].
Qed.

(** Its length. *)
Lemma near_unit n (w g : nat -> R) m c : rsum n (fun i => w i ^ 2) = 1 -> 0 <= c <= 1 -> f_gamma m <= 1 ->
  (forall i, (i < n)%nat -> Rabs (g i - w i) <= f_gamma m * Rabs (w i) + c) ->
  Rabs (rsum n (fun i => g i ^ 2) - 1) <= f_gamma (2 * m) + 5 * INR n * c.
Proof.
  intros H1 Hc Hm H. pose proof (gamma_nonneg m) as Hg. rewrite <- H1, <- rsum_minus.
  apply Rle_trans with (1 := rsum_abs _ _).
  replace (f_gamma (2 * m) + 5 * INR n * c) with (rsum n (fun i => f_gamma (2 * m) * w i ^ 2 + 5 * c)).
  - apply rsum_le. intros i Hi. specialize (H i Hi).
    assert (Hw : Rabs (w i) <= 1).
    { rewrite <- (sqrt_1), <- sqrt_Rsqr_abs. apply sqrt_le_1_alt. unfold Rsqr. replace (w i * w i) with (w i ^ 2) by ring. rewrite <- H1.
      apply (rsum_member n (fun i => w i ^ 2) i Hi). intros; apply pow2_ge_0. }
    pose proof (Rabs_pos (w i)) as Hw0. set (a := Rabs (w i)) in *. set (d := g i - w i) in *.
    replace (g i ^ 2 - w i ^ 2) with (d * (2 * w i + d)) by (unfold d; ring). rewrite Rabs_mult.
    assert (Hd : Rabs (2 * w i + d) <= 2 * a + Rabs d).
    { apply Rle_trans with (1 := Rabs_triang _ _). rewrite Rabs_mult, (Rabs_pos_eq 2) by lra. unfold a. lra. }
    pose proof (Rabs_pos d) as Hd0. assert (Ha2 : w i ^ 2 = a * a) by (unfold a; rewrite <- Rabs_mult, Rabs_pos_eq by apply Rle_0_sqr; ring).
    rewrite Ha2. replace (2 * m)%nat with (m + m)%nat by lia. rewrite gamma_add. set (y := f_gamma m) in *.
    apply Rle_trans with ((y * a + c) * (2 * a + (y * a + c))).
    + apply Rmult_le_compat; try apply Rabs_pos; [exact H|lra].
    + assert (c * a <= c * 1) by (apply Rmult_le_compat_l; lra).
      assert (c * c <= c * 1) by (apply Rmult_le_compat_l; lra).
      assert (y * (c * a) <= 1 * (c * 1)) by (apply Rmult_le_compat; try lra; apply Rmult_le_pos; lra). nra.
  - rewrite rsum_plus, rsum_scale, H1, rsum_const. ring.
Qed.

Lemma unit_length n v f : is_vec n v f -> (forall i, (i < n)%nat -> f_valid (f i) /\ f_finite (f i) = true) ->
  INR n * f_u <= / 4 -> let X := rsum n (fun i => f_real (f i) ^ 2) in / 2 ^ 1000 <= X <= 2 ^ 1000 ->
  exists w g, f_unit v = Ok w /\ is_vec n w g /\
    (forall i, (i < n)%nat -> f_finite (g i) = true /\
       Rabs (f_real (g i) - f_real (f i) / sqrt X) <= f_gamma (n + 6) * Rabs (f_real (f i) / sqrt X) + f_eta) /\
    Rabs (rsum n (fun i => f_real (g i) ^ 2) - 1) <= f_gamma (2 * (n + 6)) + 5 * INR n * f_eta.
Proof.
  intros Hv Hf Hn X HX. destruct (unit_float n v f Hv Hf Hn HX) as (w & g & Ew & Hw & Hg). fold X in Hg.
  exists w, g. split; [exact Ew|]. split; [exact Hw|]. split; [exact Hg|].
  assert (HX0 : 0 < X) by (apply Rlt_le_trans with (2 := proj1 HX); apply Rinv_0_lt_compat, pow_lt; lra).
  assert (HrX : 0 < sqrt X) by (apply sqrt_lt_R0, HX0). pose proof u_pos. pose proof u_tiny. pose proof eta_pos.
  apply (near_unit n (fun i => f_real (f i) / sqrt X) (fun i => f_real (g i)) (n + 6) f_eta).
  - rewrite (asum_ext _ _ n (fun i => (f_real (f i) / sqrt X) ^ 2) (fun i => / X * f_real (f i) ^ 2)).
    + rewrite rsum_scale. fold X. apply Rinv_l. lra.
    + intros i Hi. rewrite <- (sqrt_sqrt X) at 2 by lra. field. lra.
  - split; [lra|]. unfold f_eta. rewrite <- Rinv_1. apply Rinv_le_contravar; [lra|]. apply pow_R1_Rle. lra.
  - unfold f_gamma. rewrite pow_add.
    assert (Hpow : (1 + f_u) ^ n <= 4 / 3).
    { pose proof (gamma_bound n ltac:(lra)) as G. unfold f_gamma in G.
      assert (INR n * f_u / (1 - INR n * f_u) <= / 3); [|lra]. set (t := INR n * f_u) in *.
      apply Rmult_le_reg_r with (1 - t); [lra|]. unfold Rdiv. rewrite Rmult_assoc, Rinv_l by lra. lra. }
    assert ((1 + f_u) ^ n * (1 + f_u) ^ 6 <= 4 / 3 * (1 + / 1000) ^ 6); [|lra].
    apply Rmult_le_compat; [apply pow_le; lra|apply pow_le; lra|exact Hpow|apply pow_incr; lra].
  - intros i Hi. apply Hg, Hi.
Qed.
