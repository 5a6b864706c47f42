(** Lemmas behind C136. *)
From Coq Require Import ZArith Reals Lra Lia List SpecFloat Psatz.
From Flocq Require Import Core BinarySingleNaN.
From Verif Require Import Base ListFacts DenseModel DenseFacts ScalarModel GeometryModel GeometryReal GeometryNorm
  FloatFacts FloatError IterFloat PropFloatLemmas FloatUnit FloatSweep PropIterLemmas PropIntLemmas PropNormLemmas DenseOps
  SingleModel SingleFacts.
Import ListNotations.
Local Open Scope R_scope.

(* ------------------------------------------------------------------ the words of the statements *)
(** A finite float. *)
Definition single (x : f32) : Prop := s_valid x /\ f_finite x = true.

(** The elements of a vector are finite floats. *)
Definition singles (n : nat) (f : nat -> f32) : Prop := forall i, (i < n)%nat -> single (f i).

(** The Euclidean length. *)
Definition length2 (n : nat) (f : nat -> f32) : R := sqrt (rsum n (fun i => f_real (f i) ^ 2)).

(** The relative error of a result that is rounded to a float [a] times and to a double [b] times. *)
Definition mixed_gamma (a b : nat) : R := (1 + s_u) ^ a * (1 + f_u) ^ b - 1.

(* ------------------------------------------------------------------ numbers *)
Lemma two_le a b : (a <=? b)%nat = true -> 2 ^ a <= 2 ^ b.
Proof. intro H. apply Rle_pow; [lra|]. apply Nat.leb_le, H. Qed.
Lemma two_pos a : 0 < 2 ^ a.
Proof. apply pow_lt. lra. Qed.
Lemma inv_two_pos a : 0 < / 2 ^ a.
Proof. apply Rinv_0_lt_compat, two_pos. Qed.
Lemma inv_two_le a b : (a <=? b)%nat = true -> / 2 ^ b <= / 2 ^ a.
Proof. intro H. apply Rinv_le_contravar; [apply two_pos|apply two_le, H]. Qed.
Lemma inv_two_two a b : / 2 ^ a <= 2 ^ b.
Proof.
  apply Rle_trans with 1; [|apply pow_R1_Rle; lra]. rewrite <- Rinv_1. apply Rinv_le_contravar; [lra|apply pow_R1_Rle; lra].
Qed.
Lemma s_u_small : s_u <= / 1000.
Proof. unfold s_u. apply Rinv_le_contravar; [lra|]. apply Rle_trans with (2 ^ 10); [lra|apply two_le; reflexivity]. Qed.
Lemma s_eta_small : s_eta <= / 1000.
Proof. unfold s_eta. apply Rinv_le_contravar; [lra|]. apply Rle_trans with (2 ^ 10); [lra|apply two_le; reflexivity]. Qed.

(* ------------------------------------------------------------------ elements *)
Lemma widen_single x : single x -> f_valid (widen x) /\ f_finite (widen x) = true /\ f_real (widen x) = f_real x.
Proof. intros [V F]. destruct (widen_exact x V) as (H1 & H2 & H3). rewrite H2. auto. Qed.

Lemma widen_vec n v f : is_vec n v f -> is_vec n (map widen v) (fun i => widen (f i)).
Proof. intros [L H]. split; [rewrite map_length; exact L|]. intros i Hi. rewrite nth_error_map, (H i Hi). reflexivity. Qed.

Lemma widen_finite n f : singles n f -> finite_vec n (fun i => widen (f i)).
Proof. intros H i Hi. destruct (widen_single _ (H i Hi)) as (V & F & _). auto. Qed.

Lemma widen_sum n f (h : R -> R) : singles n f -> rsum n (fun i => h (f_real (widen (f i)))) = rsum n (fun i => h (f_real (f i))).
Proof. intro H. apply asum_ext. intros i Hi. f_equal. apply widen_single, H, Hi. Qed.

Lemma single_zero x : single x -> f_real x = 0 -> exists s, x = S754_zero s.
Proof. intros [_ F] E. destruct x as [s|s| |s m e]; try discriminate; [eauto|]. exfalso. exact (real_nonzero _ _ _ E). Qed.

Lemma count_small n : INR n * f_u <= / 4 -> INR n <= 2 ^ 51.
Proof.
  intro H. unfold f_u in H. pose proof (two_pos 51). replace (2 ^ 53) with (4 * 2 ^ 51) in H by ring. rewrite Rinv_mult in H.
  apply Rmult_le_reg_r with (/ 2 ^ 51); [apply inv_two_pos|]. rewrite (Rinv_r (2 ^ 51)) by lra. lra.
Qed.

Lemma growth_small n k : INR n * f_u <= / 4 -> (k <= 6)%nat -> 1 <= (1 + f_u) ^ (n + k) <= 3 / 2.
Proof.
  intros Hn Hk. pose proof u_pos as Hu. pose proof u_tiny as Hut. pose proof (pos_INR n) as Hn0.
  split; [apply pow_R1_Rle; lra|].
  assert (Hpow : (1 + f_u) ^ n <= 4 / 3).
  { pose proof (gamma_bound n ltac:(lra)) as G. unfold f_gamma in G.
    assert (INR n * f_u / (1 - INR n * f_u) <= / 3); [|lra]. set (t := INR n * f_u) in *.
    apply Rmult_le_reg_r with (1 - t); [lra|]. unfold Rdiv. rewrite Rmult_assoc, Rinv_l by lra. lra. }
  apply Rle_trans with ((1 + f_u) ^ (n + 6)); [apply Rle_pow; [lra|lia]|]. rewrite pow_add.
  apply Rle_trans with (4 / 3 * (1 + / 1000) ^ 6); [|lra].
  apply Rmult_le_compat; [apply pow_le; lra|apply pow_le; lra|exact Hpow|apply pow_incr; lra].
Qed.

(** Sums of floats in double precision never overflow. *)
Lemma sum_room n f : singles n f -> INR n * f_u <= / 4 ->
  (1 + f_u) ^ n * rsum n (fun i => Rabs (f_real (f i))) <= f_limit.
Proof.
  intros Hf Hn. destruct (growth_small n 0 Hn ltac:(lia)) as [_ G]. rewrite Nat.add_0_r in G. pose proof (count_small n Hn) as C.
  assert (S : rsum n (fun i => Rabs (f_real (f i))) <= INR n * 2 ^ 128).
  { rewrite <- rsum_const. apply rsum_le. intros i Hi. left. apply s_lt, Hf, Hi. }
  assert (S0 : 0 <= rsum n (fun i => Rabs (f_real (f i)))) by (apply rsum_nonneg; intros; apply Rabs_pos).
  apply Rle_trans with (2 * (2 ^ 51 * 2 ^ 128)).
  - apply Rmult_le_compat; [apply pow_le; pose proof u_pos; lra|exact S0|lra|]. apply Rle_trans with (1 := S).
    apply Rmult_le_compat_r; [left; apply two_pos|exact C].
  - unfold f_limit. rewrite <- pow_add, tech_pow_Rmult. apply two_le. reflexivity.
Qed.

(* ------------------------------------------------------------------ norms and the mean *)
Lemma s_norm_widen power root p v : (0 < p)%nat -> s_norm power root p v = lp_norm fops power root p (map widen v).
Proof. destruct p; [lia|reflexivity]. Qed.

Lemma squares_range n f : singles n f -> INR n * f_u <= / 4 -> (exists i, (i < n)%nat /\ f_real (f i) <> 0) ->
  let X := rsum n (fun i => f_real (f i) ^ 2) in / 2 ^ 298 <= X <= 2 ^ 307.
Proof.
  intros Hf Hn (k & Hk & N) X. pose proof (count_small n Hn) as C. split.
  - apply Rle_trans with (f_real (f k) ^ 2).
    + rewrite <- pow2_abs. pose proof (s_least _ (proj1 (Hf k Hk)) N) as L. pose proof (inv_two_pos 149).
      replace (/ 2 ^ 298) with (/ 2 ^ 149 * / 2 ^ 149) by (rewrite <- Rinv_mult, <- pow_add; reflexivity).
      replace (Rabs (f_real (f k)) ^ 2) with (Rabs (f_real (f k)) * Rabs (f_real (f k))) by ring. apply Rmult_le_compat; lra.
    + apply (rsum_member n (fun i => f_real (f i) ^ 2) k Hk). intros. apply pow2_ge_0.
  - apply Rle_trans with (INR n * 2 ^ 256).
    + unfold X. rewrite <- rsum_const. apply rsum_le. intros i Hi. pose proof (s_lt _ (proj1 (Hf i Hi))) as L.
      rewrite <- pow2_abs. replace (2 ^ 256) with (2 ^ 128 * 2 ^ 128) by (rewrite <- pow_add; reflexivity). pose proof (Rabs_pos (f_real (f i))).
      replace (Rabs (f_real (f i)) ^ 2) with (Rabs (f_real (f i)) * Rabs (f_real (f i))) by ring. apply Rmult_le_compat; lra.
    + replace (2 ^ 307) with (2 ^ 51 * 2 ^ 256) by (rewrite <- pow_add; reflexivity).
      apply Rmult_le_compat_r; [left; apply two_pos|exact C].
Qed.

Lemma length_range n f : singles n f -> INR n * f_u <= / 4 -> (exists i, (i < n)%nat /\ f_real (f i) <> 0) ->
  / 2 ^ 149 <= length2 n f <= 2 ^ 154.
Proof.
  intros Hf Hn Hk. destruct (squares_range n f Hf Hn Hk) as [H1 H2]. unfold length2. split.
  - rewrite <- (sqrt_Rsqr (/ 2 ^ 149)) by (left; apply inv_two_pos). apply sqrt_le_1_alt. unfold Rsqr.
    rewrite <- Rinv_mult, <- pow_add. exact H1.
  - rewrite <- (sqrt_Rsqr (2 ^ 154)) by (left; apply two_pos). apply sqrt_le_1_alt. unfold Rsqr. rewrite <- pow_add.
    apply Rle_trans with (1 := H2). apply two_le. reflexivity.
Qed.

(** The Euclidean norm neither overflows nor underflows. *)
Lemma single_norm power root n v f : is_vec n v f -> singles n f -> INR n * f_u <= / 4 ->
  (exists i, (i < n)%nat /\ f_real (f i) <> 0) ->
  exists N, s_norm power root 2 v = Ok N /\ f_valid N /\ f_finite N = true /\ 0 < f_real N /\
    f_real N <= (1 + f_u) ^ (n + 2) * length2 n f /\ length2 n f <= (1 + f_u) ^ (n + 3) * f_real N.
Proof.
  intros Hv Hf Hn Hk. destruct (squares_range n f Hf Hn Hk) as [H1 H2]. destruct (length_range n f Hf Hn Hk) as [L1 _].
  rewrite s_norm_widen by lia.
  pose proof (widen_sum n f (fun x => x ^ 2) Hf) as E. cbv beta in E.
  destruct (norm_two power root n (map widen v) _ (widen_vec n v f Hv) (widen_finite n f Hf) Hn) as (N & EN & V & F & B1 & B2).
  - cbv beta. rewrite E. split.
    + apply Rle_trans with (2 := H1). apply inv_two_le. reflexivity.
    + apply Rle_trans with (1 := H2). apply two_le. reflexivity.
  - cbv beta in B1, B2. rewrite E in B1, B2. fold (length2 n f) in B1, B2. exists N. split; [exact EN|]. split; [exact V|]. split; [exact F|].
    split; [|split; auto]. pose proof (inv_two_pos 149). pose proof u_pos.
    apply Rmult_lt_reg_l with ((1 + f_u) ^ (n + 3)); [apply pow_lt; lra|]. rewrite Rmult_0_r. lra.
Qed.

Lemma fold_zeros (v : list f32) : (forall x, In x v -> exists s, x = S754_zero s) ->
  fold_left (fun a b => SFadd 53 1024 a (SFmul 53 1024 b b)) (map widen v) (S754_zero false) = S754_zero false.
Proof.
  induction v as [|x v IH]; intro H; [reflexivity|]. cbn [map fold_left].
  destruct (H x (or_introl eq_refl)) as [s ->]. cbn [widen convert SFmul SFadd]. rewrite Bool.xorb_nilpotent. cbn [Bool.eqb].
  apply IH. intros y Hy. apply H. right. exact Hy.
Qed.

Lemma zeros_in n v f : is_vec n v f -> singles n f -> (forall i, (i < n)%nat -> f_real (f i) = 0) ->
  forall x, In x v -> exists s, x = S754_zero s.
Proof.
  intros Hv Hf Hz x Hx. apply (is_vec_In _ _ _ _ Hv) in Hx as (i & Hi & ->). apply single_zero; auto.
Qed.

Lemma zero_norm power root n v f : is_vec n v f -> singles n f -> (forall i, (i < n)%nat -> f_real (f i) = 0) ->
  s_norm power root 2 v = Ok (S754_zero false).
Proof.
  intros Hv Hf Hz. rewrite s_norm_widen by lia. cbn [lp_norm fops sc_sqrt]. unfold accumulate. cbn [sc_add sc_mul sc_zero].
  do 2 f_equal.
  transitivity (SFsqrt 53 1024 (S754_zero false)); [|reflexivity]. f_equal. apply fold_zeros. apply (zeros_in n v f); auto.
Qed.

Lemma single_norm_one power root n v f : is_vec n v f -> singles n f -> INR n * f_u <= / 4 ->
  exists N, s_norm power root 1 v = Ok N /\ f_finite N = true /\
    Rabs (f_real N - rsum n (fun i => Rabs (f_real (f i)))) <= f_gamma n * rsum n (fun i => Rabs (f_real (f i))).
Proof.
  intros Hv Hf Hn. rewrite s_norm_widen by lia. pose proof (widen_finite n f Hf) as HF. pose proof (sum_room n f Hf Hn) as R.
  rewrite <- (widen_sum n f Rabs Hf) in R |- *.
  destruct (norm_one power root n (map widen v) _ (widen_vec n v f Hv) (fun i Hi => proj1 (HF i Hi))) as (N & E & V & B & F).
  exists N. split; [exact E|]. specialize (F HF R). split; [exact F|]. apply B, F.
Qed.

Lemma single_mean dbg t n v f : is_vec n v f -> singles n f -> INR n * f_u <= / 4 -> (0 < n)%nat ->
  exists m, s_mean dbg t v = Ok m /\ f_finite m = true /\
    Rabs (f_real m - rsum n (fun i => f_real (f i)) / INR n) <=
      f_gamma (n + 1) * (rsum n (fun i => Rabs (f_real (f i))) / INR n) + f_eta.
Proof.
  intros Hv Hf Hn H0. pose proof (widen_finite n f Hf) as HF. pose proof (sum_room n f Hf Hn) as R.
  assert (Hz : (Z.of_nat n <= 2 ^ 53)%Z).
  { pose proof (count_small n Hn) as C. rewrite INR_IZR_INZ, pow_IZR in C. apply le_IZR in C. lia. }
  rewrite <- (widen_sum n f Rabs Hf) in R |- *. rewrite <- (widen_sum n f (fun x => x) Hf).
  destruct (mean_error dbg t n (map widen v) _ (widen_vec n v f Hv) H0 Hz (fun i Hi => proj1 (HF i Hi))) as (m & E & V & B & F).
  exists m. split; [exact E|]. specialize (F HF R). split; [exact F|]. apply B, F.
Qed.

Lemma max_widen v x : widen (s_max_element x v) = max_element fops (widen x) (map widen v).
Proof.
  revert x. induction v as [|y v IH]; intro x; [reflexivity|].
  change (s_max_element x (y :: v)) with (s_max_element (if SFltb (SFabs (widen x)) (SFabs (widen y)) then y else x) v).
  change (max_element fops (widen x) (map widen (y :: v))) with
    (max_element fops (if SFltb (SFabs (widen x)) (SFabs (widen y)) then widen y else widen x) (map widen v)).
  rewrite IH. f_equal. destruct (SFltb _ _); reflexivity.
Qed.

Lemma s_abs_ok x : single x -> single (SFabs x) /\ f_real (SFabs x) = Rabs (f_real x).
Proof.
  intros [V F]. destruct x as [s|s| |s m e]; try discriminate.
  - split; [split; reflexivity|]. cbn. rewrite Rabs_R0. reflexivity.
  - split; [split; [exact V|reflexivity]|]. cbn [SFabs]. unfold f_real.
    assert (0 < IZR (Z.pos m) * powerRZ 2 e) by (apply Rmult_lt_0_compat; [apply IZR_lt; reflexivity|apply powerRZ_lt; lra]).
    destruct s; [|rewrite Rabs_pos_eq; lra]. replace (- IZR (Z.pos m) * powerRZ 2 e) with (- (IZR (Z.pos m) * powerRZ 2 e)) by ring.
    rewrite Rabs_Ropp, Rabs_pos_eq; lra.
Qed.

Lemma max_single v x : single x -> (forall y, In y v -> single y) -> single (s_max_element x v).
Proof.
  revert x. induction v as [|y v IH]; intros x Hx H; [exact Hx|]. cbn [s_max_element fold_left].
  apply IH; [|intros; apply H; right; auto]. destruct (sc_lt fops _ _); [apply H; left|]; auto.
Qed.

Lemma single_norm_max power root n v f : is_vec n v f -> singles n f -> (0 < n)%nat ->
  exists N, s_norm power root 0 v = Ok N /\ f_finite N = true /\
    (forall i, (i < n)%nat -> Rabs (f_real (f i)) <= f_real N) /\ exists i, (i < n)%nat /\ f_real N = Rabs (f_real (f i)).
Proof.
  intros Hv Hf H0. pose proof (widen_finite n f Hf) as HF.
  destruct (maximum_exact power root n (map widen v) _ (widen_vec n v f Hv) H0 HF) as (N & E & _ & _ & P).
  destruct v as [|x r]; [destruct Hv as [Hv _]; cbn in Hv; lia|].
  assert (HA : forall y, In y (x :: r) -> single y).
  { intros y Hy. apply (is_vec_In _ _ _ _ Hv) in Hy as (i & Hi & ->). apply Hf, Hi. }
  pose proof (max_single r x (HA x (or_introl eq_refl)) (fun y Hy => HA y (or_intror Hy))) as HM.
  destruct (s_abs_ok _ HM) as [SA EA]. destruct (widen_single _ SA) as (_ & FA & RA).
  cbn [map lp_norm fops sc_abs] in E. fold fops in E. rewrite <- max_widen in E. injection E as E.
  destruct (widen_single _ HM) as (VM & FM & RM).
  assert (ER : f_real N = Rabs (f_real (s_max_element x r))) by (rewrite <- E, abs_real_all, RM by exact VM; reflexivity).
  exists (widen (SFabs (s_max_element x r))). split; [reflexivity|]. split; [exact FA|]. rewrite RA, EA, <- ER.
  destruct P as [P1 (k & Hk & P2)]. split.
  - intros i Hi. rewrite <- (proj2 (proj2 (widen_single _ (Hf i Hi)))). apply P1, Hi.
  - exists k. split; [exact Hk|]. rewrite <- (proj2 (proj2 (widen_single _ (Hf k Hk)))). exact P2.
Qed.

(* ------------------------------------------------------------------ the inner product *)
Lemma s_dot_sum dbg n v w f g : is_vec n v f -> is_vec n w g ->
  s_dot dbg v w = Ok (fsum n (fun i => widen (s_mul (f i) (g i)))).
Proof.
  intros Hv Hw. unfold s_dot. rewrite (proj1 Hv), (proj1 Hw), (assert_ok dbg _ (Nat.eqb_refl n)). cbn [bind].
  destruct (FOR_inv (fun i s => s = fsum i (fun i => widen (s_mul (f i) (g i)))) n
              (fun i s => do x <- vget v i; do y <- vget w i; Ok (sc_add fops s (widen (s_mul x y)))) (sc_zero fops)) as (s & E & Es).
  - reflexivity.
  - intros i s Hi ->. rewrite (is_vec_get _ _ _ _ Hv Hi), (is_vec_get _ _ _ _ Hw Hi). eexists. split; [reflexivity|].
    rewrite Nat.add_1_r. reflexivity.
  - rewrite <- Es. exact E.
Qed.

Lemma product_ok x y : single x -> single y -> Rabs (f_real x * f_real y) <= 2 ^ 127 ->
  single (s_mul x y) /\ Rabs (f_real (s_mul x y) - f_real x * f_real y) <= s_u * Rabs (f_real x * f_real y) + s_eta.
Proof.
  intros [Vx Fx] [Vy Fy] H. destruct (s_mul_round x y Vx Vy Fx Fy H) as [F E]. split; [split; [apply s_mul_valid; auto|exact F]|].
  rewrite E. set (p := f_real x * f_real y). destruct (rnd32_error p) as (d & e & Hd & He & ->).
  replace (p * (1 + d) + e - p) with (p * d + e) by ring. apply Rle_trans with (1 := Rabs_triang _ _). rewrite Rabs_mult.
  pose proof (Rabs_pos p). assert (Rabs p * Rabs d <= Rabs p * s_u) by (apply Rmult_le_compat_l; auto). lra.
Qed.

Lemma single_dot dbg n v w f g : is_vec n v f -> is_vec n w g -> singles n f -> singles n g -> INR n * f_u <= / 4 ->
  (forall i, (i < n)%nat -> Rabs (f_real (f i) * f_real (g i)) <= 2 ^ 127) ->
  let A := rsum n (fun i => Rabs (f_real (f i) * f_real (g i))) in
  exists d, s_dot dbg v w = Ok d /\ f_valid d /\ f_finite d = true /\
    Rabs (f_real d - rsum n (fun i => f_real (f i) * f_real (g i))) <= mixed_gamma 1 n * A + INR n * (1 + f_u) ^ n * s_eta.
Proof.
  intros Hv Hw Hf Hg Hn HP A. rewrite (s_dot_sum dbg n v w f g Hv Hw). eexists. split; [reflexivity|].
  set (q := fun i => s_mul (f i) (g i)). change (fun i => widen (s_mul (f i) (g i))) with (fun i => widen (q i)).
  assert (Hq : singles n q) by (intros i Hi; apply product_ok; auto).
  assert (Eq : forall i, (i < n)%nat -> Rabs (f_real (q i) - f_real (f i) * f_real (g i)) <= s_u * Rabs (f_real (f i) * f_real (g i)) + s_eta)
    by (intros i Hi; apply product_ok; auto).
  pose proof (widen_finite n q Hq) as HF. pose proof (sum_room n q Hq Hn) as R. rewrite <- (widen_sum n q Rabs Hq) in R.
  destruct (sum_limit n (fun i => widen (q i)) HF R) as [F _].
  split; [apply fsum_valid; intros i Hi; apply HF, Hi|]. split; [exact F|].
  destruct (fsum_error n (fun i => widen (q i)) (fun i Hi => proj1 (HF i Hi)) F) as [_ E].
  rewrite (widen_sum n q (fun x => x) Hq), (widen_sum n q Rabs Hq) in E. cbv beta in E.
  set (s := f_real (fsum n (fun i => widen (q i)))) in *. set (Q := rsum n (fun i => f_real (q i))) in *.
  set (T := rsum n (fun i => f_real (f i) * f_real (g i))).
  assert (E2 : Rabs (Q - T) <= s_u * A + INR n * s_eta).
  { unfold Q, T, A. rewrite <- rsum_minus, <- rsum_scale, <- rsum_const, <- rsum_plus. apply Rle_trans with (1 := rsum_abs _ _).
    apply rsum_le. intros i Hi. apply Eq, Hi. }
  assert (E3 : rsum n (fun i => Rabs (f_real (q i))) <= (1 + s_u) * A + INR n * s_eta).
  { unfold A. rewrite <- rsum_scale, <- rsum_const, <- rsum_plus. apply rsum_le. intros i Hi. specialize (Eq i Hi).
    pose proof (Rabs_triang_inv (f_real (q i)) (f_real (f i) * f_real (g i))). lra. }
  pose proof (gamma_nonneg n) as G.
  assert (E4 : f_gamma n * rsum n (fun i => Rabs (f_real (q i))) <= f_gamma n * ((1 + s_u) * A + INR n * s_eta))
    by (apply Rmult_le_compat_l; auto).
  replace (s - T) with ((s - Q) + (Q - T)) by ring. apply Rle_trans with (1 := Rabs_triang _ _).
  apply Rle_trans with (f_gamma n * ((1 + s_u) * A + INR n * s_eta) + (s_u * A + INR n * s_eta)); [lra|]. right.
  unfold f_gamma, mixed_gamma. ring.
Qed.

(** Where the products leave the range of floats. *)
Lemma sum_infinite n (q : nat -> f64) k : (k < n)%nat -> q k = S754_infinity false ->
  (forall i, (i < n)%nat -> q i = S754_infinity false \/ (f_valid (q i) /\ f_finite (q i) = true /\ 0 <= f_real (q i))) ->
  fsum n q = S754_infinity false.
Proof.
  intros Hk Ek H.
  assert (K : forall m, (m <= n)%nat -> (fsum m q = S754_infinity false \/ (f_valid (fsum m q) /\ f_finite (fsum m q) = true /\ 0 <= f_real (fsum m q))) /\
    ((k < m)%nat -> fsum m q = S754_infinity false)); [|apply K; auto].
  induction m as [|m IH]; intro Hm; [split; [right; cbn; repeat split; lra|lia]|]. destruct (IH ltac:(lia)) as [I1 I2]. cbn [asum].
  assert (Hq := H m ltac:(lia)). destruct I1 as [I1|(V & F & P)].
  - rewrite I1. destruct Hq as [->|(_ & Fq & _)]; [cbn; auto|]. destruct (q m); try discriminate; cbn; auto.
  - assert (k < m -> False)%nat by (intro L; rewrite (I2 L) in F; discriminate).
    destruct Hq as [Eq|(Vq & Fq & Pq)].
    + rewrite Eq. destruct (fsum m q); try discriminate; cbn; auto.
    + split; [|intro; assert (k = m) as -> by lia; rewrite Ek in Fq; discriminate].
      destruct (valid_SF2B _ V) as (a & Ea & Ra & Fa), (valid_SF2B _ Vq) as (b & Eb & Rb & Fb). rewrite <- Ea, <- Eb in *.
      rewrite add_equiv. pose proof (Bplus_correct 53 1024 Hprec Hmax mode_NE a b ltac:(congruence) ltac:(congruence)) as C.
      destruct (Rlt_bool _ _).
      * right. destruct C as (C1 & C2 & _). split; [apply B2SF_valid|]. rewrite B2SF_finite, B2SF_real. split; [exact C2|]. rewrite C1.
        apply round_ge_generic; [apply FLT_exp_valid; reflexivity|apply valid_rnd_N|apply generic_format_0|]. lra.
      * left. destruct C as [C1 C2]. rewrite C1. destruct (Bsign a) eqn:S; [|reflexivity].
        exfalso. symmetry in C2. rewrite B2SF_real in P, Pq.
        assert (Ha : B2R a <= 0) by (destruct a as [?|?| |? ? ? ?]; cbn [B2R Bsign] in *; try lra; subst; apply F2R_le_0; cbn; lia).
        assert (Hb : B2R b <= 0) by (destruct b as [?|?| |? ? ? ?]; cbn [B2R Bsign] in *; try lra; subst; apply F2R_le_0; cbn; lia).
        assert (B2R a = 0) by lra. assert (B2R b = 0) by lra. clear - C1 H1 H2 Fa Fb F Fq.
        rewrite B2SF_finite in F, Fq. destruct a as [?|?| |? ? ? ?]; try discriminate; destruct b as [?|?| |? ? ? ?]; try discriminate.
        all: first [cbn in C1; destruct (Bool.eqb _ _); discriminate
          |cbn [B2R] in H1; apply eq_0_F2R in H1; match type of H1 with context [cond_Zopp ?t _] => destruct t end; discriminate
          |cbn [B2R] in H2; apply eq_0_F2R in H2; match type of H2 with context [cond_Zopp ?t _] => destruct t end; discriminate].
Qed.

Lemma square_sign x : single x -> s_mul x x = S754_infinity false \/
  (single (s_mul x x) /\ 0 <= f_real (s_mul x x)).
Proof.
  intros [V F]. destruct (s_SF2B x V) as (a & <- & Ra & Fa). rewrite <- Fa in F. unfold s_mul. rewrite s_mul_equiv.
  pose proof (Bmult_correct 24 128 Hprec32 Hmax32 mode_NE a a) as C. destruct (Rlt_bool _ _).
  - right. destruct C as (C1 & C2 & _). split.
    + split; [apply sB2SF_valid|]. rewrite sB2SF_finite, C2, F. reflexivity.
    + rewrite sB2SF_real, C1. apply round_ge_generic; [apply FLT_exp_valid; reflexivity|apply valid_rnd_N|apply generic_format_0|].
      apply Rle_0_sqr.
  - left. rewrite C, Bool.xorb_nilpotent. reflexivity.
Qed.

Lemma square_infinite x : single x -> 2 ^ 64 <= Rabs (f_real x) -> s_mul x x = S754_infinity false.
Proof.
  intros [V F] H. pose proof (two_pos 64).
  assert (P : 2 ^ 128 <= Rabs (f_real x * f_real x)).
  { rewrite Rabs_mult. replace (2 ^ 128) with (2 ^ 64 * 2 ^ 64) by (rewrite <- pow_add; reflexivity). apply Rmult_le_compat; lra. }
  destruct (s_mul_infinite x x V V F F P) as [s E]. destruct (square_sign x (conj V F)) as [S|[[_ S] _]]; [exact S|].
  rewrite E in S. discriminate.
Qed.

Lemma dot_overflow dbg n v f k : is_vec n v f -> singles n f -> (k < n)%nat -> 2 ^ 64 <= Rabs (f_real (f k)) ->
  s_dot dbg v v = Ok (S754_infinity false).
Proof.
  intros Hv Hf Hk H. rewrite (s_dot_sum dbg n v v f f Hv Hv). f_equal. apply (sum_infinite n _ k Hk).
  - rewrite (square_infinite _ (Hf k Hk) H). reflexivity.
  - intros i Hi. destruct (square_sign _ (Hf i Hi)) as [->|[S P]]; [left; reflexivity|right].
    destruct (widen_single _ S) as (V & F & E). rewrite E. auto.
Qed.

Lemma rnd32_tiny x : Rabs x < / 2 ^ 150 -> rnd32 x = 0.
Proof.
  intro H. destruct (Req_dec x 0) as [->|N]; [apply round_0, valid_rnd_N|].
  pose proof (error_le_half_ulp radix2 (FLT_exp (-149) 24) (fun t => negb (Z.even t)) x) as U.
  assert (L : / 2 ^ 150 < / 2 ^ 125) by (apply Rinv_lt_contravar; [apply Rmult_lt_0_compat; apply two_pos|apply Rlt_pow; [lra|lia]]).
  rewrite ulp_FLT_small in U; [|reflexivity|].
  2: { apply Rlt_trans with (1 := H). apply Rlt_le_trans with (1 := L). right. exact (eq_sym (bpow_inv 125)). }
  rewrite b149 in U. replace (/ 2 * / 2 ^ 149) with (/ 2 ^ 150) in U by (exact (half_inv 149)).
  destruct (Req_dec (rnd32 x) 0) as [E|E]; [exact E|exfalso].
  assert (G : generic_format radix2 (FLT_exp (-149) 24) (rnd32 x)) by (apply generic_format_round; [apply FLT_exp_valid; reflexivity|apply valid_rnd_N]).
  destruct (FLT_format_generic radix2 (-149) 24 _ G) as [g Eg _ Hg].
  assert (B : / 2 ^ 149 <= Rabs (rnd32 x)).
  { rewrite <- b149, Eg. rewrite Eg in E. assert (Fnum g <> 0%Z) by (intro Z; apply E; unfold F2R; rewrite Z; ring).
    unfold F2R. rewrite Rabs_mult, (Rabs_pos_eq (bpow _ _)) by apply bpow_ge_0. rewrite <- abs_IZR.
    apply Rle_trans with (1 * bpow radix2 (Fexp g)).
    - rewrite Rmult_1_l. apply bpow_le. exact Hg.
    - apply Rmult_le_compat_r; [apply bpow_ge_0|]. apply IZR_le. lia. }
  pose proof (half_inv 149) as HH. pose proof (Rabs_triang_inv (rnd32 x) x). lra.
Qed.

Lemma square_zero x : single x -> Rabs (f_real x) < / 2 ^ 75 -> s_mul x x = S754_zero false.
Proof.
  intros S H. pose proof S as [V F]. pose proof (Rabs_pos (f_real x)).
  assert (P : Rabs (f_real x * f_real x) < / 2 ^ 150).
  { rewrite Rabs_mult. replace (/ 2 ^ 150) with (/ 2 ^ 75 * / 2 ^ 75) by (rewrite <- Rinv_mult, <- pow_add; reflexivity).
    apply Rmult_le_0_lt_compat; auto. }
  assert (P2 : Rabs (f_real x * f_real x) <= 2 ^ 127).
  { left. apply Rlt_le_trans with (1 := P). apply inv_two_two. }
  destruct (s_mul_round x x V V F F P2) as [Fm Em]. rewrite (rnd32_tiny _ P) in Em.
  destruct (single_zero (s_mul x x) (conj (s_mul_valid x x V V) Fm) Em) as [s E]. rewrite E. f_equal.
  revert E. unfold s_mul. destruct x as [t|t| |t m e]; try discriminate; cbn [SFmul].
  - rewrite Bool.xorb_nilpotent. congruence.
  - rewrite Bool.xorb_nilpotent. unfold SpecFloat.binary_round_aux. destruct (shr_fexp _ _ _) as [r1 e1].
    destruct (shr_fexp 24 128 _ e1 loc_Exact) as [r2 e2]. destruct (shr_m r2); [congruence| |discriminate].
    destruct (e2 <=? 128 - 24)%Z; discriminate.
Qed.

Lemma dot_underflow dbg n v f : is_vec n v f -> singles n f -> (forall i, (i < n)%nat -> Rabs (f_real (f i)) < / 2 ^ 75) ->
  s_dot dbg v v = Ok (S754_zero false).
Proof.
  intros Hv Hf H. rewrite (s_dot_sum dbg n v v f f Hv Hv). f_equal.
  assert (K : forall m, (m <= n)%nat -> fsum m (fun i => widen (s_mul (f i) (f i))) = S754_zero false); [|apply K; auto].
  induction m as [|m IH]; intro Hm; [reflexivity|]. cbn [asum]. rewrite IH by lia.
  rewrite (square_zero _ (Hf m ltac:(lia)) (H m ltac:(lia))). reflexivity.
Qed.

(* ------------------------------------------------------------------ unit vectors *)
Lemma inverse_ok n f N : singles n f -> INR n * f_u <= / 4 -> (exists i, (i < n)%nat /\ f_real (f i) <> 0) ->
  f_valid N -> f_finite N = true -> 0 < f_real N ->
  f_real N <= (1 + f_u) ^ (n + 2) * length2 n f -> length2 n f <= (1 + f_u) ^ (n + 3) * f_real N ->
  let K := SFdiv 53 1024 (f_of_Z 1) N in
  f_valid K /\ f_finite K = true /\ sc_inf_recip fops N = false /\
  exists d, Rabs d <= f_u /\ f_real K = / f_real N * (1 + d).
Proof.
  intros Hf Hn Hk VN FN NP N1 N2 K. destruct (length_range n f Hf Hn Hk) as [L1 L2].
  pose proof (inv_two_pos 149) as P149. pose proof (two_pos 154) as P154.
  assert (V1 : f_valid (f_of_Z 1)) by (vm_compute; reflexivity). assert (F1 : f_finite (f_of_Z 1) = true) by (vm_compute; reflexivity).
  assert (E1 : f_real (f_of_Z 1) = 1) by (rewrite of_Z_real by lia; reflexivity).
  assert (Hdiv : f_real (f_of_Z 1) / f_real N = / f_real N) by (rewrite E1; unfold Rdiv; ring).
  assert (HiN : 0 < / f_real N) by (apply Rinv_0_lt_compat, NP).
  destruct (growth_small n 3 Hn ltac:(lia)) as [G1 G2]. destruct (growth_small n 2 Hn ltac:(lia)) as [G3 G4].
  assert (A1 : / 2 ^ 150 <= f_real N).
  { pose proof (half_inv 149) as E. assert (length2 n f <= 3 / 2 * f_real N) by (apply Rle_trans with (1 := N2); apply Rmult_le_compat_r; lra). lra. }
  assert (A2 : f_real N <= 2 ^ 155).
  { replace (2 ^ 155) with (2 * 2 ^ 154) by ring. apply Rle_trans with (1 := N1). apply Rmult_le_compat; lra. }
  assert (I1 : / f_real N <= 2 ^ 150).
  { rewrite <- (Rinv_inv (2 ^ 150)). apply Rinv_le_contravar; [apply inv_two_pos|exact A1]. }
  assert (I2 : / 2 ^ 155 <= / f_real N) by (apply Rinv_le_contravar; auto).
  assert (FK : f_finite K = true).
  { apply f_div_finite; auto; [lra|]. rewrite Hdiv, Rabs_pos_eq by lra. apply Rle_trans with (1 := I1). apply two_le. reflexivity. }
  destruct (f_div_near (f_of_Z 1) N V1 VN FN FK) as (dK & HdK & EK).
  { rewrite Hdiv, Rabs_pos_eq by lra. apply Rle_trans with (2 := I2). apply inv_two_le. reflexivity. }
  split; [apply f_div_valid; auto|]. split; [exact FK|]. split.
  - change (sc_inf_recip fops N) with (match K with S754_infinity _ => true | _ => false end). destruct K; auto; discriminate.
  - exists dK. fold K in EK. rewrite Hdiv in EK. auto.
Qed.

Lemma unit_factor32 n v f : is_vec n v f -> singles n f -> INR n * f_u <= / 4 ->
  (exists i, (i < n)%nat /\ f_real (f i) <> 0) -> let L := length2 n f in
  exists K w, f_valid K /\ f_finite K = true /\ 0 < f_real K /\
    f_real K * L <= (1 + f_u) ^ (n + 4) /\ 1 <= (1 + f_u) ^ (n + 4) * (f_real K * L) /\
    s_unit v = Ok w /\ is_vec n w (fun i => s_mul (f i) (narrow K)).
Proof.
  intros Hv Hf Hn Hk L. destruct (single_norm (fun x _ => x) (fun _ x => x) n v f Hv Hf Hn Hk) as (N & EN & VN & FN & NP & N1 & N2).
  destruct (inverse_ok n f N Hf Hn Hk VN FN NP N1 N2) as (VK & FK & IK & d & Hd & EK).
  set (K := SFdiv 53 1024 (f_of_Z 1) N) in *. destruct (v_scale_ext s_mul n v f (narrow K) Hv) as (w & Ew & Hw).
  exists K, w. split; [exact VK|]. split; [exact FK|]. pose proof u_pos. pose proof u_tiny. apply Rabs_le_between in Hd.
  assert (HiN : 0 < / f_real N) by (apply Rinv_0_lt_compat, NP).
  assert (L0 : 0 < L) by (destruct (length_range n f Hf Hn Hk) as [L1 _]; pose proof (inv_two_pos 149); unfold L; lra).
  fold L in N1, N2. split; [rewrite EK; apply Rmult_lt_0_compat; lra|].
  assert (Q1 : / f_real N * L <= (1 + f_u) ^ (n + 3)).
  { apply Rmult_le_reg_l with (f_real N); [exact NP|]. rewrite <- Rmult_assoc, Rinv_r by lra. lra. }
  assert (Q2 : 1 <= (1 + f_u) ^ (n + 2) * (/ f_real N * L)).
  { apply Rmult_le_reg_l with (f_real N); [exact NP|].
    replace (f_real N * ((1 + f_u) ^ (n + 2) * (/ f_real N * L))) with ((1 + f_u) ^ (n + 2) * L * (f_real N * / f_real N)) by ring.
    rewrite Rinv_r by lra. lra. }
  set (t := / f_real N * L) in *. assert (T0 : 0 < t) by (apply Rmult_lt_0_compat; auto).
  replace (f_real K * L) with (t * (1 + d)) by (rewrite EK; unfold t; ring).
  assert (P2 : 0 < (1 + f_u) ^ (n + 2)) by (apply pow_lt; lra). split; [|split].
  - replace (n + 4)%nat with (Datatypes.S (n + 3)) by lia. rewrite <- tech_pow_Rmult, Rmult_comm. apply Rmult_le_compat; lra.
  - replace (n + 4)%nat with (2 + (n + 2))%nat by lia. rewrite pow_add. apply Rle_trans with (1 := Q2).
    replace ((1 + f_u) ^ 2 * (1 + f_u) ^ (n + 2) * (t * (1 + d))) with ((1 + f_u) ^ (n + 2) * ((1 + f_u) ^ 2 * (t * (1 + d)))) by ring.
    apply Rmult_le_compat_l; [lra|]. apply shrink; [lra|]. apply Rabs_le. lra.
  - split; [|exact Hw]. unfold s_unit, sv_scale. rewrite EN. cbn [bind]. rewrite IK. exact Ew.
Qed.

Lemma element_bound n f i : (i < n)%nat -> Rabs (f_real (f i)) <= length2 n f.
Proof.
  intro Hi. unfold length2. rewrite <- sqrt_Rsqr_abs. apply sqrt_le_1_alt. unfold Rsqr.
  apply Rle_trans with (f_real (f i) ^ 2); [right; ring|]. apply (rsum_member n (fun i => f_real (f i) ^ 2) i Hi). intros. apply pow2_ge_0.
Qed.

Lemma some_element n f : 0 < length2 n f -> exists i, (i < n)%nat /\ f_real (f i) <> 0.
Proof.
  intro L0. destruct (all_or_first (fun i => f_real (f i) = 0) n (fun i => Req_EM_T _ _)) as [H|(i & Hi & N & _)]; [exfalso|eauto].
  assert (E : rsum n (fun i => f_real (f i) ^ 2) = 0).
  { transitivity (rsum n (fun _ => 0)); [|rewrite rsum_const; ring]. apply asum_ext. intros i Hi. rewrite (H i Hi). ring. }
  unfold length2 in L0. rewrite E, sqrt_0 in L0. lra.
Qed.

(** A vector that is not too short. *)
Lemma single_unit n v f : is_vec n v f -> singles n f -> INR n * f_u <= / 4 -> let L := length2 n f in / 2 ^ 126 <= L ->
  exists w g, s_unit v = Ok w /\ is_vec n w g /\ singles n g /\
    forall i, (i < n)%nat -> Rabs (f_real (g i) - f_real (f i) / L) <=
      (mixed_gamma 2 (n + 4) + 2 * L * s_eta) * Rabs (f_real (f i) / L) + s_eta.
Proof.
  intros Hv Hf Hn L HL. pose proof (inv_two_pos 126) as P126. assert (L0 : 0 < L) by lra.
  pose proof (some_element n f L0) as Hk.
  destruct (length_range n f Hf Hn Hk) as [_ LU]. fold L in LU.
  destruct (unit_factor32 n v f Hv Hf Hn Hk) as (K & w & VK & FK & KP & B1 & B2 & Ew & Hw). fold L in B1, B2.
  pose proof u_pos as Hu. pose proof s_u_pos as Hsu. pose proof s_u_small as Hss. pose proof s_eta_pos as He. pose proof s_eta_small as Hes.
  destruct (growth_small n 4 Hn ltac:(lia)) as [G1 G2]. set (P := (1 + f_u) ^ (n + 4)) in *.
  assert (K1 : f_real K <= 2 ^ 127).
  { apply Rmult_le_reg_r with L; [exact L0|]. apply Rle_trans with (1 := B1). apply Rle_trans with (2 ^ 127 * / 2 ^ 126).
    - replace (2 ^ 127) with (2 * 2 ^ 126) by ring. rewrite Rmult_assoc, Rinv_r by (apply pow_nonzero; lra). lra.
    - apply Rmult_le_compat_l; [left; apply two_pos|exact HL]. }
  destruct (narrow_round K FK) as [FC EC]; [rewrite Rabs_pos_eq by lra; exact K1|].
  set (C := narrow K) in *. assert (SC : single C) by (split; [apply narrow_valid, VK|exact FC]).
  destruct (rnd32_error (f_real K)) as (d1 & e1 & Hd1 & He1 & R1). rewrite <- EC in R1.
  exists w, (fun i => s_mul (f i) C). split; [exact Ew|]. split; [exact Hw|].
  assert (HB : forall i, (i < n)%nat -> let y := f_real (f i) / L in
    Rabs y <= 1 /\ exists d, Rabs d <= (1 + s_u) * P - 1 + L * s_eta /\ f_real (f i) * f_real C = y * (1 + d)).
  { intros i Hi y. pose proof (element_bound n f i Hi) as EB. fold L in EB. split.
    - unfold y, Rdiv. rewrite Rabs_mult, Rabs_inv, (Rabs_pos_eq L) by lra. apply Rmult_le_reg_r with L; [exact L0|].
      rewrite Rmult_assoc, Rinv_l by lra. lra.
    - exists (f_real C * L - 1). split; [|unfold y; field; lra]. rewrite R1.
      replace ((f_real K * (1 + d1) + e1) * L - 1) with ((f_real K * L - 1) + f_real K * L * d1 + e1 * L) by ring.
      set (t := f_real K * L) in *. assert (T0 : 0 < t) by (apply Rmult_lt_0_compat; auto).
      assert (T1 : Rabs (t - 1) <= P - 1) by (apply (pow_gamma_low (n + 4)); auto).
      assert (T2 : Rabs (t * d1) <= P * s_u) by (rewrite Rabs_mult, (Rabs_pos_eq t) by lra; apply Rmult_le_compat; auto using Rabs_pos; lra).
      assert (T3 : Rabs (e1 * L) <= L * s_eta) by (rewrite Rabs_mult, (Rabs_pos_eq L), Rmult_comm by lra; apply Rmult_le_compat_l; lra).
      apply Rle_trans with (1 := Rabs_triang _ _). apply Rle_trans with (P - 1 + P * s_u + L * s_eta); [|right; ring].
      apply Rplus_le_compat; [|exact T3]. apply Rle_trans with (1 := Rabs_triang _ _). lra. }
  assert (LE : L * s_eta <= 2 ^ 4).
  { apply Rle_trans with (2 ^ 154 * s_eta); [apply Rmult_le_compat_r; lra|]. unfold s_eta.
    replace (2 ^ 154) with (2 ^ 4 * 2 ^ 150) by (rewrite <- pow_add; reflexivity). rewrite Rmult_assoc, Rinv_r by (apply pow_nonzero; lra). lra. }
  assert (LE0 : 0 <= L * s_eta) by (apply Rmult_le_pos; lra).
  assert (HM : forall i, (i < n)%nat -> Rabs (f_real (f i) * f_real C) <= 2 ^ 127).
  { intros i Hi. destruct (HB i Hi) as (Y1 & d & Hd & ->). set (y := f_real (f i) / L) in *.
    apply Rle_trans with (2 ^ 5); [|apply two_le; reflexivity]. rewrite Rabs_mult.
    assert (Rabs (1 + d) <= 2 ^ 5).
    { apply Rle_trans with (1 := Rabs_triang _ _). rewrite Rabs_R1. assert ((1 + s_u) * P <= 2) by nra. lra. }
    apply Rle_trans with (1 * 2 ^ 5); [|lra]. apply Rmult_le_compat; auto using Rabs_pos. }
  split; [intros i Hi; apply product_ok; auto|]. intros i Hi.
  destruct (product_ok (f i) C (Hf i Hi) SC (HM i Hi)) as [_ E]. destruct (HB i Hi) as (Y1 & d & Hd & ED). set (y := f_real (f i) / L) in *.
  rewrite ED in E. set (z := f_real (s_mul (f i) C)) in *. set (q := (1 + s_u) * P - 1 + L * s_eta) in *.
  assert (Y0 := Rabs_pos y).
  assert (E1 : Rabs (y * (1 + d)) <= (1 + q) * Rabs y).
  { rewrite Rabs_mult, Rmult_comm. apply Rmult_le_compat_r; [exact Y0|]. apply Rle_trans with (1 := Rabs_triang _ _). rewrite Rabs_R1. lra. }
  assert (E2 : Rabs (y * (1 + d) - y) <= q * Rabs y).
  { replace (y * (1 + d) - y) with (d * y) by ring. rewrite Rabs_mult. apply Rmult_le_compat_r; auto. }
  replace (z - y) with ((z - y * (1 + d)) + (y * (1 + d) - y)) by ring. apply Rle_trans with (1 := Rabs_triang _ _).
  apply Rle_trans with (s_u * ((1 + q) * Rabs y) + s_eta + q * Rabs y).
  - assert (s_u * Rabs (y * (1 + d)) <= s_u * ((1 + q) * Rabs y)) by (apply Rmult_le_compat_l; lra). lra.
  - apply Rle_trans with ((s_u * (1 + q) + q) * Rabs y + s_eta); [right; ring|]. apply Rplus_le_compat_r.
    apply Rmult_le_compat_r; [exact Y0|]. unfold q, mixed_gamma. fold P.
    assert (s_u * (L * s_eta) <= L * s_eta) by (rewrite <- (Rmult_1_l (L * s_eta)) at 2; apply Rmult_le_compat_r; lra). lra.
Qed.

Lemma zero_unit n v f : is_vec n v f -> singles n f -> (forall i, (i < n)%nat -> f_real (f i) = 0) ->
  exists w g, s_unit v = Ok w /\ is_vec n w g /\ forall i, (i < n)%nat -> single (g i) /\ f_real (g i) = 0.
Proof.
  intros Hv Hf Hz. destruct (v_scale_ext s_mul n v f (S754_zero false) Hv) as (w & Ew & Hw).
  exists w, (fun i => s_mul (f i) (S754_zero false)). split; [|split; [exact Hw|]].
  - unfold s_unit, sv_scale. rewrite (zero_norm _ _ n v f Hv Hf Hz). cbn [bind]. exact Ew.
  - intros i Hi. destruct (single_zero (f i) (Hf i Hi) (Hz i Hi)) as [s ->]. split; [split; reflexivity|reflexivity].
Qed.

(** A shorter vector. *)
Lemma unit_tiny n v f : is_vec n v f -> singles n f -> INR n * f_u <= / 4 -> 0 < length2 n f <= / 2 ^ 129 ->
  exists w g, s_unit v = Ok w /\ is_vec n w g /\ forall i, (i < n)%nat ->
    g i = match f i with S754_finite s _ _ => S754_infinity s | _ => S754_nan end.
Proof.
  intros Hv Hf Hn [L0 HL].
  pose proof (some_element n f L0) as Hk.
  destruct (unit_factor32 n v f Hv Hf Hn Hk) as (K & w & VK & FK & KP & B1 & B2 & Ew & Hw). set (L := length2 n f) in *.
  destruct (growth_small n 4 Hn ltac:(lia)) as [G1 G2]. set (P := (1 + f_u) ^ (n + 4)) in *.
  assert (K1 : 2 ^ 128 <= f_real K).
  { apply Rmult_le_reg_r with (/ 2 ^ 129); [apply inv_two_pos|]. apply Rle_trans with (f_real K * L); [|apply Rmult_le_compat_l; lra].
    apply Rle_trans with (/ 2).
    - replace (2 ^ 129) with (2 * 2 ^ 128) by ring. rewrite Rinv_mult. right. field.
    - assert (0 < f_real K * L) by (apply Rmult_lt_0_compat; auto). nra. }
  assert (EC : narrow K = S754_infinity false).
  { rewrite narrow_infinite by (try exact FK; rewrite Rabs_pos_eq by lra; exact K1). f_equal. apply Rlt_bool_false. lra. }
  exists w, (fun i => s_mul (f i) (narrow K)). split; [exact Ew|]. split; [exact Hw|]. intros i Hi. rewrite EC.
  destruct (Hf i Hi) as [_ F]. destruct (f i) as [s|s| |s m e]; try discriminate; [reflexivity|]. cbn. rewrite Bool.xorb_false_r. reflexivity.
Qed.

(* ------------------------------------------------------------------ matrices *)
Lemma sm_scale_ok op r c m g s : is_mat r c m g ->
  exists u, sm_scale op m s = Ok u /\ is_mat r c u (fun i j => op (g i j) (narrow s)).
Proof.
  intro Hm. unfold sm_scale. rewrite (proj1 Hm). apply (mat_loop r c m g); auto. intros i u Hi Hu.
  destruct (is_mat_row _ _ _ _ i Hu Hi) as (row & Er & Hrow). rewrite Er. cbn [bind]. rewrite Nat.ltb_irrefl in Hrow.
  destruct (v_scale_ext op c row (g i) (narrow s) Hrow) as (row' & Er' & Hrow'). unfold sv_scale. rewrite Er'. cbn [bind].
  destruct (is_mat_set_row _ _ _ _ i row' _ Hu Hi Hrow') as (u' & Eu & Hu').
  exists u'. split; [exact Eu|exact Hu'].
Qed.

Lemma single_scale r c m g s : is_mat r c m g -> (forall i j, (i < r)%nat -> (j < c)%nat -> single (g i j)) ->
  f_valid s -> f_finite s = true -> Rabs (f_real s) <= 2 ^ 127 ->
  (forall i j, (i < r)%nat -> (j < c)%nat -> 2 * Rabs (f_real (g i j) * f_real s) + Rabs (f_real (g i j)) <= 2 ^ 127) ->
  exists u h, sm_scale s_mul m s = Ok u /\ is_mat r c u h /\ forall i j, (i < r)%nat -> (j < c)%nat ->
    single (h i j) /\ Rabs (f_real (h i j) - f_real (g i j) * f_real s) <=
      mixed_gamma 2 0 * Rabs (f_real (g i j) * f_real s) + (1 + s_u) * Rabs (f_real (g i j)) * s_eta + s_eta.
Proof.
  intros Hm Hg Vs Fs Hs HB. destruct (sm_scale_ok s_mul r c m g s Hm) as (u & Eu & Hu).
  exists u, (fun i j => s_mul (g i j) (narrow s)). split; [exact Eu|]. split; [exact Hu|]. intros i j Hi Hj.
  destruct (narrow_round s Fs Hs) as [FC EC]. destruct (rnd32_error (f_real s)) as (d & e & Hd & He & R). rewrite <- EC in R.
  assert (SC : single (narrow s)) by (split; [apply narrow_valid, Vs|exact FC]). set (C := narrow s) in *. specialize (Hg i j Hi Hj). specialize (HB i j Hi Hj).
  set (x := f_real (g i j)) in *. pose proof s_u_pos. pose proof s_u_small. pose proof s_eta_pos. pose proof s_eta_small.
  assert (X0 := Rabs_pos x). assert (Y0 := Rabs_pos (x * f_real s)).
  assert (D : Rabs (x * f_real C - x * f_real s) <= s_u * Rabs (x * f_real s) + Rabs x * s_eta).
  { rewrite R. replace (x * (f_real s * (1 + d) + e) - x * f_real s) with (x * f_real s * d + x * e) by ring.
    apply Rle_trans with (1 := Rabs_triang _ _). rewrite (Rabs_mult _ d), (Rabs_mult x e).
    assert (Rabs (x * f_real s) * Rabs d <= Rabs (x * f_real s) * s_u) by (apply Rmult_le_compat_l; auto).
    assert (Rabs x * Rabs e <= Rabs x * s_eta) by (apply Rmult_le_compat_l; auto). lra. }
  assert (D2 : Rabs (x * f_real C) <= (1 + s_u) * Rabs (x * f_real s) + Rabs x * s_eta).
  { pose proof (Rabs_triang_inv (x * f_real C) (x * f_real s)). lra. }
  destruct (product_ok (g i j) C Hg SC) as [S E].
  { fold x. apply Rle_trans with (1 := D2). nra. }
  split; [exact S|]. fold x in E. set (z := f_real (s_mul (g i j) C)) in *.
  replace (z - x * f_real s) with ((z - x * f_real C) + (x * f_real C - x * f_real s)) by ring.
  apply Rle_trans with (1 := Rabs_triang _ _).
  assert (s_u * Rabs (x * f_real C) <= s_u * ((1 + s_u) * Rabs (x * f_real s) + Rabs x * s_eta)) by (apply Rmult_le_compat_l; lra).
  unfold mixed_gamma. cbn [pow]. lra.
Qed.

(** Factors that are no floats. *)
Lemma scale_large r c m g s : is_mat r c m g -> (forall i j, (i < r)%nat -> (j < c)%nat -> single (g i j)) ->
  f_valid s -> f_finite s = true -> 2 ^ 128 <= Rabs (f_real s) ->
  exists u h, sm_scale s_mul m s = Ok u /\ is_mat r c u h /\ forall i j, (i < r)%nat -> (j < c)%nat -> f_finite (h i j) = false.
Proof.
  intros Hm Hg Vs Fs Hs. destruct (sm_scale_ok s_mul r c m g s Hm) as (u & Eu & Hu).
  exists u, (fun i j => s_mul (g i j) (narrow s)). split; [exact Eu|]. split; [exact Hu|]. intros i j Hi Hj.
  rewrite (narrow_infinite s Fs Hs). destruct (Hg i j Hi Hj) as [_ F]. destruct (g i j); try discriminate; reflexivity.
Qed.

Lemma narrow_tiny s : f_valid s -> f_finite s = true -> Rabs (f_real s) < / 2 ^ 150 -> exists b, narrow s = S754_zero b.
Proof.
  intros V F H. destruct (narrow_round s F) as [FC EC].
  { left. apply Rlt_le_trans with (1 := H). apply inv_two_two. }
  apply single_zero; [split; [apply narrow_valid, V|exact FC]|]. rewrite EC. apply rnd32_tiny, H.
Qed.

Lemma scale_small r c m g s : is_mat r c m g -> (forall i j, (i < r)%nat -> (j < c)%nat -> single (g i j)) ->
  f_valid s -> f_finite s = true -> Rabs (f_real s) < / 2 ^ 150 ->
  (exists u h, sm_scale s_mul m s = Ok u /\ is_mat r c u h /\ forall i j, (i < r)%nat -> (j < c)%nat -> f_finite (h i j) = true /\ f_real (h i j) = 0) /\
  (exists u h, sm_scale s_div m s = Ok u /\ is_mat r c u h /\ forall i j, (i < r)%nat -> (j < c)%nat -> f_finite (h i j) = false).
Proof.
  intros Hm Hg Vs Fs Hs. destruct (narrow_tiny s Vs Fs Hs) as [b E]. split.
  - destruct (sm_scale_ok s_mul r c m g s Hm) as (u & Eu & Hu).
    exists u, (fun i j => s_mul (g i j) (narrow s)). split; [exact Eu|]. split; [exact Hu|]. intros i j Hi Hj. rewrite E.
    destruct (Hg i j Hi Hj) as [_ F]. destruct (g i j); try discriminate; split; reflexivity.
  - destruct (sm_scale_ok s_div r c m g s Hm) as (u & Eu & Hu).
    exists u, (fun i j => s_div (g i j) (narrow s)). split; [exact Eu|]. split; [exact Hu|]. intros i j Hi Hj. rewrite E.
    destruct (Hg i j Hi Hj) as [_ F]. destruct (g i j); try discriminate; reflexivity.
Qed.

(** The lambda constructor. *)
Lemma lambda_exact dbg s F r c g : mtyped s r c -> (forall i j, (i < r)%nat -> (j < c)%nat -> F i j = Ok (g i j) /\ s_valid (g i j)) ->
  exists m, sm_lambda dbg s F r c = Ok m /\ is_mat r c m g.
Proof.
  intros Hs HF. unfold sm_lambda. apply m_lambda_ok; auto. intros i j Hi Hj. destruct (HF i j Hi Hj) as [-> V]. cbn [bind].
  rewrite (round_trip _ V). reflexivity.
Qed.

(** The product of a square matrix and a vector. *)
Lemma single_product dbg junk s n0 n m g v f : is_mat n n m g -> is_vec n v f -> mtyped s n n -> vtyped n0 v ->
  (forall i j, (i < n)%nat -> (j < n)%nat -> single (g i j)) -> singles n f -> INR n * f_u <= / 4 ->
  (forall i, (i < n)%nat -> rsum n (fun j => Rabs (f_real (g i j) * f_real (f j))) <= 2 ^ 126) ->
  exists u h, sm_vec dbg junk s n0 m v = Ok u /\ is_vec n u h /\ forall i, (i < n)%nat -> single (h i) /\
    Rabs (f_real (h i) - rsum n (fun j => f_real (g i j) * f_real (f j))) <=
      mixed_gamma 2 n * rsum n (fun j => Rabs (f_real (g i j) * f_real (f j))) + (1 + s_u) * (INR n * (1 + f_u) ^ n * s_eta) + s_eta.
Proof.
  intros Hm Hv Hs Hn0 Hg Hf Hn HB.
  assert (D : forall i, (i < n)%nat -> exists row d, vget m i = Ok row /\ s_dot dbg row v = Ok d /\ single (narrow d) /\
    Rabs (f_real (narrow d) - rsum n (fun j => f_real (g i j) * f_real (f j))) <=
      mixed_gamma 2 n * rsum n (fun j => Rabs (f_real (g i j) * f_real (f j))) + (1 + s_u) * (INR n * (1 + f_u) ^ n * s_eta) + s_eta).
  { intros i Hi. destruct (is_mat_row _ _ _ _ i Hm Hi) as (row & Er & Hrow). set (A := rsum n (fun j => Rabs (f_real (g i j) * f_real (f j)))).
    specialize (HB i Hi). fold A in HB.
    destruct (single_dot dbg n row v (g i) f Hrow Hv (fun j Hj => Hg i j Hi Hj) Hf Hn) as (d & Ed & Vd & Fd & Bd).
    { intros j Hj. apply Rle_trans with A; [apply (rsum_member n (fun j => Rabs (f_real (g i j) * f_real (f j))) j Hj); intros; apply Rabs_pos|].
      apply Rle_trans with (1 := HB). apply two_le. reflexivity. }
    fold A in Bd. set (T := rsum n (fun j => f_real (g i j) * f_real (f j))) in *. set (b := INR n * (1 + f_u) ^ n * s_eta) in *.
    assert (HT : Rabs T <= A) by apply rsum_abs.
    pose proof s_u_pos. pose proof s_u_small. pose proof s_eta_pos. pose proof s_eta_small. pose proof u_pos.
    destruct (growth_small n 0 Hn ltac:(lia)) as [G1 G2]. rewrite Nat.add_0_r in G1, G2. set (P := (1 + f_u) ^ n) in *.
    assert (A0 : 0 <= A) by (apply rsum_nonneg; intros; apply Rabs_pos).
    assert (Hb : 0 <= b <= 1).
    { pose proof (count_small n Hn). pose proof (pos_INR n). unfold b. split; [apply Rmult_le_pos; [apply Rmult_le_pos; lra|lra]|].
      apply Rle_trans with (2 ^ 51 * 2 * s_eta); [apply Rmult_le_compat_r; [lra|apply Rmult_le_compat; lra]|].
      unfold s_eta. replace (2 ^ 51 * 2) with (2 ^ 52) by ring. rewrite <- (Rinv_r (2 ^ 150)) by (apply pow_nonzero; lra).
      apply Rmult_le_compat_r; [left; apply inv_two_pos|]. apply two_le. reflexivity. }
    assert (M1 : mixed_gamma 1 n = (1 + s_u) * P - 1) by (unfold mixed_gamma; fold P; ring).
    assert (DD : Rabs (f_real d) <= (1 + s_u) * P * A + b).
    { pose proof (Rabs_triang_inv (f_real d) T). rewrite M1 in Bd. lra. }
    assert (LIM : Rabs (f_real d) <= 2 ^ 127).
    { apply Rle_trans with (1 := DD). assert ((1 + s_u) * P <= 7 / 4) by nra. assert ((1 + s_u) * P * A <= 7 / 4 * A) by (apply Rmult_le_compat_r; lra).
      replace (2 ^ 127) with (2 * 2 ^ 126) by ring. assert (2 ^ 3 <= 2 ^ 126) by (apply two_le; reflexivity). lra. }
    exists row, d. split; [exact Er|]. split; [exact Ed|]. destruct (narrow_round d Fd LIM) as [FC EC].
    split; [split; [apply narrow_valid, Vd|exact FC]|]. rewrite EC. destruct (rnd32_error (f_real d)) as (dl & e & Hd & He & ->).
    replace (f_real d * (1 + dl) + e - T) with ((f_real d - T) + f_real d * dl + e) by ring.
    apply Rle_trans with (1 := Rabs_triang _ _). apply Rle_trans with (Rabs (f_real d - T) + Rabs (f_real d * dl) + Rabs e).
    { apply Rplus_le_compat_r. apply Rabs_triang. }
    assert (Rabs (f_real d * dl) <= ((1 + s_u) * P * A + b) * s_u) by (rewrite Rabs_mult; apply Rmult_le_compat; auto using Rabs_pos).
    rewrite M1 in Bd. unfold mixed_gamma. fold P. cbn [pow]. lra. }
  set (h := fun i => match vget m i with Ok row => match s_dot dbg row v with Ok d => narrow d | _ => s_zero end | _ => s_zero end).
  assert (EH : forall i, (i < n)%nat -> (do row <- vget m i; do d <- s_dot dbg row v; Ok (narrow d)) = Ok (h i)).
  { intros i Hi. destruct (D i Hi) as (row & d & E1 & E2 & _). unfold h. rewrite E1. cbn [bind]. rewrite E2. reflexivity. }
  unfold sm_vec. rewrite (shape_cols _ _ _ _ Hm) by auto. rewrite (proj1 Hv), (assert_ok dbg _ (Nat.eqb_refl n)). cbn [bind].
  destruct (v_lambda_ok s_zero dbg junk (promote (fst s) n0) (fun i => do row <- vget m i; do d <- s_dot dbg row v; Ok (narrow d)) n h) as (u & Eu & Hu).
  - unfold promote, vtyped, mtyped in *. rewrite (proj1 Hv) in Hn0.
    destruct Hs as [->|(-> & H1 & H2)]; cbn [fst]; [cbn [Nat.eqb]; lia|]. destruct (Nat.eqb_spec n 0); lia.
  - exact EH.
  - exists u, h. split; [exact Eu|]. split; [exact Hu|]. intros i Hi. destruct (D i Hi) as (row & d & E1 & E2 & S & B). unfold h. rewrite E1, E2. auto.
Qed.

(* ------------------------------------------------------------------ witnesses *)
Definition sf (z e : Z) : f32 := SpecFloat.binary_normalize 24 128 z e false.

Lemma check_single x : SpecFloat.valid_binary 24 128 x = true -> f_finite x = true -> single x.
Proof. intros; split; auto. Qed.

Lemma sf_real z e : (Z.abs z <= 2 ^ 24)%Z -> (-149 <= e <= 103)%Z -> single (sf z e) /\ f_real (sf z e) = IZR z * powerRZ 2 e.
Proof.
  intros Hz He. unfold sf. rewrite s_normalize_equiv.
  pose proof (binary_normalize_correct 24 128 Hprec32 Hmax32 mode_NE z e false) as C. cbv zeta in C.
  change (round_mode mode_NE) with ZnearestE in C. change (SpecFloat.fexp 24 128) with (FLT_exp (-149) 24) in C.
  assert (E : F2R (Float radix2 z e) = IZR z * powerRZ 2 e) by (unfold F2R; cbn [Fnum Fexp]; rewrite bpow_powerRZ; reflexivity).
  assert (HB : Rabs (IZR z * powerRZ 2 e) <= 2 ^ 127).
  { rewrite Rabs_mult, <- abs_IZR, (Rabs_pos_eq (powerRZ 2 e)) by (apply powerRZ_le; lra).
    replace (powerRZ 2 e) with (bpow radix2 e) by exact (bpow_powerRZ radix2 e). apply Rle_trans with (bpow radix2 24 * bpow radix2 103).
    - apply Rmult_le_compat; [apply IZR_le; lia|apply bpow_ge_0| |apply bpow_le; lia].
      apply Rle_trans with (IZR (2 ^ 24)); [apply IZR_le, Hz|right; reflexivity].
    - rewrite <- bpow_plus. right. exact b127. }
  assert (G : generic_format radix2 (FLT_exp (-149) 24) (IZR z * powerRZ 2 e)).
  { rewrite <- E. destruct (Z.eq_dec (Z.abs z) (2 ^ 24)) as [Q|Q].
    - assert (z = 2 ^ 24 \/ z = - 2 ^ 24)%Z as [->| ->] by lia.
      + replace (F2R (Float radix2 (2 ^ 24) e)) with (bpow radix2 (24 + e)) by (rewrite bpow_plus; reflexivity).
        apply generic_format_bpow. unfold FLT_exp. lia.
      + replace (F2R (Float radix2 (- 2 ^ 24) e)) with (- bpow radix2 (24 + e)).
        * apply generic_format_opp, generic_format_bpow. unfold FLT_exp. lia.
        * rewrite bpow_plus. unfold F2R. cbn [Fnum Fexp]. rewrite opp_IZR, Ropp_mult_distr_l. reflexivity.
    - apply generic_format_FLT. exists (Float radix2 z e); [reflexivity| |]; cbn [Fnum Fexp]; [change (radix2 ^ 24)%Z with (2 ^ 24)%Z; lia|lia]. }
  rewrite E, (round_generic radix2 (FLT_exp (-149) 24) ZnearestE _ G) in C.
  rewrite Rlt_bool_true in C.
  - destruct C as (C1 & C2 & _). split; [split; [apply sB2SF_valid|rewrite sB2SF_finite; exact C2]|rewrite sB2SF_real; exact C1].
  - apply Rle_lt_trans with (1 := HB). rewrite <- b127. apply bpow_lt. lia.
Qed.

Definition v345 : list f32 := [sf 3 0; sf (-4) 0].
Definition f345 (i : nat) : f32 := nth i v345 s_zero.

Lemma is_345 : is_vec 2 v345 f345 /\ singles 2 f345 /\ INR 2 * f_u <= / 4 /\ length2 2 f345 = 5.
Proof.
  split; [split; [reflexivity|]; intros [|[|i]] Hi; try lia; reflexivity|].
  split; [intros [|[|i]] Hi; try lia; apply sf_real; lia|].
  split; [pose proof u_tiny; cbn [INR]; lra|]. unfold length2. cbn [asum].
  change (f345 0) with (sf 3 0). change (f345 1) with (sf (-4) 0).
  rewrite (proj2 (sf_real 3 0 ltac:(lia) ltac:(lia))), (proj2 (sf_real (-4) 0 ltac:(lia) ltac:(lia))). cbn [powerRZ].
  replace (0 + (3 * 1) ^ 2 + (-4 * 1) ^ 2) with (5 * 5) by ring. apply sqrt_square. lra.
Qed.

Lemma values_345 dbg : s_norm (fun x _ => x) (fun _ x => x) 2 v345 = Ok (f_of_Z 5) /\ s_dot dbg v345 v345 = Ok (f_of_Z 25) /\
  s_mean dbg 0 v345 = Ok (SFdiv 53 1024 (f_of_Z (-1)) (f_of_Z 2)) /\ s_unit v345 = Ok [sf 10066330 (-24); sf (-13421773) (-24)].
Proof. destruct dbg; vm_compute; auto. Qed.

Lemma values_tiny : s_unit [sf 1 (-140); s_zero] = Ok [S754_infinity false; S754_nan].
Proof. vm_compute. reflexivity. Qed.

Lemma unit_refuted : exists v f w, is_vec 2 v f /\ singles 2 f /\ 0 < length2 2 f /\ s_unit v = Ok w /\
  forall x, In x w -> f_finite x = false.
Proof.
  set (v := [sf 1 (-140); s_zero]). exists v, (fun i => nth i v s_zero), [S754_infinity false; S754_nan].
  destruct (sf_real 1 (-140) ltac:(lia) ltac:(lia)) as [S E].
  split; [split; [reflexivity|]; intros [|[|i]] Hi; try lia; reflexivity|].
  split; [intros [|[|i]] Hi; try lia; [exact S|split; reflexivity]|]. split.
  - unfold length2. apply sqrt_lt_R0. cbn [asum]. change (nth 0 v s_zero) with (sf 1 (-140)). change (nth 1 v s_zero) with s_zero.
    rewrite E. cbn [f_real s_zero]. assert (0 < powerRZ 2 (-140)) by (apply powerRZ_lt; lra).
    assert (0 < (1 * powerRZ 2 (-140)) ^ 2) by (apply pow_lt; lra). lra.
  - split; [exact values_tiny|]. intros x [<-|[<-|[]]]; reflexivity.
Qed.

Lemma dot_refuted : (exists x, single x /\ f_real x = 2 ^ 64 /\
    s_norm (fun x _ => x) (fun _ x => x) 2 [x] = Ok (widen x) /\ forall dbg, s_dot dbg [x] [x] = Ok (S754_infinity false)) /\
  (exists x, single x /\ f_real x = / 2 ^ 76 /\
    s_norm (fun x _ => x) (fun _ x => x) 2 [x] = Ok (widen x) /\ forall dbg, s_dot dbg [x] [x] = Ok (S754_zero false)).
Proof.
  split.
  - destruct (sf_real 1 64 ltac:(lia) ltac:(lia)) as [S E]. exists (sf 1 64). split; [exact S|]. split.
    + rewrite E, Rmult_1_l. exact (eq_sym (pow_powerRZ 2 64)).
    + split; [vm_compute; reflexivity|]. intros []; vm_compute; reflexivity.
  - destruct (sf_real 1 (-76) ltac:(lia) ltac:(lia)) as [S E]. exists (sf 1 (-76)). split; [exact S|]. split.
    + rewrite E, Rmult_1_l. change (powerRZ 2 (-76)) with (/ 2 ^ (Pos.to_nat 76)). f_equal.
    + split; [vm_compute; reflexivity|]. intros []; vm_compute; reflexivity.
Qed.

Lemma scale_refuted : exists x s, single x /\ f_real x = / 2 ^ 100 /\ f_valid s /\ f_finite s = true /\ f_real s = 2 ^ 130 /\
  sm_scale s_mul [[x]] s = Ok [[S754_infinity false]].
Proof.
  destruct (sf_real 1 (-100) ltac:(lia) ltac:(lia)) as [S E]. exists (sf 1 (-100)), (S754_finite false 4503599627370496 78).
  split; [exact S|]. split.
  - rewrite E, Rmult_1_l. change (powerRZ 2 (-100)) with (/ 2 ^ (Pos.to_nat 100)). f_equal.
  - split; [vm_compute; reflexivity|]. split; [reflexivity|]. split; [|vm_compute; reflexivity].
    unfold f_real. replace (IZR 4503599627370496) with (2 ^ 52) by (rewrite pow_IZR; reflexivity).
    change (powerRZ 2 78) with (2 ^ (Pos.to_nat 78)). rewrite <- pow_add. reflexivity.
Qed.
