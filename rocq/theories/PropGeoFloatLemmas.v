(** Angles, cross products and projections on doubles, C110. *)
From Coq Require Import ZArith Reals Lra Lia SpecFloat Psatz.
From Verif Require Import Base ListFacts DenseModel DenseFacts DenseOps ScalarModel GeometryModel GeometryReal PropGeometryLemmas
  FloatFacts FloatError IterFloat PropFloatLemmas FloatUnit.
Local Open Scope R_scope.

Lemma one_valid : f_valid (f_of_Z 1). Proof. vm_compute. reflexivity. Qed.
Lemma minus_one_valid : f_valid (SFsub 53 1024 (S754_zero false) (f_of_Z 1)). Proof. vm_compute. reflexivity. Qed.

Lemma one_real : f_real (f_of_Z 1) = 1.
Proof.
  change (f_of_Z 1) with (S754_finite false 4503599627370496 (-52)). unfold f_real.
  replace (IZR 4503599627370496) with (2 ^ 52) by (rewrite pow_IZR; reflexivity).
  change (powerRZ 2 (-52)) with (/ 2 ^ 52). apply Rinv_r. apply pow_nonzero. lra.
Qed.

Lemma minus_one_real : f_real (SFsub 53 1024 (S754_zero false) (f_of_Z 1)) = -1.
Proof.
  change (SFsub 53 1024 (S754_zero false) (f_of_Z 1)) with (S754_finite true 4503599627370496 (-52)). unfold f_real.
  pose proof one_real as H. change (f_of_Z 1) with (S754_finite false 4503599627370496 (-52)) in H. unfold f_real in H.
  replace (-1) with (- (1)) by ring. rewrite <- H. ring.
Qed.

(** Clamping to [-1, 1] does not move away from a number between -1 and 1. *)
Lemma clamp_float d : f_valid d -> f_finite d = true ->
  let c := clamp fops d (SFsub 53 1024 (S754_zero false) (f_of_Z 1)) (f_of_Z 1) in
  f_valid c /\ f_finite c = true /\ -1 <= f_real c <= 1 /\
  forall t, -1 <= t <= 1 -> Rabs (f_real c - t) <= Rabs (f_real d - t).
Proof.
  intros Vd Fd c. unfold c, clamp. cbn [fops sc_lt].
  pose proof (f_lt d _ Vd minus_one_valid Fd eq_refl) as H1. pose proof (f_lt _ d one_valid Vd eq_refl Fd) as H2.
  rewrite minus_one_real in H1. rewrite one_real in H2.
  destruct (SFltb d (SFsub 53 1024 (S754_zero false) (f_of_Z 1))) eqn:E1.
  - pose proof (proj1 H1 eq_refl) as L. split; [exact minus_one_valid|]. split; [reflexivity|].
    rewrite minus_one_real. split; [lra|]. intros t Ht. rewrite !Rabs_left1 by lra. lra.
  - assert (L : -1 <= f_real d) by (apply Rnot_lt_le; intro L; apply H1 in L; discriminate).
    destruct (SFltb (f_of_Z 1) d) eqn:E2.
    + pose proof (proj1 H2 eq_refl) as L'. split; [exact one_valid|]. split; [reflexivity|].
      rewrite one_real. split; [lra|]. intros t Ht. rewrite !Rabs_pos_eq by lra. lra.
    + assert (L' : f_real d <= 1) by (apply Rnot_lt_le; intro L'; apply H2 in L'; discriminate).
      split; [exact Vd|]. split; [exact Fd|]. split; [lra|]. intros t _. lra.
Qed.

(** The unit vector of doubles consists of doubles. *)
Lemma unit_valid n v f w : is_vec n v f -> (forall i, (i < n)%nat -> f_valid (f i) /\ f_finite (f i) = true) ->
  f_unit v = Ok w -> Forall f_valid w.
Proof.
  intros Hv Hf E. unfold f_unit, unit_vector in E.
  set (q := lp_norm fops (fun x _ => x) (fun _ x => x) 2 v) in E.
  assert (EL : q = Ok (SFsqrt 53 1024 (fsum n (fun i => SFmul 53 1024 (f i) (f i))))).
  { exact (f_equal (fun s => Ok (SFsqrt 53 1024 s))
      (fold_asum (S754_zero false) (SFadd 53 1024) n v f (fun b => SFmul 53 1024 b b) Hv)). }
  rewrite EL in E. cbn [bind] in E. set (N := SFsqrt _ _ _) in E.
  assert (VN : f_valid N).
  { apply f_sqrt_valid, fsum_valid. intros i Hi. apply f_mul_valid; apply Hf, Hi. }
  set (K := if sc_inf_recip fops N then _ else _) in E.
  assert (VK : f_valid K).
  { unfold K. destruct (sc_inf_recip fops N); [reflexivity|]. apply f_div_valid; [exact one_valid|exact VN]. }
  destruct (v_scale_ext (SFmul 53 1024) n v f K Hv) as (u & Eu & Hu).
  assert (E' : v_scale (SFmul 53 1024) v (Ext K) = Ok w) by exact E.
  pose proof (eq_trans (eq_sym Eu) E') as Q. injection Q as <-.
  apply Forall_forall. intros x Hx. apply In_nth_error in Hx as (i & Hi).
  assert (Hlt : (i < n)%nat).
  { rewrite <- (proj1 Hu). exact (nth_error_lt_Some _ _ _ Hi). }
  pose proof (eq_trans (eq_sym Hi) (proj2 Hu i Hlt)) as Q2. injection Q2 as ->.
  apply f_mul_valid; [apply Hf, Hlt|exact VK].
Qed.

Lemma eta_small : f_eta <= f_u / 100.
Proof.
  unfold f_eta, f_u, Rdiv. apply Rle_trans with (/ 2 ^ 53 * / 2 ^ 7).
  - rewrite <- Rinv_mult, <- pow_add. apply Rinv_le_contravar; [apply pow_lt; lra|]. apply Rle_pow; [lra|].
    apply Nat.leb_le. reflexivity.
  - apply Rmult_le_compat_l; [left; apply u_pos|]. apply Rinv_le_contravar; lra.
Qed.

Lemma gamma_9 : f_gamma 9 <= 10 * f_u.
Proof.
  unfold f_gamma. pose proof u_pos as H0. pose proof u_tiny as H1. set (u := f_u) in *.
  assert (H2 : (1 + u) ^ 2 <= 1 + 2 * u + u / 1000) by nra.
  assert (H4 : (1 + u) ^ 4 <= 1 + 4 * u + u / 100).
  { replace ((1 + u) ^ 4) with ((1 + u) ^ 2 * (1 + u) ^ 2) by ring.
    assert (0 <= (1 + u) ^ 2) by (apply pow_le; lra). nra. }
  assert (H8 : (1 + u) ^ 8 <= 1 + 8 * u + u / 10).
  { replace ((1 + u) ^ 8) with ((1 + u) ^ 4 * (1 + u) ^ 4) by ring.
    assert (0 <= (1 + u) ^ 4) by (apply pow_le; lra). nra. }
  replace ((1 + u) ^ 9) with ((1 + u) ^ 8 * (1 + u)) by ring. nra.
Qed.

Lemma gamma_4 : f_gamma 4 <= 41 / 10 * f_u.
Proof.
  unfold f_gamma. pose proof u_pos as H0. pose proof u_tiny as H1. set (u := f_u) in *.
  assert (H2 : (1 + u) ^ 2 <= 1 + 2 * u + u / 1000) by nra.
  replace ((1 + u) ^ 4) with ((1 + u) ^ 2 * (1 + u) ^ 2) by ring.
  assert (0 <= (1 + u) ^ 2) by (apply pow_le; lra). nra.
Qed.

(** One term of the inner product of two perturbed unit vectors. *)
Lemma term_error w v g h y e : Rabs w <= 1 -> Rabs v <= 1 -> 0 <= y <= 1 / 10 -> 0 <= e <= 1 / 10 ->
  Rabs (g - w) <= y * Rabs w + e -> Rabs (h - v) <= y * Rabs v + e ->
  Rabs (g * h - w * v) <= (2 * y + y * y) * (Rabs w * Rabs v) + 4 * e.
Proof.
  intros Hw Hv Hy He Hg Hh. pose proof (Rabs_pos w). pose proof (Rabs_pos v).
  replace (g * h - w * v) with ((g - w) * h + w * (h - v)) by ring.
  apply Rle_trans with (1 := Rabs_triang _ _). rewrite !Rabs_mult.
  assert (Hh' : Rabs h <= Rabs v + (y * Rabs v + e)).
  { replace h with (v + (h - v)) by ring. apply Rle_trans with (1 := Rabs_triang _ _). lra. }
  assert (H1 : Rabs (g - w) * Rabs h <= (y * Rabs w + e) * (Rabs v + (y * Rabs v + e)))
    by (apply Rmult_le_compat; auto using Rabs_pos).
  assert (H2 : Rabs w * Rabs (h - v) <= Rabs w * (y * Rabs v + e)) by (apply Rmult_le_compat_l; auto).
  set (a := Rabs w) in *. set (b := Rabs v) in *.
  assert (0 <= y * a <= 1 / 10) by (split; [apply Rmult_le_pos; lra|]; replace (1 / 10) with (1 / 10 * 1) by ring; apply Rmult_le_compat; lra).
  assert (0 <= y * b <= 1 / 10) by (split; [apply Rmult_le_pos; lra|]; replace (1 / 10) with (1 / 10 * 1) by ring; apply Rmult_le_compat; lra).
  assert (E1 : y * a * e <= 1 / 10 * e) by (apply Rmult_le_compat_r; lra).
  assert (E2 : e * b <= e * 1) by (apply Rmult_le_compat_l; lra).
  assert (E3 : e * (y * b) <= e * (1 / 10)) by (apply Rmult_le_compat_l; lra).
  assert (E4 : e * e <= e * (1 / 10)) by (apply Rmult_le_compat_l; lra).
  assert (E5 : a * e <= 1 * e) by (apply Rmult_le_compat_r; lra).
  lra.
Qed.

Lemma rsum_ge0 n f : (forall i, (i < n)%nat -> 0 <= f i) -> 0 <= rsum n f.
Proof.
  intro H. induction n as [|n IH]; cbn [asum]; [lra|]. pose proof (H n ltac:(lia)).
  assert (0 <= rsum n f) by (apply IH; intros; apply H; lia). lra.
Qed.

Lemma unit_sum n (f : nat -> R) : 0 < rsum n (fun i => f i ^ 2) ->
  rsum n (fun i => (f i / sqrt (rsum n (fun i => f i ^ 2))) ^ 2) = 1.
Proof.
  intros HX. set (X := rsum n (fun i => f i ^ 2)) in *.
  assert (HrX : 0 < sqrt X) by (apply sqrt_lt_R0, HX).
  rewrite (asum_ext _ _ n (fun i => (f i / sqrt X) ^ 2) (fun i => / X * f i ^ 2)).
  - rewrite rsum_scale. fold X. apply Rinv_l. lra.
  - intros i Hi. rewrite <- (sqrt_sqrt X) at 2 by lra. field. lra.
Qed.

Lemma unit_le n (w : nat -> R) i : rsum n (fun i => w i ^ 2) = 1 -> (i < n)%nat -> Rabs (w i) <= 1.
Proof.
  intros H1 Hi. rewrite <- (sqrt_1), <- sqrt_Rsqr_abs. apply sqrt_le_1_alt. unfold Rsqr.
  replace (w i * w i) with (w i ^ 2) by ring. rewrite <- H1.
  apply (rsum_member n (fun i => w i ^ 2) i Hi). intros; apply pow2_ge_0.
Qed.

Lemma unit_products n (w v : nat -> R) : rsum n (fun i => w i ^ 2) = 1 -> rsum n (fun i => v i ^ 2) = 1 ->
  rsum n (fun i => Rabs (w i) * Rabs (v i)) <= 1.
Proof.
  intros H1 H2. apply Rle_trans with (rsum n (fun i => / 2 * w i ^ 2 + / 2 * v i ^ 2)).
  - apply rsum_le. intros i _. assert (0 <= (Rabs (w i) - Rabs (v i)) ^ 2) by apply pow2_ge_0.
    assert (Hs : forall t, t ^ 2 = Rabs t * Rabs t) by (intro t; rewrite <- Rabs_mult, Rabs_pos_eq by apply Rle_0_sqr; ring).
    rewrite !Hs. nra.
  - rewrite rsum_plus, !rsum_scale, H1, H2. lra.
Qed.

Definition cosine (n : nat) (f g : nat -> f64) : R :=
  rsum n (fun i => f_real (f i) * f_real (g i)) /
  (sqrt (rsum n (fun i => f_real (f i) ^ 2)) * sqrt (rsum n (fun i => f_real (g i) ^ 2))).

Lemma angle_float dbg power root arccos pi radians n v f w g : is_vec n v f -> is_vec n w g -> (n = 2 \/ n = 3)%nat ->
  (forall i, (i < n)%nat -> f_valid (f i) /\ f_finite (f i) = true) ->
  (forall i, (i < n)%nat -> f_valid (g i) /\ f_finite (g i) = true) ->
  / 2 ^ 1000 <= rsum n (fun i => f_real (f i) ^ 2) <= 2 ^ 1000 ->
  / 2 ^ 1000 <= rsum n (fun i => f_real (g i) ^ 2) <= 2 ^ 1000 ->
  exists c, angle fops dbg power root arccos pi radians v w =
      Ok (sc_div fops (arccos c) (if radians then sc_one fops else sc_div fops pi (f_of_Z 180))) /\
    f_valid c /\ f_finite c = true /\ -1 <= f_real c <= 1 /\ Rabs (f_real c - cosine n f g) <= 32 * f_u.
Proof.
  intros Hv Hw Hn Hf Hg HX HY. unfold cosine.
  set (X := rsum n (fun i => f_real (f i) ^ 2)) in *. set (Y := rsum n (fun i => f_real (g i) ^ 2)) in *.
  pose proof u_pos as Hu. pose proof u_tiny as Hut. pose proof eta_pos as He0. pose proof eta_small as Hes.
  assert (Hn3 : INR n <= 3) by (replace 3 with (INR 3) by (cbn; lra); apply le_INR; lia). pose proof (pos_INR n) as Hn0.
  assert (Hnu : INR n * f_u <= / 4) by nra.
  assert (HX0 : 0 < X) by (apply Rlt_le_trans with (2 := proj1 HX); apply Rinv_0_lt_compat, pow_lt; lra).
  assert (HY0 : 0 < Y) by (apply Rlt_le_trans with (2 := proj1 HY); apply Rinv_0_lt_compat, pow_lt; lra).
  destruct (unit_float n v f Hv Hf Hnu HX) as (a & p & Ea & Ha & Hp). fold X in Hp.
  destruct (unit_float n w g Hw Hg Hnu HY) as (b & q & Eb & Hb & Hq). fold Y in Hq.
  set (W := fun i => f_real (f i) / sqrt X) in *. set (Z := fun i => f_real (g i) / sqrt Y) in *.
  assert (SW : rsum n (fun i => W i ^ 2) = 1) by (apply (unit_sum n (fun i => f_real (f i))), HX0).
  assert (SZ : rsum n (fun i => Z i ^ 2) = 1) by (apply (unit_sum n (fun i => f_real (g i))), HY0).
  assert (HG : f_gamma (n + 6) <= 10 * f_u).
  { apply Rle_trans with (2 := gamma_9). apply gamma_le. lia. }
  assert (Hterm : forall i, (i < n)%nat -> Rabs (f_real (p i) * f_real (q i) - W i * Z i) <=
            (2 * (10 * f_u) + 10 * f_u * (10 * f_u)) * (Rabs (W i) * Rabs (Z i)) + 4 * f_eta).
  { intros i Hi. apply term_error; [apply (unit_le n W i SW Hi)|apply (unit_le n Z i SZ Hi)|lra|lra|..].
    - apply Rle_trans with (1 := proj2 (Hp i Hi)). apply Rplus_le_compat_r, Rmult_le_compat_r; [apply Rabs_pos|exact HG].
    - apply Rle_trans with (1 := proj2 (Hq i Hi)). apply Rplus_le_compat_r, Rmult_le_compat_r; [apply Rabs_pos|exact HG]. }
  pose proof (unit_products n W Z SW SZ) as HWZ.
  set (T := rsum n (fun i => W i * Z i)).
  set (P := rsum n (fun i => Rabs (W i) * Rabs (Z i))) in *.
  assert (HP0 : 0 <= P) by (apply rsum_ge0; intros i _; apply Rmult_le_pos; apply Rabs_pos).
  assert (HT : -1 <= T <= 1).
  { apply Rabs_le_between. apply Rle_trans with (1 := rsum_abs _ _).
    rewrite (asum_ext _ _ n _ (fun i => Rabs (W i) * Rabs (Z i))) by (intros; apply Rabs_mult). exact HWZ. }
  assert (Hy1 : 2 * (10 * f_u) + 10 * f_u * (10 * f_u) <= 201 / 10 * f_u) by nra.
  assert (Hy0 : 0 <= 2 * (10 * f_u) + 10 * f_u * (10 * f_u)) by nra.
  assert (Hne : INR n * (4 * f_eta) <= 12 / 100 * f_u) by nra.
  assert (D1 : Rabs (rsum n (fun i => f_real (p i) * f_real (q i)) - T) <= 21 * f_u).
  { unfold T. rewrite <- rsum_minus. apply Rle_trans with (1 := rsum_abs _ _).
    apply Rle_trans with (rsum n (fun i => (2 * (10 * f_u) + 10 * f_u * (10 * f_u)) * (Rabs (W i) * Rabs (Z i)) + 4 * f_eta)).
    - apply rsum_le. exact Hterm.
    - rewrite rsum_plus, rsum_scale, rsum_const. fold P. nra. }
  assert (D2 : rsum n (fun i => Rabs (f_real (p i) * f_real (q i))) <= 1 + 21 * f_u).
  { apply Rle_trans with (rsum n (fun i => Rabs (W i) * Rabs (Z i) +
        ((2 * (10 * f_u) + 10 * f_u * (10 * f_u)) * (Rabs (W i) * Rabs (Z i)) + 4 * f_eta))).
    - apply rsum_le. intros i Hi. specialize (Hterm i Hi).
      replace (f_real (p i) * f_real (q i)) with (W i * Z i + (f_real (p i) * f_real (q i) - W i * Z i)) by ring.
      apply Rle_trans with (1 := Rabs_triang _ _). rewrite (Rabs_mult (W i)). lra.
    - rewrite !rsum_plus, rsum_scale, rsum_const. fold P. nra. }
  assert (Hpow : (1 + f_u) ^ n <= 11 / 10).
  { apply Rle_trans with ((1 + f_u) ^ 4); [apply Rle_pow; [lra|lia]|]. pose proof gamma_4 as G. unfold f_gamma in G. lra. }
  assert (Hpow0 : 0 <= (1 + f_u) ^ n) by (apply pow_le; lra).
  assert (D3 : inner_bound n p q <= 5 * f_u).
  { unfold inner_bound. assert (G : f_gamma (n + 1) <= 41 / 10 * f_u).
    { apply Rle_trans with (2 := gamma_4). apply gamma_le. lia. }
    pose proof (gamma_nonneg (n + 1)) as G0.
    set (Q := rsum n (fun i => Rabs (f_real (p i) * f_real (q i)))) in *.
    assert (Q0 : 0 <= Q) by (apply rsum_ge0; intros; apply Rabs_pos).
    assert (f_gamma (n + 1) * Q <= 41 / 10 * f_u * (1 + 21 * f_u)) by (apply Rmult_le_compat; lra).
    assert (INR n * (1 + f_u) ^ n <= 3 * (11 / 10)) by (apply Rmult_le_compat; lra).
    assert (INR n * (1 + f_u) ^ n * f_eta <= 3 * (11 / 10) * f_eta) by (apply Rmult_le_compat_r; lra). nra. }
  assert (Vp : forall i, (i < n)%nat -> f_valid (p i) /\ f_finite (p i) = true).
  { intros i Hi. split; [|apply (Hp i Hi)]. destruct (Hp i Hi) as [Fi _].
    pose proof (unit_valid n v f a Hv Hf Ea) as Vu.
    rewrite Forall_forall in Vu. apply Vu. apply (nth_error_In _ i). apply Ha, Hi. }
  assert (Vq : forall i, (i < n)%nat -> f_valid (q i) /\ f_finite (q i) = true).
  { intros i Hi. split; [|apply (Hq i Hi)]. destruct (Hq i Hi) as [Fi _].
    pose proof (unit_valid n w g b Hw Hg Eb) as Vu.
    rewrite Forall_forall in Vu. apply Vu. apply (nth_error_In _ i). apply Hb, Hi. }
  destruct (dot_error dbg n a b p q Ha Hb (fun i Hi => proj1 (Vp i Hi)) (fun i Hi => proj1 (Vq i Hi))) as (d & Ed & Vd & Hd).
  destruct (dot_finite dbg n a b p q Ha Hb Vp Vq) as (d' & Ed' & Fd).
  { apply Rle_trans with (2 ^ 1); [lra|]. apply Rle_pow; [lra|]. apply Nat.leb_le. reflexivity. }
  rewrite Ed in Ed'. injection Ed' as <-. destruct (Hd Fd) as [_ Herr].
  destruct (clamp_float d Vd Fd) as (Vc & Fc & Bc & Hc). set (c := clamp fops d _ _) in *.
  exists c. split.
  - unfold angle, size_2_or_3. rewrite (proj1 Hv), (proj1 Hw), Nat.eqb_refl, (assert_ok dbg true eq_refl). cbn [bind].
    assert ((n =? 2)%nat || (n =? 3)%nat = true) as -> by (destruct Hn as [-> | ->]; reflexivity).
    rewrite (assert_ok dbg true eq_refl). cbn [bind].
    change (unit_vector fops power root v) with (f_unit v). change (unit_vector fops power root w) with (f_unit w).
    rewrite Ea, Eb. cbn [bind]. unfold g_dot. rewrite Ed. cbn [bind]. reflexivity.
  - split; [exact Vc|]. split; [exact Fc|]. split; [exact Bc|].
    assert (ET : rsum n (fun i => f_real (f i) * f_real (g i)) / (sqrt X * sqrt Y) = T).
    { unfold T, W, Z. assert (0 < sqrt X) by (apply sqrt_lt_R0, HX0). assert (0 < sqrt Y) by (apply sqrt_lt_R0, HY0).
      rewrite (asum_ext _ _ n (fun i => f_real (f i) / sqrt X * (f_real (g i) / sqrt Y))
                 (fun i => / (sqrt X * sqrt Y) * (f_real (f i) * f_real (g i)))) by (intros; field; lra).
      rewrite rsum_scale. unfold Rdiv. ring. }
    rewrite ET. apply Rle_trans with (1 := Hc T HT).
    replace (f_real d - T) with (f_real d - rsum n (fun i => f_real (p i) * f_real (q i)) +
      (rsum n (fun i => f_real (p i) * f_real (q i)) - T)) by ring.
    apply Rle_trans with (1 := Rabs_triang _ _). lra.
Qed.

(** A difference of two products. *)
Definition minor (a b c d : f64) : f64 := SFsub 53 1024 (SFmul 53 1024 a b) (SFmul 53 1024 c d).

Lemma minor_error a b c d : f_valid a -> f_valid b -> f_valid c -> f_valid d -> f_finite (minor a b c d) = true ->
  Rabs (f_real (minor a b c d) - (f_real a * f_real b - f_real c * f_real d)) <=
    f_gamma 2 * (Rabs (f_real a * f_real b) + Rabs (f_real c * f_real d)) + 4 * f_eta.
Proof.
  intros Va Vb Vc Vd F. unfold minor in *.
  destruct (operations_error _ _ (f_mul_valid a b Va Vb) (f_mul_valid c d Vc Vd)) as (_ & Hs & _).
  destruct (Hs F) as (F1 & F2 & E).
  destruct (operations_error a b Va Vb) as (_ & _ & H1 & _). destruct (H1 F1) as (_ & _ & E1).
  destruct (operations_error c d Vc Vd) as (_ & _ & H2 & _). destruct (H2 F2) as (_ & _ & E2).
  set (p := f_real (SFmul 53 1024 a b)) in *. set (q := f_real (SFmul 53 1024 c d)) in *.
  set (P := f_real a * f_real b) in *. set (Q := f_real c * f_real d) in *.
  set (r := f_real (SFsub 53 1024 (SFmul 53 1024 a b) (SFmul 53 1024 c d))) in *.
  pose proof u_pos as Hu. pose proof u_tiny as Hut. pose proof eta_pos as He.
  pose proof (Rabs_pos P) as HP. pose proof (Rabs_pos Q) as HQ.
  assert (Hpq : Rabs (p - q) <= (1 + f_u) * (Rabs P + Rabs Q) + 2 * f_eta).
  { replace (p - q) with ((p - P) - (q - Q) + (P - Q)) by ring. apply Rle_trans with (1 := Rabs_triang _ _).
    assert (Rabs ((p - P) - (q - Q)) <= Rabs (p - P) + Rabs (q - Q)).
    { unfold Rminus at 1. apply Rle_trans with (1 := Rabs_triang _ _). rewrite Rabs_Ropp. lra. }
    assert (Rabs (P - Q) <= Rabs P + Rabs Q).
    { unfold Rminus. apply Rle_trans with (1 := Rabs_triang _ _). rewrite Rabs_Ropp. lra. }
    lra. }
  replace (r - (P - Q)) with ((r - (p - q)) + ((p - P) - (q - Q))) by ring. apply Rle_trans with (1 := Rabs_triang _ _).
  assert (H3 : Rabs ((p - P) - (q - Q)) <= Rabs (p - P) + Rabs (q - Q)).
  { unfold Rminus at 1. apply Rle_trans with (1 := Rabs_triang _ _). rewrite Rabs_Ropp. lra. }
  assert (H4 : f_u * Rabs (p - q) <= f_u * ((1 + f_u) * (Rabs P + Rabs Q) + 2 * f_eta)) by (apply Rmult_le_compat_l; lra).
  assert (H5 : f_u * (2 * f_eta) <= / 1000 * (2 * f_eta)) by (apply Rmult_le_compat_r; lra).
  unfold f_gamma. replace ((1 + f_u) ^ 2 - 1) with (2 * f_u + f_u * f_u) by ring. lra.
Qed.

Lemma cross_float dbg junk n0 n1 v f w g : is_vec 3 v f -> is_vec 3 w g -> vtyped n0 v -> vtyped n1 w ->
  cross_product fops dbg junk n0 n1 v w =
  Ok [minor (f 1%nat) (g 2%nat) (f 2%nat) (g 1%nat); minor (f 2%nat) (g 0%nat) (f 0%nat) (g 2%nat);
      minor (f 0%nat) (g 1%nat) (f 1%nat) (g 0%nat)].
Proof.
  intros Hv Hw T0 T1. unfold cross_product.
  assert (ES : size_2_or_3 dbg v w = Ok tt).
  { unfold size_2_or_3. rewrite (proj1 Hv), (proj1 Hw). rewrite (assert_ok dbg _ (Nat.eqb_refl 3)). cbn [bind].
    apply assert_ok. reflexivity. }
  rewrite ES. cbn [bind]. rewrite (proj1 Hv). cbn [Nat.eqb].
  rewrite !(is_vec_get 3 v f _ Hv), !(is_vec_get 3 w g _ Hw) by lia. cbn [bind].
  assert (Hp : promote n0 n1 = 0%nat \/ promote n0 n1 = 3%nat).
  { pose proof (proj1 Hv) as L0. pose proof (proj1 Hw) as L1. unfold vtyped in *. rewrite L0 in T0. rewrite L1 in T1.
    unfold promote. destruct (Nat.eqb_spec n0 0); lia. }
  destruct Hp as [->| ->].
  - apply v_list_dynamic.
  - unfold v_list. cbn [Nat.eqb length]. destruct dbg; reflexivity.
Qed.

Lemma cross_error dbg junk n0 n1 v f w g : is_vec 3 v f -> is_vec 3 w g -> vtyped n0 v -> vtyped n1 w ->
  (forall i, (i < 3)%nat -> f_valid (f i)) -> (forall i, (i < 3)%nat -> f_valid (g i)) ->
  exists x h, cross_product fops dbg junk n0 n1 v w = Ok x /\ is_vec 3 x h /\
    forall i j k, (i, j, k) = (0, 1, 2)%nat \/ (i, j, k) = (1, 2, 0)%nat \/ (i, j, k) = (2, 0, 1)%nat ->
      f_finite (h i) = true ->
      Rabs (f_real (h i) - (f_real (f j) * f_real (g k) - f_real (f k) * f_real (g j))) <=
        f_gamma 2 * (Rabs (f_real (f j) * f_real (g k)) + Rabs (f_real (f k) * f_real (g j))) + 4 * f_eta.
Proof.
  intros Hv Hw T0 T1 Vf Vg. rewrite (cross_float dbg junk n0 n1 v f w g Hv Hw T0 T1).
  set (x := minor (f 1%nat) (g 2%nat) (f 2%nat) (g 1%nat)). set (y := minor (f 2%nat) (g 0%nat) (f 0%nat) (g 2%nat)).
  set (z := minor (f 0%nat) (g 1%nat) (f 1%nat) (g 0%nat)).
  exists [x; y; z], (fun i => match i with 0 => x | 1 => y | _ => z end)%nat. split; [reflexivity|]. split.
  - split; [reflexivity|]. intros [|[|[|i]]] Hi; try lia; reflexivity.
  - intros i j k [E|[E|E]] F; injection E as -> -> ->; apply minor_error; auto.
Qed.

(** Exchanging the factors changes the signs and nothing else. *)
Lemma mul_comm_float a b : SFmul 53 1024 a b = SFmul 53 1024 b a.
Proof.
  destruct a as [s|s| |s m e], b as [s'|s'| |s' m' e']; cbn [SFmul]; try reflexivity; try (f_equal; apply Bool.xorb_comm).
  rewrite (Bool.xorb_comm s s'), (Pos.mul_comm m m'), (Z.add_comm e e'). reflexivity.
Qed.

Lemma round_opp m e s : SFopp (SpecFloat.binary_round 53 1024 s m e) = SpecFloat.binary_round 53 1024 (negb s) m e.
Proof.
  unfold SpecFloat.binary_round. destruct (shl_align _ _ _) as [mz ez].
  unfold SpecFloat.binary_round_aux. destruct (shr_fexp _ _ _ _ _) as [mrs e'].
  destruct (shr_fexp _ _ _ _ _) as [mrs' e'']. destruct (shr_m mrs'); [reflexivity| |reflexivity].
  destruct (_ <=? _)%Z; reflexivity.
Qed.

Lemma normalize_opp m e : SFopp (SpecFloat.binary_normalize 53 1024 m e false) = SpecFloat.binary_normalize 53 1024 (- m) e false \/
  m = 0%Z.
Proof.
  destruct m as [|m|m]; [right; reflexivity|left..]; cbn [SpecFloat.binary_normalize Z.opp]; apply round_opp.
Qed.

Lemma sub_anti a b : SFsub 53 1024 b a = SFopp (SFsub 53 1024 a b) \/
  exists s t, SFsub 53 1024 a b = S754_zero s /\ SFsub 53 1024 b a = S754_zero t.
Proof.
  destruct a as [s|s| |s m e], b as [s'|s'| |s' m' e']; cbn [SFsub]; try (left; reflexivity).
  - right. destruct s, s'; cbn; eauto.
  - left. destruct s'; reflexivity.
  - left. destruct s'; reflexivity.
  - left. destruct s, s'; reflexivity.
  - left. destruct s'; reflexivity.
  - rewrite (Z.min_comm e' e).
    set (x := cond_Zopp s _). set (y := cond_Zopp s' _). replace (y - x)%Z with (- (x - y))%Z by lia.
    destruct (normalize_opp (x - y) (Z.min e e')) as [H|H]; [left; symmetry; exact H|]. right. rewrite H. cbn. eauto.
Qed.

Lemma cross_anti dbg junk n0 n1 v f w g : is_vec 3 v f -> is_vec 3 w g -> vtyped n0 v -> vtyped n1 w ->
  exists x y, cross_product fops dbg junk n0 n1 v w = Ok x /\ cross_product fops dbg junk n1 n0 w v = Ok y /\
    length x = 3%nat /\ length y = 3%nat /\
    forall i a b, nth_error x i = Some a -> nth_error y i = Some b ->
      b = SFopp a \/ exists s t, a = S754_zero s /\ b = S754_zero t.
Proof.
  intros Hv Hw T0 T1.
  rewrite (cross_float dbg junk n0 n1 v f w g Hv Hw T0 T1), (cross_float dbg junk n1 n0 w g v f Hw Hv T1 T0).
  do 2 eexists. split; [reflexivity|]. split; [reflexivity|]. split; [reflexivity|]. split; [reflexivity|].
  assert (H : forall a b c d, minor a b c d = SFopp (minor d c b a) \/
    exists s t, minor d c b a = S754_zero s /\ minor a b c d = S754_zero t).
  { intros a b c d. unfold minor. rewrite (mul_comm_float d c), (mul_comm_float b a). apply sub_anti. }
  intros [|[|[|i]]] a b Ha Hb; cbn [nth_error] in Ha, Hb; try (destruct i; discriminate);
    injection Ha as <-; injection Hb as <-; apply H.
Qed.

(** Projections. *)
Definition tangent_bound n (f g : nat -> f64) i : R :=
  f_u * Rabs (rsum n (fun j => f_real (f j) * f_real (g j)) * f_real (g i)) +
  (1 + f_u) * inner_bound n f g * Rabs (f_real (g i)) + f_eta.

Lemma tangent_float dbg junk power root n0 n1 n v f w g : is_vec n v f -> is_vec n w g -> vtyped n0 v -> vtyped n1 w ->
  (forall i, (i < n)%nat -> f_valid (f i)) -> (forall i, (i < n)%nat -> f_valid (g i)) ->
  exists t h, (projection_tangent fops dbg junk power root n0 n1 v w = Ok t \/
      dbg = true /\ projection_tangent fops dbg junk power root n0 n1 v w = Abort /\
      exists l, lp_norm fops power root 2 w = Ok l /\ SFeqb l (S754_zero false) = true) /\
    is_vec n t h /\ forall i, (i < n)%nat -> f_valid (h i) /\ (f_finite (h i) = true ->
      Rabs (f_real (h i) - rsum n (fun j => f_real (f j) * f_real (g j)) * f_real (g i)) <= tangent_bound n f g i).
Proof.
  intros Hv Hw T0 T1 Vf Vg.
  destruct (dot_error dbg n v w f g Hv Hw Vf Vg) as (d & Ed & Vd & Hd).
  assert (Hp : promote n0 n1 = 0%nat \/ promote n0 n1 = n).
  { pose proof (proj1 Hv) as L0. pose proof (proj1 Hw) as L1. unfold vtyped in *. rewrite L0 in T0. rewrite L1 in T1.
    unfold promote. destruct (Nat.eqb_spec n0 0); lia. }
  destruct (v_lambda_ok (sc_zero fops) dbg junk (promote n0 n1) (fun i => vget w i) n g Hp) as (t & Et & Ht).
  { intros i Hi. apply (is_vec_get _ _ _ _ Hw Hi). }
  destruct (v_scale_ext (sc_mul fops) n t g d Ht) as (u & Eu & Hu).
  exists u, (fun i => SFmul 53 1024 (g i) d). split; [|split; [exact Hu|]].
  - unfold projection_tangent. set (l := lp_norm fops power root 2 w). assert (Hl : exists x, l = Ok x) by (eexists; reflexivity).
    destruct Hl as (x & El). rewrite El. cbn [bind].
    assert (Hrest : forall r, ASSERT_DEBUG dbg (negb (sc_eq fops x (sc_zero fops))) = Ok r ->
      (do _ <- ASSERT_DEBUG dbg (negb (sc_eq fops x (sc_zero fops)));
       do _ <- ASSERT_DEBUG dbg (length v =? length w)%nat;
       do d <- g_dot fops dbg v w;
       do t <- v_lambda (sc_zero fops) dbg junk (promote n0 n1) (fun i => vget w i) (length w);
       v_times (sc_mul fops) d t) = Ok u).
    { intros r Er. rewrite Er. cbn [bind]. rewrite (proj1 Hv), (proj1 Hw), (assert_ok dbg _ (Nat.eqb_refl n)). cbn [bind].
      unfold g_dot. rewrite Ed. cbn [bind]. rewrite Et. cbn [bind]. exact Eu. }
    destruct dbg; [|left; apply (Hrest tt); reflexivity].
    destruct (SFeqb x (S754_zero false)) eqn:Ex.
    + right. split; [reflexivity|]. change (sc_eq fops x (sc_zero fops)) with (SFeqb x (S754_zero false)). rewrite Ex.
      split; [reflexivity|]. exists x. split; [reflexivity|exact Ex].
    + left. apply (Hrest tt). change (sc_eq fops x (sc_zero fops)) with (SFeqb x (S754_zero false)). rewrite Ex. reflexivity.
  - intros i Hi. split; [apply f_mul_valid; auto|]. intro F.
    destruct (operations_error (g i) d (Vg i Hi) Vd) as (_ & _ & Hm & _). destruct (Hm F) as (_ & Fd & E).
    destruct (Hd Fd) as (_ & HD). set (D := rsum n (fun j => f_real (f j) * f_real (g j))) in *. unfold tangent_bound. fold D.
    set (B := inner_bound n f g) in *. set (G := f_real (g i)) in *. set (x := f_real d) in *.
    set (r := f_real (SFmul 53 1024 (g i) d)) in *. pose proof u_pos as Hu0. pose proof eta_pos as He.
    pose proof (Rabs_pos G) as HG. pose proof (Rabs_pos (x - D)) as Hxd.
    assert (H1 : Rabs (G * x) <= Rabs (D * G) + B * Rabs G).
    { replace (G * x) with (D * G + (x - D) * G) by ring. apply Rle_trans with (1 := Rabs_triang _ _).
      rewrite (Rabs_mult (x - D)). apply Rplus_le_compat_l, Rmult_le_compat_r; auto. }
    replace (r - D * G) with ((r - G * x) + (x - D) * G) by ring. apply Rle_trans with (1 := Rabs_triang _ _).
    rewrite (Rabs_mult (x - D)).
    assert (H2 : Rabs (x - D) * Rabs G <= B * Rabs G) by (apply Rmult_le_compat_r; auto).
    assert (H3 : f_u * Rabs (G * x) <= f_u * (Rabs (D * G) + B * Rabs G)) by (apply Rmult_le_compat_l; lra). lra.
Qed.

Lemma orthogonal_float dbg junk power root n0 n1 n v f w g : is_vec n v f -> is_vec n w g -> vtyped n0 v -> vtyped n1 w ->
  (forall i, (i < n)%nat -> f_valid (f i)) -> (forall i, (i < n)%nat -> f_valid (g i)) ->
  exists o h, (projection_orthogonal fops dbg junk power root n0 n1 v w = Ok o \/
      dbg = true /\ projection_orthogonal fops dbg junk power root n0 n1 v w = Abort /\
      exists l, lp_norm fops power root 2 w = Ok l /\ SFeqb l (S754_zero false) = true) /\
    is_vec n o h /\ forall i, (i < n)%nat -> f_finite (h i) = true ->
      Rabs (f_real (h i) - (f_real (f i) - rsum n (fun j => f_real (f j) * f_real (g j)) * f_real (g i))) <=
        f_u * (Rabs (f_real (f i)) + Rabs (rsum n (fun j => f_real (f j) * f_real (g j)) * f_real (g i))) +
        (1 + f_u) * tangent_bound n f g i + f_eta.
Proof.
  intros Hv Hw T0 T1 Vf Vg.
  destruct (tangent_float dbg junk power root n0 n1 n v f w g Hv Hw T0 T1 Vf Vg) as (t & ft & Ht & Hft & Hb).
  assert (Hp : promote n0 n1 = 0%nat \/ promote n0 n1 = n).
  { pose proof (proj1 Hv) as L0. pose proof (proj1 Hw) as L1. unfold vtyped in *. rewrite L0 in T0. rewrite L1 in T1.
    unfold promote. destruct (Nat.eqb_spec n0 0); lia. }
  destruct (v_lambda_ok (sc_zero fops) dbg junk (promote n0 n1) (fun i => vget v i) n f Hp) as (a & Ea & Ha).
  { intros i Hi. apply (is_vec_get _ _ _ _ Hv Hi). }
  destruct (v_op_ok (sc_zero fops) (sc_sub fops) dbg junk (promote n0 n1) (promote n0 n1) n a f t ft) as (o & Eo & Ho); auto.
  { unfold vtyped. rewrite (proj1 Ha). destruct Hp as [->| ->]; auto. }
  { unfold vtyped. rewrite (proj1 Hft). destruct Hp as [->| ->]; auto. }
  exists o, (fun i => SFsub 53 1024 (f i) (ft i)). split; [|split; [exact Ho|]].
  - unfold projection_orthogonal. rewrite (proj1 Hv), (proj1 Hw), (assert_ok dbg _ (Nat.eqb_refl n)). cbn [bind].
    rewrite Ea. cbn [bind]. destruct Ht as [Et|(Ed & Et & Hl)]; rewrite Et; cbn [bind]; [left; exact Eo|right; auto].
  - intros i Hi F. destruct (Hb i Hi) as [Vt Bt].
    destruct (operations_error (f i) (ft i) (Vf i Hi) Vt) as (_ & Hs & _). destruct (Hs F) as (_ & Ft & E).
    specialize (Bt Ft). set (D := rsum n (fun j => f_real (f j) * f_real (g j))) in *.
    set (P := D * f_real (g i)) in *. set (x := f_real (f i)) in *. set (y := f_real (ft i)) in *.
    set (r := f_real (SFsub 53 1024 (f i) (ft i))) in *. set (B := tangent_bound n f g i) in *.
    pose proof u_pos as Hu0.
    assert (H1 : Rabs (x - y) <= Rabs x + Rabs P + B).
    { replace (x - y) with (x + - P + - (y - P)) by ring. apply Rle_trans with (1 := Rabs_triang _ _).
      rewrite (Rabs_Ropp (y - P)). pose proof (Rabs_triang x (- P)) as H. rewrite Rabs_Ropp in H. lra. }
    replace (r - (x - P)) with ((r - (x - y)) + - (y - P)) by ring. apply Rle_trans with (1 := Rabs_triang _ _).
    rewrite (Rabs_Ropp (y - P)).
    assert (H2 : f_u * Rabs (x - y) <= f_u * (Rabs x + Rabs P + B)) by (apply Rmult_le_compat_l; lra). lra.
Qed.

(** The vectors of the examples. *)
Lemma small_real z : (1 <= z <= 4)%Z -> 1 / 2 <= f_real (f_of_Z z) <= 8.
Proof.
  intros Hz. destruct (f_of_Z_near z) as (d & Hd & E); [lia|]. rewrite E. apply Rabs_le_between in Hd.
  assert (1 <= IZR z <= 4) by (split; apply IZR_le; lia). pose proof u_pos. pose proof u_tiny. nra.
Qed.

Lemma ex_angle : let v := [f_of_Z 3; f_of_Z 4] in let f := fun i => nth i v (f_of_Z 0) in
  is_vec 2 v f /\ (forall i, (i < 2)%nat -> f_valid (f i) /\ f_finite (f i) = true) /\
  (/ 2 ^ 1000 <= rsum 2 (fun i => f_real (f i) ^ 2) <= 2 ^ 1000) /\
  (exists u d, f_unit v = Ok u /\ g_dot fops true u u = Ok d /\ SFltb (f_of_Z 1) d = true) /\
  angle fops true (fun x _ => x) (fun _ x => x) (fun c => c) (f_of_Z 3) true v v = Ok (f_of_Z 1).
Proof.
  intros v f. split; [|split; [|split; [|split]]].
  - split; [reflexivity|]. intros [|[|i]] Hi; try lia; reflexivity.
  - intros [|[|i]] Hi; try lia; split; vm_compute; reflexivity.
  - pose proof (small_real 3 ltac:(lia)) as H3. pose proof (small_real 4 ltac:(lia)) as H4.
    cbn [asum]. change (f 0%nat) with (f_of_Z 3). change (f 1%nat) with (f_of_Z 4).
    assert (S3 : 1 / 4 <= f_real (f_of_Z 3) ^ 2 <= 64) by nra. assert (S4 : 1 / 4 <= f_real (f_of_Z 4) ^ 2 <= 64) by nra.
    assert (2 ^ 8 <= 2 ^ 1000) by (apply Rle_pow; [lra|apply Nat.leb_le; reflexivity]).
    assert (/ 2 ^ 1000 <= / 2 ^ 8) by (apply Rinv_le_contravar; [lra|exact H]).
    split; lra.
  - do 2 eexists. split; [vm_compute; reflexivity|]. split; [vm_compute; reflexivity|vm_compute; reflexivity].
  - vm_compute. reflexivity.
Qed.

Lemma ex_cross : let v := [f_of_Z 1; f_of_Z 2; f_of_Z 3] in let w := [f_of_Z 4; f_of_Z 5; f_of_Z 7] in
  is_vec 3 v (fun i => nth i v (f_of_Z 0)) /\ vtyped 3 v /\ (forall i, (i < 3)%nat -> f_valid (nth i v (f_of_Z 0))) /\
  cross_product fops true (fun _ => S754_nan) 3 0 v w = Ok [f_of_Z (-1); f_of_Z 5; f_of_Z (-3)] /\
  projection_tangent fops true (fun _ => S754_nan) (fun x _ => x) (fun _ x => x) 0 0 v [f_of_Z 0; f_of_Z 0; f_of_Z 1] =
    Ok [f_of_Z 0; f_of_Z 0; f_of_Z 3] /\
  projection_orthogonal fops true (fun _ => S754_nan) (fun x _ => x) (fun _ x => x) 0 0 v [f_of_Z 0; f_of_Z 0; f_of_Z 1] =
    Ok [f_of_Z 1; f_of_Z 2; f_of_Z 0].
Proof.
  intros v w. split; [|split; [right; reflexivity|split; [|split; [|split]]]].
  - split; [reflexivity|]. intros [|[|[|i]]] Hi; try lia; reflexivity.
  - intros [|[|[|i]]] Hi; try lia; vm_compute; reflexivity.
  - vm_compute. reflexivity.
  - vm_compute. reflexivity.
  - vm_compute. reflexivity.
Qed.

Lemma range_angle : forall power root arccos pi,
  let long := [f_of_Z (2 ^ 600); f_of_Z 0] in
  let short := [sc_div fops (f_of_Z 1) (f_of_Z (2 ^ 600)); f_of_Z 0] in
  forall dbg,
    angle fops dbg power root arccos pi true long long = Ok (sc_div fops (arccos (f_of_Z 0)) (f_of_Z 1)) /\
    angle fops dbg power root arccos pi true short short = Ok (sc_div fops (arccos (f_of_Z 0)) (f_of_Z 1)).
Proof.
  intros power root arccos pi long short dbg. unfold angle. generalize (sc_div fops). intros d.
  split; destruct dbg; vm_compute; reflexivity.
Qed.
