(** Lemmas for the properties of the rounding errors, C86 - C88. *)
From Coq Require Import ZArith Reals Lra Lia SpecFloat Psatz.
From Flocq Require Import Core BinarySingleNaN.
From Verif Require Import Base ListFacts DenseModel DenseFacts PropDenseLemmas ScalarModel GeometryReal SparseModel
  SparseSpec SparseFacts SparseSeq SparseMul SparseArith LuModel LuFacts LuField LuReal IterModel IterFacts IterField
  IterReal FloatFacts FloatError LuFloat IterFloat.
Local Open Scope R_scope.

(** A bound of the error of a sum of [n] products. *)
Definition inner_bound (n : nat) (x y : nat -> f64) : R :=
  f_gamma (n + 1) * rsum n (fun i => Rabs (f_real (x i) * f_real (y i))) + INR n * (1 + f_u) ^ n * f_eta.

(* ------------------------------------------------------------------ operations *)
Lemma rounding_bound x y d e : Rabs d <= f_u -> Rabs e <= f_eta -> y = x * (1 + d) + e -> Rabs (y - x) <= f_u * Rabs x + f_eta.
Proof.
  intros Hd He ->. replace (x * (1 + d) + e - x) with (d * x + e) by ring. apply Rle_trans with (1 := Rabs_triang _ _).
  rewrite Rabs_mult. pose proof (Rabs_pos x). apply Rplus_le_compat; [apply Rmult_le_compat_r|]; auto.
Qed.

Lemma operations_error x y : f_valid x -> f_valid y ->
  (f_finite (SFadd 53 1024 x y) = true -> f_finite x = true /\ f_finite y = true /\
     Rabs (f_real (SFadd 53 1024 x y) - (f_real x + f_real y)) <= f_u * Rabs (f_real x + f_real y)) /\
  (f_finite (SFsub 53 1024 x y) = true -> f_finite x = true /\ f_finite y = true /\
     Rabs (f_real (SFsub 53 1024 x y) - (f_real x - f_real y)) <= f_u * Rabs (f_real x - f_real y) + f_eta) /\
  (f_finite (SFmul 53 1024 x y) = true -> f_finite x = true /\ f_finite y = true /\
     Rabs (f_real (SFmul 53 1024 x y) - f_real x * f_real y) <= f_u * Rabs (f_real x * f_real y) + f_eta) /\
  (f_finite y = true -> f_finite (SFdiv 53 1024 x y) = true -> f_finite x = true /\ f_real y <> 0 /\
     Rabs (f_real (SFdiv 53 1024 x y) - f_real x / f_real y) <= f_u * Rabs (f_real x / f_real y) + f_eta) /\
  (f_finite (SFsqrt 53 1024 x) = true -> f_finite x = true /\ 0 <= f_real x /\
     Rabs (f_real (SFsqrt 53 1024 x) - sqrt (f_real x)) <= f_u * sqrt (f_real x)).
Proof.
  intros Hx Hy. repeat apply conj.
  - intro F. destruct (f_add_error x y Hx Hy F) as (F1 & F2 & d & Hd & E). split; [exact F1|]. split; [exact F2|].
    rewrite E. replace ((f_real x + f_real y) * (1 + d) - (f_real x + f_real y)) with (d * (f_real x + f_real y)) by ring.
    rewrite Rabs_mult. apply Rmult_le_compat_r; [apply Rabs_pos|exact Hd].
  - intro F. destruct (f_sub_round x y Hx Hy F) as (F1 & F2 & E). split; [exact F1|]. split; [exact F2|].
    rewrite E. destruct (rnd_error (f_real x - f_real y)) as (d & e & Hd & He & Er). apply (rounding_bound _ _ d e); auto.
  - intro F. destruct (f_mul_error x y Hx Hy F) as (F1 & F2 & d & e & Hd & He & E). split; [exact F1|]. split; [exact F2|].
    apply (rounding_bound _ _ d e); auto.
  - intros Fy F. destruct (f_div_round x y Hx Hy Fy F) as (F1 & Hn & E). split; [exact F1|]. split; [exact Hn|].
    rewrite E. destruct (rnd_error (f_real x / f_real y)) as (d & e & Hd & He & Er). apply (rounding_bound _ _ d e); auto.
  - intro F. destruct (f_sqrt_error x Hx F) as (F1 & H0 & d & Hd & E). split; [exact F1|]. split; [exact H0|].
    rewrite E. replace (sqrt (f_real x) * (1 + d) - sqrt (f_real x)) with (d * sqrt (f_real x)) by ring.
    rewrite Rabs_mult, (Rabs_pos_eq (sqrt (f_real x))) by apply sqrt_pos. apply Rmult_le_compat_r; [apply sqrt_pos|exact Hd].
Qed.

(** The usual form of the factor. *)
Lemma gamma_bound n : INR n * f_u < 1 -> f_gamma n <= INR n * f_u / (1 - INR n * f_u).
Proof.
  intro H. pose proof u_pos as Hu.
  assert (G : (1 + f_u) ^ n * (1 - INR n * f_u) <= 1).
  { clear H. induction n as [|n IH]; [cbn; lra|]. rewrite S_INR. cbn [pow].
    assert (Hp : 0 < (1 + f_u) ^ n) by (apply pow_lt; lra). pose proof (pos_INR n) as Hn.
    assert ((1 + f_u) * (1 - (INR n + 1) * f_u) <= 1 - INR n * f_u) by nra.
    apply Rle_trans with ((1 + f_u) ^ n * (1 - INR n * f_u)); [|exact IH].
    rewrite (Rmult_comm (1 + f_u)), Rmult_assoc. apply Rmult_le_compat_l; lra. }
  unfold f_gamma. apply Rmult_le_reg_r with (1 - INR n * f_u); [lra|]. unfold Rdiv.
  rewrite Rmult_assoc, Rinv_l by lra. rewrite Rmult_1_r. lra.
Qed.

(* ------------------------------------------------------------------ products *)
Lemma dot_error dbg n v w f g : is_vec n v f -> is_vec n w g ->
  (forall i, (i < n)%nat -> f_valid (f i)) -> (forall i, (i < n)%nat -> f_valid (g i)) ->
  exists d, dot (sc_zero fops) (sc_add fops) (sc_mul fops) dbg v w = Ok d /\ f_valid d /\ (f_finite d = true ->
    (forall i, (i < n)%nat -> f_finite (f i) = true /\ f_finite (g i) = true) /\
    Rabs (f_real d - rsum n (fun i => f_real (f i) * f_real (g i))) <= inner_bound n f g).
Proof.
  intros Hv Hw Vf Vg. eexists. split; [apply (dot_ok _ _ _ _ n v f w g); auto|].
  split; [apply fsum_valid; intros; apply f_mul_valid; auto|]. intro F. apply (inner_error n f g); auto.
Qed.

Lemma mat_vec_error dbg junk r n R C m g v f : is_mat R C m g -> (R = 0%nat -> C = 0%nat) -> is_vec C v f ->
  r = 0%nat \/ r = R -> vtyped n v -> R = C \/ (dbg = false /\ (0 < r)%nat) ->
  (forall i j, (i < R)%nat -> (j < C)%nat -> f_valid (g i j)) -> (forall j, (j < C)%nat -> f_valid (f j)) ->
  exists u h, m_vec (sc_zero fops) (sc_add fops) (sc_mul fops) dbg junk r n m v = Ok u /\ is_vec R u h /\
    forall i, (i < R)%nat -> f_valid (h i) /\ (f_finite (h i) = true ->
      (forall j, (j < C)%nat -> f_finite (g i j) = true /\ f_finite (f j) = true) /\
      Rabs (f_real (h i) - rsum C (fun j => f_real (g i j) * f_real (f j))) <= inner_bound C (g i) f).
Proof.
  intros Hm HR Hv Hr Ht Hd Vg Vf.
  destruct (mat_vec_square (sc_zero fops) (sc_add fops) (sc_mul fops) dbg junk r n R C m g v f Hm HR Hv Hr Ht Hd) as (u & E & Hu).
  exists u. eexists. split; [exact E|]. split; [exact Hu|]. intros i Hi. cbv beta.
  split; [apply fsum_valid; intros; apply f_mul_valid; auto|]. intro F. apply (inner_error C (g i) f); auto.
Qed.

Lemma sparse_row_error c (m : smat f64) (A : nat -> nat -> f64) (f : nat -> f64) i es : swf m -> csize m = c ->
  represents (S754_zero false) m A ->
  (forall j, (j < c)%nat -> f_valid (A i j)) -> (forall j, (j < c)%nat -> f_valid (f j)) ->
  StronglySorted lt (map fst es) -> (forall j v, In (j, v) es <-> stored m i j v) ->
  let r := full_sum fops es f (S754_zero false) in f_valid r /\ (f_finite r = true ->
    Rabs (f_real r - rsum c (fun j => f_real (A i j) * f_real (f j))) <= inner_bound c (A i) f).
Proof.
  intros Hw <- HA VA Vf Hs Hin. apply (row_error (csize m) es (A i) f); auto.
  - intros j Hj. apply in_map_iff in Hj as ([j' v] & E & Hj). cbn [fst] in E. subst j'. apply Hin in Hj.
    destruct (stored_bounds m i j v Hw Hj). auto.
  - intros j v Hj. apply (proj1 (HA i j)), Hin, Hj.
  - intros j Hj. apply (proj2 (HA i j)). intros v Hv. apply Hj. apply Hin in Hv. apply (in_map fst) in Hv. exact Hv.
Qed.

Lemma sparse_mat_vec_error dbg stray (m : smat f64) A x f : swf m -> represents (S754_zero false) m A -> is_vec (csize m) x f ->
  (forall i j, (i < s_rows m)%nat -> (j < csize m)%nat -> f_valid (A i j)) -> (forall j, (j < csize m)%nat -> f_valid (f j)) ->
  exists y h, s_mat_vec (sc_zero fops) (sc_add fops) (sc_mul fops) dbg stray m x = Ok y /\ is_vec (s_rows m) y h /\
    forall i, (i < s_rows m)%nat -> f_valid (h i) /\ (f_finite (h i) = true ->
      Rabs (f_real (h i) - rsum (csize m) (fun j => f_real (A i j) * f_real (f j))) <= inner_bound (csize m) (A i) f).
Proof.
  intros Hw HA Hx VA Vf.
  destruct (mat_vec_spec (sc_zero fops) (sc_add fops) (sc_mul fops) dbg stray m x Hw (proj1 Hx)) as (y & E & Ly & Hy).
  exists y, (fun i => nth i y (S754_zero false)). split; [exact E|]. split; [rewrite <- Ly; apply is_vec_self|].
  intros i Hi. destruct (Hy i Hi) as (es & Hs & Hin & Hn). 
  assert (E2 : fold_left (fun s e => SFadd 53 1024 s (SFmul 53 1024 (snd e) (nth (fst e) x (S754_zero false)))) es (S754_zero false) =
    full_sum fops es f (S754_zero false)).
  { rewrite <- (full_sum_ext fops (csize m) es (fun j => nth j x (S754_zero false)) f (S754_zero false)); [reflexivity|..].
    - intros j Hj. apply in_map_iff in Hj as ([j' v] & <- & Hj). cbn [fst]. apply Hin in Hj.
      destruct (stored_bounds m i j' v Hw Hj). auto.
    - intros j Hj. destruct Hx as [_ Hx]. apply (nth_error_nth _ _ (S754_zero false)), Hx, Hj. }
  assert (E3 : nth i y (S754_zero false) = full_sum fops es f (S754_zero false)).
  { rewrite <- E2. exact (nth_error_nth _ _ (S754_zero false) Hn). }
  cbv beta. rewrite E3. apply (sparse_row_error _ m A f i es); auto.
Qed.

(* ------------------------------------------------------------------ no overflow *)
Definition f_limit : R := 2 ^ 1023.

Lemma limit_bpow : f_limit = bpow radix2 1023.
Proof. unfold f_limit. rewrite bpow_powerRZ. change (IZR radix2) with 2. exact (pow_powerRZ 2 1023). Qed.

Lemma rnd_below x : Rabs x <= f_limit -> Rlt_bool (Rabs (round radix2 (SpecFloat.fexp 53 1024) (round_mode mode_NE) x)) (bpow radix2 1024) = true.
Proof.
  intro H. apply Rlt_bool_true. apply Rle_lt_trans with (bpow radix2 1023); [|apply bpow_lt; reflexivity].
  apply abs_round_le_generic; [apply fexp_correct; reflexivity|apply valid_rnd_N|apply generic_format_bpow; vm_compute; discriminate|].
  rewrite <- limit_bpow. exact H.
Qed.

Lemma f_add_finite x y : f_valid x -> f_valid y -> f_finite x = true -> f_finite y = true ->
  Rabs (f_real x + f_real y) <= f_limit -> f_finite (SFadd 53 1024 x y) = true.
Proof.
  intros Hx Hy. destruct (valid_SF2B x Hx) as (a & <- & <- & <-), (valid_SF2B y Hy) as (b & <- & <- & <-). intros Fa Fb H.
  rewrite add_equiv, B2SF_finite. pose proof (Bplus_correct 53 1024 Hprec Hmax mode_NE a b Fa Fb) as C.
  rewrite (rnd_below _ H) in C. apply C.
Qed.

Lemma f_mul_finite x y : f_valid x -> f_valid y -> f_finite x = true -> f_finite y = true ->
  Rabs (f_real x * f_real y) <= f_limit -> f_finite (SFmul 53 1024 x y) = true.
Proof.
  intros Hx Hy. destruct (valid_SF2B x Hx) as (a & <- & <- & <-), (valid_SF2B y Hy) as (b & <- & <- & <-). intros Fa Fb H.
  rewrite mul_equiv, B2SF_finite. pose proof (Bmult_correct 53 1024 Hprec Hmax mode_NE a b) as C.
  rewrite (rnd_below _ H) in C. destruct C as (_ & -> & _). rewrite Fa, Fb. reflexivity.
Qed.

Lemma inner_finite n x y : (forall i, (i < n)%nat -> f_valid (x i) /\ f_finite (x i) = true) ->
  (forall i, (i < n)%nat -> f_valid (y i) /\ f_finite (y i) = true) ->
  rsum n (fun i => Rabs (f_real (x i) * f_real (y i))) + inner_bound n x y <= f_limit ->
  f_finite (fsum n (fun i => SFmul 53 1024 (x i) (y i))) = true.
Proof.
  pose proof u_pos as Hu. pose proof eta_pos as He. unfold inner_bound, f_gamma.
  induction n as [|n IH]; intros Hx Hy Hb; [reflexivity|]. cbn [asum] in *.
  destruct (Hx n (Nat.lt_succ_diag_r n)) as [Vx Fx], (Hy n (Nat.lt_succ_diag_r n)) as [Vy Fy].
  set (W := rsum n (fun i => Rabs (f_real (x i) * f_real (y i)))) in *. set (p := Rabs (f_real (x n) * f_real (y n))) in *.
  assert (HW : 0 <= W) by (apply rsum_nonneg; intros; apply Rabs_pos). assert (Hp : 0 <= p) by apply Rabs_pos.
  assert (H1 : 1 <= (1 + f_u) ^ n) by (apply pow_R1_Rle; lra). pose proof (pos_INR n) as Hn.
  replace (S n + 1)%nat with (S (S n)) in Hb by lia. replace (n + 1)%nat with (S n) in * by lia. rewrite S_INR in Hb. cbn [pow] in *.
  set (P := (1 + f_u) ^ n) in *. set (c := INR n * P * f_eta). assert (Hc : 0 <= c) by (unfold c; apply Rmult_le_pos; [apply Rmult_le_pos; lra|lra]).
  assert (HPe : f_eta <= P * f_eta) by (apply Rle_trans with (1 * f_eta); [lra|apply Rmult_le_compat_r; lra]).
  set (Q := (1 + f_u) * P) in *. assert (HQ : P <= Q) by (unfold Q; apply Rle_trans with (1 * P); [lra|apply Rmult_le_compat_r; lra]).
  assert (HQ1 : 1 + f_u <= Q) by (unfold Q; apply Rle_trans with ((1 + f_u) * 1); [lra|apply Rmult_le_compat_l; lra]).
  assert (Hbig : Q * (W + p) + c + P * f_eta <= f_limit).
  { apply Rle_trans with (2 := Hb).
    assert (G1 : Q * (W + p) <= (1 + f_u) * Q * (W + p)).
    { apply Rmult_le_compat_r; [lra|]. apply Rle_trans with (1 * Q); [lra|apply Rmult_le_compat_r; lra]. }
    assert (G2 : c + P * f_eta <= (INR n + 1) * Q * f_eta).
    { unfold c. rewrite <- Rmult_plus_distr_r. apply Rmult_le_compat_r; [lra|]. apply Rle_trans with ((INR n + 1) * P); [lra|].
      apply Rmult_le_compat_l; lra. }
    lra. }
  assert (GW : W <= Q * W) by (apply Rle_trans with (1 * W); [lra|apply Rmult_le_compat_r; lra]).
  assert (Gp : p <= (1 + f_u) * p) by (apply Rle_trans with (1 * p); [lra|apply Rmult_le_compat_r; lra]).
  assert (Gp2 : (1 + f_u) * p <= Q * p) by (apply Rmult_le_compat_r; lra).
  rewrite Rmult_plus_distr_l in Hbig. assert (HPe0 : 0 < P * f_eta) by lra.
  assert (F1 : f_finite (fsum n (fun i => SFmul 53 1024 (x i) (y i))) = true).
  { apply IH; [intros; apply Hx; lia|intros; apply Hy; lia|]. fold c. nra. }
  assert (F2 : f_finite (SFmul 53 1024 (x n) (y n)) = true) by (apply f_mul_finite; auto; fold p; lra).
  apply f_add_finite; auto.
  - apply fsum_valid. intros i Hi. apply f_mul_valid; [apply Hx|apply Hy]; lia.
  - apply f_mul_valid; auto.
  - destruct (inner_error n x y) as [_ E1]; [intros; apply Hx; lia|intros; apply Hy; lia|exact F1|].
    unfold f_gamma in E1. replace (n + 1)%nat with (S n) in E1 by lia. cbn [pow] in E1. fold P in E1. fold Q in E1. fold W in E1. fold c in E1.
    destruct (f_mul_error _ _ Vx Vy F2) as (_ & _ & d & e & Hd & Her & E2).
    pose proof (rounding_bound _ _ d e Hd Her E2) as E3. fold p in E3.
    set (t := f_real (fsum n (fun i => SFmul 53 1024 (x i) (y i)))) in *. set (v := f_real (SFmul 53 1024 (x n) (y n))) in *.
    pose proof (rsum_abs n (fun i => f_real (x i) * f_real (y i))) as E4. cbv beta in E4. fold W in E4.
    assert (At : Rabs t <= Q * W + c).
    { replace t with ((t - rsum n (fun i => f_real (x i) * f_real (y i))) + rsum n (fun i => f_real (x i) * f_real (y i))) by ring.
      apply Rle_trans with (1 := Rabs_triang _ _). lra. }
    assert (Av : Rabs v <= (1 + f_u) * p + f_eta).
    { replace v with ((v - f_real (x n) * f_real (y n)) + f_real (x n) * f_real (y n)) by ring.
      apply Rle_trans with (1 := Rabs_triang _ _). fold p. lra. }
    apply Rle_trans with (1 := Rabs_triang _ _). lra.
Qed.

Lemma dot_finite dbg n v w f g : is_vec n v f -> is_vec n w g ->
  (forall i, (i < n)%nat -> f_valid (f i) /\ f_finite (f i) = true) ->
  (forall i, (i < n)%nat -> f_valid (g i) /\ f_finite (g i) = true) ->
  rsum n (fun i => Rabs (f_real (f i) * f_real (g i))) + inner_bound n f g <= f_limit ->
  exists d, dot (sc_zero fops) (sc_add fops) (sc_mul fops) dbg v w = Ok d /\ f_finite d = true.
Proof.
  intros Hv Hw Vf Vg Hb. eexists. split; [apply (dot_ok _ _ _ _ n v f w g); auto|]. apply inner_finite; auto.
Qed.

(* ------------------------------------------------------------------ the direct solver *)
Lemma F_tol_default dbg : tol_default fops dbg.
Proof. intros _. split; vm_compute; reflexivity. Qed.

Definition rows_permuted (n : nat) (s : nat -> nat) : Prop :=
  (forall a, (a < n)%nat -> (s a < n)%nat) /\ (forall r, (r < n)%nat -> exists a, (a < n)%nat /\ s a = r).

Lemma factorise_error dbg pivot n st a A st' : is_mat n n a A ->
  (forall i j, (i < n)%nat -> (j < n)%nat -> f_valid (A i j)) ->
  factorise fops dbg pivot st a = Ok (st', true) ->
  exists s g, is_mat n n (lu_matrix st') g /\ (pivot = true -> is_vec n (lu_pivots st') s) /\
    (pivot = false -> forall k, s k = k) /\ rows_permuted n s /\
    ((forall i j, (i < n)%nat -> (j < n)%nat -> f_finite (g i j) = true) ->
     forall i j, (i < n)%nat -> (j < n)%nat ->
       Rabs (f_real (A (s i) j) - rsum n (fun k => f_lower g i k * f_upper g k j)) <=
         f_gamma n * rsum n (fun k => Rabs (f_lower g i k * f_upper g k j)) +
         (1 + f_u) ^ n * f_eta * (INR n + Rabs (f_real (g j j)))).
Proof.
  intros Ha HA E. destruct (factorise_dool fops dbg pivot n st a A st' (F_tol_default dbg) Ha E) as (s & g & _ & Hm & Hp & Hid & Hd).
  exists s, g. split; [exact Hm|]. split; [exact Hp|]. split; [exact Hid|]. split; [split; apply Hd|].
  intros Hf i j Hi Hj. apply factor_error; auto.
Qed.

Lemma direct_solve_error dbg pivot n st a A st' x b B : is_mat n n a A ->
  (forall i j, (i < n)%nat -> (j < n)%nat -> f_valid (A i j)) ->
  factorise fops dbg pivot st a = Ok (st', true) ->
  is_vec n (other_of x b) B -> (b = None -> pivot = false) -> (forall i, (i < n)%nat -> f_valid (B i)) ->
  exists s g x' d z, is_mat n n (lu_matrix st') g /\ (pivot = true -> is_vec n (lu_pivots st') s) /\
    (pivot = false -> forall k, s k = k) /\ rows_permuted n s /\
    lu_solve fops dbg pivot st' x b = Ok (x', d) /\ is_vec n x' z /\
    ((forall i j, (i < n)%nat -> (j < n)%nat -> f_finite (g i j) = true) ->
     (forall i, (i < n)%nat -> f_finite (z i) = true) ->
     forall i, (i < n)%nat ->
       Rabs (f_real (B (s i)) - rsum n (fun j => f_real (A (s i) j) * f_real (z j))) <=
         f_gamma (3 * n) * rsum n (fun k => rsum n (fun j => Rabs (f_lower g i k) * Rabs (f_upper g k j) * Rabs (f_real (z j)))) +
         (1 + f_u) ^ (2 * n) * f_eta *
           (INR n + rsum n (fun k => (INR n + Rabs (f_real (g k k))) * (Rabs (f_lower g i k) + Rabs (f_real (z k)))))).
Proof.
  intros Ha HA E Hb Hal HB.
  destruct (factorise_dool fops dbg pivot n st a A st' (F_tol_default dbg) Ha E) as (s & g & Ht & Hm & Hp & Hid & Hd).
  destruct (solve_ok fops dbg pivot n st' g s x b B Ht Hm Hp Hid (proj1 (proj2 Hd)) Hb Hal) as (x' & y & z & Es & Hz & Hy & Hbk).
  exists s, g, x'. eexists. exists z. split; [exact Hm|]. split; [exact Hp|]. split; [exact Hid|]. split; [split; apply Hd|].
  split; [exact Es|]. split; [exact Hz|]. intros Hf Fz i Hi. apply (solve_residual n A g s HA Hd Hf B y z); auto.
Qed.

(* ------------------------------------------------------------------ residuals *)
Lemma residual_error dbg stray n a A b h x f : sparse_square (S754_zero false) n a A -> is_vec n b h -> is_vec n x f ->
  (0 < n)%nat -> (Z.of_nat n < 2 ^ 64)%Z ->
  (forall i j, (i < n)%nat -> (j < n)%nat -> f_valid (A i j)) -> (forall i, (i < n)%nat -> f_valid (h i)) ->
  (forall j, (j < n)%nat -> f_valid (f j)) ->
  exists l2 linf, compute_residual fops dbg stray a x b = Ok (l2, linf) /\ (f_finite l2 = true ->
    exists p : nat -> R,
      (forall i, (i < n)%nat ->
         Rabs (p i - (f_real (h i) - rsum n (fun j => f_real (A i j) * f_real (f j)))) <= inner_bound n (A i) f) /\
      (forall i, (i < n)%nat -> Rabs (p i) <= (1 + f_u) ^ 4 * (f_real linf + f_theta)) /\
      (exists i, (i < n)%nat /\ f_real linf <= (1 + f_u) ^ 4 * (Rabs (p i) + f_theta)) /\
      rsum n (fun i => p i ^ 2) / INR n <= (1 + f_u) ^ (n + 10) * (f_real l2 ^ 2 + 2 * f_eta) /\
      f_real l2 ^ 2 <= (1 + f_u) ^ (n + 10) * (rsum n (fun i => p i ^ 2) / INR n + 2 * f_eta)).
Proof.
  intros (Hw & Hr & Hc & HA) Hb Hx Hn HN VA Vh Vf. pose proof Hw as (rs & Hs & Ho). rewrite Hc in Ho.
  assert (L : length rs = n) by (rewrite <- Hr; symmetry; apply srepr_rows, Hs).
  eexists. eexists. split; [apply (residual_ok fops dbg stray n a b rs h x f Hs Ho L Hb Hx Hc); lia|]. intro Fl.
  set (r := fun i => full_sum fops (nth i rs []) f (S754_zero false)).
  assert (Hrow : forall i, (i < n)%nat -> f_valid (r i) /\ (f_finite (r i) = true ->
    Rabs (f_real (r i) - rsum n (fun j => f_real (A i j) * f_real (f j))) <= inner_bound n (A i) f)).
  { intros i Hi. apply (sparse_row_error n a A f i (nth i rs []) Hw Hc HA); auto.
    - apply Ho. lia.
    - intros j v. symmetry. apply (srepr_stored _ _ _ _ _ Hs). }
  destruct (residual_float n rs h f r Hn HN (fun _ _ => eq_refl) (fun i Hi => proj1 (Hrow i Hi)) Vh Fl) as (Hfin & H1 & H2 & H3 & H4).
  assert (Esq : forall i, (f_real (h i) - f_real (r i)) ^ 2 = (f_real (r i) - f_real (h i)) ^ 2) by (intro; ring).
  assert (Es : rsum n (fun i => (f_real (h i) - f_real (r i)) ^ 2) = rsum n (fun i => (f_real (r i) - f_real (h i)) ^ 2))
    by (apply asum_ext; intros; apply Esq).
  exists (fun i => f_real (h i) - f_real (r i)). cbv beta. rewrite Es. split; [|split; [|split; [|split]]].
  - intros i Hi. destruct (Hfin i Hi) as [F1 _]. destruct (Hrow i Hi) as [_ Hb']. specialize (Hb' F1).
    rewrite <- Rabs_Ropp. replace (- (f_real (h i) - f_real (r i) - (f_real (h i) - rsum n (fun j => f_real (A i j) * f_real (f j)))))
      with (f_real (r i) - rsum n (fun j => f_real (A i j) * f_real (f j))) by ring. exact Hb'.
  - intros i Hi. rewrite Rabs_minus_sym. apply H1, Hi.
  - destruct H2 as (i & Hi & H2). exists i. split; [exact Hi|]. rewrite (Rabs_minus_sym (f_real (h i))). exact H2.
  - exact H3.
  - exact H4.
Qed.
