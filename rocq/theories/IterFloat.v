(** Sparse products and residuals on doubles. *)
From Coq Require Import ZArith Reals Lra Lia SpecFloat Psatz.
From Flocq Require Import Core BinarySingleNaN Relative.
From Verif Require Import Base ListFacts DenseModel DenseFacts ScalarModel GeometryReal SparseModel SparseSpec SparseFacts
  SparseSeq SparseMul LuModel LuFacts LuField LuReal IterModel IterFacts IterField IterReal FloatFacts FloatError.
Local Open Scope R_scope.

(** The stored elements of a row as a sum over all columns. *)
Lemma entries_sum n (es : list (nat * f64)) (Ar : nat -> f64) (F : nat -> f64 -> R) :
  StronglySorted lt (map fst es) -> (forall j, In j (map fst es) -> (j < n)%nat) ->
  (forall j v, In (j, v) es -> Ar j = v) -> (forall j, ~ In j (map fst es) -> Ar j = S754_zero false) ->
  (forall j, F j (S754_zero false) = 0) ->
  rsum (length es) (fun t => F (fst (nth t es (0%nat, S754_zero false))) (snd (nth t es (0%nat, S754_zero false)))) =
  rsum n (fun j => F j (Ar j)).
Proof.
  intros Hs Hlt Hin Hout HF.
  assert (E1 : rsum n (fun j => F j (Ar j)) = fold_left Rplus (map snd (map (fun e => (fst e, F (fst e) (snd e))) es)) 0).
  { change (asum (sc_zero rops) (sc_add rops) n (fun j => F j (Ar j)) =
      fold_left Rplus (map snd (map (fun e => (fst e, F (fst e) (snd e))) es)) 0).
    rewrite (asum_big rops). apply (big_sum_terms _ _ Rmult 1 n _ _ R_semi).
    - rewrite map_map. exact Hs.
    - rewrite map_map. exact Hlt.
    - intros k v Hk. apply in_map_iff in Hk as ([j e] & E & Hk). cbn [fst snd] in E. injection E as <- <-.
      rewrite (Hin _ _ Hk). reflexivity.
    - rewrite map_map. cbn [fst]. intros k _ Hk. rewrite Hout by exact Hk. apply HF. }
  rewrite E1. rewrite map_map. cbn [snd].
  assert (G : forall l s, fold_left Rplus (map (fun e : nat * f64 => F (fst e) (snd e)) l) s =
    s + rsum (length l) (fun t => F (fst (nth t l (0%nat, S754_zero false))) (snd (nth t l (0%nat, S754_zero false))))).
  { induction l as [|e l IH]; intro s; [cbn; ring|]. cbn [map fold_left length]. rewrite IH.
    assert (Es : forall f, rsum (S (length l)) f = f 0%nat + rsum (length l) (fun t => f (S t))).
    { intro f. generalize (length l). induction n0 as [|m IHm]; [cbn; ring|]. cbn [asum] in *. rewrite IHm. ring. }
    rewrite Es. cbn [nth fst snd]. ring. }
  rewrite G. ring.
Qed.

Notation entry t es := (nth t es (0%nat, S754_zero false)).

Lemma full_sum_fsum (es : list (nat * f64)) (f : nat -> f64) :
  full_sum fops es f (S754_zero false) =
  fsum (length es) (fun t => SFmul 53 1024 (snd (entry t es)) (f (fst (entry t es)))).
Proof.
  unfold full_sum. cbn [fops sc_add sc_mul].
  induction es as [|e es IH] using rev_ind; [reflexivity|].
  rewrite fold_left_app, IH, app_length, Nat.add_1_r. cbn [fold_left asum]. f_equal.
  - apply asum_ext. intros t Ht. rewrite app_nth1 by exact Ht. reflexivity.
  - rewrite app_nth2, Nat.sub_diag by lia. reflexivity.
Qed.

(** A row of a sparse product. *)
Lemma row_error n (es : list (nat * f64)) (Ar f : nat -> f64) :
  StronglySorted lt (map fst es) -> (forall j, In j (map fst es) -> (j < n)%nat) ->
  (forall j v, In (j, v) es -> Ar j = v) -> (forall j, ~ In j (map fst es) -> Ar j = S754_zero false) ->
  (forall j, (j < n)%nat -> f_valid (Ar j)) -> (forall j, (j < n)%nat -> f_valid (f j)) ->
  let r := full_sum fops es f (S754_zero false) in f_valid r /\ (f_finite r = true ->
    Rabs (f_real r - rsum n (fun j => f_real (Ar j) * f_real (f j))) <=
      f_gamma (n + 1) * rsum n (fun j => Rabs (f_real (Ar j) * f_real (f j))) + INR n * (1 + f_u) ^ n * f_eta).
Proof.
  intros Hs Hlt Hin Hout HA Hf. rewrite full_sum_fsum. set (k := length es).
  assert (Hk : (k <= n)%nat).
  { unfold k. rewrite <- (map_length fst es), <- (seq_length n 0). apply NoDup_incl_length.
    - clear - Hs. induction (map fst es) as [|j l IH]; constructor; inversion Hs; subst.
      + intro H. rewrite Forall_forall in H2. specialize (H2 _ H). lia.
      + apply IH; auto.
    - intros j Hj. apply in_seq. specialize (Hlt j Hj). lia. }
  assert (Hent : forall t, (t < k)%nat -> f_valid (snd (entry t es)) /\ (fst (entry t es) < n)%nat).
  { intros t Ht. assert (H : In (entry t es) es) by (apply nth_In, Ht). destruct (entry t es) as [j v] eqn:E.
    assert (Hj : (j < n)%nat) by (apply Hlt; apply in_map_iff; exists (j, v); auto).
    cbn [fst snd]. split; [|exact Hj]. rewrite <- (Hin j v H). apply HA, Hj. }
  intro r. unfold r. clear r. split.
  - apply fsum_valid. intros t Ht. apply f_mul_valid; [apply Hent, Ht|apply Hf, Hent, Ht].
  - intro Fr. destruct (inner_error k (fun t => snd (entry t es)) (fun t => f (fst (entry t es)))) as [_ He]; auto.
    { intros t Ht. apply Hent, Ht. }
    { intros t Ht. apply Hf, Hent, Ht. }
    pose proof (entries_sum n es Ar (fun j v => f_real v * f_real (f j)) Hs Hlt Hin Hout) as E1.
    pose proof (entries_sum n es Ar (fun j v => Rabs (f_real v * f_real (f j))) Hs Hlt Hin Hout) as E2.
    cbv beta in E1, E2. fold k in E1, E2. rewrite E1 in He by (intro; cbn [f_real]; ring).
    rewrite E2 in He by (intro; cbn [f_real]; rewrite Rmult_0_l; apply Rabs_R0).
    apply Rle_trans with (1 := He). pose proof u_pos. pose proof eta_pos. apply Rplus_le_compat.
    + apply Rmult_le_compat_r; [apply rsum_nonneg; intros; apply Rabs_pos|apply gamma_le; lia].
    + apply Rmult_le_compat_r; [lra|]. apply Rmult_le_compat; [apply pos_INR|apply pow_le; lra|apply le_INR, Hk|apply Rle_pow; [lra|lia]].
Qed.

(* ------------------------------------------------------------------ roots and comparisons *)
Lemma f_sqrt_error x : f_valid x -> f_finite (SFsqrt 53 1024 x) = true ->
  f_finite x = true /\ 0 <= f_real x /\
  exists d, Rabs d <= f_u /\ f_real (SFsqrt 53 1024 x) = sqrt (f_real x) * (1 + d).
Proof.
  intros Hx Hf. destruct (f_sqrt_round x Hx Hf) as (Fx & H0 & E). split; [exact Fx|]. split; [exact H0|]. rewrite E.
  destruct H0 as [Hp|Hz].
  - destruct (relative_error_N_FLT_ex radix2 (-1074) 53 eq_refl (fun t => negb (Z.even t)) (sqrt (f_real x))) as (d & Hd & Er).
    + destruct (valid_SF2B x Hx) as (b & _ & Eb & _). rewrite <- Eb in Hp |- *.
      assert (Hb : bpow radix2 (-1074) <= B2R b).
      { apply (generic_format_ge_bpow radix2 (FLT_exp (-1074) 53)); [intro; unfold FLT_exp; lia|exact Hp|apply B2R_format]. }
      rewrite Rabs_pos_eq by apply sqrt_pos. apply Rle_trans with (bpow radix2 (-537)); [apply bpow_le; lia|].
      rewrite <- (sqrt_Rsqr (bpow radix2 (-537))) by apply bpow_ge_0. apply sqrt_le_1_alt. unfold Rsqr.
      rewrite <- bpow_plus. exact Hb.
    + exists d. rewrite u_bpow. auto.
  - rewrite <- Hz, sqrt_0. exists 0. rewrite Rabs_R0, round_0 by apply valid_rnd_N. split; [left; apply u_pos|ring].
Qed.

Lemma f_lt x y : f_valid x -> f_valid y -> f_finite x = true -> f_finite y = true ->
  (SFltb x y = true <-> f_real x < f_real y).
Proof.
  intros Hx Hy. destruct (valid_SF2B x Hx) as (a & Ea & <- & <-), (valid_SF2B y Hy) as (b & Eb & <- & <-). intros Fa Fb.
  rewrite <- Ea, <- Eb. pose proof (Bltb_correct 53 1024 a b Fa Fb) as H. unfold Bltb in H. rewrite H.
  destruct (Rlt_bool_spec (B2R a) (B2R b)); split; auto; try discriminate; lra.
Qed.

Lemma f_of_Z_finite n : (0 <= n < 2 ^ 64)%Z -> f_valid (f_of_Z n) /\ f_finite (f_of_Z n) = true.
Proof.
  intro Hn. unfold f_of_Z. rewrite binary_normalize_equiv. split; [apply B2SF_valid|]. rewrite B2SF_finite.
  pose proof (binary_normalize_correct 53 1024 Hprec Hmax mode_NE n 0 false) as H. cbv zeta in H.
  rewrite Rlt_bool_true in H; [apply H|].
  apply Rle_lt_trans with (bpow radix2 64); [|apply bpow_lt; reflexivity].
  apply abs_round_le_generic; [apply fexp_correct; reflexivity|apply valid_rnd_N|apply generic_format_bpow; vm_compute; discriminate|].
  unfold F2R. cbn [Fnum Fexp]. change (bpow radix2 0) with 1. rewrite Rmult_1_r, <- abs_IZR, <- (IZR_Zpower radix2) by discriminate.
  apply IZR_le. change (radix2 ^ 64)%Z with (2 ^ 64)%Z. rewrite Z.abs_eq by apply Hn. apply Z.lt_le_incl, Hn.
Qed.

(** The maximum. *)
Lemma fold_max_ok n (f : nat -> f64) : (forall i, (i < n)%nat -> f_valid (f i) /\ f_finite (f i) = true /\ 0 <= f_real (f i)) ->
  f_valid (fold_max fops n f) /\ f_finite (fold_max fops n f) = true /\ 0 <= f_real (fold_max fops n f) /\
  (forall i, (i < n)%nat -> f_real (f i) <= f_real (fold_max fops n f)) /\
  ((0 < n)%nat -> exists i, (i < n)%nat /\ f_real (fold_max fops n f) = f_real (f i)).
Proof.
  induction n as [|n IH]; intro H; cbn [fold_max].
  - repeat split; cbn; try lra; intros; lia.
  - destruct IH as (V & F & P & U & X); [intros; apply H; lia|]. destruct (H n (Nat.lt_succ_diag_r n)) as (Vn & Fn & Pn).
    unfold std_max. cbn [fops sc_lt]. pose proof (f_lt _ _ V Vn F Fn) as Hlt. destruct (SFltb _ _) eqn:E.
    + assert (L := proj1 Hlt eq_refl). split; [exact Vn|]. split; [exact Fn|]. split; [exact Pn|]. split.
      * intros i Hi. destruct (Nat.eq_dec i n) as [->|]; [lra|]. specialize (U i ltac:(lia)). lra.
      * intros _. exists n. split; [lia|auto].
    + assert (L : ~ f_real (fold_max fops n f) < f_real (f n)) by (intro C; apply Hlt in C; discriminate).
      split; [exact V|]. split; [exact F|]. split; [exact P|]. split.
      * intros i Hi. destruct (Nat.eq_dec i n) as [->|]; [lra|]. apply U. lia.
      * intros _. destruct n as [|n']; [|destruct (X ltac:(lia)) as (i & Hi & Ei); exists i; split; [lia|exact Ei]].
        exists 0%nat. split; [lia|]. cbn [fold_max fops sc_zero f_real] in *. lra.
Qed.

Lemma f_sqrt_finite x : f_valid x -> f_finite x = true -> 0 <= f_real x -> f_finite (SFsqrt 53 1024 x) = true.
Proof.
  intros Hx. destruct (valid_SF2B x Hx) as (a & <- & <- & <-). intros Fa Pa. rewrite sqrt_equiv, B2SF_finite.
  destruct (Bsqrt_correct 53 1024 Hprec Hmax mode_NE a) as (_ & -> & _).
  destruct a as [s|s| |s m e B]; auto. destruct s; auto. exfalso. cbn [B2R cond_Zopp] in Pa.
  pose proof (F2R_lt_0 radix2 (Float radix2 (- Z.pos m) e) eq_refl). lra.
Qed.

(* ------------------------------------------------------------------ small factors *)
Lemma u_small : f_u <= / 4.
Proof.
  unfold f_u. apply Rinv_le_contravar; [lra|]. apply Rle_trans with (2 ^ 2); [lra|]. apply Rle_pow; [lra|]. apply Nat.leb_le. reflexivity.
Qed.

Lemma shrink x d : 0 <= x -> Rabs d <= f_u -> x <= (1 + f_u) ^ 2 * (x * (1 + d)).
Proof.
  intros Hx Hd. apply Rabs_le_between in Hd. pose proof u_pos. pose proof u_small. set (u := f_u) in *.
  assert (H1 : 1 <= (1 + u) ^ 2 * (1 + d)).
  { apply Rle_trans with ((1 + u) ^ 2 * (1 - u)); [nra|]. apply Rmult_le_compat_l; [nra|lra]. }
  apply Rle_trans with (x * 1); [lra|]. apply Rle_trans with (x * ((1 + u) ^ 2 * (1 + d))); [|right; ring].
  apply Rmult_le_compat_l; auto.
Qed.

Lemma grow x d : 0 <= x -> Rabs d <= f_u -> x * (1 + d) <= (1 + f_u) * x.
Proof. intros Hx Hd. apply Rabs_le_between in Hd. pose proof u_pos. nra. Qed.

Lemma keep_sign x d : 0 <= x -> Rabs d <= f_u -> 0 <= x * (1 + d).
Proof. intros Hx Hd. apply Rabs_le_between in Hd. pose proof u_small. apply Rmult_le_pos; lra. Qed.

Definition f_theta : R := / 2 ^ 537.

Lemma theta_pos : 0 < f_theta.
Proof. unfold f_theta. apply Rinv_0_lt_compat, pow_lt. lra. Qed.

Lemma eta_theta : f_eta <= f_theta * f_theta.
Proof.
  unfold f_eta, f_theta. rewrite <- Rinv_mult, <- pow_add. apply Rinv_le_contravar; [apply pow_lt; lra|].
  apply Rle_pow; [lra|]. apply Nat.leb_le. reflexivity.
Qed.

Lemma up_le a b x : (a <= b)%nat -> 0 <= x -> (1 + f_u) ^ a * x <= (1 + f_u) ^ b * x.
Proof. intros H Hx. pose proof u_pos. apply Rmult_le_compat_r; [exact Hx|]. apply Rle_pow; [lra|exact H]. Qed.

(** Sums of numbers that are not negative. *)
Lemma fsum_nonneg n f : (forall i, (i < n)%nat -> f_valid (f i) /\ 0 <= f_real (f i)) -> f_finite (fsum n f) = true ->
  0 <= f_real (fsum n f) /\ f_real (fsum n f) <= (1 + f_u) ^ n * rsum n (fun i => f_real (f i)) /\
  rsum n (fun i => f_real (f i)) <= (1 + f_u) ^ n * f_real (fsum n f).
Proof.
  pose proof u_pos as Hu.
  induction n as [|n IH]; intros Hv Hf; cbn [asum] in *; [cbn [f_real pow]; lra|].
  assert (Vn : f_valid (fsum n f)) by (apply fsum_valid; intros; apply Hv; lia).
  destruct (Hv n (Nat.lt_succ_diag_r n)) as [Vf Pf].
  destruct (f_add_error _ _ Vn Vf Hf) as (F1 & F2 & d & Hd & E).
  destruct IH as (P & U & L); [intros; apply Hv; lia|exact F1|].
  assert (Eb : exists d', Rabs d' <= f_u /\ f_real (fsum n f) + f_real (f n) = f_real (SFadd 53 1024 (fsum n f) (f n)) * (1 + d')).
  { destruct (f_add_round _ _ Vn Vf Hf) as (_ & _ & Er). rewrite Er.
    destruct (valid_SF2B _ Vn) as (a & _ & <- & _), (valid_SF2B _ Vf) as (b & _ & <- & _). apply rnd_plus_back. }
  destruct Eb as (d' & Hd' & Eb). set (s := f_real (fsum n f)) in *. set (q := f_real (f n)) in *.
  set (t := f_real (SFadd 53 1024 (fsum n f) (f n))) in *. set (W := rsum n (fun i => f_real (f i))) in *.
  assert (HW : 0 <= W) by (apply rsum_nonneg; intros; apply Hv; lia).
  assert (Ht : 0 <= t) by (rewrite E; apply keep_sign; auto; lra).
  assert (Hp : 1 <= (1 + f_u) ^ n) by (apply pow_R1_Rle; lra). cbn [pow]. split; [exact Ht|]. split.
  - rewrite E. apply Rle_trans with (1 := grow (s + q) d ltac:(lra) Hd). rewrite Rmult_assoc. apply Rmult_le_compat_l; [lra|]. nra.
  - pose proof (grow t d' Ht Hd') as G. rewrite <- Eb in G. apply Rle_trans with ((1 + f_u) ^ n * (s + q)); [nra|].
    apply Rle_trans with ((1 + f_u) ^ n * ((1 + f_u) * t)); [apply Rmult_le_compat_l; lra|]. right; ring.
Qed.

Lemma f_of_Z_near n : (1 <= n < 2 ^ 64)%Z -> exists d, Rabs d <= f_u /\ f_real (f_of_Z n) = IZR n * (1 + d).
Proof.
  intro Hn. unfold f_of_Z. rewrite binary_normalize_equiv, B2SF_real.
  pose proof (binary_normalize_correct 53 1024 Hprec Hmax mode_NE n 0 false) as H. cbv zeta in H.
  assert (E : F2R (Float radix2 n 0) = IZR n).
  { unfold F2R. cbn [Fnum Fexp]. change (bpow radix2 0) with 1. apply Rmult_1_r. }
  rewrite E in H. rewrite Rlt_bool_true in H.
  - destruct H as [H _]. rewrite H.
    destruct (relative_error_N_FLT_ex radix2 (-1074) 53 eq_refl (fun t => negb (Z.even t)) (IZR n)) as (d & Hd & Er).
    + apply Rle_trans with 1; [change 1 with (bpow radix2 0); apply bpow_le; lia|]. rewrite <- abs_IZR. apply IZR_le. lia.
    + exists d. rewrite u_bpow. auto.
  - apply Rle_lt_trans with (bpow radix2 64); [|apply bpow_lt; reflexivity].
    apply abs_round_le_generic; [apply fexp_correct; reflexivity|apply valid_rnd_N|apply generic_format_bpow; vm_compute; discriminate|].
    rewrite <- abs_IZR, <- (IZR_Zpower radix2) by discriminate.
    apply IZR_le. change (radix2 ^ 64)%Z with (2 ^ 64)%Z. rewrite Z.abs_eq by lia. apply Z.lt_le_incl, Hn.
Qed.

(* ------------------------------------------------------------------ residuals *)
(** The square of one row. *)
Lemma square_error r b : f_valid r -> f_valid b ->
  let t := SFsub 53 1024 r b in let q := SFmul 53 1024 t t in f_valid q /\ (f_finite q = true ->
    f_finite r = true /\ f_finite b = true /\ 0 <= f_real q /\
    let p := f_real r - f_real b in
    p * p <= (1 + f_u) ^ 4 * (f_real q + f_eta) /\ f_real q <= (1 + f_u) ^ 5 * (p * p) + f_eta).
Proof.
  intros Hr Hb t q. assert (Vt : f_valid t) by (apply f_sub_valid; auto). split; [apply f_mul_valid; auto|].
  intro Fq. destruct (f_mul_error t t Vt Vt Fq) as (Ft & _ & d1 & e1 & Hd1 & He1 & E1).
  destruct (f_mul_round t t Vt Vt Fq) as (_ & _ & E1').
  destruct (f_sub_back r b Hr Hb Ft) as (Fr & Fb & d & Hd & E). split; [exact Fr|]. split; [exact Fb|].
  fold q in E1, E1'. fold t in E. pose proof u_pos as Hu. pose proof eta_pos as Heta. apply Rabs_le_between in He1.
  set (T := f_real t) in *. set (Q := f_real q) in *. assert (HT : 0 <= T * T) by apply Rle_0_sqr. split.
  { rewrite E1'. apply round_ge_generic; [apply FLT_exp_valid; reflexivity|apply valid_rnd_N|apply generic_format_0|exact HT]. }
  intro p. fold p in E. assert (Hpp : p * p = T * T * (1 + d) * (1 + d)) by (rewrite E; ring).
  pose proof (keep_sign _ d HT Hd) as HT1. split.
  - rewrite Hpp. apply Rle_trans with ((1 + f_u) * ((1 + f_u) * (T * T))).
    { apply Rle_trans with (1 := grow _ d HT1 Hd). apply Rmult_le_compat_l; [lra|]. apply grow; auto. }
    replace ((1 + f_u) ^ 4 * (Q + f_eta)) with ((1 + f_u) * ((1 + f_u) * ((1 + f_u) ^ 2 * (Q + f_eta)))) by ring.
    apply Rmult_le_compat_l; [lra|]. apply Rmult_le_compat_l; [lra|].
    apply Rle_trans with (1 := shrink _ d1 HT Hd1). apply Rmult_le_compat_l; [apply pow_le; lra|]. lra.
  - rewrite E1. apply Rplus_le_compat; [|lra]. apply Rle_trans with (1 := grow _ d1 HT Hd1).
    replace ((1 + f_u) ^ 5 * (p * p)) with ((1 + f_u) * ((1 + f_u) ^ 4 * (p * p))) by ring.
    apply Rmult_le_compat_l; [lra|]. rewrite Hpp. apply Rle_trans with (1 := shrink _ d HT Hd).
    replace ((1 + f_u) ^ 4) with ((1 + f_u) ^ 2 * (1 + f_u) ^ 2) by ring. rewrite (Rmult_assoc ((1 + f_u) ^ 2) ((1 + f_u) ^ 2)).
    apply Rmult_le_compat_l; [apply pow_le; lra|]. apply shrink; auto.
Qed.

Lemma sqrt_sum_le a b : 0 <= a -> 0 <= b -> sqrt (a + b) <= sqrt a + sqrt b.
Proof.
  intros Ha Hb. pose proof (sqrt_pos a). pose proof (sqrt_pos b). rewrite <- (sqrt_Rsqr (sqrt a + sqrt b)) by lra.
  apply sqrt_le_1_alt. unfold Rsqr. pose proof (sqrt_sqrt a Ha). pose proof (sqrt_sqrt b Hb). nra.
Qed.

Lemma eta_root : sqrt f_eta <= f_theta.
Proof.
  pose proof theta_pos. rewrite <- (sqrt_Rsqr f_theta) by lra. apply sqrt_le_1_alt. exact eta_theta.
Qed.

Lemma root_bound p k m : 0 <= m -> p * p <= (1 + f_u) ^ (2 * k) * (m + f_eta) -> Rabs p <= (1 + f_u) ^ k * (sqrt m + f_theta).
Proof.
  intros Hm H. pose proof u_pos. pose proof eta_pos. rewrite <- sqrt_Rsqr_abs. unfold Rsqr.
  apply Rle_trans with (1 := sqrt_le_1_alt _ _ H). rewrite sqrt_mult_alt by (apply pow_le; lra).
  replace ((1 + f_u) ^ (2 * k)) with (Rsqr ((1 + f_u) ^ k)) by (unfold Rsqr; rewrite <- pow_add; f_equal; lia).
  rewrite sqrt_Rsqr by (apply pow_le; lra). apply Rmult_le_compat_l; [apply pow_le; lra|].
  apply Rle_trans with (1 := sqrt_sum_le m f_eta Hm ltac:(lra)). pose proof eta_root. lra.
Qed.

(** What the two numbers of compute_residual say about the rows, each off by its own error. *)
Lemma residual_float n (rs : list (list (nat * f64))) (h f : nat -> f64) (r : nat -> f64) :
  (0 < n)%nat -> (Z.of_nat n < 2 ^ 64)%Z ->
  (forall i, (i < n)%nat -> r i = full_sum fops (nth i rs []) f (S754_zero false)) ->
  (forall i, (i < n)%nat -> f_valid (r i)) -> (forall i, (i < n)%nat -> f_valid (h i)) ->
  let q i := row_square fops (nth i rs []) (h i) f in
  let l2 := SFsqrt 53 1024 (SFdiv 53 1024 (fsum n q) (f_of_Z (Z.of_nat n))) in
  let linf := SFsqrt 53 1024 (fold_max fops n q) in
  f_finite l2 = true ->
  (forall i, (i < n)%nat -> f_finite (r i) = true /\ f_finite (h i) = true) /\
  (forall i, (i < n)%nat -> Rabs (f_real (r i) - f_real (h i)) <= (1 + f_u) ^ 4 * (f_real linf + f_theta)) /\
  (exists i, (i < n)%nat /\ f_real linf <= (1 + f_u) ^ 4 * (Rabs (f_real (r i) - f_real (h i)) + f_theta)) /\
  (rsum n (fun i => (f_real (r i) - f_real (h i)) ^ 2) / INR n <= (1 + f_u) ^ (n + 10) * (f_real l2 ^ 2 + 2 * f_eta)) /\
  (f_real l2 ^ 2 <= (1 + f_u) ^ (n + 10) * (rsum n (fun i => (f_real (r i) - f_real (h i)) ^ 2) / INR n + 2 * f_eta)).
Proof.
  intros Hn HN Hr Vr Vh q l2 linf Fl. pose proof u_pos as Hu. pose proof eta_pos as Heta. pose proof theta_pos as Htheta.
  set (p := fun i => f_real (r i) - f_real (h i)).
  assert (Hsq : forall i, (i < n)%nat -> f_valid (q i) /\ (f_finite (q i) = true ->
    f_finite (r i) = true /\ f_finite (h i) = true /\ 0 <= f_real (q i) /\
    p i * p i <= (1 + f_u) ^ 4 * (f_real (q i) + f_eta) /\ f_real (q i) <= (1 + f_u) ^ 5 * (p i * p i) + f_eta)).
  { intros i Hi. unfold q, row_square. cbn [fops sc_zero sc_sub sc_mul]. rewrite <- (Hr i Hi).
    apply square_error; [apply Vr, Hi|apply Vh, Hi]. }
  assert (Vs : f_valid (fsum n q)) by (apply fsum_valid; intros i Hi; apply Hsq, Hi).
  destruct (f_of_Z_finite (Z.of_nat n)) as [Vn Fn]; [lia|]. destruct (f_of_Z_near (Z.of_nat n)) as (dn & Hdn & En); [lia|].
  rewrite <- INR_IZR_INZ in En. set (N := f_of_Z (Z.of_nat n)) in *.
  assert (Vd : f_valid (SFdiv 53 1024 (fsum n q) N)) by (apply f_div_valid; auto).
  destruct (f_sqrt_error _ Vd Fl) as (Fd & Pd & d2 & Hd2 & E2). fold l2 in E2.
  destruct (f_div_back _ _ Vs Vn Fn Fd) as (Fs & d3 & e3 & Hd3 & He3 & E3).
  destruct (f_div_round _ _ Vs Vn Fn Fd) as (_ & _ & E4).
  destruct (rnd_error (f_real (fsum n q) / f_real N)) as (d4 & e4 & Hd4 & He4 & E4'). rewrite E4' in E4. clear E4'.
  destruct (fsum_error n q) as [Fq _]; [intros i Hi; apply Hsq, Hi|exact Fs|].
  assert (Hq : forall i, (i < n)%nat -> f_finite (r i) = true /\ f_finite (h i) = true /\ 0 <= f_real (q i) /\
    p i * p i <= (1 + f_u) ^ 4 * (f_real (q i) + f_eta) /\ f_real (q i) <= (1 + f_u) ^ 5 * (p i * p i) + f_eta).
  { intros i Hi. apply (proj2 (Hsq i Hi)), Fq, Hi. }
  destruct (fold_max_ok n q) as (Vm & Fm & Pm & Um & Xm).
  { intros i Hi. split; [apply Hsq, Hi|]. split; [apply Fq, Hi|apply Hq, Hi]. }
  destruct (f_sqrt_error _ Vm (f_sqrt_finite _ Vm Fm Pm)) as (_ & _ & d1 & Hd1 & E1). fold linf in E1.
  set (m := f_real (fold_max fops n q)) in *. pose proof (sqrt_pos m) as Hsm.
  split; [intros i Hi; split; apply (Hq i Hi)|]. split; [|split; [|split]].
  - intros i Hi. fold (p i). destruct (Hq i Hi) as (_ & _ & _ & Hp & _).
    apply Rle_trans with ((1 + f_u) ^ 2 * (sqrt m + f_theta)).
    { apply root_bound; [exact Pm|]. apply Rle_trans with (1 := Hp). apply Rmult_le_compat_l; [apply pow_le; lra|].
      specialize (Um i Hi). fold m in Um. lra. }
    replace ((1 + f_u) ^ 4) with ((1 + f_u) ^ 2 * (1 + f_u) ^ 2) by ring. rewrite (Rmult_assoc ((1 + f_u) ^ 2) ((1 + f_u) ^ 2)).
    apply Rmult_le_compat_l; [apply pow_le; lra|]. rewrite Rmult_plus_distr_l. apply Rplus_le_compat.
    + rewrite E1. apply shrink; auto.
    + apply Rle_trans with (1 * f_theta); [lra|]. apply Rmult_le_compat_r; [lra|]. apply pow_R1_Rle. lra.
  - destruct (Xm Hn) as (i & Hi & Ei). exists i. split; [exact Hi|]. fold (p i). destruct (Hq i Hi) as (_ & _ & _ & _ & Hp).
    rewrite E1. apply Rle_trans with (1 := grow _ _ Hsm Hd1). cbn [pow]. rewrite Rmult_assoc. apply Rmult_le_compat_l; [lra|].
    rewrite <- (Rabs_pos_eq (sqrt m)) by exact Hsm. rewrite <- (sqrt_Rsqr_abs (p i)).
    apply (root_bound (sqrt m) 3 (Rsqr (p i))); [apply Rle_0_sqr|]. rewrite sqrt_sqrt by exact Pm. unfold Rsqr.
    fold m in Ei. rewrite Ei. apply Rle_trans with (1 := Hp). rewrite Rmult_plus_distr_l. apply Rplus_le_compat.
    + apply up_le; [lia|apply Rle_0_sqr].
    + apply Rle_trans with (1 * f_eta); [lra|]. apply Rmult_le_compat_r; [lra|]. apply pow_R1_Rle. lra.
  - destruct (fsum_nonneg n q) as (_ & _ & Hs); [intros i Hi; split; [apply Hsq, Hi|apply Hq, Hi]|exact Fs|].
    assert (Hi0 : 0 < INR n) by (apply lt_0_INR, Hn).
    set (Sm := f_real (fsum n q)) in *. set (Q := f_real (SFdiv 53 1024 (fsum n q) N)) in *.
    assert (HP : rsum n (fun i => p i ^ 2) <= (1 + f_u) ^ 4 * (rsum n (fun i => f_real (q i)) + INR n * f_eta)).
    { rewrite <- rsum_const, <- rsum_plus, <- rsum_scale. apply rsum_le. intros i Hi.
      replace (p i ^ 2) with (p i * p i) by ring. apply Hq, Hi. }
    assert (HS : Sm <= INR n * ((1 + f_u) * ((1 + f_u) * Q + f_eta))).
    { rewrite E3. replace (Q * f_real N * (1 + d3) + e3 * f_real N) with (f_real N * (Q * (1 + d3) + e3)) by ring.
      apply Rabs_le_between in He3. pose proof (grow Q d3 Pd Hd3). pose proof (keep_sign _ dn (Rlt_le _ _ Hi0) Hdn).
      apply Rle_trans with (f_real N * ((1 + f_u) * Q + f_eta)).
      - apply Rmult_le_compat_l; [rewrite En; auto|lra].
      - rewrite En. pose proof (grow _ dn (Rlt_le _ _ Hi0) Hdn).
        apply Rle_trans with ((1 + f_u) * INR n * ((1 + f_u) * Q + f_eta)); [|right; ring].
        apply Rmult_le_compat_r; [|auto]. assert (0 <= (1 + f_u) * Q) by (apply Rmult_le_pos; lra). lra. }
    assert (HQ : Q <= (1 + f_u) ^ 4 * f_real l2 ^ 2).
    { rewrite E2. pose proof (sqrt_pos Q) as Hsq'. pose proof (shrink _ d2 Hsq' Hd2) as Hsh.
      rewrite <- (sqrt_sqrt Q Pd) at 1. replace ((1 + f_u) ^ 4 * (sqrt Q * (1 + d2)) ^ 2) with
        (((1 + f_u) ^ 2 * (sqrt Q * (1 + d2))) * ((1 + f_u) ^ 2 * (sqrt Q * (1 + d2)))) by ring.
      apply Rmult_le_compat; auto. }
    fold p. change (rsum n (fun i => (f_real (r i) - f_real (h i)) ^ 2)) with (rsum n (fun i => p i ^ 2)).
    set (P := rsum n (fun i => p i ^ 2)) in *. set (W := rsum n (fun i => f_real (q i))) in *.
    apply Rmult_le_reg_r with (INR n); [exact Hi0|]. unfold Rdiv. rewrite Rmult_assoc, Rinv_l, Rmult_1_r by lra.
    assert (Hpn : 1 <= (1 + f_u) ^ n) by (apply pow_R1_Rle; lra).
    assert (Hl2 : 0 <= f_real l2 ^ 2) by apply pow2_ge_0.
    apply Rle_trans with ((1 + f_u) ^ 4 * ((1 + f_u) ^ n * (INR n * ((1 + f_u) * ((1 + f_u) * ((1 + f_u) ^ 4 * f_real l2 ^ 2) + f_eta))) + INR n * f_eta)).
    { apply Rle_trans with (1 := HP). apply Rmult_le_compat_l; [apply pow_le; lra|]. apply Rplus_le_compat_r.
      apply Rle_trans with (1 := Hs). apply Rmult_le_compat_l; [lra|]. apply Rle_trans with (1 := HS).
      apply Rmult_le_compat_l; [lra|]. apply Rmult_le_compat_l; [lra|]. apply Rplus_le_compat_r.
      apply Rmult_le_compat_l; [lra|auto]. }
    replace ((1 + f_u) ^ 4 * ((1 + f_u) ^ n * (INR n * ((1 + f_u) * ((1 + f_u) * ((1 + f_u) ^ 4 * f_real l2 ^ 2) + f_eta))) + INR n * f_eta))
      with (((1 + f_u) ^ (n + 10) * f_real l2 ^ 2 + ((1 + f_u) ^ (n + 5) * f_eta + (1 + f_u) ^ 4 * f_eta)) * INR n)
      by (rewrite !pow_add; ring).
    apply Rmult_le_compat_r; [lra|]. rewrite Rmult_plus_distr_l. apply Rplus_le_compat_l.
    pose proof (up_le (n + 5) (n + 10) f_eta ltac:(lia) ltac:(lra)). pose proof (up_le 4 (n + 10) f_eta ltac:(lia) ltac:(lra)). lra.
  - destruct (fsum_nonneg n q) as (Hs0 & Hs & _); [intros i Hi; split; [apply Hsq, Hi|apply Hq, Hi]|exact Fs|].
    assert (Hi0 : 0 < INR n) by (apply lt_0_INR, Hn).
    set (Sm := f_real (fsum n q)) in *. set (Q := f_real (SFdiv 53 1024 (fsum n q) N)) in *.
    assert (HP : rsum n (fun i => f_real (q i)) <= (1 + f_u) ^ 5 * rsum n (fun i => p i ^ 2) + INR n * f_eta).
    { rewrite <- rsum_const, <- rsum_scale, <- rsum_plus. apply rsum_le. intros i Hi.
      replace (p i ^ 2) with (p i * p i) by ring. apply Hq, Hi. }
    assert (HQ : Q <= (1 + f_u) * ((1 + f_u) ^ 2 * (Sm / INR n)) + f_eta).
    { rewrite E4. apply Rabs_le_between in He4. apply Rplus_le_compat; [|lra].
      pose proof (shrink _ dn (Rlt_le _ _ Hi0) Hdn) as Hsh. rewrite <- En in Hsh.
      assert (HN0 : 0 < f_real N).
      { rewrite En. apply Rmult_lt_0_compat; [exact Hi0|]. apply Rabs_le_between in Hdn. pose proof u_small. lra. }
      assert (Hdv : Sm / f_real N <= (1 + f_u) ^ 2 * (Sm / INR n)).
      { unfold Rdiv. replace ((1 + f_u) ^ 2 * (Sm * / INR n)) with (Sm * ((1 + f_u) ^ 2 * / INR n)) by ring.
        apply Rmult_le_compat_l; [exact Hs0|]. apply Rmult_le_reg_r with (f_real N); [exact HN0|].
        rewrite Rinv_l by lra. apply Rmult_le_reg_r with (INR n); [exact Hi0|].
        replace ((1 + f_u) ^ 2 * / INR n * f_real N * INR n) with ((1 + f_u) ^ 2 * f_real N) by (field; lra). lra. }
      assert (H0 : 0 <= Sm / f_real N) by (apply Rmult_le_pos; [exact Hs0|left; apply Rinv_0_lt_compat, HN0]).
      apply Rle_trans with (1 := grow _ d4 H0 Hd4). apply Rmult_le_compat_l; [lra|exact Hdv]. }
    assert (HL : f_real l2 ^ 2 <= (1 + f_u) ^ 2 * Q).
    { rewrite E2. pose proof (sqrt_pos Q) as Hsq'. pose proof (grow _ d2 Hsq' Hd2) as Hg. pose proof (keep_sign _ d2 Hsq' Hd2) as H0.
      replace ((1 + f_u) ^ 2 * Q) with (((1 + f_u) * sqrt Q) * ((1 + f_u) * sqrt Q)).
      - replace ((sqrt Q * (1 + d2)) ^ 2) with ((sqrt Q * (1 + d2)) * (sqrt Q * (1 + d2))) by ring. apply Rmult_le_compat; auto.
      - rewrite <- (sqrt_sqrt Q Pd) at 3. ring. }
    change (rsum n (fun i => (f_real (r i) - f_real (h i)) ^ 2)) with (rsum n (fun i => p i ^ 2)).
    set (P := rsum n (fun i => p i ^ 2)) in *. set (W := rsum n (fun i => f_real (q i))) in *.
    assert (HP0 : 0 <= P) by (apply rsum_nonneg; intros; apply pow2_ge_0).
    apply Rle_trans with ((1 + f_u) ^ 2 * ((1 + f_u) * ((1 + f_u) ^ 2 * ((1 + f_u) ^ n * ((1 + f_u) ^ 5 * P + INR n * f_eta) / INR n)) + f_eta)).
    { apply Rle_trans with (1 := HL). apply Rmult_le_compat_l; [apply pow_le; lra|]. apply Rle_trans with (1 := HQ).
      apply Rplus_le_compat_r. apply Rmult_le_compat_l; [lra|]. apply Rmult_le_compat_l; [apply pow_le; lra|].
      unfold Rdiv. apply Rmult_le_compat_r; [left; apply Rinv_0_lt_compat, Hi0|]. apply Rle_trans with (1 := Hs).
      apply Rmult_le_compat_l; [apply pow_le; lra|exact HP]. }
    replace ((1 + f_u) ^ 2 * ((1 + f_u) * ((1 + f_u) ^ 2 * ((1 + f_u) ^ n * ((1 + f_u) ^ 5 * P + INR n * f_eta) / INR n)) + f_eta))
      with ((1 + f_u) ^ (n + 10) * (P / INR n) + ((1 + f_u) ^ (n + 5) * f_eta + (1 + f_u) ^ 2 * f_eta))
      by (rewrite !pow_add; field; lra).
    rewrite Rmult_plus_distr_l. apply Rplus_le_compat_l.
    pose proof (up_le (n + 5) (n + 10) f_eta ltac:(lia) ltac:(lra)). pose proof (up_le 2 (n + 10) f_eta ltac:(lia) ltac:(lra)). lra.
Qed.
