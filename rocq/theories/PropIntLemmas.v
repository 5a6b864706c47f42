(** Dense vectors and matrices of integers, C111. *)
From Coq Require Import ZArith Reals Lra Lia SpecFloat.
From Flocq Require Import Core BinarySingleNaN.
From Verif Require Import Base ListFacts DenseModel DenseFacts DenseOps ScalarModel GeometryModel MacroModel PropMacroLemmas
  FloatFacts FloatError IterFloat PropFloatLemmas FloatUnit IntModel.
Local Open Scope Z_scope.

Local Notation B64 := (binary_float 53 1024).
Local Notation rnd := (round radix2 (FLT_exp (-1074) 53) ZnearestE).

(** *** Specifications *)

(** The built-in integral types. *)
Definition builtin (t : ity) : Prop := i_bits t = 8 \/ i_bits t = 16 \/ i_bits t = 32 \/ i_bits t = 64.

(** [y] is the value of type [t] congruent to [x]. *)
Definition wraps (t : ity) (x y : Z) : Prop := fits t y /\ exists k, x = y + k * 2 ^ i_bits t.

(** An operation with the exact result [x] is defined: only a signed type can overflow, and operands narrower than int
    are converted to int. *)
Definition computable (t : ity) (x : Z) : Prop := i_signed (promoted t) = true -> fits (promoted t) x.

(** The integral part of a real number, towards zero. *)
Definition truncated (x : R) (c : Z) : Prop :=
  (0 <= x -> IZR c <= x < IZR c + 1)%R /\ (x <= 0 -> IZR c - 1 < x <= IZR c)%R.

Definition zsum (n : nat) (f : nat -> Z) : Z := asum 0 Z.add n f.

Fixpoint squares (v : list Z) : Z := match v with [] => 0 | x :: r => x * x + squares r end.

(** *** Storing results *)

Lemma builtin_pos t : builtin t -> 1 <= i_bits t.
Proof. intros [->|[->|[->| ->]]]; lia. Qed.

Lemma builtin_promoted t : builtin t -> builtin (promoted t).
Proof.
  intros H. unfold promoted. destruct (Z.ltb_spec (i_bits t) 32); auto. right. right. left. reflexivity.
Qed.

Lemma fits_promoted t x : builtin t -> fits t x -> fits (promoted t) x.
Proof.
  intros B [H1 H2]. unfold promoted. destruct (Z.ltb_spec (i_bits t) 32) as [Hb|]; [|split; auto].
  unfold fits, i_min, i_max in *. change (i_signed int_t) with true. change (i_bits int_t) with 32. cbn iota.
  destruct B as [E|[E|[E|E]]]; rewrite E in *; try lia; destruct (i_signed t);
    change (8 - 1) with 7 in *; change (16 - 1) with 15 in *; change (32 - 1) with 31; cbn in *; lia.
Qed.

Lemma i_fits_spec t x : i_fits t x = true <-> fits t x.
Proof. unfold i_fits, fits. rewrite andb_true_iff, !Z.leb_le. tauto. Qed.

Lemma conv_wraps t x : builtin t -> wraps t x (conv t x).
Proof.
  intro B. pose proof (builtin_pos t B) as Hb. split; [apply conv_range; exact Hb|].
  exists ((x - i_min t) / 2 ^ i_bits t). unfold conv.
  pose proof (Z.div_mod (x - i_min t) (2 ^ i_bits t)). pose proof (Z.pow_pos_nonneg 2 (i_bits t)). lia.
Qed.

Lemma wraps_unique t x y z : builtin t -> wraps t x y -> wraps t x z -> y = z.
Proof.
  intros B [[H1 H2] [k Hk]] [[H3 H4] [l Hl]]. pose proof (width t (builtin_pos t B)) as W.
  pose proof (Z.pow_pos_nonneg 2 (i_bits t)) as P. assert (E : y - z = (l - k) * 2 ^ i_bits t) by lia.
  assert (l = k) by (assert (- 2 ^ i_bits t < (l - k) * 2 ^ i_bits t < 2 ^ i_bits t) by lia; nia). subst l. lia.
Qed.

Lemma wraps_fits t x y : builtin t -> fits t x -> wraps t x y -> y = x.
Proof. intros B F W. apply (wraps_unique t x); auto. split; [exact F|]. exists 0. lia. Qed.

(** Converting through the promoted type changes nothing. *)
Lemma conv_promoted t x : builtin t -> conv t (conv (promoted t) x) = conv t x.
Proof.
  intro B. apply (wraps_unique t x); auto; [|apply conv_wraps; auto].
  pose proof (conv_wraps t (conv (promoted t) x) B) as [F [k Hk]]. split; [exact F|].
  destruct (conv_wraps (promoted t) x (builtin_promoted t B)) as [_ [l Hl]].
  assert (exists q, 2 ^ i_bits (promoted t) = q * 2 ^ i_bits t) as [q Hq].
  { unfold promoted. destruct (Z.ltb_spec (i_bits t) 32) as [Hb|]; [|exists 1; lia].
    destruct B as [E|[E|[E|E]]]; rewrite E in *; try lia; change (i_bits int_t) with 32.
    - exists (2 ^ 24). reflexivity.
    - exists (2 ^ 16). reflexivity. }
  exists (k + l * q). rewrite Hl, Hq at 1. rewrite Hk at 1. ring.
Qed.

Lemma computable_dec t x : {computable t x} + {~ computable t x}.
Proof.
  unfold computable. destruct (i_signed (promoted t)); [|left; discriminate].
  destruct (i_fits (promoted t) x) eqn:E.
  - left. intros _. apply i_fits_spec, E.
  - right. intro H. rewrite (proj2 (i_fits_spec _ _) (H eq_refl)) in E. discriminate.
Qed.

Lemma value_ok t x : computable t x -> i_value (promoted t) x = Ok (conv (promoted t) x).
Proof.
  intro C. unfold i_value. unfold computable in C. destruct (i_signed (promoted t)); cbn [andb]; auto.
  rewrite (proj2 (i_fits_spec _ _) (C eq_refl)). reflexivity.
Qed.

Lemma value_fits t x : builtin t -> fits (promoted t) x -> i_value (promoted t) x = Ok x.
Proof.
  intros B F. rewrite value_ok by (intros _; exact F).
  rewrite conv_fits; auto. apply builtin_pos, builtin_promoted, B.
Qed.

Lemma value_undef t x : ~ computable t x -> i_value (promoted t) x = Undef.
Proof.
  intro C. unfold i_value. unfold computable in C. destruct (i_signed (promoted t)); [|destruct C; discriminate].
  destruct (i_fits (promoted t) x) eqn:E; [|reflexivity]. destruct C. intros _. apply i_fits_spec, E.
Qed.

Lemma store_ok t x : builtin t -> computable t x -> i_store t x = Ok (conv t x).
Proof. intros B C. unfold i_store. rewrite value_ok by auto. cbn [bind]. rewrite conv_promoted by auto. reflexivity. Qed.

Lemma store_undef t x : ~ computable t x -> i_store t x = Undef.
Proof. intro C. unfold i_store. rewrite value_undef by auto. reflexivity. Qed.

Lemma fits_computable t x : builtin t -> fits t x -> computable t x.
Proof. intros B F _. apply fits_promoted; auto. Qed.

Lemma store_fits t x : builtin t -> fits t x -> i_store t x = Ok x.
Proof.
  intros B F. rewrite store_ok by (auto using fits_computable). rewrite conv_fits; auto. apply builtin_pos, B.
Qed.

(** *** Loops that store one element after the other *)

Lemma FOR_undef {S} n i0 (P : nat -> S -> Prop) (step : nat -> S -> res S) s : (i0 < n)%nat -> P 0%nat s ->
  (forall i u, (i < i0)%nat -> P i u -> exists u', step i u = Ok u' /\ P (i + 1)%nat u') ->
  (forall u, P i0 u -> step i0 u = Undef) -> FOR n step s = Undef.
Proof.
  intros Hi H0 Hs Hu. destruct (FOR_inv P i0 step s H0 Hs) as (u & E & Pu). unfold FOR in *.
  replace n with (i0 + Datatypes.S (n - i0 - 1))%nat by lia. rewrite seq_app, forM_app, E. cbn [bind seq forM Nat.add].
  rewrite (Hu u Pu). reflexivity.
Qed.


Lemma all_or_first (P : nat -> Prop) n : (forall i, {P i} + {~ P i}) ->
  (forall i, (i < n)%nat -> P i) \/ exists i, (i < n)%nat /\ ~ P i /\ forall j, (j < i)%nat -> P j.
Proof.
  intro D. induction n as [|n [IH|(i & Hi & Hn)]].
  - left. lia.
  - destruct (D n) as [H|H].
    + left. intros i Hi. destruct (Nat.eq_dec i n) as [->|]; auto. apply IH. lia.
    + right. exists n. split; [lia|auto].
  - right. exists i. split; [lia|auto].
Qed.

Section Stores.
  Variable t : ity.
  Hypothesis B : builtin t.

  Lemma store_loop n (v : list Z) f (e : nat -> Z) (step : nat -> list Z -> res (list Z)) : is_vec n v f ->
    (forall i u, (i < n)%nat -> is_vec n u (fun j => if (j <? i)%nat then conv t (e j) else f j) ->
       step i u = do z <- i_store t (e i); vset u i z) ->
    ((forall i, (i < n)%nat -> computable t (e i)) -> exists u, FOR n step v = Ok u /\ is_vec n u (fun i => conv t (e i))) /\
    ((exists i, (i < n)%nat /\ ~ computable t (e i)) -> FOR n step v = Undef).
  Proof using B.
    intros Hv Hs. split.
    - intro C. apply (write_loop n v f); auto. intros i u Hi Hu. rewrite (Hs i u Hi Hu), store_ok by auto. reflexivity.
    - intros (i & Hi & Hn). destruct (all_or_first (fun i => computable t (e i)) n) as [A|(k & Hk & Nk & Ak)];
        [intro; apply computable_dec|destruct (Hn (A i Hi))|].
      apply (FOR_undef n k (fun i u => is_vec n u (fun j => if (j <? i)%nat then conv t (e j) else f j))); auto.
      + intros j u Hj Hu. rewrite (Hs j u ltac:(lia) Hu), store_ok by auto. cbn [bind].
        destruct (is_vec_set _ _ _ j (conv t (e j)) Hu ltac:(lia)) as (u' & E & Hu'). exists u'. split; auto.
        apply (is_vec_ext _ _ _ _ Hu'). intros q Hq. cbn beta. destruct (Nat.eqb_spec q j) as [->|].
        * destruct (Nat.ltb_spec j (j + 1)); [reflexivity|lia].
        * destruct (Nat.ltb_spec q j), (Nat.ltb_spec q (j + 1)); auto; lia.
      + intros u Hu. rewrite (Hs k u Hk Hu), store_undef by auto. reflexivity.
  Qed.

  Variables (dbg : bool) (junk : nat -> Z).

  (** An operation without outcomes of its own. *)
  Definition exactly (op : Z -> Z -> res Z) (e : Z -> Z -> Z) : Prop := forall x y, op x y = Ok (e x y).

  Lemma scale_outcome op e n v f s : (forall x, op x s = Ok (e x s)) -> is_vec n v f ->
    ((forall i, (i < n)%nat -> computable t (e (f i) s)) ->
       exists u, iv_scale t op v s = Ok u /\ is_vec n u (fun i => conv t (e (f i) s))) /\
    ((exists i, (i < n)%nat /\ ~ computable t (e (f i) s)) -> iv_scale t op v s = Undef).
  Proof using B.
    intros He Hv. unfold iv_scale. rewrite (proj1 Hv). apply (store_loop n v f (fun i => e (f i) s)); auto.
    intros i u Hi Hu. rewrite (is_vec_get _ _ _ _ Hu Hi), Nat.ltb_irrefl. cbn [bind]. rewrite He. reflexivity.
  Qed.

  Lemma op_assign_outcome op e n v f w g : exactly op e -> is_vec n v f -> is_vec n w g ->
    ((forall i, (i < n)%nat -> computable t (e (f i) (g i))) ->
       exists u, iv_op_assign t dbg op v w = Ok u /\ is_vec n u (fun i => conv t (e (f i) (g i)))) /\
    ((exists i, (i < n)%nat /\ ~ computable t (e (f i) (g i))) -> iv_op_assign t dbg op v w = Undef).
  Proof using B.
    intros He Hv Hw. unfold iv_op_assign. rewrite (proj1 Hv), (proj1 Hw), (assert_ok dbg _ (Nat.eqb_refl n)). cbn [bind].
    apply (store_loop n v f (fun i => e (f i) (g i))); auto.
    intros i u Hi Hu. rewrite (is_vec_get _ _ _ _ Hu Hi), (is_vec_get _ _ _ _ Hw Hi), Nat.ltb_irrefl. cbn [bind].
    rewrite He. reflexivity.
  Qed.

  Lemma op_outcome op e n0 n1 n v f w g : exactly op e -> is_vec n v f -> is_vec n w g -> vtyped n0 v -> vtyped n1 w ->
    ((forall i, (i < n)%nat -> computable t (e (f i) (g i))) ->
       exists u, iv_op t dbg junk op n0 n1 v w = Ok u /\ is_vec n u (fun i => conv t (e (f i) (g i)))) /\
    ((exists i, (i < n)%nat /\ ~ computable t (e (f i) (g i))) -> iv_op t dbg junk op n0 n1 v w = Undef).
  Proof using B.
    intros He Hv Hw T0 T1. unfold iv_op. rewrite (proj1 Hv), (proj1 Hw), (assert_ok dbg _ (Nat.eqb_refl n)). cbn [bind].
    assert (Hp : promote n0 n1 = 0%nat \/ promote n0 n1 = n).
    { unfold promote, vtyped in *. rewrite (proj1 Hv) in T0. rewrite (proj1 Hw) in T1. destruct (Nat.eqb_spec n0 0); lia. }
    assert (G : forall w0 f0, is_vec n w0 f0 ->
      ((forall i, (i < n)%nat -> computable t (e (f i) (g i))) ->
         exists u, v_fill (fun i => do x <- vget v i; do y <- vget w i; do z <- op x y; i_store t z) w0 = Ok u /\
           is_vec n u (fun i => conv t (e (f i) (g i)))) /\
      ((exists i, (i < n)%nat /\ ~ computable t (e (f i) (g i))) ->
         v_fill (fun i => do x <- vget v i; do y <- vget w i; do z <- op x y; i_store t z) w0 = Undef)).
    { intros w0 f0 H0. unfold v_fill. rewrite (proj1 H0). apply (store_loop n w0 f0 (fun i => e (f i) (g i))); auto.
      intros i u Hi Hu. rewrite (is_vec_get _ _ _ _ Hv Hi), (is_vec_get _ _ _ _ Hw Hi). cbn [bind]. rewrite He. reflexivity. }
    unfold v_lambda. destruct (Nat.eqb_spec (promote n0 n1) 0) as [E0|E0].
    - apply (G _ (fun _ => 0)). split; [apply repeat_length|]. intros i Hi. apply nth_error_repeat, Hi.
    - destruct Hp as [Hp|Hp]; [lia|]. rewrite Hp, (assert_ok dbg _ (Nat.eqb_refl n)). cbn [bind].
      apply (G _ junk). apply is_vec_map.
  Qed.
End Stores.

(** *** Integers as doubles *)

Lemma fexp_FLT' : SpecFloat.fexp 53 1024 = FLT_exp (-1074) 53.
Proof. reflexivity. Qed.

Lemma int_format z : Z.abs z <= 2 ^ 53 -> generic_format radix2 (FLT_exp (-1074) 53) (IZR z).
Proof.
  intro Hz. destruct (Z.eq_dec (Z.abs z) (2 ^ 53)) as [E|E].
  - assert (z = 2 ^ 53 \/ z = - 2 ^ 53) as [->| ->] by lia.
    + change (2 ^ 53) with (radix2 ^ 53). rewrite IZR_Zpower by lia. apply generic_format_bpow. vm_compute. discriminate.
    + rewrite opp_IZR. apply generic_format_opp. change (2 ^ 53) with (radix2 ^ 53). rewrite IZR_Zpower by lia.
      apply generic_format_bpow. vm_compute. discriminate.
  - apply generic_format_FLT. exists (Float radix2 z 0); cbn [Fnum Fexp]; [|change (radix2 ^ 53) with (2 ^ 53); lia|lia].
    unfold F2R. cbn [Fnum Fexp bpow]. ring.
Qed.

Lemma of_Z_normal z : f_of_Z z = B2SF (binary_normalize 53 1024 Hprec Hmax mode_NE z 0 false).
Proof. unfold f_of_Z. apply binary_normalize_equiv. Qed.

Lemma bound_1024 z : (Rabs (IZR z) <= bpow radix2 64)%R -> Rlt_bool (Rabs (rnd (IZR z))) (bpow radix2 1024) = true.
Proof.
  intro H. apply Rlt_bool_true. apply Rle_lt_trans with (bpow radix2 64); [|apply bpow_lt; reflexivity].
  apply abs_round_le_generic; [apply FLT_exp_valid; reflexivity|apply valid_rnd_N|
    apply generic_format_bpow; vm_compute; discriminate|exact H].
Qed.

Lemma of_Z_round z : Z.abs z <= 2 ^ 64 -> f_valid (f_of_Z z) /\ f_finite (f_of_Z z) = true /\ f_real (f_of_Z z) = rnd (IZR z).
Proof.
  intro Hz. rewrite of_Z_normal. split; [apply B2SF_valid|]. rewrite B2SF_finite, B2SF_real.
  pose proof (binary_normalize_correct 53 1024 Hprec Hmax mode_NE z 0 false) as H. cbv zeta in H.
  assert (E : F2R (Float radix2 z 0) = IZR z) by (unfold F2R; cbn [Fnum Fexp bpow]; ring). rewrite E in H.
  rewrite fexp_FLT' in H. change (round_mode mode_NE) with ZnearestE in H. rewrite bound_1024 in H; [tauto|].
  rewrite <- abs_IZR, <- (IZR_Zpower radix2) by discriminate. apply IZR_le. exact Hz.
Qed.

(** Up to 2^53 the conversion is exact, and the only zero is the positive one. *)
Lemma of_Z_exact z : Z.abs z <= 2 ^ 53 -> exists b : B64, f_of_Z z = B2SF b /\ is_finite b = true /\ B2R b = IZR z /\
  Bsign b = (z <? 0).
Proof.
  intro Hz. exists (binary_normalize 53 1024 Hprec Hmax mode_NE z 0 false). split; [apply of_Z_normal|].
  pose proof (binary_normalize_correct 53 1024 Hprec Hmax mode_NE z 0 false) as H. cbv zeta in H.
  assert (E : F2R (Float radix2 z 0) = IZR z) by (unfold F2R; cbn [Fnum Fexp bpow]; ring). rewrite E in H.
  rewrite fexp_FLT' in H. change (round_mode mode_NE) with ZnearestE in H. rewrite bound_1024 in H.
  - destruct H as (H1 & H2 & H3). split; [exact H2|]. split.
    + rewrite H1. apply round_generic; [apply valid_rnd_N|]. apply int_format, Hz.
    + rewrite H3. rewrite Rcompare_IZR. destruct (Z.compare_spec z 0), (Z.ltb_spec z 0); auto; lia.
  - rewrite <- abs_IZR, <- (IZR_Zpower radix2) by discriminate. apply IZR_le. change (radix2 ^ 64) with (2 ^ 64). lia.
Qed.

Lemma of_Z_real z : Z.abs z <= 2 ^ 53 -> f_real (f_of_Z z) = IZR z.
Proof. intro H. destruct (of_Z_exact z H) as (b & -> & _ & E & _). rewrite B2SF_real. exact E. Qed.

Lemma add_exact a b : Z.abs a <= 2 ^ 53 -> Z.abs b <= 2 ^ 53 -> Z.abs (a + b) <= 2 ^ 53 ->
  SFadd 53 1024 (f_of_Z a) (f_of_Z b) = f_of_Z (a + b).
Proof.
  intros Ha Hb Hc. destruct (of_Z_exact a Ha) as (x & -> & Fx & Rx & Sx), (of_Z_exact b Hb) as (y & -> & Fy & Ry & Sy),
    (of_Z_exact (a + b) Hc) as (z & -> & Fz & Rz & Sz).
  rewrite add_equiv. f_equal. pose proof (Bplus_correct 53 1024 Hprec Hmax mode_NE x y Fx Fy) as H.
  rewrite Rx, Ry, <- plus_IZR, fexp_FLT' in H. change (round_mode mode_NE) with ZnearestE in H. rewrite bound_1024 in H.
  - destruct H as (H1 & H2 & H3). apply B2R_Bsign_inj; auto.
    + rewrite H1, Rz. apply round_generic; [apply valid_rnd_N|]. apply int_format, Hc.
    + rewrite H3, Sz, Rcompare_IZR, Sx, Sy.
      destruct (Z.compare_spec (a + b) 0), (Z.ltb_spec (a + b) 0); try lia; auto.
  - rewrite <- abs_IZR, <- (IZR_Zpower radix2) by discriminate. apply IZR_le. change (radix2 ^ 64) with (2 ^ 64). lia.
Qed.

(** *** The integral part of a double *)

Lemma trunc_real x : f_finite x = true -> exists c, d_trunc x = Some c /\ c = Ztrunc (f_real x).
Proof.
  destruct x as [s|s| |s m e]; cbn [f_finite]; try discriminate; intros _.
  - exists 0. cbn [d_trunc f_real]. rewrite Ztrunc_IZR. auto.
  - eexists. split; [reflexivity|]. cbn [f_real].
    assert (P : (IZR (Z.pos m) * powerRZ 2 e = IZR (Z.pos m) * bpow radix2 e)%R) by (rewrite bpow_powerRZ; reflexivity).
    assert (A : (if 0 <=? e then Z.pos m * 2 ^ e else Z.pos m / 2 ^ (- e)) = Ztrunc (IZR (Z.pos m) * powerRZ 2 e)%R).
    { rewrite P. destruct (Z.leb_spec 0 e) as [He|He].
      - rewrite <- IZR_Zpower by exact He. rewrite <- mult_IZR, Ztrunc_IZR. reflexivity.
      - rewrite Ztrunc_floor by (apply Rmult_le_pos; [apply IZR_le; lia|apply bpow_ge_0]).
        replace e with (- (- e)) at 2 by lia. rewrite bpow_opp, <- IZR_Zpower by lia.
        change (IZR (Z.pos m) * / IZR (radix2 ^ (- e)))%R with (IZR (Z.pos m) / IZR (radix2 ^ (- e)))%R.
        rewrite Zfloor_div; [reflexivity|]. change (radix2 ^ (- e)) with (2 ^ (- e)).
        pose proof (Z.pow_pos_nonneg 2 (- e)). lia. }
    destruct s; rewrite A.
    + rewrite Ropp_mult_distr_l_reverse, Ztrunc_opp. reflexivity.
    + reflexivity.
Qed.

Lemma truncated_unique x a b : truncated x a -> truncated x b -> a = b.
Proof.
  intros [A1 A2] [B1 B2]. destruct (Rle_or_lt 0 x) as [H|H].
  - specialize (A1 H). specialize (B1 H). assert (a < b + 1) by (apply lt_IZR; rewrite plus_IZR; lra).
    assert (b < a + 1) by (apply lt_IZR; rewrite plus_IZR; lra). lia.
  - specialize (A2 ltac:(lra)). specialize (B2 ltac:(lra)). assert (a - 1 < b) by (apply lt_IZR; rewrite minus_IZR; lra).
    assert (b - 1 < a) by (apply lt_IZR; rewrite minus_IZR; lra). lia.
Qed.

Lemma truncated_Ztrunc x : truncated x (Ztrunc x).
Proof.
  split; intro H.
  - rewrite Ztrunc_floor by exact H. split; [apply Zfloor_lb|apply Zfloor_ub].
  - rewrite Ztrunc_ceil by exact H. split; [|apply Zceil_ub]. pose proof (Zceil_lb x). lra.
Qed.

Lemma d_trunc_spec x c : f_finite x = true -> truncated (f_real x) c -> d_trunc x = Some c.
Proof.
  intros F T. destruct (trunc_real x F) as (d & E & ->). rewrite E. f_equal.
  apply (truncated_unique (f_real x)); auto using truncated_Ztrunc.
Qed.

Lemma truncated_int z : truncated (IZR z) z.
Proof. split; lra. Qed.

Lemma of_double_exact t z : fits t z -> Z.abs z <= 2 ^ 53 -> i_of_double t (f_of_Z z) = Ok z.
Proof.
  intros F Hz. unfold i_of_double. destruct (of_Z_exact z Hz) as (b & E & Fb & Rb & _).
  rewrite (d_trunc_spec (f_of_Z z) z).
  - rewrite (proj2 (i_fits_spec t z) F). reflexivity.
  - rewrite E, B2SF_finite. exact Fb.
  - rewrite of_Z_real by exact Hz. apply truncated_int.
Qed.

(** *** Inner products *)

Lemma zsum_abs n f : Z.abs (zsum n f) <= zsum n (fun i => Z.abs (f i)).
Proof. unfold zsum. induction n; cbn [asum]; lia. Qed.

Lemma zsum_nonneg n f : (forall i, (i < n)%nat -> 0 <= f i) -> 0 <= zsum n f.
Proof.
  unfold zsum. induction n as [|n IH]; cbn [asum]; intros H; [lia|]. specialize (IH ltac:(auto)). specialize (H n ltac:(lia)). lia.
Qed.

Lemma zsum_member n f i : (i < n)%nat -> (forall j, (j < n)%nat -> 0 <= f j) -> f i <= zsum n f.
Proof.
  intros Hi H. induction n as [|n IH]; [lia|]. unfold zsum in *. cbn [asum].
  pose proof (zsum_nonneg n f ltac:(auto)) as Hp. unfold zsum in Hp.
  destruct (Nat.eq_dec i n) as [->|]; [lia|]. specialize (IH ltac:(lia) ltac:(auto)). specialize (H n ltac:(lia)). lia.
Qed.

Lemma zsum_mono n m f : (m <= n)%nat -> (forall i, (i < n)%nat -> 0 <= f i) -> zsum m f <= zsum n f.
Proof.
  intros L H. induction L as [|n L IH]; [lia|]. unfold zsum in *. cbn [asum].
  specialize (IH ltac:(auto)). specialize (H n ltac:(lia)). lia.
Qed.

Lemma dot_exact t dbg n v f w g : builtin t -> is_vec n v f -> is_vec n w g ->
  (forall i, (i < n)%nat -> fits (promoted t) (f i * g i)) -> zsum n (fun i => Z.abs (f i * g i)) <= 2 ^ 53 ->
  i_dot t dbg v w = Ok (f_of_Z (zsum n (fun i => f i * g i))).
Proof.
  intros B Hv Hw HF HS. unfold i_dot. rewrite (proj1 Hv), (proj1 Hw), (assert_ok dbg _ (Nat.eqb_refl n)). cbn [bind].
  assert (N : forall i, (i < n)%nat -> 0 <= Z.abs (f i * g i)) by (intros; lia).
  destruct (FOR_inv (fun k s => s = f_of_Z (zsum k (fun i => f i * g i))) n
    (fun i s => do x <- vget v i; do y <- vget w i; do z <- i_value (promoted t) (x * y); Ok (sc_add fops s (f_of_Z z)))
    (sc_zero fops)) as (s & E & ->); [reflexivity| |exact E].
  intros i s Hi ->. rewrite (is_vec_get _ _ _ _ Hv Hi), (is_vec_get _ _ _ _ Hw Hi). cbn [bind].
  rewrite value_fits by auto. cbn [bind]. eexists. split; [reflexivity|].
  replace (i + 1)%nat with (Datatypes.S i) by lia. unfold zsum. cbn [asum]. cbn [sc_add fops].
  pose proof (zsum_mono n i _ ltac:(lia) N). pose proof (zsum_mono n (Datatypes.S i) _ ltac:(lia) N).
  pose proof (zsum_member n _ i Hi N). cbn beta in *.
  pose proof (zsum_abs i (fun i => f i * g i)). pose proof (zsum_abs (Datatypes.S i) (fun i => f i * g i)) as HA.
  unfold zsum in *. cbn [asum] in *. apply add_exact; lia.
Qed.

(** *** Matrices *)

Section Matrices.
  Variable t : ity.
  Hypothesis B : builtin t.
  Variables (dbg : bool) (junk : nat -> Z).
  Implicit Types (m o : list (list Z)).

  Lemma matrix_op_exact op e s0 s1 r c m g o h : exactly op e -> is_mat r c m g -> is_mat r c o h ->
    mtyped s0 r c -> mtyped s1 r c ->
    (forall i j, (i < r)%nat -> (j < c)%nat -> fits t (e (g i j) (h i j)) /\ Z.abs (e (g i j) (h i j)) <= 2 ^ 53) ->
    exists u, im_op t dbg op s0 s1 m o = Ok u /\ is_mat r c u (fun i j => e (g i j) (h i j)).
  Proof using B.
    intros He Hm Ho H0 H1 HF. unfold im_op, im_lambda. rewrite (assert_ok dbg _ (same_size_spec _ _ _ _ _ _ Hm Ho)).
    cbn [bind]. rewrite (is_mat_rows _ _ _ _ Hm). destruct r as [|r].
    - assert (m_cols m = 0%nat) as -> by (destruct Hm as [Hm _]; destruct m; [reflexivity|discriminate]).
      assert (m_promote s0 s1 = (0, 0)%nat) as ->.
      { unfold m_promote, mtyped in *. destruct H0 as [->|(-> & ? & _)]; [|lia].
        destruct H1 as [->|(-> & ? & _)]; [reflexivity|lia]. }
      eexists. split; [reflexivity|]. apply is_mat_nil.
    - rewrite (is_mat_cols _ _ _ _ Hm) by lia.
      apply m_lambda_ok; [apply m_promote_typed; auto|].
      intros i j Hi Hj. rewrite (is_mat_get _ _ _ _ i j Hm Hi Hj), (is_mat_get _ _ _ _ i j Ho Hi Hj). cbn [bind].
      rewrite He. cbn [bind]. destruct (HF i j Hi Hj) as [F1 F2].
      rewrite value_fits by (auto using fits_promoted). cbn [bind]. apply of_double_exact; auto.
  Qed.

  Lemma matrix_op_assign_exact op e r c m g o h : exactly op e -> is_mat r c m g -> is_mat r c o h ->
    (forall i j, (i < r)%nat -> (j < c)%nat -> fits t (e (g i j) (h i j))) ->
    exists u, im_op_assign t dbg op m o = Ok u /\ is_mat r c u (fun i j => e (g i j) (h i j)).
  Proof using B.
    intros He Hm Ho HF. unfold im_op_assign. rewrite (assert_ok dbg _ (same_size_spec _ _ _ _ _ _ Hm Ho)).
    cbn [bind]. rewrite (proj1 Hm). apply (mat_loop r c m g); auto. intros i u Hi Hu.
    destruct (is_mat_row _ _ _ _ i Hu Hi) as (row & Er & Hrow). rewrite Er. cbn [bind]. rewrite Nat.ltb_irrefl in Hrow.
    destruct (is_mat_row _ _ _ _ i Ho Hi) as (w & Ew & Hw). rewrite Ew. cbn [bind].
    destruct (proj1 (op_assign_outcome t B dbg op e c row (g i) w (h i) He Hrow Hw)) as (row' & Er' & Hrow').
    { intros j Hj. apply fits_computable; auto. }
    rewrite Er'. cbn [bind]. destruct (is_mat_set_row _ _ _ _ i row' _ Hu Hi Hrow') as (u' & Eu & Hu').
    exists u'. split; auto. apply (is_mat_ext _ _ _ _ _ Hu'). intros a b Ha Hb. cbn beta.
    destruct (Nat.eqb_spec a i) as [->|]; auto. rewrite conv_fits; auto. apply builtin_pos, B.
  Qed.

  Lemma matrix_scale_exact op e r c m g s k : (forall x, op x k = Ok (e x k)) -> is_mat r c m g ->
    f_finite s = true -> truncated (f_real s) k -> fits t k ->
    (forall i j, (i < r)%nat -> (j < c)%nat -> fits t (e (g i j) k)) ->
    exists u, im_scale t op m s = Ok u /\ is_mat r c u (fun i j => e (g i j) k).
  Proof using B.
    intros He Hm Fs Ts Fk HF. unfold im_scale. rewrite (proj1 Hm). apply (mat_loop r c m g); auto. intros i u Hi Hu.
    destruct (is_mat_row _ _ _ _ i Hu Hi) as (row & Er & Hrow). rewrite Er. cbn [bind]. rewrite Nat.ltb_irrefl in Hrow.
    assert (Ek : i_of_double t s = Ok k).
    { unfold i_of_double. rewrite (d_trunc_spec s k Fs Ts), (proj2 (i_fits_spec t k) Fk). reflexivity. }
    rewrite Ek. cbn [bind].
    destruct (proj1 (scale_outcome t B op e c row (g i) k He Hrow)) as (row' & Er' & Hrow').
    { intros j Hj. apply fits_computable; auto. }
    rewrite Er'. cbn [bind]. destruct (is_mat_set_row _ _ _ _ i row' _ Hu Hi Hrow') as (u' & Eu & Hu').
    exists u'. split; auto. apply (is_mat_ext _ _ _ _ _ Hu'). intros a b Ha Hb. cbn beta.
    destruct (Nat.eqb_spec a i) as [->|]; auto. rewrite conv_fits; auto. apply builtin_pos, B.
  Qed.

  (** Dividing by a number between -1 and 1 divides by zero. *)
  Lemma matrix_divide_small r c m g s : is_mat r c m g -> (0 < r)%nat -> (0 < c)%nat -> f_finite s = true ->
    (-1 < f_real s < 1)%R -> fits t 0 -> im_scale t i_quot m s = Undef.
  Proof using B.
    intros Hm Hr Hc Fs Hs F0. unfold im_scale. rewrite (proj1 Hm).
    apply (FOR_undef r 0 (fun i u => i = 0%nat -> u = m)); auto; [intros; lia|].
    intros u ->; auto. destruct (is_mat_row _ _ _ _ 0%nat Hm Hr) as (row & Er & Hrow). rewrite Er. cbn [bind].
    assert (E0 : i_of_double t s = Ok 0).
    { unfold i_of_double. rewrite (d_trunc_spec s 0 Fs), (proj2 (i_fits_spec t 0) F0); [reflexivity|].
      split; intros; lra. }
    rewrite E0. cbn [bind]. unfold iv_scale. rewrite (proj1 Hrow).
    rewrite (FOR_undef c 0 (fun i u => i = 0%nat -> u = row)); auto; [intros; lia|].
    intros w ->; auto. rewrite (is_vec_get _ _ _ _ Hrow Hc). reflexivity.
  Qed.

  Lemma matrix_vector_exact s n0 n m g v f : is_mat n n m g -> is_vec n v f -> mtyped s n n -> vtyped n0 v ->
    (forall i j, (i < n)%nat -> (j < n)%nat -> fits (promoted t) (g i j * f j)) ->
    (forall i, (i < n)%nat -> zsum n (fun j => Z.abs (g i j * f j)) <= 2 ^ 53 /\ fits t (zsum n (fun j => g i j * f j))) ->
    exists u, im_vec t dbg junk s n0 m v = Ok u /\ is_vec n u (fun i => zsum n (fun j => g i j * f j)).
  Proof using B.
    intros Hm Hv Hs Hn HP HF. unfold im_vec.
    rewrite (shape_cols _ _ _ _ Hm) by auto. rewrite (proj1 Hv), (assert_ok dbg _ (Nat.eqb_refl n)). cbn [bind].
    apply v_lambda_ok.
    - unfold promote, vtyped, mtyped in *. rewrite (proj1 Hv) in Hn.
      destruct Hs as [->|(-> & H1 & H2)]; cbn [fst]; [cbn [Nat.eqb]; lia|]. destruct (Nat.eqb_spec n 0); lia.
    - intros i Hi. destruct (is_mat_row _ _ _ _ i Hm Hi) as (row & Er & Hrow). rewrite Er. cbn [bind].
      destruct (HF i Hi) as [H1 H2]. rewrite (dot_exact t dbg n row (g i) v f); auto. cbn [bind].
      apply of_double_exact; auto.
      exact (Z.le_trans _ _ _ (zsum_abs n (fun j => g i j * f j)) H1).
  Qed.

  Lemma partial_fits n (a b : nat -> Z) : (forall l, (l < n)%nat -> fits t (a l) /\ fits t (b l)) ->
    fits t (zsum n (fun l => Z.abs (a l * b l))) ->
    (forall l, (l < n)%nat -> fits t (a l * b l)) /\ (forall k, (k <= n)%nat -> fits t (zsum k (fun l => a l * b l))).
  Proof using B.
    intros HF [S1 S2]. assert (N : forall l, (l < n)%nat -> 0 <= Z.abs (a l * b l)) by (intros; lia).
    assert (W : i_min t = 0 \/ i_min t <= - i_max t).
    { unfold i_min, i_max. destruct (i_signed t); cbn iota; [right; lia|left; reflexivity]. }
    destruct W as [W|W].
    - assert (P : forall l, (l < n)%nat -> 0 <= a l * b l).
      { intros l Hl. destruct (HF l Hl) as [[Ha _] [Hb _]]. rewrite W in Ha, Hb. apply Z.mul_nonneg_nonneg; auto. }
      split.
      + intros l Hl. pose proof (zsum_member n _ l Hl N). cbn beta in *. specialize (P l Hl). unfold fits. lia.
      + intros k Hk. pose proof (zsum_nonneg k (fun l => a l * b l) ltac:(intros; apply P; lia)).
        pose proof (zsum_abs k (fun l => a l * b l)). pose proof (zsum_mono n k _ Hk N). cbn beta in *. unfold fits. lia.
    - split.
      + intros l Hl. pose proof (zsum_member n _ l Hl N). cbn beta in *. unfold fits. lia.
      + intros k Hk. pose proof (zsum_abs k (fun l => a l * b l)). pose proof (zsum_mono n k _ Hk N). cbn beta in *. unfold fits. lia.
  Qed.

  Lemma loops_exact r k c copy a o b m : is_mat r k copy a -> is_mat k c o b -> is_mat r c m (fun _ _ => 0) ->
    (forall i j, (i < r)%nat -> (j < c)%nat -> forall l, (l < k)%nat -> fits t (a i l * b l j)) ->
    (forall i j, (i < r)%nat -> (j < c)%nat -> forall l, (l <= k)%nat -> fits t (zsum l (fun l => a i l * b l j))) ->
    exists u, im_mul_loops t copy o m = Ok u /\ is_mat r c u (fun i j => zsum k (fun l => a i l * b l j)).
  Proof using B.
    intros Hc Ho Hm HP HS. unfold im_mul_loops.
    rewrite (is_mat_rows _ _ _ _ Hm), (is_mat_rows _ _ _ _ Ho).
    apply (mat_loop r c m (fun _ _ => 0)); auto. intros i u Hi Hu.
    set (S := fun l j => zsum l (fun l => a i l * b l j)).
    set (G := fun (p q : nat) => if (p <? i)%nat then zsum k (fun l => a p l * b l q) else 0).
    change (is_mat r c u G) in Hu.
    set (step := fun l j m => do m <- (if (l =? 0)%nat then mset m i j 0 else Ok m);
                   do a <- mget copy i l; do b <- mget o l j; do z <- i_value (promoted t) (a * b);
                   do x <- mget m i j; do y <- i_store t (x + z); mset m i j y).
    destruct (FOR_inv (fun l w => is_mat r c w (fun p q => if (p =? i)%nat then S l q else G p q)) k
                (fun l m => FOR (m_cols m) (step l) m) u) as (w & E & Hw).
    - apply (is_mat_ext _ _ _ _ _ Hu). intros p q _ _. cbn beta.
      destruct (Nat.eqb_spec p i) as [->|]; auto. unfold G. rewrite Nat.ltb_irrefl. reflexivity.
    - intros l w Hl Hw. rewrite (is_mat_cols _ _ _ _ Hw) by lia.
      destruct (mat_row_loop r c w _ i (S (l + 1)%nat) (step l) Hw Hi) as (w' & E' & Hw').
      + intros j x Hj Hx. unfold step.
        assert (Hx' : exists x', (if (l =? 0)%nat then mset x i j 0 else Ok x) = Ok x' /\
          is_mat r c x' (fun p q => if ((p =? i) && (q <? j))%nat then S (l + 1)%nat q
                                    else if (p =? i)%nat then S l q else G p q)).
        { destruct (Nat.eqb_spec l 0) as [->|]; [|exists x; auto].
          destruct (is_mat_set _ _ _ _ i j 0 Hx Hi Hj) as (x' & Ex & Hx'). exists x'. split; auto.
          apply (is_mat_ext _ _ _ _ _ Hx'). intros p q _ _. cbn beta.
          destruct (Nat.eqb_spec p i) as [->|]; cbn [andb]; auto.
          destruct (Nat.eqb_spec q j) as [->|]; auto.
          destruct (Nat.ltb_spec j j); [lia|reflexivity]. }
        destruct Hx' as (x' & Ex & Hx'). rewrite Ex. cbn [bind].
        rewrite (is_mat_get _ _ _ _ i l Hc Hi Hl). cbn [bind].
        rewrite (is_mat_get _ _ _ _ l j Ho Hl Hj). cbn [bind].
        rewrite value_fits by (auto using fits_promoted). cbn [bind].
        rewrite (is_mat_get _ _ _ _ i j Hx' Hi Hj). cbn [bind].
        rewrite Nat.eqb_refl, Nat.ltb_irrefl. cbn [andb].
        assert (ES : S (l + 1)%nat j = S l j + a i l * b l j) by (unfold S, zsum; rewrite Nat.add_1_r; reflexivity).
        rewrite store_fits; [|exact B|rewrite <- ES; apply HS; auto; lia]. cbn [bind].
        destruct (is_mat_set _ _ _ _ i j (S l j + a i l * b l j) Hx' Hi Hj) as (y & Ey & Hy).
        exists y. split; auto. apply (is_mat_ext _ _ _ _ _ Hy). intros p q _ _. cbn beta.
        destruct (Nat.eqb_spec p i) as [->|]; cbn [andb]; auto.
        destruct (Nat.eqb_spec q j) as [->|].
        * rewrite Nat.leb_refl. symmetry. exact ES.
        * destruct (Nat.ltb_spec q j), (Nat.leb_spec q j); auto; lia.
      + exists w'. split; auto. apply (is_mat_ext _ _ _ _ _ Hw'). intros p q _ _. cbn beta.
        destruct (p =? i)%nat; reflexivity.
    - exists w. split; [exact E|exact Hw].
  Qed.

  Lemma matrix_product_exact s0 s1 r k c m a o b : is_mat r k m a -> (r = 0 -> k = 0)%nat -> is_mat k c o b ->
    (k = 0 -> c = 0)%nat -> mtyped s0 r k -> mtyped s1 k c -> (s0 = (0, 0) \/ s1 = (0, 0) \/ (r = k /\ k = c))%nat ->
    (forall i l, (i < r)%nat -> (l < k)%nat -> fits t (a i l) /\ Z.abs (a i l) <= 2 ^ 53) ->
    (forall l j, (l < k)%nat -> (j < c)%nat -> fits t (b l j)) ->
    (forall i j, (i < r)%nat -> (j < c)%nat -> fits t (zsum k (fun l => Z.abs (a i l * b l j)))) ->
    exists u, im_times t dbg s0 s1 m o = Ok u /\ is_mat r c u (fun i j => zsum k (fun l => a i l * b l j)).
  Proof using B.
    intros Hm Hr Ho Hk T0 T1 Hs HA HB HS. unfold im_times, im_lambda.
    rewrite (shape_cols _ _ _ _ Hm), (is_mat_rows _ _ _ _ Ho), (is_mat_rows _ _ _ _ Hm) by auto.
    rewrite (assert_ok dbg _ (Nat.eqb_refl k)). cbn [bind].
    assert (Hd : (m_demote s0 s1 = (0, 0) \/ (m_demote s0 s1 = (r, k) /\ r = k /\ k = c /\ 0 < c))%nat).
    { unfold m_demote, mtyped in *. destruct T0 as [->|(-> & _ & _)]; [left; reflexivity|].
      destruct T1 as [->|(-> & _ & ?)]; [left; cbn [fst]; rewrite orb_true_r; reflexivity|].
      cbn [fst snd]. destruct (Nat.eqb_spec r 0), (Nat.eqb_spec k 0); auto.
      right. cbn [orb]. assert (r = k /\ k = c)%nat as [<- <-] by (destruct Hs as [Hs|[Hs|Hs]]; [congruence|congruence|auto]).
      auto. }
    destruct (m_lambda_ok 0 dbg (m_demote s0 s1) r k (fun i j => do x <- mget m i j; i_of_double t (f_of_Z x)) a)
      as (w & Ew & Hw).
    - destruct Hd as [->|(-> & -> & -> & ?)]; [left; auto|right; auto].
    - intros i j Hi Hj. rewrite (is_mat_get _ _ _ _ i j Hm Hi Hj). cbn [bind]. apply of_double_exact; apply HA; auto.
    - rewrite Ew. cbn [bind].
      assert (HP : forall i j, (i < r)%nat -> (j < c)%nat -> (forall l, (l < k)%nat -> fits t (a i l * b l j)) /\
        forall l, (l <= k)%nat -> fits t (zsum l (fun l => a i l * b l j))).
      { intros i j Hi Hj. apply partial_fits; [|apply HS; auto]. intros l Hl. split; [apply HA|apply HB]; auto. }
      unfold im_mul_assign. rewrite (is_mat_rows _ _ _ _ Hw), (shape_cols _ _ _ _ Hw), (is_mat_rows _ _ _ _ Ho),
        (shape_cols _ _ _ _ Ho) by auto.
      destruct Hd as [->|(-> & -> & -> & Hc)]; cbn [fst Nat.eqb].
      + rewrite (assert_ok dbg _ (Nat.eqb_refl k)). cbn [bind].
        apply loops_exact; auto; try (intros i j Hi Hj; apply (HP i j Hi Hj)). apply m_resize_nil.
      + destruct (Nat.eqb_spec c 0); [lia|].
        rewrite (assert_ok dbg _ (same_size_spec _ _ _ _ _ _ Hw Ho)). cbn [bind].
        apply loops_exact; auto; try (intros i j Hi Hj; apply (HP i j Hi Hj)). apply repeat_mat.
  Qed.
End Matrices.

(** *** Mean and norms *)

Definition total (v : list Z) : Z := fold_right Z.add 0 v.

Lemma total_app u v : total (u ++ v) = total u + total v.
Proof. unfold total. induction u as [|x u IH]; cbn [app fold_right]; lia. Qed.

Lemma total_abs v : Z.abs (total v) <= total (map Z.abs v) /\ 0 <= total (map Z.abs v).
Proof. unfold total. induction v as [|x v IH]; cbn [map fold_right]; lia. Qed.

Lemma sum_exact v : total (map Z.abs v) <= 2 ^ 53 ->
  accumulate fops (sc_add fops) (map f_of_Z v) = f_of_Z (total v).
Proof.
  unfold accumulate.
  induction v as [|x v IH] using rev_ind; intro H; [reflexivity|].
  rewrite map_app, total_app in H. change (total (map Z.abs [x])) with (Z.abs x + 0) in H. rewrite Z.add_0_r in H.
  pose proof (total_abs v). rewrite map_app, fold_left_app, IH by lia. cbn [map fold_left].
  rewrite total_app. change (total [x]) with (x + 0). rewrite Z.add_0_r. apply add_exact; lia.
Qed.

Lemma mean_exact dbg n v : vtyped n v -> v <> [] -> total (map Z.abs v) <= 2 ^ 53 ->
  i_mean dbg n v = Ok (SFdiv 53 1024 (f_of_Z (total v)) (f_of_Z (Z.of_nat (length v)))).
Proof.
  intros T Hv HS. unfold i_mean, mean. rewrite map_length, sum_exact by exact HS.
  assert (L : (length v =? 0)%nat = false) by (destruct v; [destruct Hv; reflexivity|reflexivity]).
  rewrite L. cbn [negb]. rewrite orb_true_r, (assert_ok dbg true eq_refl). cbn [bind]. reflexivity.
Qed.

Lemma mean_none dbg n : i_mean dbg 0 [] = (if dbg then Abort else Ok S754_nan) /\ ((0 < n)%nat -> i_mean dbg n [] = Ok S754_nan).
Proof. split; [destruct dbg; reflexivity|]. intro Hn. destruct n; [lia|]. destruct dbg; reflexivity. Qed.

Lemma abs_exact z : Z.abs z <= 2 ^ 53 -> SFabs (f_of_Z z) = f_of_Z (Z.abs z).
Proof.
  intro H. destruct (of_Z_exact z H) as (x & -> & Fx & Rx & Sx).
  destruct (of_Z_exact (Z.abs z)) as (y & -> & Fy & Ry & Sy); [lia|].
  assert (E : B2SF (Babs x) = SFabs (B2SF x)) by (destruct x; reflexivity). rewrite <- E. f_equal.
  apply B2R_Bsign_inj; auto.
  - rewrite is_finite_Babs. exact Fx.
  - rewrite B2R_Babs, Rx, Ry, abs_IZR. reflexivity.
  - rewrite Sy. destruct (Z.ltb_spec (Z.abs z) 0); [lia|]. destruct x; cbn in *; congruence.
Qed.

Lemma norm_one_exact power root t v : total (map Z.abs v) <= 2 ^ 53 ->
  i_norm t power root 1 v = Ok (f_of_Z (total (map Z.abs v))).
Proof.
  intro H. unfold i_norm. assert (E : lp_norm fops power root 1 (map f_of_Z v) = Ok (f_of_Z (total (map Z.abs v)))).
  { unfold lp_norm, accumulate. f_equal.
    induction v as [|x v IH] using rev_ind; [reflexivity|].
    rewrite map_app, total_app in H. change (total (map Z.abs [x])) with (Z.abs x + 0) in H. rewrite Z.add_0_r in H.
    pose proof (total_abs v). rewrite map_app, fold_left_app, IH by lia. cbn [map fold_left].
    rewrite map_app, total_app. change (total (map Z.abs [x])) with (Z.abs x + 0). rewrite Z.add_0_r. cbn [sc_add sc_abs fops].
    rewrite abs_exact by lia. apply add_exact; lia. }
  destruct v; exact E.
Qed.

(** The first of the elements of largest magnitude. *)
Lemma max_exact x v : (forall y, In y (x :: v) -> Z.abs y <= 2 ^ 53) ->
  In (i_max_element x v) (x :: v) /\ forall y, In y (x :: v) -> Z.abs y <= Z.abs (i_max_element x v).
Proof.
  unfold i_max_element. revert x. induction v as [|y v IH]; intros x H.
  - cbn. split; [auto|]. intros z [->|[]]. lia.
  - cbn [fold_left]. change (sc_lt fops (sc_abs fops (f_of_Z x)) (sc_abs fops (f_of_Z y)))
      with (SFltb (SFabs (f_of_Z x)) (SFabs (f_of_Z y))).
    assert (Hx : Z.abs x <= 2 ^ 53) by (apply H; left; auto). assert (Hy : Z.abs y <= 2 ^ 53) by (apply H; right; left; auto).
    rewrite (abs_exact x Hx), (abs_exact y Hy).
    destruct (of_Z_round (Z.abs x)) as (Vx & Fx & _); [lia|]. destruct (of_Z_round (Z.abs y)) as (Vy & Fy & _); [lia|].
    pose proof (f_lt _ _ Vx Vy Fx Fy) as L. rewrite !of_Z_real in L by lia.
    destruct (SFltb (f_of_Z (Z.abs x)) (f_of_Z (Z.abs y))) eqn:E.
    + assert (LL : Z.abs x < Z.abs y) by (apply lt_IZR, L; reflexivity).
      destruct (IH y) as [I1 I2]; [intros z Hz; apply H; right; exact Hz|]. split; [right; exact I1|].
      intros z [<-|Hz]; [|apply I2; exact Hz]. apply Z.le_trans with (Z.abs y); [lia|exact (I2 y (or_introl eq_refl))].
    + assert (LL : ~ Z.abs x < Z.abs y) by (intro C; apply IZR_lt in C; apply L in C; discriminate).
      destruct (IH x) as [I1 I2]; [intros z [<-|Hz]; apply H; [left; reflexivity|right; right; exact Hz]|]. split.
      * destruct I1 as [I1|I1]; [left; exact I1|right; right; exact I1].
      * intros z [<-|[<-|Hz]].
        -- apply I2. left. reflexivity.
        -- apply Z.le_trans with (Z.abs x); [lia|exact (I2 x (or_introl eq_refl))].
        -- apply I2. right. exact Hz.
Qed.

Lemma norm_max_empty power root t : i_norm t power root 0 [] = Undef.
Proof. reflexivity. Qed.

Lemma norm_max_exact power root t v : builtin t -> v <> [] -> (forall y, In y v -> Z.abs y <= 2 ^ 53) ->
  exists x, In x v /\ (forall y, In y v -> Z.abs y <= Z.abs x) /\
    (fits (promoted t) (Z.abs x) -> i_norm t power root 0 v = Ok (f_of_Z (Z.abs x))) /\
    (~ fits (promoted t) (Z.abs x) -> i_norm t power root 0 v = Undef).
Proof.
  intros B Hv H. destruct v as [|x v]; [destruct Hv; reflexivity|]. exists (i_max_element x v).
  destruct (max_exact x v H) as [I1 I2]. split; [exact I1|]. split; [exact I2|]. unfold i_norm, i_abs. split; intro F.
  - rewrite (proj2 (i_fits_spec _ _) F). reflexivity.
  - destruct (i_fits (promoted t) (Z.abs (i_max_element x v))) eqn:E; [destruct F; apply i_fits_spec, E|reflexivity].
Qed.

(** *** Unit vectors *)

Lemma rnd_ge_int z x : Z.abs z <= 2 ^ 53 -> (IZR z <= x)%R -> (IZR z <= rnd x)%R.
Proof.
  intros Hz H. apply round_ge_generic; auto; [apply FLT_exp_valid; reflexivity|apply valid_rnd_N|apply int_format, Hz].
Qed.

Lemma rnd_int z : Z.abs z <= 2 ^ 53 -> rnd (IZR z) = IZR z.
Proof. intro Hz. apply round_generic; [apply valid_rnd_N|apply int_format, Hz]. Qed.

(** The square of an element: 0, 1 or at least 2. *)
Lemma square_float x : Z.abs x <= 2 ^ 64 -> let q := SFmul 53 1024 (f_of_Z x) (f_of_Z x) in
  f_valid q /\ f_finite q = true /\
  (x * x <= 1 /\ f_real q = IZR (x * x) \/ 2 <= x * x /\ (2 <= f_real q)%R).
Proof.
  intros Hx q. destruct (of_Z_round x Hx) as (V & F & R).
  assert (Bx : (Rabs (f_real (f_of_Z x)) <= bpow radix2 64)%R).
  { rewrite R. apply abs_round_le_generic; [apply FLT_exp_valid; reflexivity|apply valid_rnd_N|
      apply generic_format_bpow; vm_compute; discriminate|].
    rewrite <- abs_IZR, <- (IZR_Zpower radix2) by discriminate. apply IZR_le. exact Hx. }
  assert (Fq : f_finite q = true).
  { apply f_mul_finite; auto. rewrite Rabs_mult. apply Rle_trans with (bpow radix2 64 * bpow radix2 64)%R.
    - apply Rmult_le_compat; auto using Rabs_pos.
    - rewrite <- bpow_plus. change (64 + 64) with 128. rewrite limit_bpow. apply bpow_le. lia. }
  split; [apply f_mul_valid; auto|]. split; [exact Fq|].
  assert (Rq : f_real q = rnd (f_real (f_of_Z x) * f_real (f_of_Z x))) by (apply f_mul_round; auto).
  destruct (Z_le_gt_dec (Z.abs x) 1) as [L|L].
  - left. split; [nia|]. rewrite Rq, of_Z_real, <- mult_IZR by lia. apply rnd_int. nia.
  - right. split; [nia|]. rewrite Rq. apply (rnd_ge_int 2); [lia|].
    destruct (Z_le_gt_dec 0 x) as [P|P].
    + assert (2 <= f_real (f_of_Z x))%R by (rewrite R; apply (rnd_ge_int 2); [lia|apply IZR_le; lia]). nra.
    + assert (f_real (f_of_Z x) <= -2)%R; [|nra].
      rewrite R. apply round_le_generic; [apply FLT_exp_valid; reflexivity|apply valid_rnd_N|apply (int_format (-2)); lia|].
      apply IZR_le. lia.
Qed.

(** Adding two numbers that are not negative gives the rounded sum or positive infinity. *)
Lemma add_up x y : f_valid x -> f_valid y -> f_finite x = true -> f_finite y = true -> (0 <= f_real x)%R -> (0 <= f_real y)%R ->
  SFadd 53 1024 x y = S754_infinity false \/
  f_finite (SFadd 53 1024 x y) = true /\ f_real (SFadd 53 1024 x y) = rnd (f_real x + f_real y).
Proof.
  intros Hx Hy. destruct (valid_SF2B x Hx) as (a & <- & <- & <-), (valid_SF2B y Hy) as (b & <- & <- & <-). intros Fa Fb Pa Pb.
  rewrite add_equiv. pose proof (Bplus_correct 53 1024 Hprec Hmax mode_NE a b Fa Fb) as C.
  destruct (Rlt_bool _ _) eqn:L in C.
  - right. rewrite B2SF_finite, B2SF_real. destruct C as (C1 & C2 & _). split; [exact C2|]. rewrite C1. reflexivity.
  - left. destruct C as [C Cs]. rewrite C.
    assert (Na : forall c : B64, is_finite c = true -> (0 <= B2R c)%R -> Bsign c = true -> B2R c = 0%R).
    { intros [s|s| |s m e H] Fc Pc Sc; try reflexivity; try discriminate. cbn [Bsign] in Sc. subst s. exfalso.
      cbn [B2R cond_Zopp] in Pc. pose proof (F2R_lt_0 radix2 (Float radix2 (- Z.pos m) e) eq_refl). cbn [Z.opp] in *. lra. }
    destruct (Bsign a) eqn:Sa; [|reflexivity]. exfalso. rewrite (Na a Fa Pa Sa), (Na b Fb Pb (eq_sym Cs)), Rplus_0_r, round_0 in L
      by apply valid_rnd_N.
    rewrite Rabs_R0, Rlt_bool_true in L; [discriminate|apply bpow_gt_0].
Qed.

Lemma squares_app u v : squares (u ++ v) = squares u + squares v.
Proof. induction u as [|x u IH]; cbn [app squares]; lia. Qed.

Lemma squares_nonneg v : 0 <= squares v.
Proof. induction v as [|x v IH]; cbn [squares]; nia. Qed.

Definition sumsq (v : list Z) : f64 := accumulate fops (fun a b => sc_add fops a (sc_mul fops b b)) (map f_of_Z v).

Lemma sumsq_app v x : sumsq (v ++ [x]) = SFadd 53 1024 (sumsq v) (SFmul 53 1024 (f_of_Z x) (f_of_Z x)).
Proof. unfold sumsq, accumulate. rewrite map_app, fold_left_app. reflexivity. Qed.

Lemma sumsq_float v : (forall x, In x v -> Z.abs x <= 2 ^ 64) ->
  sumsq v = S754_infinity false /\ 2 <= squares v \/
  f_valid (sumsq v) /\ f_finite (sumsq v) = true /\
  (squares v <= 1 /\ f_real (sumsq v) = IZR (squares v) \/ 2 <= squares v /\ (2 <= f_real (sumsq v))%R).
Proof.
  induction v as [|x v IH] using rev_ind; intro H.
  - right. split; [reflexivity|]. split; [reflexivity|]. left. split; [cbn [squares]; lia|]. reflexivity.
  - rewrite sumsq_app, squares_app. change (squares [x]) with (x * x + 0). rewrite Z.add_0_r.
    assert (Hx : Z.abs x <= 2 ^ 64) by (apply H, in_or_app; right; left; reflexivity).
    specialize (IH ltac:(intros; apply H, in_or_app; left; auto)).
    destruct (square_float x Hx) as (Vq & Fq & Cq). pose proof (squares_nonneg v) as Nv.
    set (q := SFmul 53 1024 (f_of_Z x) (f_of_Z x)) in *. assert (Nx : 0 <= x * x) by nia.
    destruct IH as [[E L]|(V & F & C)].
    + left. split; [|lia]. rewrite E. destruct q as [s|s| |s m e]; try discriminate; reflexivity.
    + assert (Ps : (0 <= f_real (sumsq v))%R) by (destruct C as [[_ ->]|[_ C]]; [apply IZR_le; exact Nv|lra]).
      assert (Pq : (0 <= f_real q)%R) by (destruct Cq as [[_ ->]|[_ Cq]]; [apply IZR_le; exact Nx|lra]).
      destruct (Z_le_gt_dec (squares v + x * x) 1) as [L|L].
      * destruct C as [[Lv Rv]|[Lv _]]; [|lia]. destruct Cq as [[Lx Rx]|[Lx _]]; [|lia].
        right. assert (Fa : f_finite (SFadd 53 1024 (sumsq v) q) = true).
        { apply f_add_finite; auto. rewrite Rv, Rx, <- plus_IZR, <- abs_IZR, limit_bpow.
          apply Rle_trans with (bpow radix2 0); [|apply bpow_le; lia]. change (bpow radix2 0) with 1%R. apply IZR_le. lia. }
        split; [apply f_add_valid; auto|]. split; [exact Fa|]. left. split; [lia|].
        rewrite (proj2 (proj2 (f_add_round _ _ V Vq Fa))), Rv, Rx, <- plus_IZR. apply rnd_int. lia.
      * destruct (add_up _ _ V Vq F Fq Ps Pq) as [E|[Fa Ra]]; [left; split; [exact E|lia]|].
        right. split; [apply f_add_valid; auto|]. split; [exact Fa|]. right. split; [lia|].
        rewrite Ra. apply (rnd_ge_int 2); [lia|].
        destruct C as [[Lv Rv]|[Lv Rv]], Cq as [[Lx Rx]|[Lx Rx]]; try lra.
        rewrite Rv, Rx, <- plus_IZR. apply IZR_le. lia.
Qed.

Lemma one_inj s : f_valid s -> f_finite s = true -> f_real s = 1%R -> s = f_of_Z 1.
Proof.
  intros V. destruct (valid_SF2B s V) as (a & <- & <- & <-). intros F R.
  destruct (of_Z_exact 1) as (b & -> & Fb & Rb & _); [lia|]. f_equal. apply B2R_inj; try lra.
  - destruct a; try discriminate; cbn [B2R] in R; try lra. reflexivity.
  - destruct b; try discriminate; cbn [B2R] in Rb; try lra. reflexivity.
Qed.

Lemma zero_inj s : f_valid s -> f_finite s = true -> f_real s = 0%R -> exists b, s = S754_zero b.
Proof.
  intros V. destruct (valid_SF2B s V) as (a & <- & <- & <-). intros F R. destruct a as [b|b| |b m e H]; try discriminate.
  - exists b. reflexivity.
  - exfalso. cbn [B2R] in R. apply eq_0_F2R in R. destruct b; discriminate.
Qed.

(** The factor of unit as an integer. *)
Lemma unit_factor v : (forall x, In x v -> Z.abs x <= 2 ^ 64) -> let l := SFsqrt 53 1024 (sumsq v) in
  d_trunc (if sc_inf_recip fops l then sc_zero fops else sc_div fops (sc_one fops) l) = Some (if squares v =? 1 then 1 else 0).
Proof.
  intros H l. cbn [sc_inf_recip sc_zero sc_div sc_one fops]. pose proof (squares_nonneg v) as Nv.
  destruct (sumsq_float v H) as [[E L]|(V & F & [[L R]|[L R]])].
  - subst l. rewrite E. destruct (Z.eqb_spec (squares v) 1); [lia|]. reflexivity.
  - assert (squares v = 0 \/ squares v = 1) as [E|E] by lia; rewrite E in *.
    + destruct (zero_inj _ V F R) as [b Eb]. subst l. rewrite Eb. destruct b; reflexivity.
    + pose proof (one_inj _ V F R) as Eb. subst l. rewrite Eb. vm_compute. reflexivity.
  - destruct (Z.eqb_spec (squares v) 1); [lia|].
    assert (Vl : f_valid l) by (apply f_sqrt_valid; exact V).
    assert (Fl : f_finite l = true) by (apply f_sqrt_finite; auto; lra).
    assert (G54 : generic_format radix2 (FLT_exp (-1074) 53) (5 / 4)%R).
    { apply generic_format_FLT. exists (Float radix2 5 (-2)); cbn [Fnum Fexp]; [unfold F2R; cbn; lra|cbn; lia|lia]. }
    assert (G78 : generic_format radix2 (FLT_exp (-1074) 53) (7 / 8)%R).
    { apply generic_format_FLT. exists (Float radix2 7 (-3)); cbn [Fnum Fexp]; [unfold F2R; cbn; lra|cbn; lia|lia]. }
    assert (Rl : (5 / 4 <= f_real l)%R).
    { subst l. rewrite (proj2 (proj2 (f_sqrt_round _ V Fl))).
      apply round_ge_generic; [apply FLT_exp_valid; reflexivity|apply valid_rnd_N|exact G54|].
      rewrite <- (sqrt_Rsqr (5 / 4)%R) by lra. apply sqrt_le_1_alt. unfold Rsqr. lra. }
    assert (O1 : f_real (f_of_Z 1) = 1%R) by (apply (of_Z_real 1); lia).
    assert (V1 : f_valid (f_of_Z 1)) by (vm_compute; reflexivity).
    assert (Fd : f_finite (SFdiv 53 1024 (f_of_Z 1) l) = true).
    { apply f_div_finite; auto; [lra|]. rewrite O1. unfold Rdiv. rewrite Rmult_1_l, Rabs_pos_eq by (left; apply Rinv_0_lt_compat; lra).
      apply Rle_trans with 1%R; [rewrite <- Rinv_1; apply Rinv_le_contravar; lra|].
      rewrite limit_bpow. change 1%R with (bpow radix2 0). apply bpow_le. lia. }
    assert (Rd : f_real (SFdiv 53 1024 (f_of_Z 1) l) = rnd (1 / f_real l)) by (rewrite (proj2 (proj2 (f_div_round _ _ V1 Vl Fl Fd))), O1; reflexivity).
    assert (Ei : f_inf (SFdiv 53 1024 (f_of_Z 1) l) = false) by (destruct (SFdiv 53 1024 (f_of_Z 1) l); try discriminate; reflexivity).
    rewrite Ei. apply d_trunc_spec; [exact Fd|]. rewrite Rd.
    assert (I : (0 <= 1 / f_real l <= 7 / 8)%R).
    { unfold Rdiv at 1 2. rewrite Rmult_1_l. split; [left; apply Rinv_0_lt_compat; lra|].
      apply Rle_trans with (/ (5 / 4))%R; [apply Rinv_le_contravar; lra|lra]. }
    assert (0 <= rnd (1 / f_real l))%R by (apply (rnd_ge_int 0); [lia|apply I]).
    assert (rnd (1 / f_real l) <= 7 / 8)%R.
    { apply round_le_generic; [apply FLT_exp_valid; reflexivity|apply valid_rnd_N|exact G78|apply I]. }
    split; intros; lra.
Qed.

Lemma fits_abs t x : builtin t -> fits t x -> Z.abs x <= 2 ^ 64.
Proof.
  intros B [H1 H2]. unfold i_min, i_max in *. destruct B as [E|[E|[E|E]]]; rewrite E in *; destruct (i_signed t); cbn in *; lia.
Qed.

Lemma fits_zero t : builtin t -> fits t 0 /\ fits t 1.
Proof.
  intros B. unfold fits, i_min, i_max. destruct B as [E|[E|[E|E]]]; rewrite E in *; destruct (i_signed t); cbn; lia.
Qed.

(** An integral vector of length one is its own unit vector; the unit vector of every other one is zero. *)
Lemma unit_integers t v : builtin t -> (forall x, In x v -> fits t x) ->
  i_unit t v = Ok (if squares v =? 1 then v else repeat 0 (length v)).
Proof.
  intros B H. unfold i_unit.
  assert (E : i_norm t (fun x _ => x) (fun _ x => x) 2 v = Ok (SFsqrt 53 1024 (sumsq v))) by (destruct v; reflexivity).
  rewrite E. cbn [bind]. unfold i_of_double. rewrite unit_factor by (intros x Hx; apply (fits_abs t); auto).
  destruct (fits_zero t B) as [F0 F1].
  assert (S : forall c, (forall x, In x v -> fits t (x * c)) ->
    iv_scale t i_mul v c = Ok (map (fun x => x * c) v)).
  { intros c Hc. pose proof (is_vec_self v 0) as Hv.
    destruct (proj1 (scale_outcome t B i_mul Z.mul _ _ _ c (fun x => eq_refl) Hv)) as (u & Eu & Hu).
    - intros i Hi. apply fits_computable; auto. apply Hc. apply nth_In, Hi.
    - rewrite Eu. f_equal. apply (is_vec_eq (length v) u (map (fun x => x * c) v) _ (fun i => nth i v 0 * c) Hu).
      + split; [apply map_length|]. intros i Hi. rewrite nth_error_map, (nth_error_nth' v 0 Hi). reflexivity.
      + intros i Hi. cbn beta. rewrite conv_fits; auto; [apply builtin_pos, B|]. apply Hc, nth_In, Hi. }
  destruct (squares v =? 1).
  - rewrite (proj2 (i_fits_spec t 1) F1). cbn [bind]. rewrite S by (intros x Hx; rewrite Z.mul_1_r; auto).
    f_equal. rewrite <- (map_id v) at 2. apply map_ext. intro x. apply Z.mul_1_r.
  - rewrite (proj2 (i_fits_spec t 0) F0). cbn [bind]. rewrite S by (intros x Hx; rewrite Z.mul_0_r; auto).
    f_equal. clear. induction v as [|x v IH]; cbn [map repeat length]; [reflexivity|]. rewrite IH, Z.mul_0_r. reflexivity.
Qed.

(** The angle of a vector not of length one with any vector is the one of cosine zero. *)
Lemma angle_integers t dbg arccos pi radians v w : builtin t -> (forall x, In x v -> fits t x) ->
  (forall x, In x w -> fits t x) -> length v = length w -> (length v = 2 \/ length v = 3)%nat -> squares v <> 1 ->
  i_angle t dbg arccos pi radians v w =
    i_of_double t (SFdiv 53 1024 (arccos (f_of_Z 0)) (if radians then f_of_Z 1 else SFdiv 53 1024 pi (f_of_Z 180))).
Proof.
  intros B Hv Hw L N S. unfold i_angle. rewrite L, (assert_ok dbg _ (Nat.eqb_refl _)). cbn [bind]. rewrite <- L.
  rewrite (assert_ok dbg) by (destruct N as [-> | ->]; reflexivity). cbn [bind].
  rewrite unit_integers by auto. destruct (Z.eqb_spec (squares v) 1); [contradiction|]. cbn [bind].
  rewrite unit_integers by auto. cbn [bind].
  assert (D : exists u, (if squares w =? 1 then w else repeat 0 (length w)) = u /\ length u = length v).
  { eexists. split; [reflexivity|]. destruct (squares w =? 1); [|rewrite repeat_length]; auto. }
  destruct D as (u & -> & Lu).
  rewrite (dot_exact t dbg (length v) (repeat 0 (length v)) (fun _ => 0) u (fun i => nth i u 0)); auto.
  - cbn [bind]. assert (Z0 : zsum (length v) (fun i => 0 * nth i u 0) = 0).
    { generalize (length v). unfold zsum. induction n0; cbn [asum]; lia. }
    rewrite Z0. reflexivity.
  - split; [apply repeat_length|]. intros i Hi. apply nth_error_repeat, Hi.
  - rewrite <- Lu. apply is_vec_self.
  - intros i Hi. rewrite Z.mul_0_l. apply fits_promoted; auto. apply fits_zero, B.
  - assert (Z0 : zsum (length v) (fun i => Z.abs (0 * nth i u 0)) = 0).
    { generalize (length v). unfold zsum. induction n0; cbn [asum]; lia. }
    rewrite Z0. lia.
Qed.

(** *** The statements *)

Definition additive (op : Z -> Z -> res Z) (e : Z -> Z -> Z) : Prop := op = i_add /\ e = Z.add \/ op = i_sub /\ e = Z.sub.

Lemma additive_exact op e : additive op e -> exactly op e.
Proof. intros [[-> ->]|[-> ->]] x y; reflexivity. Qed.

Lemma sums_outcome t dbg junk op e n0 n1 n v f w g : builtin t -> additive op e -> is_vec n v f -> is_vec n w g ->
  vtyped n0 v -> vtyped n1 w ->
  ((forall i, (i < n)%nat -> computable t (e (f i) (g i))) -> exists u h,
     iv_op t dbg junk op n0 n1 v w = Ok u /\ iv_op_assign t dbg op v w = Ok u /\ is_vec n u h /\
     forall i, (i < n)%nat -> wraps t (e (f i) (g i)) (h i)) /\
  ((exists i, (i < n)%nat /\ ~ computable t (e (f i) (g i))) ->
     iv_op t dbg junk op n0 n1 v w = Undef /\ iv_op_assign t dbg op v w = Undef).
Proof.
  intros B A Hv Hw T0 T1. pose proof (additive_exact op e A) as He.
  destruct (op_outcome t B dbg junk op e n0 n1 n v f w g He Hv Hw T0 T1) as [P1 P2].
  destruct (op_assign_outcome t B dbg op e n v f w g He Hv Hw) as [Q1 Q2]. split.
  - intro C. destruct (P1 C) as (u & Eu & Hu), (Q1 C) as (u' & Eu' & Hu').
    assert (u' = u) as -> by (apply (is_vec_eq n u' u _ _ Hu' Hu); auto).
    exists u, (fun i => conv t (e (f i) (g i))). repeat (split; auto); apply (conv_wraps t (e (f i) (g i)) B).
  - intro C. auto.
Qed.

Lemma scales_outcome t n v f s : builtin t -> is_vec n v f ->
  ((forall i, (i < n)%nat -> computable t (f i * s)) -> exists u h, iv_scale t i_mul v s = Ok u /\ is_vec n u h /\
     forall i, (i < n)%nat -> wraps t (f i * s) (h i)) /\
  ((exists i, (i < n)%nat /\ ~ computable t (f i * s)) -> iv_scale t i_mul v s = Undef) /\
  (s <> 0 -> (forall i, (i < n)%nat -> computable t (Z.quot (f i) s)) -> exists u h, iv_scale t i_quot v s = Ok u /\
     is_vec n u h /\ forall i, (i < n)%nat -> wraps t (Z.quot (f i) s) (h i)) /\
  (s <> 0 -> (exists i, (i < n)%nat /\ ~ computable t (Z.quot (f i) s)) -> iv_scale t i_quot v s = Undef) /\
  (s = 0 -> (0 < n)%nat -> iv_scale t i_quot v s = Undef).
Proof.
  intros B Hv. destruct (scale_outcome t B i_mul Z.mul n v f s (fun _ => eq_refl) Hv) as [P1 P2].
  split; [|split; [exact P2|split; [|split]]].
  - intro C. destruct (P1 C) as (u & Eu & Hu). exists u, (fun i => conv t (f i * s)). repeat (split; auto); apply (conv_wraps t (f i * s) B).
  - intros Hs C. assert (He : forall x, i_quot x s = Ok (Z.quot x s)) by (intro x; unfold i_quot; destruct (Z.eqb_spec s 0); [contradiction|reflexivity]).
    destruct (proj1 (scale_outcome t B i_quot Z.quot n v f s He Hv) C) as (u & Eu & Hu).
    exists u, (fun i => conv t (Z.quot (f i) s)). repeat (split; auto); apply (conv_wraps t (Z.quot (f i) s) B).
  - intros Hs C. assert (He : forall x, i_quot x s = Ok (Z.quot x s)) by (intro x; unfold i_quot; destruct (Z.eqb_spec s 0); [contradiction|reflexivity]).
    exact (proj2 (scale_outcome t B i_quot Z.quot n v f s He Hv) C).
  - intros -> Hn. unfold iv_scale. rewrite (proj1 Hv).
    apply (FOR_undef n 0 (fun i u => i = 0%nat -> u = v)); auto; [intros; lia|].
    intros u ->; auto. rewrite (is_vec_get _ _ _ _ Hv Hn). reflexivity.
Qed.

Lemma multiplying t r c m g s k : builtin t -> is_mat r c m g -> f_finite s = true -> truncated (f_real s) k -> fits t k ->
  ((forall i j, (i < r)%nat -> (j < c)%nat -> fits t (g i j * k)) ->
     exists u, im_scale t i_mul m s = Ok u /\ is_mat r c u (fun i j => g i j * k)) /\
  (k <> 0 -> (forall i j, (i < r)%nat -> (j < c)%nat -> fits t (Z.quot (g i j) k)) ->
     exists u, im_scale t i_quot m s = Ok u /\ is_mat r c u (fun i j => Z.quot (g i j) k)).
Proof.
  intros B Hm Fs Ts Fk. split.
  - intro H. apply (matrix_scale_exact t B i_mul Z.mul); auto.
  - intros Hk H. apply (matrix_scale_exact t B i_quot Z.quot); auto.
    intro x. unfold i_quot. destruct (Z.eqb_spec k 0); [contradiction|reflexivity].
Qed.

Definition long_t := mkI true 64.
Definition half : f64 := S754_finite false 4503599627370496 (-53).

Lemma half_real : f_real half = (1 / 2)%R.
Proof.
  assert (E : half = SFdiv 53 1024 (f_of_Z 1) (f_of_Z 2)) by (vm_compute; reflexivity).
  assert (V1 : f_valid (f_of_Z 1)) by (vm_compute; reflexivity). assert (V2 : f_valid (f_of_Z 2)) by (vm_compute; reflexivity).
  rewrite E. rewrite (proj2 (proj2 (f_div_round _ _ V1 V2 eq_refl ltac:(vm_compute; reflexivity)))).
  rewrite (of_Z_real 1), (of_Z_real 2) by lia. apply round_generic; [apply valid_rnd_N|].
  apply generic_format_FLT. exists (Float radix2 1 (-1)); cbn [Fnum Fexp]; [unfold F2R; cbn; lra|cbn; lia|lia].
Qed.

Lemma ex_long dbg :
  im_op long_t dbg i_add (0, 0)%nat (0, 0)%nat [[2 ^ 53 + 1]] [[0]] = Ok [[2 ^ 53]] /\
  im_op long_t dbg i_add (0, 0)%nat (0, 0)%nat [[2 ^ 63 - 1]] [[0]] = Undef /\
  im_op_assign long_t dbg i_add [[2 ^ 53 + 1]] [[0]] = Ok [[2 ^ 53 + 1]] /\
  im_vec long_t dbg (fun _ => 0) (0, 0)%nat 0 [[2 ^ 53 + 1]] [1] = Ok [2 ^ 53] /\
  im_times long_t dbg (0, 0)%nat (0, 0)%nat [[2 ^ 53 + 1]] [[1]] = Ok [[2 ^ 53]].
Proof. destruct dbg; repeat split; vm_compute; reflexivity. Qed.

Lemma ex_scale : im_scale int_t i_mul [[4; 6]] half = Ok [[0; 0]] /\ im_scale int_t i_quot [[4; 6]] half = Undef /\
  im_scale int_t i_mul [[4; 6]] (SFadd 53 1024 (f_of_Z 2) half) = Ok [[8; 12]].
Proof. repeat split; vm_compute; reflexivity. Qed.

Lemma ex_unit dbg arccos pi : i_unit int_t [3; 4] = Ok [0; 0] /\ i_unit int_t [0; -1] = Ok [0; -1] /\
  i_angle int_t dbg arccos pi true [3; 4] [3; 4] = i_of_double int_t (sc_div fops (arccos (f_of_Z 0)) (f_of_Z 1)).
Proof.
  split; [vm_compute; reflexivity|]. split; [vm_compute; reflexivity|].
  apply angle_integers; auto.
  - right. right. left. reflexivity.
  - intros x [<-|[<-|[]]]; split; vm_compute; discriminate.
  - intros x [<-|[<-|[]]]; split; vm_compute; discriminate.
  - discriminate.
Qed.

Lemma ex_max : i_norm int_t (fun x _ => x) (fun _ x => x) 0 [- 2 ^ 31; 5] = Undef /\
  i_norm int_t (fun x _ => x) (fun _ x => x) 0 [-7; 5] = Ok (f_of_Z 7) /\
  ~ computable int_t (2 ^ 31 - 1 + 1) /\ iv_op int_t true (fun _ => 0) i_add 0 0 [2 ^ 31 - 1] [1] = Undef /\
  iv_op size_t true (fun _ => 0) i_sub 0 0 [3] [5] = Ok [2 ^ 64 - 2].
Proof.
  repeat split; try (vm_compute; reflexivity). intro C. specialize (C eq_refl). destruct C as [_ C]. vm_compute in C. auto.
Qed.

Lemma ex_matrix : let m := [[1; -2]; [3; 4]] in let g := fun i j => nth j (nth i m []) 0 in
  is_mat 2 2 m g /\ mtyped (2, 2)%nat 2 2 /\ builtin int_t /\
  (forall i j, (i < 2)%nat -> (j < 2)%nat -> fits int_t (zsum 2 (fun l => Z.abs (g i l * g l j)))) /\
  im_times int_t true (2, 2)%nat (0, 0)%nat m m = Ok [[-5; -10]; [15; 10]] /\
  im_vec int_t true (fun _ => 0) (0, 0)%nat 0 m [5; 6] = Ok [-7; 39] /\
  im_op int_t true i_sub (0, 0)%nat (0, 0)%nat m m = Ok [[0; 0]; [0; 0]] /\
  i_dot int_t true [1; -2] [5; 6] = Ok (f_of_Z (-7)) /\ i_mean true 0 [1; -2; 4] = Ok (f_of_Z 1).
Proof.
  intros m g. split; [|split; [|split; [|split]]].
  - split; [reflexivity|]. intros [|[|i]] Hi; try lia; eexists; (split; [reflexivity|]); split; try reflexivity;
      intros [|[|j]] Hj; try lia; reflexivity.
  - right. split; [reflexivity|]. lia.
  - right. right. left. reflexivity.
  - intros [|[|i]] [|[|j]] Hi Hj; try lia; split; vm_compute; discriminate.
  - repeat split; vm_compute; reflexivity.
Qed.

Lemma refused_sizes : forall t junk op,
  (forall v w, length v <> length w -> iv_op_assign t true op v w = Abort /\ forall n0 n1, iv_op t true junk op n0 n1 v w = Abort) /\
  (forall m o, m_rows m <> m_rows o \/ m_cols m <> m_cols o ->
     im_op_assign t true op m o = Abort /\ forall s0 s1, im_op t true op s0 s1 m o = Abort) /\
  (forall s n m v, m_cols m <> length v -> im_vec t true junk s n m v = Abort) /\
  (forall m o, m_cols m <> m_rows o ->
     (forall s0 s1, im_times t true s0 s1 m o = Abort) /\ forall s, im_mul_assign t true s m o = Abort \/ fst s <> O) /\
  (forall r c m o, m_rows m <> m_rows o \/ m_cols m <> m_cols o -> im_mul_assign t true (S r, c) m o = Abort).
Proof.
  assert (SS : forall m o : list (list Z), m_rows m <> m_rows o \/ m_cols m <> m_cols o -> same_size m o = false).
  { intros m o [H|H]; unfold same_size; apply Nat.eqb_neq in H; rewrite H; [reflexivity|apply andb_false_r]. }
  intros t junk op. split; [|split; [|split; [|split]]].
  - intros v w H. apply Nat.eqb_neq in H. unfold iv_op_assign, iv_op, ASSERT_DEBUG. rewrite H. auto.
  - intros m o H. unfold im_op_assign, im_op, ASSERT_DEBUG. rewrite (SS m o H). auto.
  - intros s n m v H. apply Nat.eqb_neq in H. unfold im_vec, ASSERT_DEBUG. rewrite H. auto.
  - intros m o H. apply Nat.eqb_neq in H. split; [intros; unfold im_times, ASSERT_DEBUG; rewrite H; auto|].
    intros s. unfold im_mul_assign, ASSERT_DEBUG. rewrite H. destruct (Nat.eqb_spec (fst s) 0); auto.
  - intros r c m o H. unfold im_mul_assign, ASSERT_DEBUG. rewrite (SS m o H). auto.
Qed.
