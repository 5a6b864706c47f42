(** Approximate comparison of floating point numbers, C50, C51. *)
From Coq Require Import ZArith SpecFloat.
From Verif Require Import Base ListFacts ScalarModel.

Definition is_num (x : f64) : Prop := x <> S754_nan.

Lemma SFcompare_sym a b : SFcompare b a = option_map CompOpp (SFcompare a b).
Proof.
  destruct a as [sa|sa| |sa ma ea], b as [sb|sb| |sb mb eb]; cbn;
    try destruct sa; try destruct sb; try reflexivity;
    rewrite Z.compare_antisym; destruct (ea ?= eb)%Z; cbn; try reflexivity;
    change (Pos.compare_cont Eq) with Pos.compare; rewrite (Pos.compare_antisym ma mb); reflexivity.
Qed.

Lemma SFcompare_num a b : is_num a -> is_num b -> exists c, SFcompare a b = Some c.
Proof.
  intros Ha Hb. destruct a as [sa|sa| |sa ma ea], b as [sb|sb| |sb mb eb];
    try (exfalso; apply Ha; reflexivity); try (exfalso; apply Hb; reflexivity); cbn; eauto.
Qed.

Lemma SFcompare_refl a : is_num a -> SFcompare a a = Some Eq.
Proof.
  intro Ha. destruct a as [s|s| |s m e]; try (exfalso; apply Ha; reflexivity); try (destruct s; reflexivity).
  cbn. rewrite Z.compare_refl. change (Pos.compare_cont Eq) with Pos.compare. rewrite Pos.compare_refl.
  destruct s; reflexivity.
Qed.

Lemma SFeqb_sym a b : SFeqb a b = SFeqb b a.
Proof. unfold SFeqb. rewrite (SFcompare_sym a b). destruct (SFcompare a b) as [[]|]; reflexivity. Qed.

Lemma SFltb_asym a b : SFltb a b = true -> SFltb b a = false.
Proof. unfold SFltb. rewrite (SFcompare_sym a b). destruct (SFcompare a b) as [[]|]; cbn; congruence. Qed.

(** Two numbers are in exactly one of the three relations. *)
Lemma SF_trichotomy a b : is_num a -> is_num b ->
  (SFltb a b = true /\ SFeqb a b = false /\ SFltb b a = false) \/
  (SFltb a b = false /\ SFeqb a b = true /\ SFltb b a = false) \/
  (SFltb a b = false /\ SFeqb a b = false /\ SFltb b a = true).
Proof.
  intros Ha Hb. destruct (SFcompare_num a b Ha Hb) as (c & E). unfold SFltb, SFeqb.
  rewrite (SFcompare_sym a b), E. destruct c; cbn; auto.
Qed.

Lemma round_abs (s : bool) m e :
  SFabs (binary_round 53 1024 s m e) = SFabs (binary_round 53 1024 (negb s) m e).
Proof.
  unfold binary_round. destruct (shl_align _ _ _) as [mz ez]. unfold binary_round_aux.
  destruct (shr_fexp _ _ _ _ _) as [r' e']. destruct (shr_fexp _ _ _ e' _) as [r2 e2].
  destruct (shr_m r2); try reflexivity. destruct (_ <=? _)%Z; reflexivity.
Qed.

Lemma normalize_abs z e s : SFabs (binary_normalize 53 1024 z e s) = SFabs (binary_normalize 53 1024 (- z) e s).
Proof. destruct z as [|p|p]; [reflexivity| |]; cbn [Z.opp binary_normalize]; apply round_abs. Qed.

(** |a - b| = |b - a|. *)
Lemma sub_abs_sym a b : SFabs (SFsub 53 1024 a b) = SFabs (SFsub 53 1024 b a).
Proof.
  destruct a as [sa|sa| |sa ma ea], b as [sb|sb| |sb mb eb]; cbn [SFsub SFabs]; try reflexivity.
  1,2: destruct sa, sb; reflexivity.
  rewrite (Z.min_comm eb ea). rewrite normalize_abs. do 2 f_equal. lia.
Qed.

Lemma add_comm a b : SFadd 53 1024 a b = SFadd 53 1024 b a.
Proof.
  destruct a as [sa|sa| |sa ma ea], b as [sb|sb| |sb mb eb]; cbn [SFadd]; try reflexivity.
  1,2: destruct sa, sb; reflexivity.
  rewrite (Z.min_comm eb ea), Z.add_comm. reflexivity.
Qed.

Lemma nearly_equal_sym dbg a b rel abs :
  is_nearly_equal fops dbg a b rel abs = is_nearly_equal fops dbg b a rel abs.
Proof.
  unfold is_nearly_equal.
  cbn [fops sc_eq sc_sub sc_abs sc_add]. rewrite (SFeqb_sym b a), (sub_abs_sym b a), (add_comm (SFabs b)).
  reflexivity.
Qed.

(** The relative tolerance passes the assertions of is_nearly_equal. *)
Definition tol_ok (dbg : bool) (rel : f64) : Prop :=
  dbg = true -> SFleb (sc_eps fops) rel = true /\ SFleb rel (sc_one fops) = true.

Lemma nearly_equal_ok dbg a b rel abs : tol_ok dbg rel ->
  exists e, is_nearly_equal fops dbg a b rel abs = Ok e /\ (SFeqb a b = true -> e = true).
Proof.
  intro H. unfold is_nearly_equal, tol_ok in *. cbn [fops sc_le sc_eq] in *.
  assert (E : forall c, (dbg = true -> c = true) -> ASSERT_DEBUG dbg c = Ok tt).
  { intros c Hc. destruct dbg; [rewrite Hc by auto|]; reflexivity. }
  rewrite !E by (intro D; apply H; exact D). cbn [bind].
  destruct (SFeqb a b); eexists; (split; [reflexivity|]); auto. discriminate.
Qed.

Lemma nearly_refl dbg a rel abs : tol_ok dbg rel -> is_num a ->
  is_nearly_equal fops dbg a a rel abs = Ok true.
Proof.
  intros Ht Ha. destruct (nearly_equal_ok dbg a a rel abs Ht) as (e & E & He). rewrite E, He; auto.
  unfold SFeqb. rewrite SFcompare_refl; auto.
Qed.

Lemma nearly_coherent dbg a b rel abs : tol_ok dbg rel -> is_num a -> is_num b ->
  exists l e g,
    is_nearly_less fops dbg a b rel abs = Ok l /\
    is_nearly_equal fops dbg a b rel abs = Ok e /\
    is_nearly_greater fops dbg a b rel abs = Ok g /\
    is_nearly_less_equal fops dbg a b rel abs = Ok (l || e) /\
    is_nearly_greater_equal fops dbg a b rel abs = Ok (g || e) /\
    ((l = true /\ e = false /\ g = false) \/ (l = false /\ e = true /\ g = false) \/
     (l = false /\ e = false /\ g = true)) /\
    (l = true -> SFltb a b = true) /\ (g = true -> SFltb b a = true) /\ (SFeqb a b = true -> e = true).
Proof.
  intros Ht Ha Hb. destruct (nearly_equal_ok dbg a b rel abs Ht) as (e & E & He).
  unfold is_nearly_less, is_nearly_greater, is_nearly_less_equal, is_nearly_greater_equal.
  cbn [fops sc_lt]. rewrite E. exists (negb (SFltb b a || e)), e, (negb (SFltb a b || e)).
  destruct (SF_trichotomy a b Ha Hb) as [(E1 & E2 & E3)|[(E1 & E2 & E3)|(E1 & E2 & E3)]];
    rewrite E1, E2, E3 in *; cbn [negb orb bind].
  - destruct e; cbn [negb]; repeat split; auto; discriminate.
  - rewrite He by auto. cbn [negb]. repeat split; auto.
  - destruct e; cbn [negb]; repeat split; auto; discriminate.
Qed.

Lemma nearly_swap dbg a b rel abs :
  is_nearly_less fops dbg a b rel abs = is_nearly_greater fops dbg b a rel abs.
Proof.
  unfold is_nearly_less, is_nearly_greater, is_nearly_less_equal, is_nearly_greater_equal.
  rewrite nearly_equal_sym. reflexivity.
Qed.

(** Comparisons with NaN. *)
Lemma nearly_nan dbg x rel abs : tol_ok dbg rel ->
  is_nearly_equal fops dbg S754_nan x rel abs = Ok false /\
  is_nearly_equal fops dbg x S754_nan rel abs = Ok false.
Proof.
  intro H. rewrite (nearly_equal_sym dbg x S754_nan). unfold is_nearly_equal, tol_ok in *.
  assert (E : forall c, (dbg = true -> c = true) -> ASSERT_DEBUG dbg c = Ok tt).
  { intros c Hc. destruct dbg; [rewrite Hc by auto|]; reflexivity. }
  rewrite !E by (intro D; apply H; exact D). cbn [bind fops sc_eq SFeqb SFcompare sc_sub SFsub sc_abs SFabs sc_lt].
  split; reflexivity.
Qed.

Lemma nearly_nan_order dbg x rel abs : tol_ok dbg rel ->
  is_nearly_less fops dbg S754_nan x rel abs = Ok true /\
  is_nearly_less fops dbg x S754_nan rel abs = Ok true /\
  is_nearly_greater fops dbg S754_nan x rel abs = Ok true /\
  is_nearly_greater fops dbg x S754_nan rel abs = Ok true.
Proof.
  intro H. destruct (nearly_nan dbg x rel abs H) as [E1 E2].
  assert (L : SFltb x S754_nan = false) by (destruct x; reflexivity).
  unfold is_nearly_less, is_nearly_greater, is_nearly_less_equal, is_nearly_greater_equal.
  cbn [fops sc_lt]. rewrite L. change (SFltb S754_nan x) with false.
  cbv iota. rewrite E1, E2. repeat split.
Qed.

(** The weak comparisons with NaN are false. *)
Lemma nearly_nan_weak dbg x rel abs : tol_ok dbg rel ->
  is_nearly_less_equal fops dbg S754_nan x rel abs = Ok false /\
  is_nearly_less_equal fops dbg x S754_nan rel abs = Ok false /\
  is_nearly_greater_equal fops dbg S754_nan x rel abs = Ok false /\
  is_nearly_greater_equal fops dbg x S754_nan rel abs = Ok false.
Proof.
  intro H. destruct (nearly_nan dbg x rel abs H) as [E1 E2].
  assert (L : SFltb x S754_nan = false) by (destruct x; reflexivity).
  unfold is_nearly_less_equal, is_nearly_greater_equal.
  cbn [fops sc_lt]. rewrite L. change (SFltb S754_nan x) with false.
  cbv iota. rewrite E1, E2. repeat split.
Qed.

Lemma default_tol_ok dbg : tol_ok dbg (default_relative fops).
Proof. intros _. split; vm_compute; reflexivity. Qed.
