(** Lemmas behind C125. *)
From Coq Require Import ZArith Reals Lra Lia List SpecFloat Psatz.
From Flocq Require Import Core BinarySingleNaN.
From Verif Require Import Base ListFacts DenseModel DenseFacts ScalarModel GeometryModel GeometryReal GeometryNorm
  FloatFacts FloatError IterFloat PropFloatLemmas FloatUnit FloatSweep OrderFacts PropIterLemmas PropDominantLemmas PropOrderLemmas
  PropIntLemmas PropGeoFloatLemmas PropOddLemmas LuSign.
Import ListNotations.
Local Open Scope R_scope.

Local Notation rnd := (round radix2 (FLT_exp (-1074) 53) ZnearestE).

(* ------------------------------------------------------------------ the words of the statements *)
(** Where the other double is finite, this one is finite and not larger in magnitude. *)
Definition smaller (x y : f64) : Prop := f_valid x /\ f_valid y /\
  (f_finite y = true -> f_finite x = true /\ Rabs (f_real x) <= Rabs (f_real y)).

Definition not_nan (x : f64) : bool := match x with S754_nan => false | _ => true end.

(* ------------------------------------------------------------------ magnitudes *)
Lemma abs_valid x : f_valid x -> f_valid (SFabs x).
Proof. destruct x; auto. Qed.
Lemma abs_finite x : f_finite (SFabs x) = f_finite x.
Proof. destruct x; reflexivity. Qed.
Lemma abs_real_all x : f_valid x -> f_real (SFabs x) = Rabs (f_real x).
Proof.
  intro V. destruct (f_finite x) eqn:F; [apply abs_real; auto|].
  destruct x; try discriminate; cbn [SFabs f_real]; rewrite Rabs_R0; reflexivity.
Qed.

Notation zero := (S754_zero false).

Lemma rnd_valid x : f_valid x -> rnd (f_real x) = f_real x.
Proof.
  intro V. destruct (valid_SF2B x V) as (b & _ & <- & _). apply round_generic; [apply valid_rnd_N|apply B2R_format].
Qed.

Lemma smaller_abs x y : smaller x y -> bracket zero (SFabs x) (SFabs y).
Proof.
  intros (Vx & Vy & H). split; [reflexivity|]. split; [apply abs_valid, Vx|]. split; [apply abs_valid, Vy|].
  intros _ F. rewrite abs_finite in *. destruct (H F) as [Fx L]. split; [exact Fx|].
  rewrite !abs_real_all by auto. cbn [f_real]. split; [apply Rabs_pos|exact L].
Qed.

Lemma bracket_prod s s' t t' : bracket zero s s' -> bracket zero t t' -> bracket zero (SFmul 53 1024 s t) (SFmul 53 1024 s' t').
Proof.
  intros (_ & V1 & V2 & H) (_ & V3 & V4 & K). split; [reflexivity|]. split; [apply f_mul_valid; auto|]. split; [apply f_mul_valid; auto|].
  intros _ F. destruct (f_mul_round _ _ V2 V4 F) as (F1 & F2 & E). destruct (H eq_refl F1) as [G1 L1], (K eq_refl F2) as [G2 L2].
  cbn [f_real] in *.
  assert (B : f_real zero <= rnd (f_real s * f_real t) <= f_real (SFmul 53 1024 s' t')).
  { rewrite E. cbn [f_real]. split; [rewrite <- rnd_zero; apply rnd_mono, Rmult_le_pos; lra|]. apply rnd_mono, Rmult_le_compat; lra. }
  assert (G : f_finite (SFmul 53 1024 s t) = true).
  { apply (mul_inside s t zero (SFmul 53 1024 s' t')); auto; [reflexivity|apply f_mul_valid; auto]. }
  split; [exact G|]. destruct (f_mul_round _ _ V1 V3 G) as (_ & _ & ->). exact B.
Qed.

Lemma square_abs x : SFmul 53 1024 x x = SFmul 53 1024 (SFabs x) (SFabs x).
Proof. destruct x as [s|s| |s m e]; try reflexivity; destruct s; reflexivity. Qed.

Lemma bracket_sqrt s t : bracket zero s t -> bracket zero (SFsqrt 53 1024 s) (SFsqrt 53 1024 t).
Proof.
  intros (_ & V1 & V2 & H). split; [reflexivity|]. split; [apply f_sqrt_valid; auto|]. split; [apply f_sqrt_valid; auto|].
  intros _ F. destruct (f_sqrt_round t V2 F) as (Ft & Pt & Et). destruct (H eq_refl Ft) as [Fs L]. cbn [f_real] in *.
  pose proof (f_sqrt_finite s V1 Fs (proj1 L)) as G. split; [exact G|]. destruct (f_sqrt_round s V1 G) as (_ & _ & ->). rewrite Et.
  split; [rewrite <- rnd_zero; apply rnd_mono, sqrt_pos|]. apply rnd_mono, sqrt_le_1_alt. lra.
Qed.

Lemma sum_bracket (h : f64 -> f64) x y s t : Forall2 smaller x y -> (forall a b, smaller a b -> bracket zero (h a) (h b)) ->
  bracket zero s t -> bracket zero (fold_left (fun a b => SFadd 53 1024 a (h b)) x s) (fold_left (fun a b => SFadd 53 1024 a (h b)) y t).
Proof.
  intros H Hh. revert s t. induction H as [|a b x y Hab _ IH]; intros s t Hst; [exact Hst|]. cbn [fold_left]. apply IH.
  exact (bracket_add zero s t zero _ _ Hst (Hh a b Hab)).
Qed.

Lemma zero_zero : bracket zero zero zero.
Proof. apply bracket_refl. reflexivity. Qed.

(** The maximum norm. *)
Lemma max_ok l x : f_valid x -> f_finite x = true -> Forall (fun y => f_valid y /\ f_finite y = true) l ->
  let m := max_element fops x l in
  Rabs (f_real x) <= Rabs (f_real m) /\ (forall y, In y l -> Rabs (f_real y) <= Rabs (f_real m)) /\ In m (x :: l) /\
  f_valid m /\ f_finite m = true.
Proof.
  revert x. induction l as [|y l IH]; intros x V F Hl m.
  - cbn in m. subst m. split; [lra|]. split; [intros y []|]. split; [left; reflexivity|]. auto.
  - inversion Hl as [|? ? [Vy Fy] Hl']; subst. assert (Em : m = max_element fops (if SFltb (SFabs x) (SFabs y) then y else x) l) by reflexivity.
    clearbody m. subst m. destruct (SFltb (SFabs x) (SFabs y)) eqn:E.
    + apply (f_lt _ _ (abs_valid _ V) (abs_valid _ Vy) (eq_trans (abs_finite x) F) (eq_trans (abs_finite y) Fy)) in E. rewrite !abs_real_all in E by auto.
      destruct (IH y Vy Fy Hl') as (H1 & H2 & H3 & H4). split; [lra|].
      split; [intros z [<-|Hz]; auto|]. split; [right; exact H3|exact H4].
    + assert (L : Rabs (f_real y) <= Rabs (f_real x)).
      { destruct (Rle_lt_dec (Rabs (f_real y)) (Rabs (f_real x))) as [L|L]; [exact L|]. exfalso.
        rewrite <- !abs_real_all in L by auto. apply (f_lt _ _ (abs_valid _ V) (abs_valid _ Vy) (eq_trans (abs_finite x) F) (eq_trans (abs_finite y) Fy)) in L. congruence. }
      destruct (IH x V F Hl') as (H1 & H2 & H3 & H4). split; [exact H1|].
      split; [intros z [<-|Hz]; auto; lra|]. split; [|exact H4]. destruct H3; [left|right; right]; auto.
Qed.

Lemma maximum_exact power root n v f : is_vec n v f -> (0 < n)%nat -> finite_vec n f ->
  exists N, lp_norm fops power root 0 v = Ok N /\ f_valid N /\ f_finite N = true /\ p_norm 0 n (fun i => f_real (f i)) (f_real N).
Proof.
  intros H Hn Hf. destruct v as [|x l]; [destruct H as [H _]; cbn in H; lia|]. cbn [lp_norm fops sc_abs]. fold fops.
  assert (HA : Forall (fun y => f_valid y /\ f_finite y = true) (x :: l)).
  { apply Forall_forall. intros y Hy. apply (is_vec_In _ _ _ _ H) in Hy as (i & Hi & ->). apply Hf, Hi. }
  inversion HA as [|? ? [Vx Fx] Hl]; subst. destruct (max_ok l x Vx Fx Hl) as (H1 & H2 & H3 & H4 & H5).
  eexists. split; [reflexivity|]. split; [apply abs_valid, H4|]. split; [rewrite abs_finite; exact H5|].
  rewrite abs_real_all by exact H4. split.
  - intros i Hi. assert (Hin : In (f i) (x :: l)) by (apply (is_vec_In _ _ _ _ H); eauto).
    destruct Hin as [E|Hin]; [rewrite <- E; exact H1|apply H2, Hin].
  - apply (is_vec_In _ _ _ _ H) in H3 as (i & Hi & E). exists i. split; auto. rewrite E. reflexivity.
Qed.

Lemma lt_nan x : SFltb x S754_nan = false.
Proof. destruct x as [s|s| |s m e]; reflexivity. Qed.

Lemma maximum_nan power root x v :
  lp_norm fops power root 0 (x :: v) = lp_norm fops power root 0 (x :: filter not_nan v) /\
  lp_norm fops power root 0 (S754_nan :: v) = Ok S754_nan.
Proof.
  cbn [lp_norm fops sc_abs]. fold fops. split; f_equal.
  - f_equal. unfold max_element. revert x. induction v as [|y v IH]; intro x; [reflexivity|]. cbn [filter fold_left].
    destruct y as [s|s| |s m e]; cbn [not_nan]; try apply IH. cbn [fops sc_lt sc_abs SFabs]. rewrite lt_nan. apply IH.
  - transitivity (SFabs S754_nan); [|reflexivity]. f_equal. unfold max_element. induction v as [|y v IH]; [reflexivity|].
    cbn [fold_left fops sc_lt sc_abs SFabs]. exact IH.
Qed.

Lemma norm_grows power root p x y : (p <= 3)%nat -> Forall2 smaller x y ->
  (p = 0%nat -> x <> [] /\ forall b, In b y -> f_finite b = true) ->
  (p = 3%nat -> forall s t, f_valid s -> f_valid t ->
     (f_finite t = true -> f_finite s = true /\ 0 <= f_real s <= f_real t) ->
     f_valid (root 3%nat s) /\ f_valid (root 3%nat t) /\
       (f_finite (root 3%nat t) = true -> f_finite (root 3%nat s) = true /\ 0 <= f_real (root 3%nat s) <= f_real (root 3%nat t))) ->
  exists N L, lp_norm fops power root p x = Ok N /\ lp_norm fops power root p y = Ok L /\ f_valid N /\ f_valid L /\
    (f_finite L = true -> f_finite N = true /\ 0 <= f_real N <= f_real L).
Proof.
  intros Hp H H0 H3.
  assert (Done : forall N L, bracket zero N L -> f_valid N /\ f_valid L /\
    (f_finite L = true -> f_finite N = true /\ 0 <= f_real N <= f_real L)).
  { intros N L (_ & V1 & V2 & K). split; [exact V1|]. split; [exact V2|]. intro F. exact (K eq_refl F). }
  destruct p as [|[|[|[|p]]]]; [| | | |lia].
  - destruct (H0 eq_refl) as [Hne Hfin]. destruct H as [|a b x y Hab Hxy]; [congruence|].
    assert (HA : forall c, In c (b :: y) -> f_valid c /\ f_finite c = true).
    { intros c Hc. split; [|apply Hfin, Hc]. destruct Hc as [<-|Hc]; [apply Hab|].
      clear - Hxy Hc. induction Hxy as [|u v x y Huv _ IH]; [destruct Hc|]. destruct Hc as [<-|Hc]; [apply Huv|apply IH, Hc]. }
    assert (HB : forall c, In c (a :: x) -> exists d, In d (b :: y) /\ smaller c d).
    { intros c [<-|Hc]; [exists b; split; [left; reflexivity|exact Hab]|].
      clear - Hxy Hc. induction Hxy as [|u v x y Huv _ IH]; [destruct Hc|]. destruct Hc as [<-|Hc]; [exists v; split; [right; left; reflexivity|exact Huv]|].
      destruct (IH Hc) as (d & [Hd|Hd] & S); exists d; (split; [|exact S]); [left; exact Hd|right; right; exact Hd]. }
    assert (HC : forall c, In c (a :: x) -> f_valid c /\ f_finite c = true).
    { intros c Hc. destruct (HB c Hc) as (d & Hd & Vc & _ & K). split; [exact Vc|]. apply K, HA, Hd. }
    destruct (max_ok x a) as (_ & _ & M1 & M2 & M3); try (apply HC; left; reflexivity).
    { apply Forall_forall. intros c Hc. apply HC. right. exact Hc. }
    destruct (max_ok y b) as (L1 & L2 & _ & L4 & L5); try (apply HA; left; reflexivity).
    { apply Forall_forall. intros c Hc. apply HA. right. exact Hc. }
    cbn [lp_norm fops sc_abs]. fold fops. do 2 eexists. do 2 (split; [reflexivity|]). apply Done, smaller_abs.
    split; [exact M2|]. split; [exact L4|]. intros _. split; [exact M3|].
    destruct (HB _ M1) as (d & Hd & _ & _ & K). destruct (K (proj2 (HA d Hd))) as [_ K1]. apply Rle_trans with (1 := K1).
    destruct Hd as [<-|Hd]; [exact L1|apply L2, Hd].
  - cbn [lp_norm]. do 2 eexists. do 2 (split; [reflexivity|]). apply Done. unfold accumulate. cbn [fops sc_add sc_abs sc_zero].
    apply sum_bracket; [exact H|exact smaller_abs|exact zero_zero].
  - cbn [lp_norm]. do 2 eexists. do 2 (split; [reflexivity|]). apply Done. unfold accumulate. cbn [fops sc_add sc_mul sc_sqrt sc_zero].
    apply bracket_sqrt. apply (sum_bracket (fun b => SFmul 53 1024 b b)); [exact H| |exact zero_zero].
    intros a b Hab. rewrite (square_abs a), (square_abs b). apply bracket_prod; apply smaller_abs, Hab.
  - cbn [lp_norm]. do 2 eexists. do 2 (split; [reflexivity|]). unfold accumulate. cbn [fops sc_add sc_mul sc_abs sc_zero]. cbv zeta.
    match goal with |- f_valid (root _ ?s) /\ f_valid (root _ ?t) /\ _ => assert (B : bracket zero s t) end.
    { apply (sum_bracket (fun b => SFmul 53 1024 (SFmul 53 1024 (SFabs b) (SFabs b)) (SFabs b))); [exact H| |exact zero_zero].
      intros a b Hab. repeat apply bracket_prod; apply smaller_abs, Hab. }
    destruct (Done _ _ B) as (V1 & V2 & K). apply (H3 eq_refl); auto.
Qed.

(** Signs. *)
Lemma abs_opp x : SFabs (SFopp x) = SFabs x.
Proof. destruct x; reflexivity. Qed.

Lemma fold_map_opp (h : f64 -> f64) v s : (forall b, h (SFopp b) = h b) ->
  fold_left (fun a b => SFadd 53 1024 a (h b)) (map SFopp v) s = fold_left (fun a b => SFadd 53 1024 a (h b)) v s.
Proof. intro H. revert s. induction v as [|b v IH]; intro s; [reflexivity|]. cbn [map fold_left]. rewrite H. apply IH. Qed.

Lemma norm_opp power root p v : (p <= 3)%nat \/ Nat.even p = false ->
  lp_norm fops power root p (map SFopp v) = lp_norm fops power root p v.
Proof.
  intro Hp. destruct p as [|[|[|[|p]]]]; cbn [lp_norm].
  - destruct v as [|x v]; [reflexivity|]. cbn [map lp_norm fops sc_abs]. fold fops. f_equal.
    enough (E : max_element fops (SFopp x) (map SFopp v) = SFopp (max_element fops x v)) by (rewrite E; apply abs_opp).
    unfold max_element. revert x. induction v as [|y v IH]; intro x; [reflexivity|]. cbn [map fold_left fops sc_lt sc_abs].
    rewrite !abs_opp. fold fops. destruct (SFltb (SFabs x) (SFabs y)); apply IH.
  - f_equal. unfold accumulate. cbn [fops sc_add sc_abs sc_zero]. apply fold_map_opp, abs_opp.
  - do 2 f_equal. unfold accumulate. cbn [fops sc_add sc_mul sc_sqrt sc_zero]. apply (fold_map_opp (fun b => SFmul 53 1024 b b)).
    intro b. rewrite mul_opp_l, mul_opp_r, opp_opp. reflexivity.
  - do 2 f_equal. unfold accumulate. cbn [fops sc_add sc_mul sc_abs sc_zero]. cbv zeta.
    apply (fold_map_opp (fun b => SFmul 53 1024 (SFmul 53 1024 (SFabs b) (SFabs b)) (SFabs b))). intro b. rewrite abs_opp. reflexivity.
  - destruct Hp as [Hp|Hp]; [lia|]. rewrite Hp. do 2 f_equal. unfold accumulate. cbn [fops sc_add sc_abs sc_zero].
    apply (fold_map_opp (fun b => power (SFabs b) _)). intro b. rewrite abs_opp. reflexivity.
Qed.

(* ------------------------------------------------------------------ sums *)
Lemma sum_limit n f : finite_vec n f -> (1 + f_u) ^ n * rsum n (fun i => Rabs (f_real (f i))) <= f_limit ->
  f_finite (fsum n f) = true /\ Rabs (f_real (fsum n f)) <= (1 + f_u) ^ n * rsum n (fun i => Rabs (f_real (f i))).
Proof.
  pose proof u_pos as Hu. induction n as [|n IH]; intros Hf HL; cbn [asum].
  - split; [reflexivity|]. cbn [f_real]. rewrite Rabs_R0. lra.
  - set (A := rsum n (fun i => Rabs (f_real (f i)))) in *. set (p := Rabs (f_real (f n))).
    change (asum 0 Rplus (S n) (fun i => Rabs (f_real (f i)))) with (A + p) in HL.
    assert (A0 : 0 <= A) by (apply rsum_nonneg; intros; apply Rabs_pos). assert (P0 : 0 <= p) by apply Rabs_pos.
    assert (U : 1 <= (1 + f_u) ^ n) by (apply pow_R1_Rle; lra). rewrite <- tech_pow_Rmult in HL.
    assert (HP : (1 + f_u) ^ n * (A + p) <= f_limit).
    { apply Rle_trans with (2 := HL). rewrite Rmult_assoc. set (W := (1 + f_u) ^ n * (A + p)).
      assert (0 <= f_u * W); [|lra]. apply Rmult_le_pos; [lra|]. apply Rmult_le_pos; lra. }
    assert (HA : (1 + f_u) ^ n * A <= f_limit).
    { apply Rle_trans with (2 := HP). apply Rmult_le_compat_l; lra. }
    destruct IH as [F B]; [intros i Hi; apply Hf; lia|exact HA|]. destruct (Hf n (Nat.lt_succ_diag_r n)) as [Vn Fn].
    assert (V : f_valid (fsum n f)) by (apply fsum_valid; intros i Hi; apply Hf; lia).
    assert (B2 : Rabs (f_real (fsum n f) + f_real (f n)) <= (1 + f_u) ^ n * (A + p)).
    { apply Rle_trans with (1 := Rabs_triang _ _). fold p. rewrite Rmult_plus_distr_l. apply Rplus_le_compat; [exact B|].
      rewrite <- (Rmult_1_l p) at 1. apply Rmult_le_compat_r; lra. }
    assert (G : f_finite (SFadd 53 1024 (fsum n f) (f n)) = true) by (apply f_add_finite; auto; lra).
    split; [exact G|]. destruct (f_add_error _ _ V Vn G) as (_ & _ & d & Hd & ->). rewrite Rabs_mult, <- tech_pow_Rmult.
    assert (Rabs (1 + d) <= 1 + f_u) by (apply Rle_trans with (1 := Rabs_triang _ _); rewrite Rabs_R1; lra).
    change (asum 0 Rplus (S n) (fun i => Rabs (f_real (f i)))) with (A + p).
    apply Rle_trans with ((1 + f_u) ^ n * (A + p) * (1 + f_u)); [apply Rmult_le_compat; auto using Rabs_pos|right; ring].
Qed.

Lemma norm_one power root n v f : is_vec n v f -> (forall i, (i < n)%nat -> f_valid (f i)) ->
  exists N, lp_norm fops power root 1 v = Ok N /\ f_valid N /\
    (f_finite N = true -> (forall i, (i < n)%nat -> f_finite (f i) = true /\ Rabs (f_real (f i)) <= f_real N) /\
       Rabs (f_real N - rsum n (fun i => Rabs (f_real (f i)))) <= f_gamma n * rsum n (fun i => Rabs (f_real (f i)))) /\
    (finite_vec n f -> (1 + f_u) ^ n * rsum n (fun i => Rabs (f_real (f i))) <= f_limit -> f_finite N = true).
Proof.
  intros H Vf. set (g := fun i => SFabs (f i)). exists (fsum n g). split.
  { cbn [lp_norm]. f_equal. exact (fold_asum zero (SFadd 53 1024) n v f SFabs H). }
  assert (Vg : forall i, (i < n)%nat -> f_valid (g i)) by (intros i Hi; apply abs_valid, Vf, Hi).
  assert (Eg : forall i, (i < n)%nat -> f_real (g i) = Rabs (f_real (f i))) by (intros i Hi; apply abs_real_all, Vf, Hi).
  assert (ES : rsum n (fun i => f_real (g i)) = rsum n (fun i => Rabs (f_real (f i)))) by (apply asum_ext; exact Eg).
  assert (EA : rsum n (fun i => Rabs (f_real (g i))) = rsum n (fun i => Rabs (f_real (f i)))).
  { apply asum_ext. intros i Hi. rewrite Eg by exact Hi. apply Rabs_Rabsolu. }
  split; [apply fsum_valid, Vg|]. split.
  - intro F. destruct (fsum_error n g Vg F) as [Fg E]. rewrite ES, EA in E. split; [|exact E].
    intros i Hi. split; [specialize (Fg i Hi); unfold g in Fg; rewrite abs_finite in Fg; exact Fg|].
    assert (K : forall k, (k <= n)%nat -> f_finite (fsum k g) = true ->
      0 <= f_real (fsum k g) /\ forall i, (i < k)%nat -> Rabs (f_real (f i)) <= f_real (fsum k g)); [|apply K; auto].
    clear - Vg Eg. induction k as [|k IH]; intros Hk F; [cbn; split; [lra|lia]|]. cbn [asum] in *.
    assert (Vk : f_valid (fsum k g)) by (apply fsum_valid; intros; apply Vg; lia).
    assert (Vgk : f_valid (g k)) by (apply Vg; lia).
    destruct (f_add_round _ _ Vk Vgk F) as (F1 & F2 & E). destruct (IH ltac:(lia) F1) as [P L].
    assert (Ek : f_real (g k) = Rabs (f_real (f k))) by (apply Eg; lia). pose proof (Rabs_pos (f_real (f k))).
    assert (L1 : f_real (fsum k g) <= f_real (SFadd 53 1024 (fsum k g) (g k))).
    { rewrite E, <- (rnd_valid (fsum k g)) at 1 by exact Vk. apply rnd_mono. lra. }
    assert (L2 : f_real (g k) <= f_real (SFadd 53 1024 (fsum k g) (g k))).
    { rewrite E, <- (rnd_valid (g k)) at 1 by exact Vgk. apply rnd_mono. lra. }
    split; [lra|]. intros i Hi. destruct (Nat.eq_dec i k) as [->|]; [lra|]. specialize (L i ltac:(lia)). lra.
  - intros Hf HL. apply (sum_limit n g).
    + intros i Hi. split; [apply Vg, Hi|]. unfold g. rewrite abs_finite. apply Hf, Hi.
    + rewrite EA. exact HL.
Qed.

Lemma norm_two power root n v f : is_vec n v f -> finite_vec n f -> INR n * f_u <= / 4 ->
  let X := rsum n (fun i => f_real (f i) ^ 2) in / 2 ^ 1000 <= X <= 2 ^ 1000 ->
  exists N, lp_norm fops power root 2 v = Ok N /\ f_valid N /\ f_finite N = true /\
    f_real N <= (1 + f_u) ^ (n + 2) * sqrt X /\ sqrt X <= (1 + f_u) ^ (n + 3) * f_real N.
Proof.
  intros Hv Hf Hn X HX. pose proof u_pos as Hu. pose proof u_tiny as Hut. pose proof eta_pos as He. pose proof (pos_INR n) as Hn0.
  assert (HX0 : 0 < X) by (apply Rlt_le_trans with (2 := proj1 HX); apply Rinv_0_lt_compat, pow_lt; lra).
  assert (HX2 : rsum n (fun i => Rabs (f_real (f i) * f_real (f i))) = X).
  { apply asum_ext. intros i _. rewrite Rabs_pos_eq by apply Rle_0_sqr. ring. }
  assert (Hpow : (1 + f_u) ^ n <= 4 / 3).
  { pose proof (gamma_bound n ltac:(lra)) as G. unfold f_gamma in G.
    assert (INR n * f_u / (1 - INR n * f_u) <= / 3); [|lra]. set (t := INR n * f_u) in *.
    apply Rmult_le_reg_r with (1 - t); [lra|]. unfold Rdiv. rewrite Rmult_assoc, Rinv_l by lra. lra. }
  assert (Hpow1 : 1 <= (1 + f_u) ^ n) by (apply pow_R1_Rle; lra).
  assert (Hk : (1 + f_u) ^ (n + 1) <= 3 / 2).
  { rewrite pow_add, pow_1. apply Rle_trans with (4 / 3 * (1 + / 1000)); [|lra]. apply Rmult_le_compat; lra. }
  set (S := fsum n (fun i => SFmul 53 1024 (f i) (f i))).
  assert (FS : f_finite S = true).
  { apply inner_finite; auto. unfold inner_bound. rewrite HX2. unfold f_gamma.
    assert (H2 : INR n * (1 + f_u) ^ n * f_eta <= 1).
    { assert (f_eta <= f_u).
      { unfold f_eta, f_u. apply Rinv_le_contravar; [apply pow_lt; lra|]. apply Rle_pow; [lra|]. apply Nat.leb_le. reflexivity. }
      assert (INR n * f_eta <= / 4) by nra. nra. }
    assert (H3 : X * (3 / 2) + 1 <= f_limit).
    { unfold f_limit. apply Rle_trans with (4 * 2 ^ 1000).
      - assert (1 <= 2 ^ 1000) by (apply pow_R1_Rle; lra). lra.
      - replace 4 with (2 ^ 2) by ring. rewrite <- pow_add. apply Rle_pow; [lra|]. apply Nat.leb_le. reflexivity. }
    nra. }
  destruct (squares_bound n f (fun i Hi => proj1 (Hf i Hi)) FS Hn (proj1 HX)) as (S0 & S1 & S2). fold S X in S0, S1, S2.
  assert (VS : f_valid S) by (apply fsum_valid; intros i Hi; apply f_mul_valid; apply Hf, Hi).
  set (N := SFsqrt 53 1024 S). assert (FN : f_finite N = true) by (apply f_sqrt_finite; auto).
  destruct (f_sqrt_error S VS FN) as (_ & _ & dN & HdN & EN). fold N in EN.
  exists N. split; [cbn [lp_norm]; f_equal; apply (f_equal (SFsqrt 53 1024)); exact (fold_asum zero (SFadd 53 1024) n v f (fun b => SFmul 53 1024 b b) Hv)|].
  split; [apply f_sqrt_valid, VS|]. split; [exact FN|].
  pose proof (sqrt_pos (f_real S)) as HrS.
  assert (Hsq : forall k, sqrt ((1 + f_u) ^ (2 * k)) = (1 + f_u) ^ k).
  { intro k. replace ((1 + f_u) ^ (2 * k)) with (Rsqr ((1 + f_u) ^ k)) by (unfold Rsqr; rewrite <- pow_add; f_equal; lia).
    apply sqrt_Rsqr. apply pow_le. lra. }
  assert (R1 : sqrt (f_real S) <= (1 + f_u) ^ (n + 1) * sqrt X).
  { rewrite <- Hsq. rewrite <- sqrt_mult_alt by (apply pow_le; lra). apply sqrt_le_1_alt.
    apply Rle_trans with (1 := S1). apply up_le; [lia|lra]. }
  assert (R2 : sqrt X <= (1 + f_u) ^ (n + 1) * sqrt (f_real S)).
  { rewrite <- Hsq. rewrite <- sqrt_mult_alt by (apply pow_le; lra). apply sqrt_le_1_alt.
    apply Rle_trans with (1 := S2). apply up_le; [lia|lra]. }
  split.
  - rewrite EN. apply Rle_trans with (1 := grow _ dN HrS HdN). replace (n + 2)%nat with (Datatypes.S (n + 1)) by lia.
    rewrite <- tech_pow_Rmult, Rmult_assoc. apply Rmult_le_compat_l; [lra|exact R1].
  - apply Rle_trans with (1 := R2). replace (n + 3)%nat with (n + 1 + 2)%nat by lia. rewrite (pow_add _ (n + 1) 2), Rmult_assoc.
    apply Rmult_le_compat_l; [apply pow_le; lra|]. rewrite EN. apply shrink; auto.
Qed.

(* ------------------------------------------------------------------ the mean *)
Lemma mean_value dbg t n v f : is_vec n v f -> (0 < n)%nat ->
  mean fops dbg t v = Ok (SFdiv 53 1024 (fsum n f) (f_of_Z (Z.of_nat n))).
Proof.
  intros H Hn. unfold mean. rewrite (proj1 H).
  assert (E : negb (t =? 0)%nat || negb (n =? 0)%nat = true) by (destruct (Nat.eqb_spec n 0); [lia|apply Bool.orb_true_r]).
  rewrite E. unfold ASSERT_DEBUG. replace (if dbg then ASSERT true else Ok tt) with (Ok tt : res Datatypes.unit) by (destruct dbg; reflexivity).
  cbn [bind]. f_equal. change (SFdiv 53 1024 (accumulate fops (sc_add fops) v) (f_of_Z (Z.of_nat n)) = SFdiv 53 1024 (fsum n f) (f_of_Z (Z.of_nat n))).
  f_equal. exact (fold_asum zero (SFadd 53 1024) n v f (fun b => b) H).
Qed.

Lemma mean_error dbg t n v f : is_vec n v f -> (0 < n)%nat -> (Z.of_nat n <= 2 ^ 53)%Z -> (forall i, (i < n)%nat -> f_valid (f i)) ->
  exists m, mean fops dbg t v = Ok m /\ f_valid m /\
    (f_finite m = true -> (forall i, (i < n)%nat -> f_finite (f i) = true) /\
       Rabs (f_real m - rsum n (fun i => f_real (f i)) / INR n) <=
         f_gamma (n + 1) * (rsum n (fun i => Rabs (f_real (f i))) / INR n) + f_eta) /\
    (finite_vec n f -> (1 + f_u) ^ n * rsum n (fun i => Rabs (f_real (f i))) <= f_limit -> f_finite m = true).
Proof.
  intros H Hn Hz Vf. rewrite (mean_value dbg t n v f H Hn). eexists. split; [reflexivity|].
  assert (Vs : f_valid (fsum n f)) by (apply fsum_valid, Vf).
  destruct (of_Z_round (Z.of_nat n) ltac:(lia)) as (Vn & Fn & _).
  assert (En : f_real (f_of_Z (Z.of_nat n)) = INR n) by (rewrite of_Z_real by lia; symmetry; apply INR_IZR_INZ).
  assert (N1 : 1 <= INR n) by (change 1 with (INR 1); apply le_INR; lia).
  split; [apply f_div_valid; auto|]. set (T := rsum n (fun i => f_real (f i))). set (A := rsum n (fun i => Rabs (f_real (f i)))).
  assert (HT : Rabs T <= A) by apply rsum_abs. pose proof u_pos. pose proof (gamma_nonneg n).
  assert (IN : 0 < / INR n) by (apply Rinv_0_lt_compat; lra). split.
  - intro F. destruct (f_div_round _ _ Vs Vn Fn F) as (Fs & _ & E). destruct (fsum_error n f Vf Fs) as [Ff Es].
    split; [exact Ff|]. fold T A in Es. rewrite E, En. set (s := f_real (fsum n f)) in *.
    destruct (rnd_error (s / INR n)) as (d & e & Hd & He & ->).
    replace (s / INR n * (1 + d) + e - T / INR n) with ((s - T) * / INR n * (1 + d) + T * / INR n * d + e) by (unfold Rdiv; ring).
    assert (Es' : Rabs ((s - T) * / INR n) <= f_gamma n * (A / INR n)).
    { rewrite Rabs_mult, (Rabs_pos_eq (/ INR n)) by lra. unfold Rdiv. rewrite <- Rmult_assoc. apply Rmult_le_compat_r; [lra|exact Es]. }
    assert (HT' : Rabs (T * / INR n) <= A / INR n).
    { rewrite Rabs_mult, (Rabs_pos_eq (/ INR n)) by lra. apply Rmult_le_compat_r; lra. }
    assert (Hd' : Rabs (1 + d) <= 1 + f_u) by (apply Rle_trans with (1 := Rabs_triang _ _); rewrite Rabs_R1; lra).
    replace (n + 1)%nat with (Datatypes.S n) by lia. rewrite gamma_S.
    assert (P1 : Rabs ((s - T) * / INR n * (1 + d)) <= f_gamma n * (A / INR n) * (1 + f_u)).
    { rewrite Rabs_mult. apply Rmult_le_compat; auto using Rabs_pos. }
    assert (P2 : Rabs (T * / INR n * d) <= A / INR n * f_u) by (rewrite Rabs_mult; apply Rmult_le_compat; auto using Rabs_pos).
    apply Rle_trans with (1 := Rabs_triang _ _). apply Rle_trans with (f_gamma n * (A / INR n) * (1 + f_u) + A / INR n * f_u + f_eta).
    + apply Rplus_le_compat; [|exact He]. apply Rle_trans with (1 := Rabs_triang _ _). lra.
    + right. ring.
  - intros Hf HL. destruct (sum_limit n f Hf HL) as [Fs Bs]. apply f_div_finite; auto; rewrite En; [lra|].
    unfold Rdiv. rewrite Rabs_mult, (Rabs_pos_eq (/ INR n)) by lra.
    apply Rle_trans with (Rabs (f_real (fsum n f)) * 1); [|fold A in Bs, HL; lra].
    apply Rmult_le_compat_l; [apply Rabs_pos|]. rewrite <- Rinv_1. apply Rinv_le_contravar; lra.
Qed.

Lemma mean_inside dbg t n x z y : valid_vec n x -> valid_vec n z -> valid_vec n y -> inside n x z y -> (0 < n)%nat ->
  (Z.of_nat n < 2 ^ 64)%Z ->
  exists a b c, mean fops dbg t x = Ok a /\ mean fops dbg t z = Ok b /\ mean fops dbg t y = Ok c /\
    f_valid a /\ f_valid b /\ f_valid c /\
    (f_finite a = true -> f_finite c = true -> f_finite b = true /\ f_real a <= f_real b <= f_real c).
Proof.
  intros [Lx Vx] [Lz Vz] [Ly Vy] H Hn Hz.
  assert (Ix : is_vec n x (at_ x)) by (rewrite <- Lx at 1; apply is_vec_self).
  assert (Iz : is_vec n z (at_ z)) by (rewrite <- Lz at 1; apply is_vec_self).
  assert (Iy : is_vec n y (at_ y)) by (rewrite <- Ly at 1; apply is_vec_self).
  rewrite (mean_value dbg t n x _ Ix Hn), (mean_value dbg t n z _ Iz Hn), (mean_value dbg t n y _ Iy Hn).
  destruct (of_Z_round (Z.of_nat n) ltac:(lia)) as (Vn & Fn & En).
  assert (P : positive (f_of_Z (Z.of_nat n))).
  { split; [exact Vn|]. split; [exact Fn|]. rewrite En. apply Rlt_le_trans with (rnd 1); [rewrite rnd_one; lra|].
    apply rnd_mono. apply IZR_le. lia. }
  assert (B : forall k, (k <= n)%nat -> bracket (fsum k (at_ x)) (fsum k (at_ z)) (fsum k (at_ y))).
  { induction k as [|k IH]; intro Hk; cbn [asum]; [apply bracket_refl; reflexivity|]. apply bracket_add; [apply IH; lia|].
    split; [apply Vx; lia|]. split; [apply Vz; lia|]. split; [apply Vy; lia|]. apply H. lia. }
  destruct (bracket_div _ _ _ _ P (B n (le_n n))) as (V1 & V2 & V3 & K).
  do 3 eexists. do 3 (split; [reflexivity|]). auto.
Qed.

Lemma mean_opp dbg t v m : mean fops dbg t v = Ok m -> exists k, mean fops dbg t (map SFopp v) = Ok k /\
  (k = SFopp m \/ exists p q, m = S754_zero p /\ k = S754_zero q).
Proof.
  unfold mean. rewrite map_length. destruct (ASSERT_DEBUG dbg _) as [u| | |]; try discriminate. cbn [bind]. intro E. injection E as <-.
  eexists. split; [reflexivity|]. unfold accumulate. cbn [fops sc_add sc_div sc_zero sc_of_Z].
  apply (near_div false true). cbn [xorb]. assert (H0 : near true zero zero) by (right; eauto). revert H0. generalize zero at 1 3. generalize zero.
  induction v as [|x v IH]; intros s s' H0; [exact H0|]. cbn [map fold_left]. apply IH. apply near_add; [exact H0|left; reflexivity].
Qed.

Lemma mean_of_three : let c := SFdiv 53 1024 (fz 1) (fz 10) in f_valid c /\ f_finite c = true /\
  exists m, (forall dbg t, mean fops dbg t [c; c; c] = Ok m) /\ f_real c < f_real m.
Proof.
  intro c. split; [vm_compute; reflexivity|]. split; [vm_compute; reflexivity|].
  exists (SFdiv 53 1024 (SFadd 53 1024 (SFadd 53 1024 (SFadd 53 1024 zero c) c) c) (f_of_Z 3)). split.
  - intros dbg t. unfold mean. destruct dbg, t; reflexivity.
  - apply f_lt; vm_compute; reflexivity.
Qed.

Lemma mean_overflow : let c := f_of_Z (2 ^ 1023) in f_valid c /\ f_finite c = true /\
  forall dbg t, mean fops dbg t [c; c] = Ok (S754_infinity false).
Proof.
  intro c. split; [vm_compute; reflexivity|]. split; [vm_compute; reflexivity|]. intros dbg t.
  rewrite (mean_value dbg t 2 [c; c] (fun _ => c)); [vm_compute; reflexivity| |lia].
  split; [reflexivity|]. intros [|[|i]] Hi; try lia; reflexivity.
Qed.

(* ------------------------------------------------------------------ inner products *)
Lemma dot_symmetric dbg v w : length v = length w -> exists d, g_dot fops dbg v w = Ok d /\ g_dot fops dbg w v = Ok d.
Proof.
  intro L. assert (Iv := is_vec_self v zero). assert (Iw := is_vec_self w zero). rewrite L in Iv. unfold g_dot.
  eexists. split; [exact (dot_ok _ _ _ _ _ _ _ _ _ Iv Iw)|]. rewrite (dot_ok _ _ _ _ _ _ _ _ _ Iw Iv). f_equal.
  apply asum_ext. intros i _. apply mul_comm_float.
Qed.

Lemma dot_self dbg n v : valid_vec n v -> exists d, g_dot fops dbg v v = Ok d /\ f_valid d /\ (f_finite d = true -> 0 <= f_real d).
Proof.
  intros [L V]. assert (I : is_vec n v (at_ v)) by (rewrite <- L at 1; apply is_vec_self). unfold g_dot.
  eexists. split; [exact (dot_ok _ _ _ _ _ _ _ _ _ I I)|]. cbn [fops sc_mul sc_add sc_zero].
  assert (B : forall k, (k <= n)%nat -> bracket zero (fsum k (fun i => SFmul 53 1024 (at_ v i) (at_ v i))) (fsum k (fun i => SFmul 53 1024 (at_ v i) (at_ v i)))).
  { induction k as [|k IH]; intro Hk; cbn [asum]; [exact zero_zero|].
    refine (bracket_add zero _ _ zero _ _ (IH ltac:(lia)) _). rewrite square_abs.
    assert (S : smaller (at_ v k) (at_ v k)) by (split; [apply V; lia|]; split; [apply V; lia|]; intro F; split; [exact F|lra]).
    apply bracket_prod; apply smaller_abs, S. }
  destruct (B n (le_n n)) as (_ & V1 & _ & K). split; [exact V1|]. intro F. destruct (K eq_refl F) as (_ & K1 & _). exact K1.
Qed.

(* ------------------------------------------------------------------ the examples *)
Lemma smaller_check x y : valid_binary 53 1024 x = true -> valid_binary 53 1024 y = true -> f_finite x = true ->
  (Z.abs (grid x) <=? Z.abs (grid y))%Z = true -> smaller x y.
Proof.
  intros Vx Vy Fx H. split; [exact Vx|]. split; [exact Vy|]. intros _. split; [exact Fx|]. apply Z.leb_le, IZR_le in H.
  rewrite !abs_IZR, <- !grid_real, !Rabs_mult in H by assumption. apply Rmult_le_reg_r with (2 := H).
  apply Rabs_pos_lt. apply Rgt_not_eq, bpow_gt_0.
Qed.

(** Three doubles and two. *)
Definition v3 : list f64 := [fz (-3); SFdiv 53 1024 (fz 1) (fz 10); S754_zero true].
Definition f3 (i : nat) : f64 := nth i v3 (S754_zero false).
Definition v2 : list f64 := [fz 3; fz (-4)].
Definition f2 (i : nat) : f64 := nth i v2 (S754_zero false).
