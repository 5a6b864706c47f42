(** Pivoting in double precision, C135. *)
From Coq Require Import ZArith Reals Lra Lia SpecFloat Psatz.
From Verif Require Import Base ListFacts DenseModel DenseFacts ScalarModel GeometryReal LuModel LuFacts LuField LuReal FloatFacts FloatError
  LuFloat LuDominant LuSuccess PropLuLemmas PropFloatLemmas FloatUnit FloatSweep PropCloseLemmas Determinant PropFactorLemmas.
Local Open Scope R_scope.

(** Bound of the multipliers and growth of the elements per round, for the tolerance [t]. *)
Definition multiplier (t : R) : R := 1 + / 2 ^ 30 + / 2 ^ 44 / t.
Definition growth (t : R) : R := 2 + / 2 ^ 29 + / 2 ^ 43 / t.

Definition numbers (n : nat) (A : nat -> nat -> f64) : Prop := forall i j, (i < n)%nat -> (j < n)%nat -> number (A i j).

Lemma p36 : / 2 ^ 36 = 1 / 68719476736. Proof. replace (2 ^ 36) with 68719476736 by ring. field. Qed.
Lemma p46 : / 2 ^ 46 = 1 / 70368744177664. Proof. replace (2 ^ 46) with 70368744177664 by ring. field. Qed.
Lemma p45 : / 2 ^ 45 = 1 / 35184372088832. Proof. replace (2 ^ 45) with 35184372088832 by ring. field. Qed.
Lemma p44 : / 2 ^ 44 = 1 / 17592186044416. Proof. replace (2 ^ 44) with 17592186044416 by ring. field. Qed.
Lemma p43 : / 2 ^ 43 = 1 / 8796093022208. Proof. replace (2 ^ 43) with 8796093022208 by ring. field. Qed.
Lemma p34 : / 2 ^ 34 = 1 / 17179869184. Proof. replace (2 ^ 34) with 17179869184 by ring. field. Qed.
Lemma p30 : / 2 ^ 30 = 1 / 1073741824. Proof. replace (2 ^ 30) with 1073741824 by ring. field. Qed.
Lemma p29 : / 2 ^ 29 = 1 / 536870912. Proof. replace (2 ^ 29) with 536870912 by ring. field. Qed.
Lemma u_num : f_u = 1 / 9007199254740992. Proof. unfold f_u. replace (2 ^ 53) with 9007199254740992 by ring. field. Qed.
Lemma eta_num : f_eta <= 1 / 1237940039285380274899124224.
Proof. apply Rle_trans with (1 := eta_u3). rewrite u_num. lra. Qed.

(** The part of the multiplier that depends on the tolerance. *)
Lemma parts t : / 2 ^ 46 <= t -> exists w, 0 <= w <= 4 /\ w * t = / 2 ^ 44 /\ multiplier t = 1 + / 2 ^ 30 + w /\ growth t = 2 + / 2 ^ 29 + 2 * w.
Proof.
  intro Ht. assert (P : 0 < t) by (apply Rlt_le_trans with (2 := Ht); apply Rinv_0_lt_compat, pow_lt; lra).
  exists (/ 2 ^ 44 / t). assert (0 < / 2 ^ 44) by (apply Rinv_0_lt_compat, pow_lt; lra). split; [split|split; [|split]].
  - apply Rlt_le, Rdiv_lt_0_compat; lra.
  - apply (Rmult_le_reg_r t); auto. unfold Rdiv. rewrite Rmult_assoc, Rinv_l by lra. rewrite p46 in Ht. rewrite p44. lra.
  - field. lra.
  - reflexivity.
  - unfold growth. replace (/ 2 ^ 43) with (2 * / 2 ^ 44); [unfold Rdiv; ring|]. rewrite p43, p44. lra.
Qed.

(** [e] does not exceed [m] by much. *)
Definition near_f (e m : R) : Prop := e <= m * (1 + / 2 ^ 34) + / 2 ^ 45.

Lemma near_f_mono e m m' : m <= m' -> near_f e m -> near_f e m'.
Proof. unfold near_f. rewrite p34. lra. Qed.

Lemma not_greater_f dbg e m : number e -> number m -> 0 <= f_real e -> 0 <= f_real m -> f_real e + f_real m <= f_limit ->
  is_nearly_greater fops dbg e m (default_relative fops) (default_absolute fops) = Ok false -> near_f (f_real e) (f_real m).
Proof.
  intros He Hm Pe Pm HL. unfold is_nearly_greater, is_nearly_less_equal. cbn [fops sc_lt]. fold fops.
  destruct (SFltb e m) eqn:E1.
  - intros _. apply (lt_num e m He Hm) in E1. unfold near_f. rewrite p34, p45. lra.
  - apply (lt_num_false e m He Hm) in E1.
    destruct (nearly_meaning dbg e m (default_relative fops) (default_absolute fops) He Hm (default_relative_ok dbg) default_absolute_number)
      as (b & -> & HB & _); [rewrite !Rabs_pos_eq by lra; exact HL|].
    cbn [bind]. intro H. apply Ok_inj in H. apply negb_false_iff in H. specialize (HB H).
    rewrite !(Rabs_pos_eq (f_real e)), (Rabs_pos_eq (f_real m)), Rabs_pos_eq in HB by lra.
    destruct limits as (_ & _ & _ & _ & _ & _ & Ea & Er). rewrite Ea, Er in HB.
    assert (HM : Rmax (/ 2 ^ 46) (/ 2 ^ 36 * (f_real e + f_real m)) <= / 2 ^ 46 + / 2 ^ 36 * (f_real e + f_real m)).
    { rewrite p46, p36. apply Rmax_lub; lra. }
    assert (H4 : (1 + f_u) ^ 4 <= 1 + 1 / 1000000) by (rewrite u_num; cbn [pow]; lra).
    set (T := Rmax _ _) in *. assert (HT : 0 <= T) by (unfold T; apply Rle_trans with (2 := Rmax_l _ _); rewrite p46; lra).
    pose proof eta_num as Het. unfold near_f. rewrite p46, p36 in HM. rewrite p34, p45.
    assert ((1 + f_u) ^ 4 * T <= (1 + 1 / 1000000) * T) by (apply Rmult_le_compat_r; auto). lra.
Qed.

Lemma greater_f dbg e m : number e -> number m ->
  is_nearly_greater fops dbg e m (default_relative fops) (default_absolute fops) = Ok true -> f_real m <= f_real e.
Proof.
  intros He Hm. unfold is_nearly_greater, is_nearly_less_equal. cbn [fops sc_lt]. fold fops.
  destruct (SFltb e m) eqn:E1; [discriminate|]. intros _. apply (lt_num_false e m He Hm) in E1. exact E1.
Qed.

(** The row the search picks. *)
Definition best_f n (g : nat -> nat -> f64) (i j : nat) : Prop :=
  (forall k, (i <= k < n)%nat -> number (g k i) /\ 2 * Rabs (f_real (g k i)) <= f_limit) ->
  forall k, (i <= k < n)%nat -> near_f (Rabs (f_real (g k i))) (Rabs (f_real (g j i))).

Lemma search_best_f dbg n m (g : nat -> nat -> f64) i j : is_mat n n m g -> (i < n)%nat ->
  lu_search fops dbg m i = Ok j -> best_f n g i j.
Proof.
  intros Hm Hi Es HN. unfold lu_search in Es. rewrite (is_mat_cols _ _ _ _ Hm) in Es by lia.
  match type of Es with context[forM (seq i (n - i)) ?F _] =>
    destruct (forM_seq_inv (fun k (s : f64 * nat) => (i <= snd s < n)%nat /\ number (fst s) /\
      0 <= f_real (fst s) <= Rabs (f_real (g (snd s) i)) /\ 2 * f_real (fst s) <= f_limit /\
      forall t, (i <= t < k)%nat -> near_f (Rabs (f_real (g t i))) (f_real (fst s))) i (n - i) F (sc_zero fops, i)) as (r & E & H) end.
  - cbn [fst snd fops sc_zero f_real]. split; [lia|]. split; [split; reflexivity|]. split; [split; [lra|apply Rabs_pos]|].
    split; [unfold f_limit; assert (0 <= 2 ^ 1023) by (apply pow_le; lra); lra|]. intros; lia.
  - intros k [mx im] Hk (Hs & Nx & Hmx & Lx & Hall). cbn [fst snd] in *.
    rewrite (is_mat_get _ _ _ _ _ _ Hm) by lia. cbn [bind].
    destruct (nearly_total fops dbg (sc_abs fops (g k i)) mx (F_tol_default dbg)) as (gt & Eg). rewrite Eg. cbn [bind].
    cbn [fops sc_abs] in Eg. fold fops in Eg. eexists. split; [reflexivity|]. cbn [fops sc_abs].
    destruct (HN k ltac:(lia)) as [Nk Lk]. destruct (number_abs _ Nk) as [Na Ra]. pose proof (Rabs_pos (f_real (g k i))) as Pk.
    destruct gt; cbn [fst snd].
    + apply (greater_f dbg _ _ Na Nx) in Eg. rewrite Ra in *. split; [lia|]. split; [exact Na|]. split; [lra|]. split; [lra|]. intros t Ht.
      destruct (Nat.eq_dec t k) as [->|]; [unfold near_f; rewrite p34, p45; lra|].
      apply (near_f_mono _ (f_real mx)); [lra|]. apply Hall. lia.
    + apply (not_greater_f dbg _ _ Na Nx) in Eg; rewrite ?Ra in *; try lra.
      split; [lia|]. split; [exact Nx|]. split; [lra|]. split; [lra|]. intros t Ht.
      destruct (Nat.eq_dec t k) as [->|]; [exact Eg|apply Hall; lia].
  - rewrite E in Es. cbn [bind] in Es. injection Es as <-. destruct H as (Hs & _ & Hmx & _ & Hall). intros k Hk.
    apply (near_f_mono _ (f_real (fst r))); [lra|]. apply Hall. lia.
Qed.

Lemma Rabs_mul_le a b x y : Rabs a <= x -> Rabs b <= y -> Rabs (a * b) <= x * y.
Proof. intros H1 H2. rewrite Rabs_mult. apply Rmult_le_compat; auto using Rabs_pos. Qed.

(** One quotient. *)
Lemma multiplier_ok t x y : / 2 ^ 46 <= t -> number x -> number y -> t <= Rabs (f_real y) ->
  near_f (Rabs (f_real x)) (Rabs (f_real y)) ->
  number (SFdiv 53 1024 x y) /\ Rabs (f_real (SFdiv 53 1024 x y)) <= multiplier t.
Proof.
  intros Ht [Vx Fx] [Vy Fy] Hy Hn. destruct (parts t Ht) as (w & Hw & Ew & -> & _).
  assert (P : 0 < t) by (apply Rlt_le_trans with (2 := Ht); apply Rinv_0_lt_compat, pow_lt; lra).
  assert (Ny : f_real y <> 0). { intro Z. rewrite Z, Rabs_R0 in Hy. lra. }
  assert (HR : Rabs (f_real x / f_real y) <= 1 + / 2 ^ 34 + w / 2).
  { unfold Rdiv. rewrite Rabs_mult, Rabs_inv. set (X := Rabs (f_real x)) in *. set (Y := Rabs (f_real y)) in *.
    apply (Rmult_le_reg_r Y); [lra|]. rewrite Rmult_assoc, Rinv_l by lra. rewrite Rmult_1_r.
    unfold near_f in Hn. assert (w * t <= w * Y) by (apply Rmult_le_compat_l; lra).
    rewrite p44 in Ew. rewrite p34, p45 in *. lra. }
  assert (FQ : f_finite (SFdiv 53 1024 x y) = true).
  { apply f_div_finite; auto. apply Rle_trans with (1 := HR). assert (HL : 8 <= f_limit) by (unfold f_limit; replace 8 with (2 ^ 3) by ring; apply Rle_pow; [lra|apply Nat.leb_le; reflexivity]). rewrite p34. lra. }
  split; [split; [apply f_div_valid; auto|exact FQ]|].
  destruct (f_div_round x y Vx Vy Fy FQ) as (_ & _ & E). rewrite E.
  destruct (rnd_error (f_real x / f_real y)) as (d & e & Hd & He & ->).
  apply Rle_trans with (1 := Rabs_triang _ _).
  assert (H1 : Rabs (f_real x / f_real y * (1 + d)) <= (1 + / 2 ^ 34 + w / 2) * (1 + f_u)).
  { apply Rabs_mul_le; auto. apply Rle_trans with (1 := Rabs_triang _ _). rewrite Rabs_R1. lra. }
  pose proof eta_num. rewrite u_num in H1. rewrite p34 in H1. rewrite p30. lra.
Qed.

(** One difference. *)
Lemma difference_ok t M v l c : / 2 ^ 46 <= t -> t <= M -> number v -> number l -> number c ->
  Rabs (f_real v) <= M -> Rabs (f_real l) <= multiplier t -> Rabs (f_real c) <= M -> 8 * M <= f_limit ->
  let r := SFsub 53 1024 v (SFmul 53 1024 l c) in number r /\ Rabs (f_real r) <= growth t * M.
Proof.
  intros Ht HM [Vv Fv] [Vl Fl] [Vc Fc] Hv Hl Hc HL r. destruct (parts t Ht) as (w & Hw & Ew & Em & Eg). rewrite Eg. rewrite Em in Hl.
  assert (P : 0 < M) by (apply Rlt_le_trans with (2 := HM), Rlt_le_trans with (2 := Ht); apply Rinv_0_lt_compat, pow_lt; lra).
  assert (Het : f_eta <= M / 1000000000000).
  { pose proof eta_num. rewrite p46 in Ht. lra. }
  pose proof (Rabs_mul_le _ _ _ _ Hl Hc) as Hp. set (Q := w * M) in *.
  assert (HQ : 0 <= Q <= 4 * M) by (unfold Q; nra).
  replace ((1 + / 2 ^ 30 + w) * M) with (M + / 2 ^ 30 * M + Q) in Hp by (unfold Q; ring).
  replace ((2 + / 2 ^ 29 + 2 * w) * M) with (2 * M + / 2 ^ 29 * M + 2 * Q) by (unfold Q; ring).
  rewrite p30 in Hp. rewrite p29.
  assert (Fp : f_finite (SFmul 53 1024 l c) = true) by (apply f_mul_finite; auto; lra).
  assert (Vp : f_valid (SFmul 53 1024 l c)) by (apply f_mul_valid; auto).
  destruct (f_mul_error l c Vl Vc Fp) as (_ & _ & d & e & Hd & He & E).
  assert (Hpp : Rabs (f_real (SFmul 53 1024 l c)) <= (M + 1 / 1073741824 * M + Q) * (1 + f_u) + f_eta).
  { rewrite E. apply Rle_trans with (1 := Rabs_triang _ _). apply Rplus_le_compat; auto. apply Rabs_mul_le; auto.
    apply Rle_trans with (1 := Rabs_triang _ _). rewrite Rabs_R1. lra. }
  set (p := f_real (SFmul 53 1024 l c)) in *.
  assert (Hd1 : Rabs (f_real v - p) <= M + ((M + 1 / 1073741824 * M + Q) * (1 + f_u) + f_eta)).
  { unfold Rminus. apply Rle_trans with (1 := Rabs_triang _ _). rewrite Rabs_Ropp. lra. }
  rewrite u_num in Hd1.
  assert (Fr : f_finite r = true) by (apply f_sub_finite; auto; fold p; lra).
  split; [split; [apply f_sub_valid; auto|exact Fr]|].
  destruct (f_sub_error v (SFmul 53 1024 l c) Vv Vp Fr) as (d2 & Hd2 & E2). fold p in E2. unfold r. rewrite E2.
  assert (H2 : Rabs ((f_real v - p) * (1 + d2)) <= (M + ((M + 1 / 1073741824 * M + Q) * (1 + 1 / 9007199254740992) + f_eta)) * (1 + f_u)).
  { apply Rabs_mul_le; auto. apply Rle_trans with (1 := Rabs_triang _ _). rewrite Rabs_R1. lra. }
  rewrite u_num in H2. lra.
Qed.

(** The elements after [k] rounds. *)
Definition grown (n : nat) (t M : R) (k : nat) (g : nat -> nat -> f64) : Prop :=
  forall a b, (a < n)%nat -> (b < n)%nat -> number (g a b) /\
    Rabs (f_real (g a b)) <= if (b <? Nat.min a k)%nat then multiplier t else growth t ^ Nat.min a k * M.

Lemma growth_pow t k k' : / 2 ^ 46 <= t -> (k <= k')%nat -> growth t ^ k <= growth t ^ k'.
Proof.
  intros Ht Hk. destruct (parts t Ht) as (w & Hw & _ & _ & ->). apply Rle_pow; [|exact Hk]. rewrite p29. lra.
Qed.

Lemma growth_one t k : / 2 ^ 46 <= t -> 1 <= growth t ^ k.
Proof. intro Ht. apply Rle_trans with (growth t ^ 0); [cbn; lra|apply growth_pow; [exact Ht|lia]]. Qed.

Lemma grown_step n t M i j g : / 2 ^ 46 <= t -> 0 <= M -> 8 * (growth t ^ n * M) <= f_limit -> (i <= j < n)%nat ->
  best_f n g i j -> grown n t M i g -> t <= Rabs (f_real (g j i)) ->
  grown n t M (i + 1) (fun r c => if (i <? r)%nat then elim_row fops (fun a b => g (transpose i j a) b) i r c else g (transpose i j r) c).
Proof.
  intros Ht HM HL Hij HB HG Hp.
  set (g' := fun a b => g (transpose i j a) b).
  assert (Tl : forall r, (i <= r < n)%nat -> (i <= transpose i j r < n)%nat).
  { intros r Hr. unfold transpose. destruct (Nat.eqb_spec r i), (Nat.eqb_spec r j); lia. }
  assert (Ti : transpose i j i = j) by (unfold transpose; rewrite Nat.eqb_refl; auto).
  set (Mi := growth t ^ i * M).
  assert (HMi : 0 <= Mi) by (apply Rmult_le_pos; [pose proof (growth_one t i Ht); lra|exact HM]).
  assert (HLi : 8 * Mi <= f_limit).
  { apply Rle_trans with (2 := HL). apply Rmult_le_compat_l; [lra|]. apply Rmult_le_compat_r; [exact HM|]. apply growth_pow; [exact Ht|lia]. }
  assert (HC : forall r c, (i <= r < n)%nat -> (i <= c < n)%nat -> number (g' r c) /\ Rabs (f_real (g' r c)) <= Mi).
  { intros r c Hr Hc. pose proof (Tl r Hr) as Hr'. destruct (HG (transpose i j r) c ltac:(lia) ltac:(lia)) as [N B]. split; [exact N|].
    rewrite Nat.min_r in B by lia. destruct (Nat.ltb_spec c i); [lia|]. exact B. }
  assert (HB' : forall k, (i <= k < n)%nat -> near_f (Rabs (f_real (g k i))) (Rabs (f_real (g j i)))).
  { apply HB. intros k Hk. destruct (HG k i ltac:(lia) ltac:(lia)) as [N B]. split; [exact N|].
    rewrite Nat.min_r, Nat.ltb_irrefl in B by lia. fold Mi in B. lra. }
  assert (HtM : t <= Mi).
  { apply Rle_trans with (1 := Hp). destruct (HC i i) as [_ B]; try lia. unfold g' in B. rewrite Ti in B. exact B. }
  assert (HQ : forall r, (i < r < n)%nat -> number (SFdiv 53 1024 (g' r i) (g' i i)) /\
    Rabs (f_real (SFdiv 53 1024 (g' r i) (g' i i))) <= multiplier t).
  { intros r Hr. apply (multiplier_ok t); auto; try (apply HC; lia).
    - unfold g'. rewrite Ti. exact Hp.
    - unfold g'. rewrite Ti. apply HB', Tl. lia. }
  intros r c Hr Hc. cbv beta. destruct (Nat.ltb_spec i r).
  - rewrite Nat.min_r by lia. unfold elim_row. destruct (Nat.ltb_spec c i).
    + destruct (Nat.ltb_spec c (i + 1)); [|lia]. pose proof (Tl r ltac:(lia)). destruct (HG (transpose i j r) c ltac:(lia) ltac:(lia)) as [N B].
      split; [exact N|]. rewrite Nat.min_r in B by lia. destruct (Nat.ltb_spec c i); [exact B|lia].
    + destruct (Nat.eqb_spec c i) as [->|].
      * destruct (Nat.ltb_spec i (i + 1)); [|lia]. apply HQ. lia.
      * destruct (Nat.ltb_spec c (i + 1)); [lia|]. fold g'. cbn [fops sc_sub sc_mul sc_div].
        destruct (HQ r ltac:(lia)) as [Nq Bq].
        destruct (difference_ok t Mi (g' r c) (SFdiv 53 1024 (g' r i) (g' i i)) (g' i c)) as [N B]; auto; try (apply HC; lia).
        split; [exact N|]. rewrite Nat.add_1_r. cbn [pow]. rewrite Rmult_assoc. exact B.
  - rewrite (Nat.min_l r (i + 1)) by lia.
    assert (Ht' : (transpose i j r < n)%nat /\ Nat.min (transpose i j r) i = r).
    { unfold transpose. destruct (Nat.eqb_spec r i), (Nat.eqb_spec r j); lia. }
    destruct Ht' as [Hlt Hmin]. destruct (HG (transpose i j r) c Hlt Hc) as [N B]. rewrite Hmin in B. auto.
Qed.

(** What the factors hold after [k] rounds in place of the row [s a] of the matrix, in exact arithmetic. *)
Definition held (k : nat) (g : nat -> nat -> f64) (a b : nat) : R :=
  rsum (Nat.min (Nat.min a k) (b + 1)) (fun m => f_real (g a m) * f_real (g m b)) + (if (Nat.min a k <=? b)%nat then f_real (g a b) else 0).

(** The largest element of the upper factor, and the bound of the difference in one element. *)
Definition largest (n : nat) (t M : R) : R := growth t ^ n * M.
Definition element_error (n : nat) (t M : R) : R :=
  f_gamma n * (INR n * multiplier t * largest n t M) + (1 + f_u) ^ n * f_eta * (INR n + largest n t M).

Lemma multiplier_one t : / 2 ^ 46 <= t -> 1 <= multiplier t.
Proof. intro Ht. destruct (parts t Ht) as (w & Hw & _ & -> & _). rewrite p30. lra. Qed.

Lemma largest_le n t M k : / 2 ^ 46 <= t -> 0 <= M -> (k <= n)%nat -> growth t ^ k * M <= largest n t M.
Proof. intros Ht HM Hk. apply Rmult_le_compat_r; auto. apply growth_pow; auto. Qed.

Lemma largest_pos n t M : / 2 ^ 46 <= t -> 0 <= M -> 0 <= largest n t M.
Proof. intros Ht HM. apply Rmult_le_pos; auto. pose proof (growth_one t n Ht). lra. Qed.

Lemma rsum_bound n f c : (forall i, (i < n)%nat -> f i <= c) -> rsum n f <= INR n * c.
Proof.
  induction n as [|n IH]; intro H; [cbn; lra|]. rewrite S_INR. cbn [asum].
  specialize (IH ltac:(intros; apply H; lia)). specialize (H n ltac:(lia)). lra.
Qed.

Lemma partial_error n t M A k s g a b : / 2 ^ 46 <= t -> 0 <= M -> numbers n A -> (k <= n)%nat -> dool fops n A k s g -> grown n t M k g ->
  (a < n)%nat -> (b < n)%nat -> Rabs (f_real (A (s a) b) - held k g a b) <= element_error n t M.
Proof.
  intros Ht HM HA Hk (HD & Hs & _) HG Ha Hb. pose proof u_pos. pose proof eta_pos.
  assert (Hsa := Hs a Ha). destruct (HA (s a) b Hsa Hb) as [VA _]. pose proof (multiplier_one t Ht) as Hmu.
  pose proof (largest_pos n t M Ht HM) as HL. unfold element_error. set (G := largest n t M) in *.
  assert (BL : forall m, (m < Nat.min a k)%nat -> Rabs (f_real (g a m)) <= multiplier t).
  { intros m Hm. destruct (HG a m Ha ltac:(lia)) as [_ B]. destruct (Nat.ltb_spec m (Nat.min a k)); [exact B|lia]. }
  assert (BU : forall m, (m < n)%nat -> (Nat.min m k <= b)%nat -> Rabs (f_real (g m b)) <= G).
  { intros m Hm Hmb. destruct (HG m b Hm Hb) as [_ B]. destruct (Nat.ltb_spec b (Nat.min m k)); [lia|].
    apply Rle_trans with (1 := B). apply largest_le; auto. lia. }
  clearbody G.
  assert (BP : forall p, (p <= Nat.min a k)%nat -> (p <= b + 1)%nat -> rsum p (fun m => Rabs (f_real (g a m) * f_real (g m b))) <= INR p * (multiplier t * G)).
  { intros p Hp1 Hp2. apply rsum_bound. intros m Hm. apply Rabs_mul_le; [apply BL; lia|apply BU; lia]. }
  assert (HmG : G <= multiplier t * G) by (apply Rle_trans with (1 * G); [lra|apply Rmult_le_compat_r; auto]).
  assert (HPos : 0 <= multiplier t * G) by lra.
  assert (Hpw : forall p, (p <= n)%nat -> 1 <= (1 + f_u) ^ p <= (1 + f_u) ^ n).
  { intros p Hp. split; [apply pow_R1_Rle; lra|apply Rle_pow; [lra|lia]]. }
  assert (Hval : forall i j, (i < n)%nat -> (j < n)%nat -> f_valid (g i j)) by (intros i j Hi Hj; apply (HG i j Hi Hj)).
  destruct (HG a b Ha Hb) as [[Vg Fg] Bg]. pose proof (HD a b Ha Hb) as Ed. unfold dool_entry in Ed. unfold held.
  assert (HN : forall p, (p <= n)%nat -> INR p <= INR n) by (intros; apply le_INR; auto).
  destruct (Nat.ltb_spec b (Nat.min a k)) as [Hlt|Hge].
  - rewrite (Nat.min_r (Nat.min a k) b) in Ed by lia. rewrite (Nat.min_r (Nat.min a k) (b + 1)) by lia.
    destruct (Nat.leb_spec (Nat.min a k) b); [lia|]. rewrite Nat.add_1_r. cbn [asum fops sc_div sc_mul] in *. fold fops in *.
    assert (Fq := Fg). rewrite Ed in Fq. destruct (HG b b Hb Hb) as [[_ Fb] _].
    destruct (quotient_error (A (s a) b) b (fun m => g a m) (fun m => g m b) (g b b)) as (_ & _ & Herr); auto.
    { intros; apply Hval; lia. }
    { intros; apply Hval; lia. }
    rewrite <- Ed in Herr.
    set (T := rsum b (fun m => f_real (g a m) * f_real (g m b))) in *. rewrite Rplus_0_r.
    replace (f_real (A (s a) b) - (T + f_real (g a b) * f_real (g b b))) with (f_real (A (s a) b) - f_real (g a b) * f_real (g b b) - T) by ring.
    apply Rle_trans with (1 := Herr). apply Rplus_le_compat.
    + apply Rmult_le_compat.
      * apply gamma_nonneg.
      * apply Rplus_le_le_0_compat; [apply Rabs_pos|apply rsum_nonneg; intros; apply Rabs_pos].
      * apply gamma_le. lia.
      * specialize (BP b ltac:(lia) ltac:(lia)).
        assert (Rabs (f_real (g a b) * f_real (g b b)) <= multiplier t * G).
        { apply Rabs_mul_le; [apply BL; lia|]. apply BU; lia. }
        apply Rle_trans with (INR (S b) * (multiplier t * G)); [rewrite S_INR; lra|].
        rewrite Rmult_assoc. apply Rmult_le_compat_r; [exact HPos|apply HN; lia].
    + pose proof (Hpw b ltac:(lia)). pose proof (BU b Hb ltac:(lia)). pose proof (HN b ltac:(lia)). pose proof (pos_INR b). pose proof (Rabs_pos (f_real (g b b))).
      apply Rmult_le_compat;
        [apply Rmult_le_pos; lra|solve [apply Rplus_le_le_0_compat; auto|auto]|apply Rmult_le_compat_r; [lra|apply Hpw; lia]|
         clear Herr; lra].
  - rewrite (Nat.min_l (Nat.min a k) b) in Ed by lia. rewrite (Nat.min_l (Nat.min a k) (b + 1)) by lia.
    destruct (Nat.leb_spec (Nat.min a k) b); [|lia]. cbn [fops sc_mul] in Ed. fold fops in Ed.
    assert (Fq := Fg). rewrite Ed in Fq. set (p := Nat.min a k) in *.
    destruct (rdiff_inner_error (A (s a) b) p (fun m => g a m) (fun m => g m b)) as (_ & _ & Herr); auto.
    { intros; apply Hval; unfold p in *; lia. }
    { intros; apply Hval; unfold p in *; lia. }
    rewrite <- Ed in Herr.
    set (T := rsum p (fun m => f_real (g a m) * f_real (g m b))) in *.
    replace (f_real (A (s a) b) - (T + f_real (g a b))) with (f_real (A (s a) b) - f_real (g a b) - T) by ring.
    apply Rle_trans with (1 := Herr). apply Rplus_le_compat.
    + apply Rmult_le_compat.
      * apply gamma_nonneg.
      * apply Rplus_le_le_0_compat; [apply Rabs_pos|apply rsum_nonneg; intros; apply Rabs_pos].
      * apply gamma_le. unfold p. lia.
      * specialize (BP p ltac:(lia) ltac:(lia)).
        assert (Rabs (f_real (g a b)) <= multiplier t * G) by (apply Rle_trans with (2 := HmG), BU; [lia|unfold p in *; lia]).
        apply Rle_trans with (INR (S p) * (multiplier t * G)); [rewrite S_INR; lra|].
        rewrite Rmult_assoc. apply Rmult_le_compat_r; [exact HPos|apply HN; unfold p; lia].
    + pose proof (Hpw p ltac:(unfold p; lia)). pose proof (HN p ltac:(unfold p; lia)). pose proof (pos_INR p).
      replace (INR p * (1 + f_u) ^ p * f_eta) with ((1 + f_u) ^ p * f_eta * INR p) by ring.
      apply Rmult_le_compat;
        [apply Rmult_le_pos; lra|solve [apply Rplus_le_le_0_compat; auto|auto]|apply Rmult_le_compat_r; [lra|apply Hpw; unfold p in *; lia]|
         clear Herr; lra].
Qed.

Lemma held_factors n g a b : (a < n)%nat -> (b < n)%nat -> held n g a b = rsum n (fun k => f_lower g a k * f_upper g k b).
Proof.
  intros Ha Hb. rewrite lower_sum by auto. unfold held. rewrite (Nat.min_l a n) by lia.
  destruct (Nat.leb_spec a b).
  - rewrite Nat.min_l by lia. f_equal; [|unfold f_upper; destruct (Nat.leb_spec a b); [auto|lia]].
    apply asum_ext. intros k Hk. unfold f_upper. destruct (Nat.leb_spec k b); [auto|lia].
  - rewrite Nat.min_r by lia. f_equal; [|unfold f_upper; destruct (Nat.leb_spec a b); [lia|auto]].
    rewrite (rsum_trunc a (b + 1)); [|lia|].
    + apply asum_ext. intros k Hk. unfold f_upper. destruct (Nat.leb_spec k b); [auto|lia].
    + intros m Hm. unfold f_upper. destruct (Nat.leb_spec m b); [lia|ring].
Qed.

(** Everything that is known after [k] rounds. *)
Definition round_state n t M A (k : nat) s g : Prop :=
  dool fops n A k s g /\ ((k <= n)%nat -> grown n t M k g /\ forall a, (a < k)%nat -> t <= Rabs (f_real (g a a))).

Lemma round_state_cases dbg n st a A M : let t := f_real (lu_tolerance st) in
  number (lu_tolerance st) -> / 2 ^ 46 <= t -> is_mat n n a A -> numbers n A ->
  (forall i j, (i < n)%nat -> (j < n)%nat -> Rabs (f_real (A i j)) <= M) -> 0 <= M -> 8 * largest n t M <= f_limit ->
  exists st' ok, factorise fops dbg true st a = Ok (st', ok) /\ lu_tolerance st' = lu_tolerance st /\
    exists s g, is_mat n n (lu_matrix st') g /\ is_vec n (lu_pivots st') s /\ (ok = true -> round_state n t M A n s g) /\
      (ok = false -> exists i j s g, (i <= j < n)%nat /\ best_f n g i j /\ round_state n t M A i s g /\ Rabs (f_real (g j i)) < t).
Proof.
  intros t Nt Ht Ha HA HAM HM HL.
  destruct (factorise_cases fops dbg true n st a A (round_state n t M A) (best_f n)) as (st' & ok & E & Et & s & g & Hm & Hp & _ & HO & HF).
  - intros _. apply F_tol_default.
  - exact Ha.
  - intros m g i j. apply search_best_f.
  - split; [apply dool_0|]. intros _. split; [|intros; lia]. intros i j Hi Hj. rewrite Nat.min_0_r. cbn [Nat.ltb Nat.leb pow].
    rewrite Rmult_1_l. auto.
  - intros i j s g Hij _ HP [HD HR] Hlt. specialize (HP eq_refl). destruct (HR ltac:(lia)) as [HG Hd].
    split; [apply dool_step; auto|]. intros _.
    assert (Hpiv : t <= Rabs (f_real (g j i))).
    { destruct (HG j i ltac:(lia) ltac:(lia)) as [Nj _]. destruct (number_abs _ Nj) as [Na Ra].
      cbn [fops sc_lt sc_abs] in Hlt. apply (lt_num_false _ _ Na Nt) in Hlt. rewrite Ra in Hlt. exact Hlt. }
    split; [apply grown_step; auto|]. intros r Hr. destruct (Nat.ltb_spec i r); [lia|].
    destruct (Nat.eq_dec r i) as [->|].
    + replace (transpose i j i) with j by (unfold transpose; rewrite Nat.eqb_refl; auto). exact Hpiv.
    + rewrite transpose_below by lia. apply Hd. lia.
  - exists st', ok. split; [exact E|]. split; [exact Et|]. exists s, g. split; [exact Hm|]. split; [auto|]. split; [exact HO|].
    intro Hok. destruct (HF Hok) as (i & j & s' & g' & Hij & _ & HP & HI & Hlt). exists i, j, s', g'. split; [exact Hij|]. split; [auto|].
    split; [exact HI|]. destruct HI as [_ HR]. destruct (HR ltac:(lia)) as [HG _]. destruct (HG j i ltac:(lia) ltac:(lia)) as [Nj _].
    destruct (number_abs _ Nj) as [Na Ra]. cbn [fops sc_lt sc_abs] in Hlt. apply (lt_num _ _ Na Nt) in Hlt. rewrite Ra in Hlt. exact Hlt.
Qed.

(** Accepted: the factors. *)
Lemma accepted_factors dbg n st a A M st' : let t := f_real (lu_tolerance st) in
  number (lu_tolerance st) -> / 2 ^ 46 <= t -> is_mat n n a A -> numbers n A ->
  (forall i j, (i < n)%nat -> (j < n)%nat -> Rabs (f_real (A i j)) <= M) -> 0 <= M -> 8 * largest n t M <= f_limit ->
  factorise fops dbg true st a = Ok (st', true) ->
  exists s g, is_mat n n (lu_matrix st') g /\ is_vec n (lu_pivots st') s /\ rows_permuted n s /\
    forall i j, (i < n)%nat -> (j < n)%nat -> number (g i j) /\
      ((j < i)%nat -> Rabs (f_real (g i j)) <= multiplier t) /\ ((i <= j)%nat -> Rabs (f_real (g i j)) <= growth t ^ i * M) /\
      t <= Rabs (f_real (g i i)) /\
      Rabs (f_real (A (s i) j) - rsum n (fun k => f_lower g i k * f_upper g k j)) <= element_error n t M.
Proof.
  intros t Nt Ht Ha HA HAM HM HL E. destruct (round_state_cases dbg n st a A M Nt Ht Ha HA HAM HM HL) as (st1 & ok & E1 & _ & s & g & Hm & Hp & HO & _).
  rewrite E in E1. injection E1 as <- <-. destruct (HO eq_refl) as [HD HR]. destruct (HR ltac:(lia)) as [HG Hd]. exists s, g.
  split; [exact Hm|]. split; [exact Hp|]. split; [split; apply HD|]. intros i j Hi Hj. destruct (HG i j Hi Hj) as [N B].
  rewrite Nat.min_l in B by lia. split; [exact N|]. split; [|split; [|split; [auto|]]].
  - intro H. destruct (Nat.ltb_spec j i); [exact B|lia].
  - intro H. destruct (Nat.ltb_spec j i); [lia|exact B].
  - rewrite <- held_factors by auto. apply partial_error; auto.
Qed.

(** Refused: a vector the matrix nearly maps to nothing. *)
Lemma refused_vector dbg n st a A M st' : let t := f_real (lu_tolerance st) in
  number (lu_tolerance st) -> / 2 ^ 46 <= t -> is_mat n n a A -> numbers n A ->
  (forall i j, (i < n)%nat -> (j < n)%nat -> Rabs (f_real (A i j)) <= M) -> 0 <= M -> 8 * largest n t M <= f_limit ->
  factorise fops dbg true st a = Ok (st', false) ->
  exists w k, (k < n)%nat /\ w k = 1 /\ forall r, (r < n)%nat ->
    Rabs (rsum n (fun j => f_real (A r j) * w j)) < t * (1 + / 2 ^ 34) + / 2 ^ 45 + element_error n t M * rsum n (fun j => Rabs (w j)).
Proof.
  intros t Nt Ht Ha HA HAM HM HL E. destruct (round_state_cases dbg n st a A M Nt Ht Ha HA HAM HM HL) as (st1 & ok & E1 & _ & s0 & g0 & _ & _ & _ & HF).
  rewrite E in E1. injection E1 as <- <-. destruct (HF eq_refl) as (i & j & s & g & Hij & HB & [HD HR] & Hlt). clear HF E. fold t in HR, Hlt. clearbody t.
  destruct (HR ltac:(lia)) as [HG Hd].
  assert (Pt : 0 < t) by (apply Rlt_le_trans with (2 := Ht); apply Rinv_0_lt_compat, pow_lt; lra).
  set (h := fun a b => f_real (g a b)).
  assert (HI : lu_inv rops n (held i g) i (fun k => k) h).
  { split; [|split; [|split; [auto|eauto]]].
    - intros p q Hp Hq. reflexivity.
    - intros m Hm Z. specialize (Hd m Hm). unfold h in Z. cbn [rops sc_zero] in Z. rewrite Z, Rabs_R0 in Hd. lra. }
  destruct (column_vector rops Ropp Rinv R_field n (held i g) i (fun k => k) h) as (w & Wi & Wz & HW); [lia|exact HI|].
  exists w, i. split; [lia|]. split; [exact Wi|]. intros r Hr. pose proof HD as (_ & _ & Hsur). destruct (Hsur r Hr) as (p & Hp & <-).
  specialize (HW p Hp). cbn [rops sc_zero sc_add sc_mul] in HW.
  assert (HP : Rabs (rsum n (fun b => held i g p b * w b)) < t * (1 + / 2 ^ 34) + / 2 ^ 45).
  { rewrite HW. destruct (Nat.ltb_spec p i).
    - rewrite Rabs_R0, p34, p45. lra.
    - unfold h. assert (HN : near_f (Rabs (f_real (g p i))) (Rabs (f_real (g j i)))).
      { apply HB; [|lia]. intros k Hk. destruct (HG k i ltac:(lia) ltac:(lia)) as [N B]. split; [exact N|].
        rewrite Nat.min_r, Nat.ltb_irrefl in B by lia. pose proof (largest_le n t M i Ht HM ltac:(lia)) as H1.
        pose proof (largest_pos n t M Ht HM) as H2. set (X := Rabs (f_real (g k i))) in *. set (Y := growth t ^ i * M) in *.
        set (Z := largest n t M) in *. clearbody X Y Z. clear - B H1 H2 HL. lra. }
      unfold near_f in HN. rewrite p34, p45 in *. lra. }
  replace (rsum n (fun b => f_real (A (s p) b) * w b)) with
    (rsum n (fun b => held i g p b * w b) + rsum n (fun b => (f_real (A (s p) b) - held i g p b) * w b)).
  2:{ rewrite <- rsum_plus. apply asum_ext. intros b Hb. ring. }
  apply Rle_lt_trans with (1 := Rabs_triang _ _). apply Rplus_lt_le_compat; [exact HP|].
  apply Rle_trans with (1 := rsum_abs _ _). rewrite <- rsum_scale. apply rsum_le. intros b Hb. rewrite Rabs_mult.
  apply Rmult_le_compat_r; [apply Rabs_pos|]. apply partial_error; auto. lia.
Qed.

(* ------------------------------------------------------------------ solving *)

(** Bound of the residual for a solution with the sum [Z] of magnitudes. *)
Definition solve_error (n : nat) (t M Z : R) : R :=
  f_gamma (3 * n) * (INR n * multiplier t * largest n t M * Z) +
  (1 + f_u) ^ (2 * n) * f_eta * (INR n + (INR n + largest n t M) * (INR n * multiplier t + Z)).

(** Growth of the solution per row of the back substitution. *)
Definition spread (n : nat) (t M : R) : R := 2 * (1 + 2 * INR n) * (1 + largest n t M) / t.

Lemma forward_bound n t M A s g B K y : / 2 ^ 46 <= t -> grown n t M n g -> dool fops n A n s g ->
  (forall i, (i < n)%nat -> number (B i) /\ Rabs (f_real (B i)) <= K) -> t <= K -> 8 * largest n t K <= f_limit ->
  (forall i, (i < n)%nat -> y i = rdiff fops (B (s i)) i (fun j => SFmul 53 1024 (g i j) (y j))) ->
  forall i, (i < n)%nat -> number (y i) /\ Rabs (f_real (y i)) <= growth t ^ i * K.
Proof.
  intros Ht HG (_ & Hs & _) HB HK HL Hy.
  assert (PK : 0 <= K).
  { apply Rle_trans with t; auto. apply Rle_trans with (2 := Ht). apply Rlt_le, Rinv_0_lt_compat, pow_lt. lra. }
  assert (H : forall k i, (i < k)%nat -> (i < n)%nat -> number (y i) /\ Rabs (f_real (y i)) <= growth t ^ i * K).
  { induction k as [|k IH]; intros i Hk Hi; [lia|]. rewrite Hy by auto.
    assert (HI : forall m, (m <= i)%nat -> let v := rdiff fops (B (s i)) m (fun j => SFmul 53 1024 (g i j) (y j)) in
      number v /\ Rabs (f_real v) <= growth t ^ m * K).
    { induction m as [|m IHm]; intro Hm; cbn [rdiff pow].
      - rewrite Rmult_1_l. apply HB, Hs, Hi.
      - cbn [fops sc_sub]. fold fops. rewrite Rmult_assoc. destruct (IHm ltac:(lia)) as [Nv Bv]. destruct (IH m ltac:(lia) ltac:(lia)) as [Ny By].
        destruct (HG i m Hi ltac:(lia)) as [Ng Bg]. rewrite Nat.min_l in Bg by lia. destruct (Nat.ltb_spec m i); [|lia].
        apply difference_ok; auto.
        + apply Rle_trans with (1 * K); [lra|]. apply Rmult_le_compat_r; auto. apply growth_one; auto.
        + apply Rle_trans with (2 := HL). apply Rmult_le_compat_l; [lra|]. apply largest_le; auto. lia. }
    apply HI. lia. }
  intros i Hi. apply (H (S i)); auto.
Qed.

(** One difference of the back substitution. *)
Lemma back_difference P v c z m : number v -> number c -> number z -> 0 <= m <= 2 ^ 50 -> / 2 ^ 46 <= P ->
  Rabs (f_real v) <= (1 + 2 * m) * P -> Rabs (f_real c * f_real z) <= P -> (8 + 4 * m) * P <= f_limit ->
  let r := SFsub 53 1024 v (SFmul 53 1024 c z) in number r /\ Rabs (f_real r) <= (1 + 2 * (m + 1)) * P.
Proof.
  intros [Vv Fv] [Vc Fc] [Vz Fz] Hm HP Hv Hcz HL r.
  assert (PP : 0 < P) by (apply Rlt_le_trans with (2 := HP); apply Rinv_0_lt_compat, pow_lt; lra).
  assert (Het : f_eta <= P / 1000000000000).
  { pose proof eta_num. rewrite p46 in HP. lra. }
  set (Q := m * P) in *. assert (HQ : 0 <= Q <= 1125899906842624 * P).
  { unfold Q. replace (2 ^ 50) with 1125899906842624 in Hm by ring. split; [apply Rmult_le_pos; lra|apply Rmult_le_compat_r; lra]. }
  replace ((1 + 2 * m) * P) with (P + 2 * Q) in Hv by (unfold Q; ring). replace ((8 + 4 * m) * P) with (8 * P + 4 * Q) in HL by (unfold Q; ring).
  replace ((1 + 2 * (m + 1)) * P) with (3 * P + 2 * Q) by (unfold Q; ring). clearbody Q.
  assert (Fp : f_finite (SFmul 53 1024 c z) = true) by (apply f_mul_finite; auto; lra).
  assert (Vp : f_valid (SFmul 53 1024 c z)) by (apply f_mul_valid; auto).
  destruct (f_mul_error c z Vc Vz Fp) as (_ & _ & d & e & Hd & He & E).
  assert (Hpp : Rabs (f_real (SFmul 53 1024 c z)) <= P * (1 + f_u) + f_eta).
  { rewrite E. apply Rle_trans with (1 := Rabs_triang _ _). apply Rplus_le_compat; auto. apply Rabs_mul_le; auto.
    apply Rle_trans with (1 := Rabs_triang _ _). rewrite Rabs_R1. lra. }
  assert (Hd1 : Rabs (f_real v - f_real (SFmul 53 1024 c z)) <= P + 2 * Q + (P * (1 + f_u) + f_eta)).
  { unfold Rminus. apply Rle_trans with (1 := Rabs_triang _ _). rewrite Rabs_Ropp. lra. }
  rewrite u_num in Hd1.
  assert (Fr : f_finite r = true) by (apply f_sub_finite; auto; lra).
  split; [split; [apply f_sub_valid; auto|exact Fr]|].
  destruct (f_sub_error v (SFmul 53 1024 c z) Vv Vp Fr) as (d2 & Hd2 & E2). unfold r. rewrite E2.
  assert (H2 : Rabs ((f_real v - f_real (SFmul 53 1024 c z)) * (1 + d2)) <= (P + 2 * Q + (P * (1 + 1 / 9007199254740992) + f_eta)) * (1 + f_u)).
  { apply Rabs_mul_le; auto. apply Rle_trans with (1 := Rabs_triang _ _). rewrite Rabs_R1. lra. }
  rewrite u_num in H2. lra.
Qed.

Lemma spread_eq n t M : / 2 ^ 46 <= t -> spread n t M * t = 2 * (1 + 2 * INR n) * (1 + largest n t M).
Proof.
  intro Ht. unfold spread. field. assert (0 < / 2 ^ 46) by (apply Rinv_0_lt_compat, pow_lt; lra). lra.
Qed.

Lemma backward_bound n t M g Y y z : / 2 ^ 46 <= t -> 0 <= M -> grown n t M n g -> (forall i, (i < n)%nat -> t <= Rabs (f_real (g i i))) ->
  (forall i, (i < n)%nat -> number (y i) /\ Rabs (f_real (y i)) <= Y) -> / 2 ^ 46 <= Y -> INR n <= 2 ^ 50 ->
  8 * (1 + t) * (spread n t M ^ n * Y) <= f_limit ->
  (forall i, (i < n)%nat ->
    z i = SFdiv 53 1024 (rdiff fops (y i) (n - (i + 1)) (fun k => SFmul 53 1024 (g i (i + 1 + k)%nat) (z (i + 1 + k)%nat))) (g i i)) ->
  forall i, (i < n)%nat -> number (z i) /\ Rabs (f_real (z i)) <= spread n t M ^ (n - i) * Y.
Proof.
  intros Ht HM HG Hd Hy HY Hn HL Hz.
  assert (P46 : 0 < / 2 ^ 46) by (apply Rinv_0_lt_compat, pow_lt; lra).
  assert (PW := spread_eq n t M Ht). pose proof (largest_pos n t M Ht HM) as PG. set (W := spread n t M) in *.
  assert (HU : forall a b, (a <= b < n)%nat -> number (g a b) /\ Rabs (f_real (g a b)) <= largest n t M).
  { intros a b Hab. destruct (HG a b ltac:(lia) ltac:(lia)) as [N B]. rewrite Nat.min_l in B by lia. destruct (Nat.ltb_spec b a); [lia|].
    split; [exact N|]. apply Rle_trans with (1 := B). apply largest_le; auto. lia. }
  intros i0 Hi0.
  assert (HtG : t <= largest n t M).
  { apply Rle_trans with (1 := Hd i0 Hi0). apply HU. lia. }
  set (G := largest n t M) in *. clearbody G W. pose proof (pos_INR n) as Pn.
  assert (W1 : 1 <= W).
  { apply (Rmult_le_reg_r t); [lra|]. rewrite PW. assert (0 <= INR n * G) by (apply Rmult_le_pos; lra). lra. }
  assert (HW : forall d d', (d <= d')%nat -> W ^ d * Y <= W ^ d' * Y).
  { intros d d' H. apply Rmult_le_compat_r; [lra|]. apply Rle_pow; auto. }
  assert (HI : forall d i, (n - i <= d)%nat -> (i < n)%nat -> number (z i) /\ Rabs (f_real (z i)) <= W ^ (n - i) * Y).
  { induction d as [|d IH]; intros i Hdi Hi; [lia|]. rewrite Hz by auto.
    set (b := W ^ (n - i - 1) * Y). assert (Hb : Y <= b) by (unfold b; pose proof (HW 0%nat (n - i - 1)%nat ltac:(lia)) as H; cbn [pow] in H; lra).
    assert (Eb : W ^ (n - i) * Y = W * b).
    { unfold b. replace (n - i)%nat with (S (n - i - 1)) at 1 by lia. cbn [pow]. ring. }
    assert (Hbn : W * b <= W ^ n * Y) by (rewrite <- Eb; apply HW; lia).
    assert (Hzj : forall j, (i < j < n)%nat -> number (z j) /\ Rabs (f_real (z j)) <= b).
    { intros j Hj. destruct (IH j ltac:(lia) ltac:(lia)) as [N B]. split; [exact N|]. apply Rle_trans with (1 := B). apply HW. lia. }
    set (P := (1 + G) * b). assert (HP : Y <= P).
    { unfold P. assert (0 <= G * b) by (apply Rmult_le_pos; lra). lra. }
    assert (HnP : W * b * t = 2 * (1 + 2 * INR n) * P).
    { transitivity (W * t * b); [ring|]. rewrite PW. unfold P. ring. }
    assert (HLP : (8 + 8 * INR n) * P <= f_limit).
    { apply Rle_trans with (2 := HL). assert (Ht1 : W * b * t <= W ^ n * Y * t) by (apply Rmult_le_compat_r; lra).
      assert (0 <= INR n * P) by (apply Rmult_le_pos; lra). assert (0 <= W ^ n * Y) by (apply Rmult_le_pos; [apply pow_le; lra|lra]). lra. }
    assert (HI : forall m, (m <= n - (i + 1))%nat ->
      let v := rdiff fops (y i) m (fun k => SFmul 53 1024 (g i (i + 1 + k)%nat) (z (i + 1 + k)%nat)) in
      number v /\ Rabs (f_real v) <= (1 + 2 * INR m) * P).
    { induction m as [|m IHm]; intro Hm; cbn [rdiff].
      - destruct (Hy i Hi) as [N B]. split; [exact N|]. cbn [INR]. lra.
      - cbn [fops sc_sub]. fold fops. destruct (IHm ltac:(lia)) as [Nv Bv]. destruct (Hzj (i + 1 + m)%nat ltac:(lia)) as [Nz Bz].
        destruct (HU i (i + 1 + m)%nat ltac:(lia)) as [Ng Bg]. rewrite S_INR. assert (Hmn : INR m <= INR n) by (apply le_INR; lia).
        assert (0 <= INR m) by apply pos_INR.
        apply back_difference; auto; try lra.
        + apply Rle_trans with (1 := Rabs_mul_le _ _ _ _ Bg Bz). unfold P. lra.
        + apply Rle_trans with (2 := HLP). apply Rmult_le_compat_r; lra. }
    destruct (HI (n - (i + 1))%nat ltac:(lia)) as [Nv Bv].
    set (v := rdiff fops (y i) (n - (i + 1)) (fun k => SFmul 53 1024 (g i (i + 1 + k)%nat) (z (i + 1 + k)%nat))) in *. clearbody v.
    assert (Bv' : Rabs (f_real v) <= (1 + 2 * INR n) * P).
    { apply Rle_trans with (1 := Bv). apply Rmult_le_compat_r; [lra|]. assert (INR (n - (i + 1)) <= INR n) by (apply le_INR; lia). lra. }
    destruct (HU i i ltac:(lia)) as [[Vg Fg] _]. destruct Nv as [Vv Fv]. specialize (Hd i Hi).
    assert (Ny : f_real (g i i) <> 0). { intro E0. rewrite E0, Rabs_R0 in Hd. lra. }
    assert (Bq : Rabs (f_real v / f_real (g i i)) <= W * b / 2).
    { unfold Rdiv at 1. rewrite Rabs_mult, Rabs_inv. apply (Rmult_le_reg_r (Rabs (f_real (g i i)))); [lra|].
      rewrite Rmult_assoc, Rinv_l by lra. rewrite Rmult_1_r. apply Rle_trans with (W * b / 2 * t); [lra|].
      apply Rmult_le_compat_l; [|exact Hd]. assert (0 <= W * b) by (apply Rmult_le_pos; lra). lra. }
    assert (HWb : W * b <= f_limit).
    { apply Rle_trans with (1 := Hbn). apply Rle_trans with (2 := HL). assert (0 <= W ^ n * Y) by (apply Rmult_le_pos; [apply pow_le; lra|lra]).
      assert (0 <= t * (W ^ n * Y)) by (apply Rmult_le_pos; lra). lra. }
    assert (HWb1 : b <= W * b) by (apply Rle_trans with (1 * b); [lra|apply Rmult_le_compat_r; lra]).
    assert (FQ : f_finite (SFdiv 53 1024 v (g i i)) = true) by (apply f_div_finite; auto; lra).
    split; [split; [apply f_div_valid; auto|exact FQ]|]. rewrite Eb.
    destruct (f_div_round v (g i i) Vv Vg Fg FQ) as (_ & _ & E). rewrite E.
    destruct (rnd_error (f_real v / f_real (g i i))) as (d1 & e & Hd1 & He & ->).
    apply Rle_trans with (1 := Rabs_triang _ _).
    assert (H1 : Rabs (f_real v / f_real (g i i) * (1 + d1)) <= W * b / 2 * (1 + f_u)).
    { apply Rabs_mul_le; auto. apply Rle_trans with (1 := Rabs_triang _ _). rewrite Rabs_R1. lra. }
    pose proof eta_num. rewrite u_num in H1. rewrite p46 in HY. lra. }
  apply (HI n); auto. lia.
Qed.

Lemma solve_error_ok n t M g z i : / 2 ^ 46 <= t -> 0 <= M -> grown n t M n g -> (i < n)%nat ->
  f_gamma (3 * n) * rsum n (fun k => rsum n (fun j => Rabs (f_lower g i k) * Rabs (f_upper g k j) * Rabs (f_real (z j)))) +
  (1 + f_u) ^ (2 * n) * f_eta *
    (INR n + rsum n (fun k => (INR n + Rabs (f_real (g k k))) * (Rabs (f_lower g i k) + Rabs (f_real (z k))))) <=
  solve_error n t M (rsum n (fun j => Rabs (f_real (z j)))).
Proof.
  intros Ht HM HG Hi. pose proof (multiplier_one t Ht) as Hmu. pose proof (largest_pos n t M Ht HM) as PG. unfold solve_error.
  set (G := largest n t M) in *. set (mu := multiplier t) in *.
  assert (BL : forall k, (k < n)%nat -> Rabs (f_lower g i k) <= mu).
  { intros k Hk. unfold f_lower. destruct (HG i k Hi Hk) as [_ B]. rewrite Nat.min_l in B by lia. destruct (Nat.ltb_spec k i); [exact B|].
    destruct (Nat.eqb_spec k i); [rewrite Rabs_R1; lra|rewrite Rabs_R0; lra]. }
  assert (BU : forall k j, (k < n)%nat -> (j < n)%nat -> Rabs (f_upper g k j) <= G).
  { intros k j Hk Hj. unfold f_upper. destruct (Nat.leb_spec k j); [|rewrite Rabs_R0; exact PG]. destruct (HG k j Hk Hj) as [_ B].
    rewrite Nat.min_l in B by lia. destruct (Nat.ltb_spec j k); [lia|]. apply Rle_trans with (1 := B). apply largest_le; auto. lia. }
  assert (BD : forall k, (k < n)%nat -> Rabs (f_real (g k k)) <= G).
  { intros k Hk. specialize (BU k k Hk Hk). unfold f_upper in BU. rewrite Nat.leb_refl in BU. exact BU. }
  clearbody G mu. set (Z1 := rsum n (fun j => Rabs (f_real (z j)))).
  assert (PZ : 0 <= Z1) by (apply rsum_nonneg; intros; apply Rabs_pos). pose proof (pos_INR n) as Pn. pose proof u_pos. pose proof eta_pos.
  apply Rplus_le_compat.
  - apply Rmult_le_compat_l; [apply gamma_nonneg|]. replace (INR n * mu * G * Z1) with (INR n * (mu * G * Z1)) by ring.
    apply rsum_bound. intros k Hk. unfold Z1. rewrite <- rsum_scale. apply rsum_le. intros j Hj.
    apply Rmult_le_compat_r; [apply Rabs_pos|]. apply Rmult_le_compat; auto using Rabs_pos.
  - apply Rmult_le_compat_l; [apply Rmult_le_pos; [apply pow_le; lra|lra]|]. apply Rplus_le_compat_l.
    apply Rle_trans with (rsum n (fun k => (INR n + G) * (mu + Rabs (f_real (z k))))).
    + apply rsum_le. intros k Hk. specialize (BD k Hk). specialize (BL k Hk). pose proof (Rabs_pos (f_real (g k k))).
      pose proof (Rabs_pos (f_lower g i k)). pose proof (Rabs_pos (f_real (z k))). apply Rmult_le_compat; lra.
    + rewrite rsum_scale. apply Rmult_le_compat_l; [lra|]. rewrite (rsum_plus n (fun _ => mu)). fold Z1.
      apply Rplus_le_compat_r. apply rsum_bound. intros; lra.
Qed.

Lemma solved_system dbg n st a A M st' x b B K : let t := f_real (lu_tolerance st) in
  number (lu_tolerance st) -> / 2 ^ 46 <= t -> is_mat n n a A -> numbers n A ->
  (forall i j, (i < n)%nat -> (j < n)%nat -> Rabs (f_real (A i j)) <= M) -> 0 <= M -> 8 * largest n t M <= f_limit ->
  factorise fops dbg true st a = Ok (st', true) ->
  is_vec n b B -> (forall i, (i < n)%nat -> number (B i) /\ Rabs (f_real (B i)) <= K) -> t <= K -> INR n <= 2 ^ 50 ->
  8 * largest n t K <= f_limit -> 8 * (1 + t) * (spread n t M ^ n * largest n t K) <= f_limit ->
  exists x' d z, lu_solve fops dbg true st' x (Some b) = Ok (x', d) /\ is_vec n x' z /\
    (forall i, (i < n)%nat -> number (z i) /\ Rabs (f_real (z i)) <= spread n t M ^ n * largest n t K) /\
    forall i, (i < n)%nat -> Rabs (f_real (B i) - rsum n (fun j => f_real (A i j) * f_real (z j))) <=
      solve_error n t M (rsum n (fun j => Rabs (f_real (z j)))).
Proof.
  intros t Nt Ht Ha HA HAM HM HL E Hb HB HK Hn HL2 HL3.
  destruct (factorise_dool fops dbg true n st a A st' (F_tol_default dbg) Ha E) as (_ & _ & Hfac & _).
  destruct (round_state_cases dbg n st a A M Nt Ht Ha HA HAM HM HL) as (st1 & ok & E1 & _ & s & g & Hm & Hp & HO & _).
  rewrite E in E1. injection E1 as <- <-. destruct (HO eq_refl) as [HD HR]. destruct (HR ltac:(lia)) as [HG Hd]. clear HO HR. fold t in HG, Hd.
  destruct (solve_ok fops dbg true n st' g s x (Some b) B Hfac Hm (fun _ => Hp) ltac:(discriminate) (proj1 (proj2 HD)) Hb ltac:(discriminate))
    as (x' & y & z & Es & Hz & Hy & Hbk).
  exists x'. eexists. exists z. split; [exact Es|]. split; [exact Hz|]. clear Es. cbn [fops sc_mul sc_div] in Hy, Hbk. fold fops in Hy, Hbk.
  assert (PK : 0 <= K).
  { apply Rle_trans with t; auto. apply Rle_trans with (2 := Ht). apply Rlt_le, Rinv_0_lt_compat, pow_lt. lra. }
  assert (HKL : K <= largest n t K).
  { pose proof (largest_le n t K 0 Ht PK ltac:(lia)) as H. cbn [pow] in H. lra. }
  assert (HyB : forall i, (i < n)%nat -> number (y i) /\ Rabs (f_real (y i)) <= largest n t K).
  { intros i Hi. destruct (forward_bound n t M A s g B K y Ht HG HD HB HK HL2 Hy i Hi) as [N Bd]. split; [exact N|].
    apply Rle_trans with (1 := Bd). apply largest_le; auto. lia. }
  assert (HzB : forall i, (i < n)%nat -> number (z i) /\ Rabs (f_real (z i)) <= spread n t M ^ (n - i) * largest n t K).
  { apply (backward_bound n t M g (largest n t K) y z); auto. apply Rle_trans with (1 := Ht). lra. }
  split.
  - intros i Hi. destruct (HzB i Hi) as [N Bd]. split; [exact N|]. apply Rle_trans with (1 := Bd). apply Rmult_le_compat_r; [lra|].
    apply Rle_pow; [|lia]. apply (Rmult_le_reg_r t); [apply Rlt_le_trans with (2 := Ht); apply Rinv_0_lt_compat, pow_lt; lra|].
    rewrite spread_eq by auto. pose proof (largest_pos n t M Ht HM). pose proof (pos_INR n).
    assert (t <= largest n t M).
    { apply Rle_trans with (1 := Hd i Hi). destruct (HG i i Hi Hi) as [_ Bi]. rewrite Nat.min_l, Nat.ltb_irrefl in Bi by lia.
      apply Rle_trans with (1 := Bi). apply largest_le; auto. lia. }
    assert (0 <= INR n * largest n t M) by (apply Rmult_le_pos; lra). lra.
  - intros r Hr. destruct (proj2 (proj2 HD) r Hr) as (i & Hi & <-).
    apply Rle_trans with (2 := solve_error_ok n t M g z i Ht HM HG Hi).
    apply (solve_residual n A g s (fun i j Hi Hj => proj1 (HA i j Hi Hj)) HD (fun i j Hi Hj => proj2 (proj1 (HG i j Hi Hj))) B y z); auto.
    + intros k Hk. apply HB, Hk.
    + intros k Hk. apply HzB, Hk.
Qed.

(* ------------------------------------------------------------------ well conditioned matrices *)

(** The matrix maps no vector to anything much smaller than [sigma] times its largest component. *)
Definition conditioned (n : nat) (A : nat -> nat -> f64) (sigma : R) : Prop :=
  forall (w : nat -> R) k, (k < n)%nat -> exists r, (r < n)%nat /\ sigma * Rabs (w k) <= Rabs (rsum n (fun j => f_real (A r j) * w j)).

Lemma largest_component n (w : nat -> R) : (0 < n)%nat -> exists k, (k < n)%nat /\ forall j, (j < n)%nat -> Rabs (w j) <= Rabs (w k).
Proof.
  induction n as [|n IH]; [lia|]. intros _. destruct (Nat.eq_dec n 0) as [->|Hn].
  - exists 0%nat. split; [lia|]. intros j Hj. replace j with 0%nat by lia. lra.
  - destruct (IH ltac:(lia)) as (k & Hk & H). destruct (Rle_dec (Rabs (w n)) (Rabs (w k))) as [Hle|Hgt].
    + exists k. split; [lia|]. intros j Hj. destruct (Nat.eq_dec j n) as [->|]; [exact Hle|apply H; lia].
    + exists n. split; [lia|]. intros j Hj. destruct (Nat.eq_dec j n) as [->|]; [lra|]. specialize (H j ltac:(lia)). lra.
Qed.

Lemma element_error_pos n t M : / 2 ^ 46 <= t -> 0 <= M -> 0 <= element_error n t M.
Proof.
  intros Ht HM. pose proof (multiplier_one t Ht). pose proof (largest_pos n t M Ht HM). pose proof (gamma_nonneg n). pose proof (pos_INR n).
  pose proof u_pos. pose proof eta_pos. unfold element_error. apply Rplus_le_le_0_compat.
  - apply Rmult_le_pos; [lra|]. apply Rmult_le_pos; [|lra]. apply Rmult_le_pos; lra.
  - apply Rmult_le_pos; [apply Rmult_le_pos; [apply pow_le; lra|lra]|lra].
Qed.

Lemma conditioned_accepted dbg n st a A M sigma : let t := f_real (lu_tolerance st) in
  number (lu_tolerance st) -> / 2 ^ 46 <= t -> is_mat n n a A -> numbers n A ->
  (forall i j, (i < n)%nat -> (j < n)%nat -> Rabs (f_real (A i j)) <= M) -> 0 <= M -> 8 * largest n t M <= f_limit ->
  conditioned n A sigma -> t * (1 + / 2 ^ 34) + / 2 ^ 45 + INR n * element_error n t M <= sigma ->
  exists st', factorise fops dbg true st a = Ok (st', true).
Proof.
  intros t Nt Ht Ha HA HAM HM HL HC HS. destruct (round_state_cases dbg n st a A M Nt Ht Ha HA HAM HM HL) as (st' & [] & E & _); [eauto|].
  exfalso. destruct (refused_vector dbg n st a A M st' Nt Ht Ha HA HAM HM HL E) as (w & k & Hk & Hw & HR). fold t in HR.
  destruct (largest_component n w ltac:(lia)) as (m & Hm & Hmax). destruct (HC w m Hm) as (r & Hr & Hc). specialize (HR r Hr).
  assert (H1 : 1 <= Rabs (w m)) by (specialize (Hmax k Hk); rewrite Hw, Rabs_R1 in Hmax; exact Hmax).
  assert (H2 : rsum n (fun j => Rabs (w j)) <= INR n * Rabs (w m)) by (apply rsum_bound; auto).
  pose proof (element_error_pos n t M Ht HM) as H3. set (e := element_error n t M) in *.
  assert (H4 : e * rsum n (fun j => Rabs (w j)) <= e * (INR n * Rabs (w m))) by (apply Rmult_le_compat_l; auto).
  assert (H5 : (t * (1 + / 2 ^ 34) + / 2 ^ 45 + INR n * e) * Rabs (w m) <= sigma * Rabs (w m)) by (apply Rmult_le_compat_r; lra).
  assert (H6 : 0 <= t * (1 + / 2 ^ 34) + / 2 ^ 45) by (rewrite p46 in Ht; rewrite p34, p45; lra).
  assert (H7 : (t * (1 + / 2 ^ 34) + / 2 ^ 45) * 1 <= (t * (1 + / 2 ^ 34) + / 2 ^ 45) * Rabs (w m)) by (apply Rmult_le_compat_l; auto).
  set (T := t * (1 + / 2 ^ 34) + / 2 ^ 45) in *. clearbody T e. lra.
Qed.

Lemma conditioned_close n A sigma (B x z : nat -> R) e : 0 < sigma -> conditioned n A sigma ->
  (forall i, (i < n)%nat -> rsum n (fun j => f_real (A i j) * x j) = B i) ->
  (forall i, (i < n)%nat -> Rabs (B i - rsum n (fun j => f_real (A i j) * z j)) <= e) ->
  forall k, (k < n)%nat -> Rabs (x k - z k) <= e / sigma.
Proof.
  intros Hs HC Hx Hz k Hk. destruct (HC (fun j => x j - z j) k Hk) as (r & Hr & H). specialize (Hz r Hr). rewrite <- (Hx r Hr) in Hz.
  apply (Rmult_le_reg_r sigma); [exact Hs|]. unfold Rdiv. rewrite (Rmult_assoc e), Rinv_l by lra. rewrite Rmult_1_r.
  apply Rle_trans with (sigma * Rabs (x k - z k)); [lra|]. apply Rle_trans with (1 := H). apply Rle_trans with (2 := Hz). apply Req_le. f_equal.
  rewrite <- rsum_minus. apply asum_ext. intros j Hj. ring.
Qed.

Lemma rsum_apart n k f : (k < n)%nat -> rsum n f = f k + rsum n (fun j => if (j =? k)%nat then 0 else f j).
Proof.
  induction n as [|n IH]; [lia|]. intro Hk. cbn [asum]. destruct (Nat.eq_dec k n) as [->|Hne].
  - rewrite Nat.eqb_refl. rewrite (asum_ext _ _ n (fun j => if (j =? n)%nat then 0 else f j) f); [lra|].
    intros j Hj. destruct (Nat.eqb_spec j n); [lia|auto].
  - rewrite IH by lia. destruct (Nat.eqb_spec n k); [lia|]. lra.
Qed.

(** Every column has a row it dominates by [sigma]. *)
Definition dominated (n : nat) (A : nat -> nat -> f64) (sigma : R) : Prop :=
  forall k, (k < n)%nat -> exists r, (r < n)%nat /\
    sigma + rsum n (fun j => if (j =? k)%nat then 0 else Rabs (f_real (A r j))) <= Rabs (f_real (A r k)).

Lemma dominated_conditioned n A sigma : 0 <= sigma -> dominated n A sigma -> conditioned n A sigma.
Proof.
  intros Hs HD w k Hk. destruct (largest_component n w ltac:(lia)) as (m & Hm & Hmax). destruct (HD m Hm) as (r & Hr & H). exists r. split; [exact Hr|].
  rewrite (rsum_apart n m) by auto. set (S0 := rsum n (fun j => if (j =? m)%nat then 0 else f_real (A r j) * w j)).
  assert (HS : Rabs S0 <= Rabs (w m) * rsum n (fun j => if (j =? m)%nat then 0 else Rabs (f_real (A r j)))).
  { apply Rle_trans with (1 := rsum_abs _ _). rewrite <- rsum_scale. apply rsum_le. intros j Hj. destruct (Nat.eqb_spec j m).
    - rewrite Rabs_R0, Rmult_0_r. lra.
    - rewrite Rabs_mult, Rmult_comm. apply Rmult_le_compat_r; [apply Rabs_pos|auto]. }
  apply (Rmult_le_compat_l (Rabs (w m))) in H; [|apply Rabs_pos].
  assert (H1 : sigma * Rabs (w k) <= sigma * Rabs (w m)) by (apply Rmult_le_compat_l; auto).
  pose proof (Rabs_triang (f_real (A r m) * w m + S0) (- S0)) as H2. rewrite Rabs_Ropp in H2.
  replace (f_real (A r m) * w m + S0 + - S0) with (f_real (A r m) * w m) in H2 by ring. rewrite Rabs_mult in H2.
  rewrite (Rmult_comm (Rabs (w m)) (sigma + _)), Rmult_plus_distr_r in H. lra.
Qed.

(** A well conditioned system from the matrix to the solution. *)
Lemma conditioned_solved dbg n st a A M sigma x b B K : let t := f_real (lu_tolerance st) in
  number (lu_tolerance st) -> / 2 ^ 46 <= t -> is_mat n n a A -> numbers n A ->
  (forall i j, (i < n)%nat -> (j < n)%nat -> Rabs (f_real (A i j)) <= M) -> 0 <= M -> 8 * largest n t M <= f_limit ->
  conditioned n A sigma -> t * (1 + / 2 ^ 34) + / 2 ^ 45 + INR n * element_error n t M <= sigma ->
  is_vec n b B -> (forall i, (i < n)%nat -> number (B i) /\ Rabs (f_real (B i)) <= K) -> t <= K -> INR n <= 2 ^ 50 ->
  8 * largest n t K <= f_limit -> 8 * (1 + t) * (spread n t M ^ n * largest n t K) <= f_limit ->
  exists st' x' d z, factorise fops dbg true st a = Ok (st', true) /\ lu_solve fops dbg true st' x (Some b) = Ok (x', d) /\
    is_vec n x' z /\ (forall i, (i < n)%nat -> number (z i)) /\
    forall e : nat -> R, (forall i, (i < n)%nat -> rsum n (fun j => f_real (A i j) * e j) = f_real (B i)) ->
      forall k, (k < n)%nat -> Rabs (e k - f_real (z k)) <= solve_error n t M (rsum n (fun j => Rabs (f_real (z j)))) / sigma.
Proof.
  intros t Nt Ht Ha HA HAM HM HL HC HS Hb HB HK Hn HL2 HL3.
  destruct (conditioned_accepted dbg n st a A M sigma Nt Ht Ha HA HAM HM HL HC HS) as (st' & E).
  destruct (solved_system dbg n st a A M st' x b B K Nt Ht Ha HA HAM HM HL E Hb HB HK Hn HL2 HL3) as (x' & d & z & Es & Hz & HN & HR).
  exists st', x', d, z. split; [exact E|]. split; [exact Es|]. split; [exact Hz|]. split; [intros i Hi; apply HN, Hi|]. intros e He.
  apply (conditioned_close n A sigma (fun i => f_real (B i)) e (fun j => f_real (z j))); auto.
  apply Rlt_le_trans with (2 := HS). pose proof (element_error_pos n t M Ht HM). pose proof (pos_INR n).
  assert (0 <= INR n * element_error n t M) by (apply Rmult_le_pos; auto). rewrite p46 in Ht. rewrite p34, p45. fold t. lra.
Qed.

Lemma always_ends dbg n st a A M : let t := f_real (lu_tolerance st) in
  number (lu_tolerance st) -> / 2 ^ 46 <= t -> is_mat n n a A -> numbers n A ->
  (forall i j, (i < n)%nat -> (j < n)%nat -> Rabs (f_real (A i j)) <= M) -> 0 <= M -> 8 * largest n t M <= f_limit ->
  exists st' ok, factorise fops dbg true st a = Ok (st', ok).
Proof.
  intros t Nt Ht Ha HA HAM HM HL. destruct (round_state_cases dbg n st a A M Nt Ht Ha HA HAM HM HL) as (st' & ok & E & _). eauto.
Qed.

(** The systems the results speak about: a tolerance of at least [/ 2 ^ 46], the default, elements up to [M] and room for the growth. *)
Definition admissible (n : nat) (st : lu_state f64) (a : list (list f64)) (A : nat -> nat -> f64) (M : R) : Prop :=
  number (lu_tolerance st) /\ / 2 ^ 46 <= f_real (lu_tolerance st) /\ is_mat n n a A /\ numbers n A /\
  (forall i j, (i < n)%nat -> (j < n)%nat -> Rabs (f_real (A i j)) <= M) /\ 0 <= M /\
  8 * largest n (f_real (lu_tolerance st)) M <= f_limit.

(** Right sides up to [K] for which no intermediate result of the substitutions can leave the doubles. *)
Definition solvable (n : nat) (t M : R) (b : list f64) (B : nat -> f64) (K : R) : Prop :=
  is_vec n b B /\ (forall i, (i < n)%nat -> number (B i) /\ Rabs (f_real (B i)) <= K) /\ t <= K /\ INR n <= 2 ^ 50 /\
  8 * largest n t K <= f_limit /\ 8 * (1 + t) * (spread n t M ^ n * largest n t K) <= f_limit.

Lemma pivot_near dbg n m g i j : is_mat n n m g -> (i < n)%nat -> lu_search fops dbg m i = Ok j ->
  (forall k, (i <= k < n)%nat -> number (g k i) /\ 2 * Rabs (f_real (g k i)) <= f_limit) ->
  forall k, (i <= k < n)%nat -> Rabs (f_real (g k i)) <= Rabs (f_real (g j i)) * (1 + / 2 ^ 34) + / 2 ^ 45.
Proof. intros Hm Hi E. exact (search_best_f dbg n m g i j Hm Hi E). Qed.

Lemma ends_ok dbg n st a A M : admissible n st a A M -> exists st' ok, factorise fops dbg true st a = Ok (st', ok).
Proof. intros (H1 & H2 & H3 & H4 & H5 & H6 & H7). exact (always_ends dbg n st a A M H1 H2 H3 H4 H5 H6 H7). Qed.

Lemma factors_ok dbg n st a A M st' : admissible n st a A M -> factorise fops dbg true st a = Ok (st', true) ->
  let t := f_real (lu_tolerance st) in
  exists s g, is_mat n n (lu_matrix st') g /\ is_vec n (lu_pivots st') s /\ rows_permuted n s /\
    forall i j, (i < n)%nat -> (j < n)%nat -> number (g i j) /\
      ((j < i)%nat -> Rabs (f_real (g i j)) <= multiplier t) /\ ((i <= j)%nat -> Rabs (f_real (g i j)) <= growth t ^ i * M) /\
      t <= Rabs (f_real (g i i)) /\
      Rabs (f_real (A (s i) j) - rsum n (fun k => f_lower g i k * f_upper g k j)) <= element_error n t M.
Proof. intros (H1 & H2 & H3 & H4 & H5 & H6 & H7) E. exact (accepted_factors dbg n st a A M st' H1 H2 H3 H4 H5 H6 H7 E). Qed.

Lemma refused_ok dbg n st a A M st' : admissible n st a A M -> factorise fops dbg true st a = Ok (st', false) ->
  let t := f_real (lu_tolerance st) in
  exists w k, (k < n)%nat /\ w k = 1 /\ forall r, (r < n)%nat ->
    Rabs (rsum n (fun j => f_real (A r j) * w j)) < t * (1 + / 2 ^ 34) + / 2 ^ 45 + element_error n t M * rsum n (fun j => Rabs (w j)).
Proof. intros (H1 & H2 & H3 & H4 & H5 & H6 & H7) E. exact (refused_vector dbg n st a A M st' H1 H2 H3 H4 H5 H6 H7 E). Qed.

Lemma accepted_ok dbg n st a A M sigma : admissible n st a A M -> conditioned n A sigma ->
  let t := f_real (lu_tolerance st) in t * (1 + / 2 ^ 34) + / 2 ^ 45 + INR n * element_error n t M <= sigma ->
  exists st', factorise fops dbg true st a = Ok (st', true).
Proof. intros (H1 & H2 & H3 & H4 & H5 & H6 & H7) HC t HS. exact (conditioned_accepted dbg n st a A M sigma H1 H2 H3 H4 H5 H6 H7 HC HS). Qed.

Lemma solve_ok_f dbg n st a A M st' x b B K : admissible n st a A M -> factorise fops dbg true st a = Ok (st', true) ->
  let t := f_real (lu_tolerance st) in solvable n t M b B K ->
  exists x' d z, lu_solve fops dbg true st' x (Some b) = Ok (x', d) /\ is_vec n x' z /\
    (forall i, (i < n)%nat -> number (z i) /\ Rabs (f_real (z i)) <= spread n t M ^ n * largest n t K) /\
    forall i, (i < n)%nat -> Rabs (f_real (B i) - rsum n (fun j => f_real (A i j) * f_real (z j))) <=
      solve_error n t M (rsum n (fun j => Rabs (f_real (z j)))).
Proof.
  intros (H1 & H2 & H3 & H4 & H5 & H6 & H7) E t (S1 & S2 & S3 & S4 & S5 & S6).
  exact (solved_system dbg n st a A M st' x b B K H1 H2 H3 H4 H5 H6 H7 E S1 S2 S3 S4 S5 S6).
Qed.

Lemma close_ok dbg n st a A M sigma x b B K : admissible n st a A M -> conditioned n A sigma ->
  let t := f_real (lu_tolerance st) in t * (1 + / 2 ^ 34) + / 2 ^ 45 + INR n * element_error n t M <= sigma -> solvable n t M b B K ->
  exists st' x' d z, factorise fops dbg true st a = Ok (st', true) /\ lu_solve fops dbg true st' x (Some b) = Ok (x', d) /\
    is_vec n x' z /\ (forall i, (i < n)%nat -> number (z i)) /\
    forall e : nat -> R, (forall i, (i < n)%nat -> rsum n (fun j => f_real (A i j) * e j) = f_real (B i)) ->
      forall k, (k < n)%nat -> Rabs (e k - f_real (z k)) <= solve_error n t M (rsum n (fun j => Rabs (f_real (z j)))) / sigma.
Proof.
  intros (H1 & H2 & H3 & H4 & H5 & H6 & H7) HC t HS (S1 & S2 & S3 & S4 & S5 & S6).
  exact (conditioned_solved dbg n st a A M sigma x b B K H1 H2 H3 H4 H5 H6 H7 HC HS S1 S2 S3 S4 S5 S6).
Qed.
