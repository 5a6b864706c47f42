(** The direct solver on doubles. *)
From Coq Require Import ZArith Reals Lra Lia SpecFloat Psatz.
From Verif Require Import Base ListFacts DenseModel DenseFacts ScalarModel GeometryReal LuModel LuFacts LuReal FloatFacts FloatError.

(** The operations that produced each element, for scalars without laws. *)
Section Doolittle.
  Context {S : Type}.
  Variable O : sops S.
  Implicit Types (g A : nat -> nat -> S).

  Definition dool_entry A (s : nat -> nat) g (k a b : nat) : S :=
    let v := rdiff O (A (s a) b) (Nat.min (Nat.min a k) b) (fun m => sc_mul O (g a m) (g m b)) in
    if b <? Nat.min a k then sc_div O v (g b b) else v.

  Definition dool n A (k : nat) (s : nat -> nat) g : Prop :=
    (forall a b, a < n -> b < n -> g a b = dool_entry A s g k a b) /\
    (forall a, a < n -> s a < n) /\ (forall r, r < n -> exists a, a < n /\ s a = r).

  Lemma dool_0 n A : dool n A 0 (fun k => k) A.
  Proof using.
    split; [|split; [auto|eauto]]. intros a b _ _. unfold dool_entry. rewrite Nat.min_0_r. reflexivity.
  Qed.

  Lemma dool_entry_ext A s s' g g' k k' a a' b : s a = s' a' -> Nat.min a k = Nat.min a' k' ->
    (forall m, m < Nat.min (Nat.min a k) b -> g a m = g' a' m /\ g m b = g' m b) ->
    (b < Nat.min a k -> g b b = g' b b) -> dool_entry A s g k a b = dool_entry A s' g' k' a' b.
  Proof using.
    intros Es Em Hg Hb. unfold dool_entry. rewrite <- Es, <- Em.
    rewrite (rdiff_ext O _ _ _ (fun m => sc_mul O (g' a' m) (g' m b))) by (intros m Hm; destruct (Hg m Hm) as [-> ->]; reflexivity).
    destruct (Nat.ltb_spec b (Nat.min a k)); [|reflexivity]. rewrite Hb by auto. reflexivity.
  Qed.

  Lemma dool_step n A i j s g : i <= j < n -> dool n A i s g ->
    dool n A (i + 1) (fun k => s (transpose i j k))
      (fun r c => if i <? r then elim_row O (fun a b => g (transpose i j a) b) i r c else g (transpose i j r) c).
  Proof using.
    intros Hij (HA & Hs & Hr).
    assert (Tb : forall m, m < i -> transpose i j m = m) by (intros; apply transpose_below; lia).
    set (g' := fun a b => g (transpose i j a) b). set (s' := fun k => s (transpose i j k)).
    set (g2 := fun r c => if i <? r then elim_row O g' i r c else g' r c).
    assert (Hlow : forall r c, r <= i -> g2 r c = g' r c).
    { intros r c H. unfold g2. destruct (Nat.ltb_spec i r); [lia|auto]. }
    assert (Hleft : forall r c, c < i -> g2 r c = g' r c).
    { intros r c H. unfold g2, elim_row. destruct (Nat.ltb_spec c i); [|lia]. destruct (i <? r); auto. }
    (* the elements after the exchange *)
    assert (HA' : forall a b, a < n -> b < n -> g' a b = dool_entry A s' g' i a b).
    { intros a b Ha Hb. unfold g' at 1. rewrite HA by (auto; apply transpose_lt; lia). apply dool_entry_ext.
      - reflexivity.
      - unfold transpose. destruct (Nat.eqb_spec a i), (Nat.eqb_spec a j); lia.
      - intros m Hm. unfold g'. rewrite (Tb m) by lia. auto.
      - intro H. unfold g'. rewrite Tb by lia. reflexivity. }
    split; [|split].
    - intros a b Ha Hb. change (g2 a b = dool_entry A s' g2 (i + 1) a b).
      destruct (Nat.le_gt_cases a i) as [Hai|Hai].
      + rewrite Hlow, HA' by auto. apply dool_entry_ext; auto; [lia|..].
        * intros m Hm. rewrite !Hlow by lia. auto.
        * intro H. rewrite Hlow by lia. auto.
      + destruct (lt_eq_lt_dec b i) as [[Hbi| ->]|Hbi].
        * rewrite Hleft, HA' by auto. unfold dool_entry.
          replace (Nat.min a (i + 1)) with (i + 1) by lia. rewrite (Nat.min_r a i), !Nat.min_r by lia.
          destruct (Nat.ltb_spec b i); [|lia]. destruct (Nat.ltb_spec b (i + 1)); [|lia]. rewrite (Hlow b b) by lia. f_equal.
          apply rdiff_ext. intros m Hm. rewrite Hleft, Hlow by lia. reflexivity.
        * assert (E : g' a i = rdiff O (A (s' a) i) i (fun m => sc_mul O (g' a m) (g' m i))).
          { rewrite HA' by lia. unfold dool_entry. rewrite (Nat.min_r a i), Nat.min_id, Nat.ltb_irrefl by lia. reflexivity. }
          unfold dool_entry. replace (Nat.min a (i + 1)) with (i + 1) by lia. rewrite Nat.min_r by lia.
          destruct (Nat.ltb_spec i (i + 1)); [|lia]. rewrite (Hlow i i) by lia.
          unfold g2 at 1. destruct (Nat.ltb_spec i a); [|lia]. unfold elim_row. rewrite Nat.ltb_irrefl, Nat.eqb_refl.
          f_equal. rewrite E. apply rdiff_ext. intros m Hm. rewrite Hleft, Hlow by lia. reflexivity.
        * assert (E : g' a b = rdiff O (A (s' a) b) i (fun m => sc_mul O (g' a m) (g' m b))).
          { rewrite HA' by lia. unfold dool_entry. rewrite (Nat.min_r a i), (Nat.min_l i b) by lia.
            destruct (Nat.ltb_spec b i); [lia|]. reflexivity. }
          unfold dool_entry. replace (Nat.min a (i + 1)) with (i + 1) by lia. rewrite Nat.min_l by lia.
          destruct (Nat.ltb_spec b (i + 1)); [lia|]. rewrite Nat.add_1_r. cbn [rdiff]. rewrite (Hlow i b) by lia.
          assert (E2 : g2 a b = sc_sub O (g' a b) (sc_mul O (g2 a i) (g' i b))).
          { unfold g2. destruct (Nat.ltb_spec i a); [|lia]. unfold elim_row. rewrite Nat.ltb_irrefl, Nat.eqb_refl.
            destruct (Nat.ltb_spec b i); [lia|]. destruct (Nat.eqb_spec b i); [lia|]. reflexivity. }
          rewrite E2. f_equal. rewrite E. apply rdiff_ext. intros m Hm. rewrite Hleft, Hlow by lia. reflexivity.
    - intros a Ha. apply Hs, transpose_lt; lia.
    - intros r Hlt. destruct (Hr r Hlt) as (a & Ha & <-). exists (transpose i j a).
      split; [apply transpose_lt; lia|]. unfold s'. rewrite transpose_invol. reflexivity.
  Qed.

  Lemma factorise_dool dbg pivot n st a A st' : tol_default O dbg -> is_mat n n a A ->
    factorise O dbg pivot st a = Ok (st', true) -> exists s g, lu_factorised st' = true /\ is_mat n n (lu_matrix st') g /\
      (pivot = true -> is_vec n (lu_pivots st') s) /\ (pivot = false -> forall k, s k = k) /\ dool n A n s g.
  Proof using.
    intros T Ha E.
    destruct (factorise_inv O dbg pivot n st a A (dool n A) (fun _ _ _ => True) T Ha
      (fun _ _ _ _ _ _ _ => I) (dool_0 n A)) as (st1 & ok & E1 & Ef & _ & s & g & Hm & Hp & Hid & HI).
    { intros i j s g Hij _ _ HI _. apply dool_step; auto. }
    rewrite E in E1. injection E1 as <- <-. exists s, g. auto 10.
  Qed.
End Doolittle.

Local Open Scope R_scope.

(** The factors as real matrices: L with a unit diagonal, U. *)
Definition f_lower (g : nat -> nat -> f64) (i k : nat) : R :=
  if (k <? i)%nat then f_real (g i k) else if (k =? i)%nat then 1 else 0.

Definition f_upper (g : nat -> nat -> f64) (k j : nat) : R := if (k <=? j)%nat then f_real (g k j) else 0.

Lemma rsum_trunc n k f : (k <= n)%nat -> (forall m, (k <= m < n)%nat -> f m = 0) -> rsum n f = rsum k f.
Proof.
  induction n as [|n IH]; intros H Hz.
  - replace k with 0%nat by lia. reflexivity.
  - destruct (Nat.eq_dec k (S n)) as [->|Hne]; [reflexivity|]. cbn [asum].
    rewrite IH, Hz by (intros; try apply Hz; lia). ring.
Qed.

Lemma rsum_shift n k f : rsum (k + n) f = rsum k f + rsum n (fun m => f (k + m)%nat).
Proof.
  induction n as [|n IH]; [rewrite Nat.add_0_r; cbn [asum]; ring|].
  rewrite Nat.add_succ_r. cbn [asum]. rewrite IH. ring.
Qed.

Lemma rsum_exchange n k (F : nat -> nat -> R) :
  rsum n (fun i => rsum k (fun j => F i j)) = rsum k (fun j => rsum n (fun i => F i j)).
Proof.
  induction n as [|n IH]; cbn [asum]; [symmetry; apply rsum_zero; auto|]. rewrite IH, <- rsum_plus. reflexivity.
Qed.

(** The residual of a solution computed with inexact factors and inexact substitutions. *)
Lemma residual_bound n (A L U : nat -> nat -> R) (b y z phi chi : nat -> R) i ga psi : (i < n)%nat -> 0 <= ga ->
  (forall j, (j < n)%nat -> Rabs (A i j - rsum n (fun k => L i k * U k j)) <= ga * rsum n (fun k => Rabs (L i k * U k j)) + phi j) ->
  Rabs (b i - rsum n (fun k => L i k * y k)) <= ga * rsum n (fun k => Rabs (L i k * y k)) + psi ->
  (forall k, (k < n)%nat -> Rabs (y k - rsum n (fun j => U k j * z j)) <= ga * rsum n (fun j => Rabs (U k j * z j)) + chi k) ->
  Rabs (b i - rsum n (fun j => A i j * z j)) <=
    (3 * ga + ga * ga) * rsum n (fun k => rsum n (fun j => Rabs (L i k) * Rabs (U k j) * Rabs (z j))) +
    psi + rsum n (fun j => phi j * Rabs (z j)) + (1 + ga) * rsum n (fun k => Rabs (L i k) * chi k).
Proof.
  intros Hi Hga HF HY HZ. set (W := rsum n (fun k => rsum n (fun j => Rabs (L i k) * Rabs (U k j) * Rabs (z j)))).
  set (F := fun j => A i j - rsum n (fun k => L i k * U k j)). set (gk := fun k => y k - rsum n (fun j => U k j * z j)).
  set (h := b i - rsum n (fun k => L i k * y k)).
  assert (HW : W = rsum n (fun j => rsum n (fun k => Rabs (L i k * U k j)) * Rabs (z j))).
  { unfold W. rewrite rsum_exchange. apply asum_ext. intros j Hj. rewrite Rmult_comm, <- rsum_scale. apply asum_ext.
    intros k Hk. rewrite Rabs_mult. ring. }
  assert (E : b i - rsum n (fun j => A i j * z j) = h + rsum n (fun k => L i k * gk k) - rsum n (fun j => F j * z j)).
  { unfold h. assert (E1 : rsum n (fun j => A i j * z j) =
      rsum n (fun j => F j * z j) + rsum n (fun k => L i k * rsum n (fun j => U k j * z j))).
    { rewrite (asum_ext _ _ n (fun k => L i k * rsum n (fun j => U k j * z j)) (fun k => rsum n (fun j => L i k * (U k j * z j))))
        by (intros; rewrite rsum_scale; reflexivity).
      rewrite rsum_exchange, <- rsum_plus. apply asum_ext. intros j Hj. unfold F.
      rewrite (asum_ext _ _ n (fun k => L i k * (U k j * z j)) (fun k => z j * (L i k * U k j))) by (intros; ring).
      rewrite rsum_scale. ring. }
    rewrite E1. unfold gk. rewrite (asum_ext _ _ n (fun k => L i k * (y k - rsum n (fun j => U k j * z j)))
      (fun k => L i k * y k - L i k * rsum n (fun j => U k j * z j))) by (intros; ring).
    rewrite rsum_minus. ring. }
  assert (HFz : Rabs (rsum n (fun j => F j * z j)) <= ga * W + rsum n (fun j => phi j * Rabs (z j))).
  { apply Rle_trans with (1 := rsum_abs _ _). rewrite HW, <- rsum_scale, <- rsum_plus. apply rsum_le. intros j Hj.
    rewrite Rabs_mult. specialize (HF j Hj). fold (F j) in HF. apply (Rmult_le_compat_r (Rabs (z j))) in HF; [lra|apply Rabs_pos]. }
  assert (HLg : rsum n (fun k => Rabs (L i k) * Rabs (gk k)) <= ga * W + rsum n (fun k => Rabs (L i k) * chi k)).
  { unfold W. rewrite <- rsum_scale, <- rsum_plus. apply rsum_le. intros k Hk. specialize (HZ k Hk). fold (gk k) in HZ.
    apply (Rmult_le_compat_l (Rabs (L i k))) in HZ; [|apply Rabs_pos].
    rewrite (asum_ext _ _ n (fun j => Rabs (L i k) * Rabs (U k j) * Rabs (z j)) (fun j => Rabs (L i k) * Rabs (U k j * z j)))
      by (intros; rewrite Rabs_mult; ring). rewrite rsum_scale. lra. }
  assert (HLy : rsum n (fun k => Rabs (L i k * y k)) <= W + rsum n (fun k => Rabs (L i k) * Rabs (gk k))).
  { unfold W. rewrite <- rsum_plus. apply rsum_le. intros k Hk. rewrite Rabs_mult.
    replace (y k) with (rsum n (fun j => U k j * z j) + gk k) by (unfold gk; ring).
    rewrite (asum_ext _ _ n (fun j => Rabs (L i k) * Rabs (U k j) * Rabs (z j)) (fun j => Rabs (L i k) * Rabs (U k j * z j)))
      by (intros; rewrite Rabs_mult; ring). rewrite rsum_scale, <- Rmult_plus_distr_l.
    apply Rmult_le_compat_l; [apply Rabs_pos|]. apply Rle_trans with (1 := Rabs_triang _ _). apply Rplus_le_compat_r, rsum_abs. }
  fold h in HY. rewrite E. unfold Rminus. apply Rle_trans with (1 := Rabs_triang _ _). rewrite Rabs_Ropp.
  apply Rle_trans with (Rabs h + Rabs (rsum n (fun k => L i k * gk k)) + Rabs (rsum n (fun j => F j * z j)));
    [apply Rplus_le_compat_r, Rabs_triang|].
  assert (HLg' : Rabs (rsum n (fun k => L i k * gk k)) <= rsum n (fun k => Rabs (L i k) * Rabs (gk k))).
  { apply Rle_trans with (1 := rsum_abs _ _). apply rsum_le. intros k Hk. rewrite Rabs_mult. apply Rle_refl. }
  apply (Rmult_le_compat_l ga) in HLy; [|exact Hga].
  pose proof (Rmult_le_compat_l ga _ _ Hga HLg). lra.
Qed.

Lemma lower_sum n g i h : (i < n)%nat ->
  rsum n (fun k => f_lower g i k * h k) = rsum i (fun k => f_real (g i k) * h k) + h i.
Proof.
  intro Hi. rewrite (rsum_trunc n (S i)); [|lia|].
  - cbn [asum]. unfold f_lower at 2. rewrite Nat.ltb_irrefl, Nat.eqb_refl. rewrite Rmult_1_l. f_equal.
    apply asum_ext. intros k Hk. unfold f_lower. destruct (Nat.ltb_spec k i); [auto|lia].
  - intros m Hm. unfold f_lower. destruct (Nat.ltb_spec m i); [lia|]. destruct (Nat.eqb_spec m i); [lia|]. ring.
Qed.

Lemma lower_sum_abs n g i h : (i < n)%nat ->
  rsum n (fun k => Rabs (f_lower g i k * h k)) = rsum i (fun k => Rabs (f_real (g i k) * h k)) + Rabs (h i).
Proof.
  intro Hi. rewrite (rsum_trunc n (S i)); [|lia|].
  - cbn [asum]. unfold f_lower at 2. rewrite Nat.ltb_irrefl, Nat.eqb_refl. rewrite Rmult_1_l. f_equal.
    apply asum_ext. intros k Hk. unfold f_lower. destruct (Nat.ltb_spec k i); [auto|lia].
  - intros m Hm. unfold f_lower. destruct (Nat.ltb_spec m i); [lia|]. destruct (Nat.eqb_spec m i); [lia|].
    rewrite Rmult_0_l. apply Rabs_R0.
Qed.

Lemma upper_sum n g i h : (i < n)%nat ->
  rsum n (fun j => f_upper g i j * h j) =
  f_real (g i i) * h i + rsum (n - (i + 1)) (fun k => f_real (g i (i + 1 + k)%nat) * h (i + 1 + k)%nat).
Proof.
  intro Hi. replace n with (i + 1 + (n - (i + 1)))%nat at 1 by lia. rewrite rsum_shift. f_equal.
  - rewrite Nat.add_1_r. cbn [asum]. rewrite rsum_zero.
    + unfold f_upper. rewrite Nat.leb_refl. ring.
    + intros j Hj. unfold f_upper. destruct (Nat.leb_spec i j); [lia|ring].
  - apply asum_ext. intros k Hk. unfold f_upper. destruct (Nat.leb_spec i (i + 1 + k)); [auto|lia].
Qed.

Lemma upper_sum_abs n g i h : (i < n)%nat ->
  rsum n (fun j => Rabs (f_upper g i j * h j)) =
  Rabs (f_real (g i i) * h i) + rsum (n - (i + 1)) (fun k => Rabs (f_real (g i (i + 1 + k)%nat) * h (i + 1 + k)%nat)).
Proof.
  intro Hi. replace n with (i + 1 + (n - (i + 1)))%nat at 1 by lia. rewrite rsum_shift. f_equal.
  - rewrite Nat.add_1_r. cbn [asum]. rewrite rsum_zero.
    + unfold f_upper. rewrite Nat.leb_refl. ring.
    + intros j Hj. unfold f_upper. destruct (Nat.leb_spec i j); [lia|]. rewrite Rmult_0_l. apply Rabs_R0.
  - apply asum_ext. intros k Hk. unfold f_upper. destruct (Nat.leb_spec i (i + 1 + k)); [auto|lia].
Qed.

(** A quotient of a running difference. *)
Lemma quotient_error e n x y d : f_valid e -> (forall i, (i < n)%nat -> f_valid (x i)) ->
  (forall i, (i < n)%nat -> f_valid (y i)) -> f_valid d -> f_finite d = true ->
  let q := SFdiv 53 1024 (rdiff fops e n (fun i => SFmul 53 1024 (x i) (y i))) d in f_finite q = true ->
  f_finite e = true /\ (forall i, (i < n)%nat -> f_finite (x i) = true /\ f_finite (y i) = true) /\
  Rabs (f_real e - f_real q * f_real d - rsum n (fun i => f_real (x i) * f_real (y i))) <=
    f_gamma (n + 1) * (Rabs (f_real q * f_real d) + rsum n (fun i => Rabs (f_real (x i) * f_real (y i)))) +
    (1 + f_u) ^ n * f_eta * (INR n + Rabs (f_real d)).
Proof.
  intros He Hx Hy Hd Fd q Fq. set (v := rdiff fops e n (fun i => SFmul 53 1024 (x i) (y i))) in *.
  assert (Vv : f_valid v) by (apply rdiff_valid; auto using f_mul_valid).
  destruct (f_div_back v d Vv Hd Fd Fq) as (Fv & de & ee & Hde & Hee & E). fold q in E.
  destruct (rdiff_inner_error e n x y He Hx Hy Fv) as (Fe & Fxy & Herr). fold v in Herr.
  split; [exact Fe|]. split; [exact Fxy|].
  set (T := rsum n (fun i => f_real (x i) * f_real (y i))) in *. set (W := rsum n (fun i => Rabs (f_real (x i) * f_real (y i)))) in *.
  set (p := f_real q * f_real d) in *.
  assert (HW : 0 <= W) by (apply rsum_nonneg; intros; apply Rabs_pos).
  assert (Hvp : Rabs (f_real v - p) <= f_u * Rabs p + f_eta * Rabs (f_real d)).
  { rewrite E. replace (p * (1 + de) + ee * f_real d - p) with (de * p + ee * f_real d) by ring.
    apply Rle_trans with (1 := Rabs_triang _ _). rewrite !Rabs_mult.
    apply Rplus_le_compat; apply Rmult_le_compat_r; auto using Rabs_pos. }
  assert (Hv : Rabs (f_real v) <= Rabs p + (f_u * Rabs p + f_eta * Rabs (f_real d))).
  { replace (f_real v) with (p + (f_real v - p)) by ring. apply Rle_trans with (1 := Rabs_triang _ _). lra. }
  replace (f_real e - p - T) with ((f_real e - f_real v - T) + (f_real v - p)) by ring.
  apply Rle_trans with (1 := Rabs_triang _ _). pose proof (gamma_nonneg n) as Hg. pose proof u_pos. pose proof eta_pos.
  apply (Rmult_le_compat_l (f_gamma n)) in Hv; [|exact Hg].
  rewrite Nat.add_1_r, gamma_S. replace ((1 + f_u) ^ n) with (f_gamma n + 1) in * by (unfold f_gamma; ring).
  assert (0 <= (f_gamma n * f_u + f_u) * W) by (apply Rmult_le_pos; [|exact HW]; pose proof (Rmult_le_pos _ _ Hg (Rlt_le _ _ (u_pos))); lra).
  lra.
Qed.

Section Solve.
  Variables (n : nat) (A g : nat -> nat -> f64) (s : nat -> nat).
  Hypothesis HA : forall i j, (i < n)%nat -> (j < n)%nat -> f_valid (A i j).
  Hypothesis Hg : dool fops n A n s g.
  Hypothesis Hf : forall i j, (i < n)%nat -> (j < n)%nat -> f_finite (g i j) = true.

  Lemma entry_below a b : (b < a)%nat -> (a < n)%nat ->
    g a b = SFdiv 53 1024 (rdiff fops (A (s a) b) b (fun m => SFmul 53 1024 (g a m) (g m b))) (g b b).
  Proof using Hg.
    intros Hb Ha. destruct Hg as [H _]. rewrite (H a b) at 1 by lia. unfold dool_entry.
    replace (Nat.min a n) with a by lia. replace (Nat.min a b) with b by lia. destruct (Nat.ltb_spec b a); [reflexivity|lia].
  Qed.

  Lemma entry_above a b : (a <= b)%nat -> (b < n)%nat ->
    g a b = rdiff fops (A (s a) b) a (fun m => SFmul 53 1024 (g a m) (g m b)).
  Proof using Hg.
    intros Hb Ha. destruct Hg as [H _]. rewrite (H a b) at 1 by lia. unfold dool_entry.
    replace (Nat.min a n) with a by lia. replace (Nat.min a b) with a by lia. destruct (Nat.ltb_spec b a); [lia|reflexivity].
  Qed.

  Lemma entry_valid a b : (a < n)%nat -> (b < n)%nat -> f_valid (g a b).
  Proof using HA Hg.
    assert (G : forall k a b, (a + b < k)%nat -> (a < n)%nat -> (b < n)%nat -> f_valid (g a b)).
    { induction k as [|k IH]; intros a0 b0 Hk Ha Hb; [lia|].
      assert (Hs : (s a0 < n)%nat) by (apply Hg; auto).
      destruct (Nat.le_gt_cases a0 b0).
      - rewrite entry_above by lia. apply rdiff_valid; [apply HA; lia|]. intros m Hm. apply f_mul_valid; apply IH; lia.
      - rewrite entry_below by lia. apply f_div_valid; [|apply IH; lia]. apply rdiff_valid; [apply HA; lia|].
        intros m Hm. apply f_mul_valid; apply IH; lia. }
    intros. apply (G (S (a + b))); auto.
  Qed.

  Lemma factor_error a b : (a < n)%nat -> (b < n)%nat ->
    Rabs (f_real (A (s a) b) - rsum n (fun k => f_lower g a k * f_upper g k b)) <=
      f_gamma n * rsum n (fun k => Rabs (f_lower g a k * f_upper g k b)) + (1 + f_u) ^ n * f_eta * (INR n + Rabs (f_real (g b b))).
  Proof using HA Hg Hf.
    intros Ha Hb. assert (Hs : (s a < n)%nat) by (apply Hg; auto). pose proof u_pos. pose proof eta_pos.
    rewrite lower_sum, lower_sum_abs by auto.
    destruct (Nat.le_gt_cases a b) as [Hab|Hab].
    - assert (Fv := Hf a b Ha Hb). rewrite entry_above in Fv by lia.
      destruct (rdiff_inner_error (A (s a) b) a (fun m => g a m) (fun m => g m b)) as (_ & _ & Herr); auto.
      { intros; apply entry_valid; lia. }
      { intros; apply entry_valid; lia. }
      rewrite <- entry_above in Herr by lia.
      assert (E1 : rsum a (fun k => f_real (g a k) * f_upper g k b) = rsum a (fun k => f_real (g a k) * f_real (g k b))).
      { apply asum_ext. intros k Hk. unfold f_upper. destruct (Nat.leb_spec k b); [auto|lia]. }
      assert (E2 : rsum a (fun k => Rabs (f_real (g a k) * f_upper g k b)) = rsum a (fun k => Rabs (f_real (g a k) * f_real (g k b)))).
      { apply asum_ext. intros k Hk. unfold f_upper. destruct (Nat.leb_spec k b); [auto|lia]. }
      assert (E3 : f_upper g a b = f_real (g a b)) by (unfold f_upper; destruct (Nat.leb_spec a b); [auto|lia]).
      rewrite E1, E2, E3. set (T := rsum a (fun k => f_real (g a k) * f_real (g k b))) in *.
      set (W := rsum a (fun k => Rabs (f_real (g a k) * f_real (g k b)))) in *.
      replace (f_real (A (s a) b) - (T + f_real (g a b))) with (f_real (A (s a) b) - f_real (g a b) - T) by ring.
      apply Rle_trans with (1 := Herr). apply Rplus_le_compat.
      + rewrite Rplus_comm. apply Rmult_le_compat_r; [|apply gamma_le; lia].
        assert (0 <= W) by (apply rsum_nonneg; intros; apply Rabs_pos). pose proof (Rabs_pos (f_real (g a b))). lra.
      + replace (INR a * (1 + f_u) ^ a * f_eta) with ((1 + f_u) ^ a * f_eta * INR a) by ring.
        assert (1 <= (1 + f_u) ^ a) by (apply pow_R1_Rle; lra).
        apply Rmult_le_compat; [nra|apply pos_INR|apply Rmult_le_compat_r; [lra|apply Rle_pow; [lra|lia]]|].
        pose proof (Rabs_pos (f_real (g b b))). assert (INR a <= INR n) by (apply le_INR; lia). lra.
    - assert (Fv := Hf a b Ha Hb). rewrite entry_below in Fv by lia.
      destruct (quotient_error (A (s a) b) b (fun m => g a m) (fun m => g m b) (g b b)) as (_ & _ & Herr); auto.
      { intros; apply entry_valid; lia. }
      { intros; apply entry_valid; lia. }
      { apply entry_valid; auto. }
      rewrite <- entry_below in Herr by lia.
      assert (Hz : forall k, (b < k)%nat -> f_upper g k b = 0).
      { intros k Hk. unfold f_upper. destruct (Nat.leb_spec k b); [lia|auto]. }
      rewrite (Hz a Hab), Rabs_R0, !Rplus_0_r.
      rewrite (rsum_trunc a (S b)) by (try lia; intros m Hm; rewrite Hz by lia; ring).
      rewrite (rsum_trunc a (S b) (fun k => Rabs _)) by (try lia; intros m Hm; rewrite Hz, Rmult_0_r by lia; apply Rabs_R0).
      cbn [asum].
      assert (E1 : rsum b (fun k => f_real (g a k) * f_upper g k b) = rsum b (fun k => f_real (g a k) * f_real (g k b))).
      { apply asum_ext. intros k Hk. unfold f_upper. destruct (Nat.leb_spec k b); [auto|lia]. }
      assert (E2 : rsum b (fun k => Rabs (f_real (g a k) * f_upper g k b)) = rsum b (fun k => Rabs (f_real (g a k) * f_real (g k b)))).
      { apply asum_ext. intros k Hk. unfold f_upper. destruct (Nat.leb_spec k b); [auto|lia]. }
      assert (E3 : f_upper g b b = f_real (g b b)) by (unfold f_upper; rewrite Nat.leb_refl; auto).
      rewrite E1, E2, E3. set (T := rsum b (fun k => f_real (g a k) * f_real (g k b))) in *.
      set (W := rsum b (fun k => Rabs (f_real (g a k) * f_real (g k b)))) in *. set (p := f_real (g a b) * f_real (g b b)) in *.
      replace (f_real (A (s a) b) - (T + p)) with (f_real (A (s a) b) - p - T) by ring.
      apply Rle_trans with (1 := Herr). apply Rplus_le_compat.
      + rewrite Rplus_comm. apply Rmult_le_compat_r; [|apply gamma_le; lia].
        assert (0 <= W) by (apply rsum_nonneg; intros; apply Rabs_pos). pose proof (Rabs_pos p). lra.
      + assert (1 <= (1 + f_u) ^ b) by (apply pow_R1_Rle; lra). pose proof (Rabs_pos (f_real (g b b))). pose proof (pos_INR b).
        apply Rmult_le_compat; [nra|lra|apply Rmult_le_compat_r; [lra|apply Rle_pow; [lra|lia]]|].
        assert (INR b <= INR n) by (apply le_INR; lia). lra.
  Qed.

  Variables (B y z : nat -> f64).
  Hypothesis HB : forall i, (i < n)%nat -> f_valid (B i).
  Hypothesis Hy : forall i, (i < n)%nat -> y i = rdiff fops (B (s i)) i (fun j => SFmul 53 1024 (g i j) (y j)).
  Hypothesis Hz : forall i, (i < n)%nat ->
    z i = SFdiv 53 1024 (rdiff fops (y i) (n - (i + 1)) (fun k => SFmul 53 1024 (g i (i + 1 + k)%nat) (z (i + 1 + k)%nat))) (g i i).
  Hypothesis Fz : forall i, (i < n)%nat -> f_finite (z i) = true.

  Lemma y_valid i : (i < n)%nat -> f_valid (y i).
  Proof using HA Hg HB Hy.
    assert (G : forall k i, (i < k)%nat -> (i < n)%nat -> f_valid (y i)).
    { induction k as [|k IH]; intros j Hk Hj; [lia|]. rewrite Hy by auto. apply rdiff_valid.
      - apply HB. apply Hg. auto.
      - intros m Hm. apply f_mul_valid; [apply entry_valid; lia|apply IH; lia]. }
    intro Hi. apply (G (S i)); auto.
  Qed.

  Lemma z_valid i : (i < n)%nat -> f_valid (z i).
  Proof using HA Hg HB Hy Hz.
    assert (G : forall k i, (n - i <= k)%nat -> (i < n)%nat -> f_valid (z i)).
    { induction k as [|k IH]; intros j Hk Hj; [lia|]. rewrite Hz by auto.
      apply f_div_valid; [|apply entry_valid; auto]. apply rdiff_valid; [apply y_valid; auto|].
      intros m Hm. apply f_mul_valid; [apply entry_valid; lia|apply IH; lia]. }
    intro Hi. apply (G (n - i)%nat); auto.
  Qed.

  Lemma backward_error i : (i < n)%nat -> f_finite (y i) = true /\
    Rabs (f_real (y i) - rsum n (fun j => f_upper g i j * f_real (z j))) <=
      f_gamma n * rsum n (fun j => Rabs (f_upper g i j * f_real (z j))) + (1 + f_u) ^ n * f_eta * (INR n + Rabs (f_real (g i i))).
  Proof using HA Hg Hf HB Hy Hz Fz.
    intro Hi. assert (Fv := Fz i Hi). rewrite Hz in Fv by auto. set (k := (n - (i + 1))%nat) in *.
    destruct (quotient_error (y i) k (fun m => g i (i + 1 + m)%nat) (fun m => z (i + 1 + m)%nat) (g i i)) as (Fy & _ & Herr); auto.
    { apply y_valid, Hi. }
    { intros; apply entry_valid; unfold k in *; lia. }
    { intros; apply z_valid; unfold k in *; lia. }
    { apply entry_valid; auto. }
    split; [exact Fy|]. rewrite <- Hz in Herr by auto. rewrite upper_sum, upper_sum_abs by auto. fold k.
    set (T := rsum k (fun k => f_real (g i (i + 1 + k)%nat) * f_real (z (i + 1 + k)%nat))) in *.
    set (W := rsum k (fun k => Rabs (f_real (g i (i + 1 + k)%nat) * f_real (z (i + 1 + k)%nat)))) in *. rewrite (Rmult_comm (f_real (z i))) in Herr.
    set (p := f_real (g i i) * f_real (z i)) in *. pose proof u_pos. pose proof eta_pos.
    replace (f_real (y i) - (p + T)) with (f_real (y i) - p - T) by ring.
    apply Rle_trans with (1 := Herr). apply Rplus_le_compat.
    - apply Rmult_le_compat_r; [|apply gamma_le; unfold k; lia].
      assert (0 <= W) by (apply rsum_nonneg; intros; apply Rabs_pos). pose proof (Rabs_pos p). lra.
    - assert (1 <= (1 + f_u) ^ k) by (apply pow_R1_Rle; lra). pose proof (Rabs_pos (f_real (g i i))). pose proof (pos_INR k).
      apply Rmult_le_compat; [nra|lra|apply Rmult_le_compat_r; [lra|apply Rle_pow; [lra|unfold k; lia]]|].
      assert (INR k <= INR n) by (apply le_INR; unfold k; lia). lra.
  Qed.

  Lemma forward_error i : (i < n)%nat -> f_finite (B (s i)) = true /\
    Rabs (f_real (B (s i)) - rsum n (fun k => f_lower g i k * f_real (y k))) <=
      f_gamma n * rsum n (fun k => Rabs (f_lower g i k * f_real (y k))) + (1 + f_u) ^ n * f_eta * INR n.
  Proof using HA Hg Hf HB Hy Hz Fz.
    intro Hi. destruct (backward_error i Hi) as [Fy _]. rewrite Hy in Fy by auto.
    destruct (rdiff_inner_error (B (s i)) i (fun m => g i m) (fun m => y m)) as (FB & _ & Herr); auto.
    { apply HB, Hg, Hi. }
    { intros; apply entry_valid; lia. }
    { intros; apply y_valid; lia. }
    split; [exact FB|]. rewrite <- Hy in Herr by auto. rewrite lower_sum, lower_sum_abs by auto. pose proof u_pos. pose proof eta_pos.
    set (T := rsum i (fun k => f_real (g i k) * f_real (y k))) in *.
    set (W := rsum i (fun k => Rabs (f_real (g i k) * f_real (y k)))) in *.
    replace (f_real (B (s i)) - (T + f_real (y i))) with (f_real (B (s i)) - f_real (y i) - T) by ring.
    apply Rle_trans with (1 := Herr). apply Rplus_le_compat.
    - rewrite Rplus_comm. apply Rmult_le_compat_r; [|apply gamma_le; lia].
      assert (0 <= W) by (apply rsum_nonneg; intros; apply Rabs_pos). pose proof (Rabs_pos (f_real (y i))). lra.
    - replace (INR i * (1 + f_u) ^ i * f_eta) with ((1 + f_u) ^ i * f_eta * INR i) by ring.
      assert (1 <= (1 + f_u) ^ i) by (apply pow_R1_Rle; lra).
      apply Rmult_le_compat; [nra|apply pos_INR|apply Rmult_le_compat_r; [lra|apply Rle_pow; [lra|lia]]|apply le_INR; lia].
  Qed.

  Lemma solve_residual i : (i < n)%nat ->
    Rabs (f_real (B (s i)) - rsum n (fun j => f_real (A (s i) j) * f_real (z j))) <=
      f_gamma (3 * n) * rsum n (fun k => rsum n (fun j => Rabs (f_lower g i k) * Rabs (f_upper g k j) * Rabs (f_real (z j)))) +
      (1 + f_u) ^ (2 * n) * f_eta *
        (INR n + rsum n (fun k => (INR n + Rabs (f_real (g k k))) * (Rabs (f_lower g i k) + Rabs (f_real (z k))))).
  Proof using HA Hg Hf HB Hy Hz Fz.
    intro Hi. set (c := (1 + f_u) ^ n * f_eta). pose proof (gamma_nonneg n) as Hga. pose proof u_pos. pose proof eta_pos.
    pose proof (residual_bound n (fun i j => f_real (A (s i) j)) (f_lower g) (f_upper g) (fun i => f_real (B (s i)))
      (fun k => f_real (y k)) (fun j => f_real (z j)) (fun j => c * (INR n + Rabs (f_real (g j j))))
      (fun j => c * (INR n + Rabs (f_real (g j j)))) i (f_gamma n) (c * INR n) Hi Hga
      (fun j Hj => factor_error i j Hi Hj) (proj2 (forward_error i Hi)) (fun k Hk => proj2 (backward_error k Hk))) as Hr.
    cbv beta in Hr. apply Rle_trans with (1 := Hr). clear Hr.
    set (W := rsum n (fun k => rsum n (fun j => Rabs (f_lower g i k) * Rabs (f_upper g k j) * Rabs (f_real (z j))))).
    assert (HW : 0 <= W).
    { apply rsum_nonneg. intros. apply rsum_nonneg. intros. repeat apply Rmult_le_pos; apply Rabs_pos. }
    rewrite !Rplus_assoc. apply Rplus_le_compat.
    - apply Rmult_le_compat_r; [exact HW|]. replace (3 * n)%nat with (n + (n + n))%nat by lia. rewrite !gamma_add.
      assert (0 <= f_gamma n * f_gamma n) by (apply Rmult_le_pos; auto).
      assert (0 <= f_gamma n * (f_gamma n * f_gamma n)) by (apply Rmult_le_pos; auto). lra.
    - assert (Hc : 0 <= c) by (unfold c; apply Rmult_le_pos; [apply pow_le; lra|lra]).
      assert (Hc2 : (1 + f_u) ^ (2 * n) * f_eta = (1 + f_gamma n) * c).
      { unfold c, f_gamma. replace (2 * n)%nat with (n + n)%nat by lia. rewrite pow_add. ring. }
      rewrite Hc2. set (D := fun k => INR n + Rabs (f_real (g k k))).
      assert (HD : forall k, 0 <= D k) by (intro k; unfold D; pose proof (pos_INR n); pose proof (Rabs_pos (f_real (g k k))); lra).
      set (R1 := rsum n (fun k => D k * Rabs (f_lower g i k))). set (R2 := rsum n (fun k => D k * Rabs (f_real (z k)))).
      assert (E1 : rsum n (fun j => c * D j * Rabs (f_real (z j))) = c * R2).
      { unfold R2. rewrite <- rsum_scale. apply asum_ext. intros; ring. }
      assert (E2 : rsum n (fun k => Rabs (f_lower g i k) * (c * D k)) = c * R1).
      { unfold R1. rewrite <- rsum_scale. apply asum_ext. intros; ring. }
      assert (E3 : rsum n (fun k => D k * (Rabs (f_lower g i k) + Rabs (f_real (z k)))) = R1 + R2).
      { unfold R1, R2. rewrite <- rsum_plus. apply asum_ext. intros; ring. }
      change (c * INR n + (rsum n (fun j => c * D j * Rabs (f_real (z j))) + (1 + f_gamma n) * rsum n (fun k => Rabs (f_lower g i k) * (c * D k))) <=
        (1 + f_gamma n) * c * (INR n + rsum n (fun k => D k * (Rabs (f_lower g i k) + Rabs (f_real (z k)))))).
      rewrite E1, E2, E3. assert (0 <= R2) by (apply rsum_nonneg; intros; apply Rmult_le_pos; auto using Rabs_pos).
      assert (0 <= f_gamma n * c) by (apply Rmult_le_pos; auto).
      assert (0 <= f_gamma n * c * INR n) by (apply Rmult_le_pos; auto using pos_INR).
      assert (0 <= f_gamma n * c * R2) by (apply Rmult_le_pos; auto). lra.
  Qed.
End Solve.
