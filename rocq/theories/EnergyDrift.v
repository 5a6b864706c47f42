(** Perturbed sweeps on symmetric positive definite systems over the reals. *)
From Coq Require Import ZArith Reals Lra Field Lia Psatz.
From Verif Require Import Base ListFacts Csr DenseModel DenseFacts ScalarModel GeometryReal SparseModel SparseSpec
  SparseFacts SparseMul LuModel LuFacts LuField LuReal LuFloat LuSuccess FloatUnit IterModel IterFacts IterLoop IterField IterReal Energy.

Local Open Scope R_scope.

(** The norm of the quadratic form. *)
Definition enorm (n : nat) (A : nat -> nat -> R) (e : nat -> R) : R := sqrt (energy n A e).

Definition coercivity (n : nat) (A : nat -> nat -> R) (l : R) : Prop :=
  0 < l /\ forall e, l * rsum n (fun i => e i * e i) <= energy n A e.

Section Norm.
  Variables (n : nat) (A : nat -> nat -> R) (l : R).
  Hypothesis Hs : symmetric n A.
  Hypothesis Hl : coercivity n A l.

  Lemma energy_nonneg e : 0 <= energy n A e.
  Proof using Hl.
    destruct Hl as [Hl0 Hc]. apply Rle_trans with (2 := Hc e). apply Rmult_le_pos; [lra|apply rsum_sq_nonneg].
  Qed.

  Lemma enorm_nonneg e : 0 <= enorm n A e.
  Proof using Type. apply sqrt_pos. Qed.

  Lemma enorm_sq e : enorm n A e * enorm n A e = energy n A e.
  Proof using Hl. apply sqrt_sqrt, energy_nonneg. Qed.

  Lemma enorm_ext e e' : (forall i, (i < n)%nat -> e i = e' i) -> enorm n A e = enorm n A e'.
  Proof using Type. intro H. unfold enorm. f_equal. apply energy_ext, H. Qed.

  Definition cross (x y : nat -> R) : R := rsum n (fun i => x i * rsum n (fun j => A i j * y j)).

  Lemma cross_sym x y : cross x y = cross y x.
  Proof using Hs.
    unfold cross.
    rewrite (asum_ext _ _ n _ (fun i => rsum n (fun j => x i * A i j * y j)))
      by (intros; rewrite <- rsum_scale; apply asum_ext; intros; ring).
    rewrite rsum_exchange. apply asum_ext. intros i Hi. rewrite <- rsum_scale. apply asum_ext. intros j Hj.
    rewrite (Hs i j) by auto. ring.
  Qed.

  Lemma energy_comb x y t : energy n A (fun i => x i + t * y i) = energy n A x + 2 * t * cross x y + t * t * energy n A y.
  Proof using Hs.
    assert (E : energy n A (fun i => x i + t * y i) = energy n A x + t * cross x y + t * cross y x + t * t * energy n A y).
    { unfold energy, cross. rewrite <- !rsum_scale, <- !rsum_plus. apply asum_ext. intros i Hi.
      rewrite (asum_ext _ _ n _ (fun j => A i j * x j + t * (A i j * y j))) by (intros; ring).
      rewrite rsum_plus, rsum_scale. ring. }
    rewrite E, (cross_sym y x). ring.
  Qed.

  Lemma cross_bound x y : cross x y <= enorm n A x * enorm n A y.
  Proof using Hs Hl.
    pose proof (energy_nonneg x) as Ex. pose proof (energy_nonneg y) as Ey.
    assert (H : cross x y * cross x y <= energy n A x * energy n A y).
    { destruct Ey as [Ey|Ey].
      - pose proof (energy_nonneg (fun i => x i + (- (cross x y / energy n A y)) * y i)) as H. rewrite energy_comb in H.
        apply (Rmult_le_compat_r (energy n A y)) in H; [|lra]. rewrite Rmult_0_l in H.
        replace ((energy n A x + 2 * - (cross x y / energy n A y) * cross x y +
          - (cross x y / energy n A y) * - (cross x y / energy n A y) * energy n A y) * energy n A y) with
          (energy n A x * energy n A y - cross x y * cross x y) in H by (field; lra). lra.
      - assert (Hy : forall i, (i < n)%nat -> y i = 0).
        { intros i Hi. destruct Hl as [Hl0 Hc]. specialize (Hc y). rewrite <- Ey in Hc.
          destruct (Req_dec (y i) 0) as [|Hne]; auto. exfalso.
          assert (0 < rsum n (fun k => y k * y k)).
          { apply (rsum_pos n _ i); auto; [intros; apply Rle_0_sqr|].
            destruct (Rtotal_order (y i) 0) as [|[|]]; [nra|contradiction|nra]. }
          assert (0 < l * rsum n (fun k => y k * y k)) by (apply Rmult_lt_0_compat; auto). lra. }
        assert (C0 : cross x y = 0).
        { unfold cross. apply rsum_zero. intros i Hi. rewrite (rsum_zero n); [ring|]. intros j Hj. rewrite Hy by auto. ring. }
        rewrite C0, <- Ey. lra. }
    unfold enorm. rewrite <- sqrt_mult by auto.
    apply Rle_trans with (1 := Rle_abs _). rewrite <- sqrt_Rsqr_abs. apply sqrt_le_1; unfold Rsqr; auto.
    - apply Rle_0_sqr.
    - apply Rmult_le_pos; auto.
  Qed.

  Lemma enorm_triangle x y : enorm n A (fun i => x i + y i) <= enorm n A x + enorm n A y.
  Proof using Hs Hl.
    pose proof (enorm_nonneg x) as Nx. pose proof (enorm_nonneg y) as Ny. pose proof (cross_bound x y) as C.
    unfold enorm at 1. rewrite <- (sqrt_Rsqr (enorm n A x + enorm n A y)) by lra.
    apply sqrt_le_1; [apply energy_nonneg|apply Rle_0_sqr|].
    rewrite (energy_ext n A _ (fun i => x i + 1 * y i)) by (intros; ring). rewrite energy_comb.
    rewrite <- (enorm_sq x), <- (enorm_sq y). unfold Rsqr. lra.
  Qed.

  Lemma enorm_opp x : enorm n A (fun i => - x i) = enorm n A x.
  Proof using Type.
    unfold enorm, energy. f_equal. apply asum_ext. intros i Hi.
    rewrite (asum_ext _ _ n _ (fun j => - 1 * (A i j * x j))) by (intros; ring). rewrite rsum_scale. ring.
  Qed.

  (** The norm bounds the components. *)
  Lemma component_bound e i : (i < n)%nat -> Rabs (e i) <= enorm n A e / sqrt l.
  Proof using Hl.
    intro Hi. destruct Hl as [Hl0 Hc]. assert (Hq : 0 < sqrt l) by (apply sqrt_lt_R0, Hl0).
    apply (Rmult_le_reg_r (sqrt l)); [exact Hq|]. unfold Rdiv. rewrite Rmult_assoc, Rinv_l, Rmult_1_r by lra.
    unfold enorm. rewrite <- sqrt_Rsqr_abs, <- sqrt_mult by (try apply Rle_0_sqr; lra).
    apply sqrt_le_1; [apply Rmult_le_pos; [apply Rle_0_sqr|lra]|apply energy_nonneg|].
    apply Rle_trans with (2 := Hc e). rewrite Rmult_comm. apply Rmult_le_compat_l; [lra|].
    unfold Rsqr. apply (rsum_member n (fun k => e k * e k) i); [exact Hi|]. intros; apply Rle_0_sqr.
  Qed.

  Lemma diagonal_ge i : (i < n)%nat -> l <= A i i.
  Proof using Hs Hl.
    intro Hi. destruct Hl as [Hl0 Hc]. rewrite <- (diagonal_energy n A i) by auto.
    apply Rle_trans with (2 := Hc (bump i 1)). rewrite (rsum_bump n i 1 (bump i 1) Hi). unfold bump. rewrite Nat.eqb_refl. lra.
  Qed.

  (** The response to a change of the right hand side. *)
  Lemma response g r m : (forall i, (i < n)%nat -> rsum n (fun j => A i j * g j) = r i) -> 0 <= m ->
    (forall i, (i < n)%nat -> Rabs (r i) <= m) -> enorm n A g <= sqrt (INR n) * m / sqrt l.
  Proof using Hl.
    intros Hg Hm Hr. destruct Hl as [Hl0 Hc].
    assert (Hq : 0 < sqrt l) by (apply sqrt_lt_R0, Hl0).
    pose proof (energy_nonneg g) as E0.
    assert (H1 : energy n A g <= l / 2 * rsum n (fun i => g i * g i) + / (2 * l) * rsum n (fun i => r i * r i)).
    { unfold energy. rewrite <- !rsum_scale, <- rsum_plus. apply rsum_le. intros i Hi. rewrite Hg by auto.
      assert (0 <= (l * g i - r i) * (l * g i - r i) * / (2 * l)).
      { apply Rmult_le_pos; [apply Rle_0_sqr|]. left. apply Rinv_0_lt_compat. lra. }
      replace ((l * g i - r i) * (l * g i - r i) * / (2 * l)) with
        (l / 2 * (g i * g i) + / (2 * l) * (r i * r i) - g i * r i) in H by (field; lra). lra. }
    assert (H2 : rsum n (fun i => r i * r i) <= INR n * (m * m)).
    { clear - Hr Hm. induction n as [|k IH]; [cbn; lra|]. rewrite S_INR. cbn [asum].
      assert (rsum k (fun i => r i * r i) <= INR k * (m * m)) by (apply IH; intros; apply Hr; lia).
      specialize (Hr k ltac:(lia)). pose proof (Rabs_pos (r k)).
      assert (r k * r k = Rabs (r k) * Rabs (r k)) by (rewrite <- Rabs_mult; symmetry; apply Rabs_pos_eq, Rle_0_sqr).
      assert (Rabs (r k) * Rabs (r k) <= m * m) by (apply Rmult_le_compat; lra). cbn [rops sc_add] in *. lra. }
    specialize (Hc g).
    assert (H3 : energy n A g <= INR n * (m * m) / l).
    { assert (/ (2 * l) * rsum n (fun i => r i * r i) <= / (2 * l) * (INR n * (m * m))).
      { apply Rmult_le_compat_l; [left; apply Rinv_0_lt_compat; lra|exact H2]. }
      replace (/ (2 * l) * (INR n * (m * m))) with (INR n * (m * m) / l / 2) in H by (field; lra). lra. }
    unfold enorm. apply (Rmult_le_reg_r (sqrt l)); [exact Hq|].
    replace (sqrt (INR n) * m / sqrt l * sqrt l) with (sqrt (INR n) * m) by (field; lra).
    rewrite <- sqrt_mult by lra. rewrite <- (sqrt_Rsqr m Hm), <- sqrt_mult by (try apply pos_INR; apply Rle_0_sqr).
    apply sqrt_le_1; [apply Rmult_le_pos; lra|apply Rmult_le_pos; [apply pos_INR|apply Rle_0_sqr]|].
    apply (Rmult_le_compat_r l) in H3; [|lra]. unfold Rsqr.
    replace (INR n * (m * m) / l * l) with (INR n * (m * m)) in H3 by (field; lra). exact H3.
  Qed.
End Norm.

(** [s] bounds the factor of one exact sweep with the relaxation [w] in the norm of [A]. *)
Definition sweep_factor (n : nat) (A : nat -> nat -> R) (w s : R) : Prop :=
  0 <= s < 1 /\ forall h xs f z, (forall i, (i < n)%nat -> rsum n (fun j => A i j * xs j) = h i) ->
    (forall i, (i < n)%nat -> z i =
       w * (h i - rsum n (fun j => if (j =? i)%nat then 0 else A i j * (if (j <? i)%nat then z j else f j))) / A i i + (1 - w) * f i) ->
    enorm n A (fun j => z j - xs j) <= s * enorm n A (fun j => f j - xs j).

Lemma factor_exists n A w : symmetric n A -> positive_definite n A -> 0 < w < 2 -> exists s, sweep_factor n A w s.
Proof.
  intros Hs Hp Hw. assert (Hd : forall i, (i < n)%nat -> 0 < A i i) by (intros; eapply positive_diagonal; eauto).
  destruct (coercive n A Hs Hp) as (l & Hl & Hco).
  set (c := fun i j => if (j <? i)%nat then A i j else if (j =? i)%nat then A i i / w else 0).
  set (q := 1 - (2 - w) / w * l * l / (1 + rsum n (fun i => rsum n (fun j => c i j * c i j)))).
  assert (Hq : q < 1).
  { assert (H : 0 < (2 - w) / w * l * l / (1 + rsum n (fun i => rsum n (fun j => c i j * c i j)))); [|unfold q; lra].
    apply Rdiv_lt_0_compat.
    - assert (0 < (2 - w) / w) by (apply Rdiv_lt_0_compat; lra).
      apply Rmult_lt_0_compat; [apply Rmult_lt_0_compat|]; auto.
    - assert (H : 0 <= rsum n (fun i => rsum n (fun j => c i j * c i j))); [|lra].
      apply rsum_nonneg. intros. apply rsum_sq_nonneg. }
  exists (sqrt (Rmax 0 q)). split.
  - split; [apply sqrt_pos|]. apply Rlt_le_trans with (sqrt 1); [|rewrite sqrt_1; lra]. apply sqrt_lt_1_alt. split; [apply Rmax_l|apply Rmax_lub_lt; lra].
  - intros h xs f z Hx Hz. unfold enorm. rewrite <- sqrt_mult.
    + apply sqrt_le_1; [apply (energy_nonneg n A l (conj Hl Hco))| |].
      * apply Rmult_le_pos; [apply Rmax_l|apply (energy_nonneg n A l (conj Hl Hco))].
      * apply Rle_trans with (q * energy n A (fun j => f j - xs j)).
        -- apply (sweep_linear n A h xs w f z Hs Hd Hw Hx); auto. intros i Hi. rewrite (Hz i Hi). unfold relaxed.
           cbn [rops sc_add sc_mul sc_sub sc_div sc_one sc_zero]. rewrite Nat.ltb_irrefl. reflexivity.
        -- apply Rmult_le_compat_r; [apply (energy_nonneg n A l (conj Hl Hco))|apply Rmax_r].
    + apply Rmax_l.
    + apply (energy_nonneg n A l (conj Hl Hco)).
Qed.

(* ------------------------------------------------------------------ a perturbed sweep *)
Section Perturbed.
  Variables (n : nat) (A : nat -> nat -> R) (h xs : nat -> R) (w l : R) (f z dl : nat -> R).
  Hypothesis Hs : symmetric n A.
  Hypothesis Hl : coercivity n A l.
  Hypothesis Hw : 0 < w < 2.
  Hypothesis Hx : forall i, (i < n)%nat -> rsum n (fun j => A i j * xs j) = h i.

  Definition mixed (k j : nat) : R := if (j <? k)%nat then z j else f j.
  Definition exact_row (i : nat) (y : nat -> R) : R :=
    w * (h i - rsum n (fun j => if (j =? i)%nat then 0 else A i j * y j)) / A i i + (1 - w) * y i.

  Lemma mixed_step k j : mixed (S k) j = mixed k j + bump k (z k - f k) j.
  Proof using Type.
    unfold mixed, bump. destruct (Nat.eqb_spec j k) as [->|].
    - rewrite Nat.ltb_irrefl. destruct (Nat.ltb_spec k (S k)); [ring|lia].
    - destruct (Nat.ltb_spec j (S k)), (Nat.ltb_spec j k); try lia; ring.
  Qed.

  Lemma row_residual i y : (i < n)%nat -> A i i <> 0 ->
    rsum n (fun j => A i j * (y j - xs j)) = - (A i i * (exact_row i y - y i)) / w.
  Proof using Hx Hw.
    intros Hi Hd. rewrite (asum_ext _ _ n _ (fun j => A i j * y j - A i j * xs j)) by (intros; ring).
    rewrite rsum_minus, Hx by auto. unfold exact_row.
    rewrite (rsum_out n i (fun j => A i j * y j)) by auto. field. split; [exact Hd|lra].
  Qed.

  (** The energy while the sweep runs: [k] rows done, the new values [dl i] away from the exact ones. *)
  Lemma partial_energy k : (k <= n)%nat ->
    (forall i, (i < k)%nat -> z i = exact_row i (mixed i) + dl i) ->
    energy n A (fun j => mixed k j - xs j) <=
      energy n A (fun j => f j - xs j) + / (w * (2 - w)) * rsum k (fun i => A i i * (dl i * dl i)).
  Proof using Hs Hl Hw Hx.
    induction k as [|k IH]; intros Hk Hz.
    - cbn [asum]. rewrite (energy_ext n A (fun j => mixed 0 j - xs j) (fun j => f j - xs j)) by reflexivity. cbn. lra.
    - assert (Hi : (k < n)%nat) by lia. pose proof (diagonal_ge n A l Hs Hl k Hi) as Hd. destruct Hl as [Hl0 _].
      rewrite (energy_ext n A (fun j => mixed (S k) j - xs j) (fun j => (mixed k j - xs j) + bump k (z k - f k) j))
        by (intros; rewrite mixed_step; ring).
      rewrite (energy_bump n A (fun j => mixed k j - xs j) k (z k - f k)) by auto.
      rewrite (row_residual k (mixed k) Hi) by lra. rewrite (Hz k) by lia.
      assert (Em : mixed k k = f k) by (unfold mixed; rewrite Nat.ltb_irrefl; reflexivity). rewrite Em.
      set (t := exact_row k (mixed k) - f k). replace (exact_row k (mixed k) + dl k - f k) with (t + dl k) by (unfold t; ring).
      specialize (IH ltac:(lia) ltac:(intros; apply Hz; lia)).
      cbn [asum]. cbn [rops sc_add]. rewrite Rmult_plus_distr_l.
      assert (H : 2 * (t + dl k) * (- (A k k * t) / w) + (t + dl k) * (t + dl k) * A k k <=
        / (w * (2 - w)) * (A k k * (dl k * dl k))); [|lra].
      assert (Q : 0 <= A k k * / (w * (2 - w)) * (((2 - w) * t - (w - 1) * dl k) * ((2 - w) * t - (w - 1) * dl k))).
      { apply Rmult_le_pos; [|apply Rle_0_sqr]. apply Rmult_le_pos; [lra|]. left. apply Rinv_0_lt_compat.
        apply Rmult_lt_0_compat; lra. }
      replace (A k k * / (w * (2 - w)) * (((2 - w) * t - (w - 1) * dl k) * ((2 - w) * t - (w - 1) * dl k))) with
        (/ (w * (2 - w)) * (A k k * (dl k * dl k)) - (2 * (t + dl k) * (- (A k k * t) / w) + (t + dl k) * (t + dl k) * A k k)) in Q
        by (field; lra). lra.
  Qed.

  (** In terms of a bound for the perturbations of the right hand side. *)
  Lemma partial_norm k m : (k <= n)%nat -> 0 <= m -> w <= 3 / 2 ->
    (forall i, (i < k)%nat -> z i = exact_row i (mixed i) + dl i) ->
    (forall i, (i < k)%nat -> A i i * Rabs (dl i) <= w * m) ->
    enorm n A (fun j => mixed k j - xs j) <= enorm n A (fun j => f j - xs j) + 2 * (sqrt (INR n) * m / sqrt l).
  Proof using Hs Hl Hw Hx.
    intros Hk Hm Hw3 Hz Hd. pose proof (partial_energy k Hk Hz) as PE. pose proof (energy_nonneg n A l Hl) as EN.
    pose proof (enorm_nonneg n A (fun j => f j - xs j)) as N0. destruct Hl as [Hl0 Hc] eqn:EHl. clear EHl.
    assert (Hq : 0 < sqrt l) by (apply sqrt_lt_R0, Hl0). pose proof (sqrt_pos (INR n)) as Sn.
    set (G := sqrt (INR n) * m / sqrt l).
    assert (G0 : 0 <= G) by (unfold G; apply Rmult_le_pos; [apply Rmult_le_pos; auto|left; apply Rinv_0_lt_compat, Hq]).
    assert (GG : G * G = INR n * (m * m) / l).
    { unfold G. replace (sqrt (INR n) * m / sqrt l * (sqrt (INR n) * m / sqrt l)) with
        (sqrt (INR n) * sqrt (INR n) * (m * m) / (sqrt l * sqrt l)) by (field; lra).
      rewrite !sqrt_sqrt by (try apply pos_INR; lra). reflexivity. }
    assert (Hsum : rsum k (fun i => A i i * (dl i * dl i)) <= INR n * (w * w * (m * m) / l)).
    { apply Rle_trans with (INR k * (w * w * (m * m) / l)).
      - clear PE. induction k as [|k' IH]; [cbn; lra|]. rewrite S_INR. cbn [asum].
        assert (rsum k' (fun i => A i i * (dl i * dl i)) <= INR k' * (w * w * (m * m) / l)).
        { apply IH; [lia| |]; intros; [apply Hz|apply Hd]; lia. }
        assert (Hi : (k' < n)%nat) by lia. pose proof (diagonal_ge n A l Hs Hl k' Hi) as Hge.
        specialize (Hd k' ltac:(lia)). pose proof (Rabs_pos (dl k')) as R0.
        assert (Eq : dl k' * dl k' = Rabs (dl k') * Rabs (dl k')) by (rewrite <- Rabs_mult; symmetry; apply Rabs_pos_eq, Rle_0_sqr).
        assert (P : A k' k' * Rabs (dl k') * (A k' k' * Rabs (dl k')) <= w * m * (w * m)).
        { assert (0 <= A k' k' * Rabs (dl k')) by (apply Rmult_le_pos; lra). apply Rmult_le_compat; lra. }
        assert (F : A k' k' * (dl k' * dl k') <= w * w * (m * m) / l).
        { apply (Rmult_le_reg_r l); [exact Hl0|]. replace (w * w * (m * m) / l * l) with (w * m * (w * m)) by (field; lra).
          apply Rle_trans with (2 := P). rewrite Eq.
          replace (A k' k' * Rabs (dl k') * (A k' k' * Rabs (dl k'))) with (A k' k' * (Rabs (dl k') * Rabs (dl k')) * A k' k') by ring.
          apply Rmult_le_compat_l; [apply Rmult_le_pos; [lra|apply Rle_0_sqr]|exact Hge]. }
        cbn [rops sc_add] in *. lra.
      - apply Rmult_le_compat_r; [|apply le_INR; lia].
        apply Rmult_le_pos; [|left; apply Rinv_0_lt_compat, Hl0].
        apply Rmult_le_pos; apply Rle_0_sqr. }
    assert (H4 : / (w * (2 - w)) * rsum k (fun i => A i i * (dl i * dl i)) <= 4 * (G * G)).
    { assert (Hww : 0 < w * (2 - w)) by (apply Rmult_lt_0_compat; lra).
      apply Rle_trans with (/ (w * (2 - w)) * (INR n * (w * w * (m * m) / l))).
      - apply Rmult_le_compat_l; [left; apply Rinv_0_lt_compat, Hww|exact Hsum].
      - rewrite GG. set (g := INR n * (m * m) / l) in *.
        assert (0 <= g) by (rewrite <- GG; apply Rle_0_sqr).
        replace (/ (w * (2 - w)) * (INR n * (w * w * (m * m) / l))) with (w / (2 - w) * g) by (unfold g; field; lra).
        apply Rmult_le_compat_r; [auto|]. apply (Rmult_le_reg_r (2 - w)); [lra|].
        replace (w / (2 - w) * (2 - w)) with w by (field; lra). lra. }
    unfold enorm at 1. rewrite <- (sqrt_Rsqr (enorm n A (fun j => f j - xs j) + 2 * G)) by lra.
    apply sqrt_le_1; [apply EN|apply Rle_0_sqr|]. apply Rle_trans with (1 := PE). unfold Rsqr.
    rewrite <- (enorm_sq n A l Hl (fun j => f j - xs j)).
    assert (0 <= enorm n A (fun j => f j - xs j) * G) by (apply Rmult_le_pos; auto). lra.
  Qed.

  (** A whole sweep is an exact one for a right hand side that differs by the perturbations. *)
  Lemma sweep_norm s m : sweep_factor n A w s -> positive_definite n A -> 0 <= m ->
    (forall i, (i < n)%nat -> z i = exact_row i (mixed i) + dl i) ->
    (forall i, (i < n)%nat -> A i i * Rabs (dl i) <= w * m) ->
    enorm n A (fun j => z j - xs j) <= s * enorm n A (fun j => f j - xs j) + 2 * (sqrt (INR n) * m / sqrt l).
  Proof using Hs Hl Hw Hx.
    intros [Hs1 Hf] Hp Hm Hz Hd.
    set (r := fun i => A i i * dl i / w).
    destruct (definite_solution n A r Hs Hp) as (g & Hg). 
    assert (Hdi : forall i, (i < n)%nat -> 0 < A i i).
    { intros i Hi. pose proof (diagonal_ge n A l Hs Hl i Hi). destruct Hl. lra. }
    assert (NG : enorm n A g <= sqrt (INR n) * m / sqrt l).
    { apply (response n A l Hl g r m Hg Hm). intros i Hi. unfold r, Rdiv. specialize (Hdi i Hi).
      rewrite !Rabs_mult, Rabs_inv, (Rabs_pos_eq (A i i)), (Rabs_pos_eq w) by lra.
      apply (Rmult_le_reg_r w); [lra|]. rewrite Rmult_assoc, Rinv_l, Rmult_1_r by lra. rewrite (Rmult_comm m). apply Hd, Hi. }
    assert (S1 : enorm n A (fun j => z j - (xs j + g j)) <= s * enorm n A (fun j => f j - (xs j + g j))).
    { apply (Hf (fun i => h i + r i)).
      - intros i Hi. rewrite (asum_ext _ _ n _ (fun j => A i j * xs j + A i j * g j)) by (intros; ring).
        rewrite rsum_plus, Hx by auto. f_equal. apply Hg, Hi.
      - intros i Hi. rewrite (Hz i Hi) at 1. unfold exact_row. fold (mixed i).
        assert (Em : mixed i i = f i) by (unfold mixed; rewrite Nat.ltb_irrefl; reflexivity). rewrite Em.
        unfold mixed, r. specialize (Hdi i Hi). field. lra. }
    assert (S2 : enorm n A (fun j => f j - (xs j + g j)) <= enorm n A (fun j => f j - xs j) + enorm n A g).
    { rewrite <- (enorm_opp n A g). rewrite (enorm_ext n A _ (fun j => (f j - xs j) + - g j)) by (intros; ring).
      apply (enorm_triangle n A l Hs Hl). }
    assert (S3 : enorm n A (fun j => z j - xs j) <= enorm n A (fun j => z j - (xs j + g j)) + enorm n A g).
    { rewrite (enorm_ext n A _ (fun j => (z j - (xs j + g j)) + g j)) by (intros; ring).
      apply (enorm_triangle n A l Hs Hl). }
    pose proof (enorm_nonneg n A g).
    assert (s * enorm n A (fun j => f j - (xs j + g j)) <= s * (enorm n A (fun j => f j - xs j) + enorm n A g)) by (apply Rmult_le_compat_l; lra).
    assert (s * enorm n A g <= 1 * enorm n A g) by (apply Rmult_le_compat_r; lra). lra.
  Qed.
End Perturbed.
