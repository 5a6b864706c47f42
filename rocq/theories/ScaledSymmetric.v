(** Symmetric matrices over the reals that dominate after scaling: the constants of the convergence theorems. *)
From Coq Require Import ZArith Reals Lra Field Lia Psatz.
From Verif Require Import Base ListFacts Csr DenseModel DenseFacts ScalarModel GeometryReal SparseModel SparseSpec
  SparseFacts SparseMul LuModel LuFacts LuField LuReal LuFloat LuSuccess FloatUnit FloatError IterModel IterFacts IterLoop IterField IterReal Energy EnergyDrift
  SymmetricJacobi FloatDefJacobi PropRelaxLemmas PropChainLemmas.

Local Open Scope R_scope.

Section Scaled.
  Variables (n : nat) (A : nat -> nat -> R) (v : nat -> R) (q : R).
  Hypothesis Hsd : scaled_dominance n A v q.
  Hypothesis Hq1 : q < 1.
  Hypothesis Hs : symmetric n A.
  Hypothesis Hp : forall i, (i < n)%nat -> 0 < A i i.

  Lemma q_nonneg : 0 <= q.
  Proof using Hsd. apply Hsd. Qed.

  (** The elements outside of the diagonal against two vectors. *)
  Lemma outside_bound x y t : 0 < t ->
    rsum n (fun i => rsum n (fun j => if (j =? i)%nat then 0 else Rabs (A i j) * (Rabs (x i) * Rabs (y j)))) <=
      q / 2 * (t * weighted n A x + / t * weighted n A y).
  Proof using Hsd Hq1 Hs Hp.
    intro Ht. destruct Hsd as (Hq & Hd).
    assert (Hti : 0 < / t) by (apply Rinv_0_lt_compat; exact Ht).
    assert (One : forall x s, 0 <= s ->
      rsum n (fun i => rsum n (fun j => if (j =? i)%nat then 0 else s * (Rabs (A i j) * v j / v i * (x i * x i)))) <= q * (s * weighted n A x)).
    { clear x y. intros x s Hs0. unfold weighted. rewrite <- rsum_scale, <- rsum_scale. apply rsum_le. intros i Hi.
      destruct (Hd i Hi) as (Pv & _ & L).
      rewrite (asum_ext _ _ n _ (fun j => (s * (x i * x i) / v i) * (if (j =? i)%nat then 0 else Rabs (A i j) * v j)))
        by (intros j Hj; destruct (j =? i)%nat; [ring|field; lra]).
      rewrite rsum_scale. rewrite (Rabs_pos_eq (A i i)) in L by (left; apply Hp, Hi).
      apply Rle_trans with (s * (x i * x i) / v i * (q * (A i i * v i))).
      - apply Rmult_le_compat_l; [|exact L]. apply Rmult_le_pos; [apply Rmult_le_pos; [exact Hs0|apply Rle_0_sqr]|left; apply Rinv_0_lt_compat, Pv].
      - right. field. lra. }
    pose proof (One x (t / 2) ltac:(lra)) as Ox. pose proof (One y (/ t / 2) ltac:(lra)) as Oy.
    rewrite rsum_exchange in Oy.
    apply Rle_trans with (q * (t / 2 * weighted n A x) + q * (/ t / 2 * weighted n A y)); [|right; field; lra].
    apply Rle_trans with (2 := Rplus_le_compat _ _ _ _ Ox Oy). rewrite <- rsum_plus. apply rsum_le. intros i Hi.
    rewrite <- rsum_plus. apply rsum_le. intros j Hj. rewrite (Nat.eqb_sym i j). destruct (Nat.eqb_spec j i) as [|Hne]; [lra|].
    rewrite (Hs j i Hj Hi). destruct (Hd i Hi) as (Pi & _). destruct (Hd j Hj) as (Pj & _).
    pose proof (Rabs_pos (A i j)) as Pa. set (a := Rabs (A i j)) in *.
    set (s := Rabs (x i) / v i). set (r := Rabs (y j) / v j).
    assert (Ex : x i * x i = Rabs (x i) * Rabs (x i)) by (rewrite <- Rabs_mult; symmetry; apply Rabs_pos_eq, Rle_0_sqr).
    assert (Ey : y j * y j = Rabs (y j) * Rabs (y j)) by (rewrite <- Rabs_mult; symmetry; apply Rabs_pos_eq, Rle_0_sqr).
    rewrite Ex, Ey. replace (Rabs (x i)) with (s * v i) by (unfold s; field; lra). replace (Rabs (y j)) with (r * v j) by (unfold r; field; lra).
    clearbody s r a.
    replace (t / 2 * (a * v j / v i * (s * v i * (s * v i)))) with (a * (v i * v j) * (t / 2 * (s * s))) by (field; lra).
    replace (/ t / 2 * (a * v i / v j * (r * v j * (r * v j)))) with (a * (v i * v j) * (/ t / 2 * (r * r))) by (field; lra).
    replace (a * (s * v i * (r * v j))) with (a * (v i * v j) * (s * r)) by ring.
    rewrite <- Rmult_plus_distr_l. apply Rmult_le_compat_l.
    - apply Rmult_le_pos; [exact Pa|]. apply Rmult_le_pos; lra.
    - assert (H : 0 <= / t / 2 * ((t * s - r) * (t * s - r))) by (apply Rmult_le_pos; [lra|apply Rle_0_sqr]).
      replace (/ t / 2 * ((t * s - r) * (t * s - r))) with (t / 2 * (s * s) + / t / 2 * (r * r) - s * r) in H by (field; lra). lra.
  Qed.

  Lemma scaled_coercive d : 0 < d -> (forall i, (i < n)%nat -> d <= A i i) -> coercivity n A ((1 - q) * d).
  Proof using Hsd Hq1 Hs Hp.
    intros Hd Hdi. split; [apply Rmult_lt_0_compat; lra|]. intro e.
    destruct (scaled_definite n A v q Hsd Hq1 Hs Hp) as (M & _). apply Rle_trans with (2 := M e).
    rewrite Rmult_assoc. apply Rmult_le_compat_l; [lra|]. rewrite <- rsum_scale. apply rsum_le. intros i Hi.
    apply Rmult_le_compat_r; [apply Rle_0_sqr|apply Hdi, Hi].
  Qed.

  Lemma energy_lower e : (1 - q) * weighted n A e <= energy n A e.
  Proof using Hsd Hq1 Hs Hp. apply (scaled_definite n A v q Hsd Hq1 Hs Hp). Qed.

  Lemma mirrored_scaled : scaled_dominance n (mirrored A) v q.
  Proof using Hsd.
    destruct Hsd as (Hq & Hd). split; [exact Hq|]. intros i Hi. destruct (Hd i Hi) as (Pv & Na & L).
    unfold mirrored. rewrite Nat.eqb_refl. split; [exact Pv|]. split; [exact Na|].
    apply Rle_trans with (2 := L). right. apply asum_ext. intros j Hj. rewrite (Nat.eqb_sym j i).
    destruct (i =? j)%nat; [reflexivity|]. rewrite Rabs_Ropp. reflexivity.
  Qed.

  Lemma mirrored_definite : positive_definite n (mirrored A).
  Proof using Hsd Hq1 Hs Hp.
    apply (scaled_definite n (mirrored A) v q mirrored_scaled Hq1).
    - apply mirrored_symmetric; auto.
    - intros i Hi. unfold mirrored. rewrite Nat.eqb_refl. auto.
  Qed.

  (** ** Jacobi *)
  Lemma step_pair x y t : 0 < t -> Rabs (dd n A (jstep n A x) y) <= q / 2 * (t * weighted n A y + / t * weighted n A x).
  Proof using Hsd Hq1 Hs Hp.
    intro Ht. apply Rle_trans with (2 := outside_bound y x t Ht).
    assert (E : dd n A (jstep n A x) y = rsum n (fun i => rsum n (fun j => if (j =? i)%nat then 0 else - (A i j * (y i * x j))))).
    { unfold dd. apply asum_ext. intros i Hi.
      transitivity ((- y i) * rsum n (fun j => if (j =? i)%nat then 0 else A i j * x j)).
      - unfold jstep, correction. rewrite (row_off n A x i Hi). specialize (Hp i Hi). field. lra.
      - rewrite <- rsum_scale. apply asum_ext. intros j Hj. destruct (j =? i)%nat; ring. }
    rewrite E. apply Rle_trans with (1 := rsum_abs n _). apply rsum_le. intros i Hi.
    apply Rle_trans with (1 := rsum_abs n _). right. apply asum_ext. intros j Hj. destruct (j =? i)%nat; [apply Rabs_R0|].
    rewrite Rabs_Ropp, !Rabs_mult. reflexivity.
  Qed.

  Lemma step_weighted x : weighted n A (jstep n A x) <= q * q * weighted n A x.
  Proof using Hsd Hq1 Hs Hp.
    pose proof q_nonneg as Hq. set (y := jstep n A x).
    assert (W : 0 <= weighted n A y) by (apply weighted_nonneg; auto). assert (Wx : 0 <= weighted n A x) by (apply weighted_nonneg; auto).
    destruct Hq as [Hq|Hq].
    - pose proof (step_pair x y (/ q) ltac:(apply Rinv_0_lt_compat; exact Hq)) as H. fold y in H.
      change (dd n A y y) with (weighted n A y) in H. rewrite Rabs_pos_eq in H by exact W.
      rewrite Rinv_inv in H.
      replace (q / 2 * (/ q * weighted n A y + q * weighted n A x)) with (weighted n A y / 2 + q * q * weighted n A x / 2) in H by (field; lra). lra.
    - pose proof (step_pair x y 1 ltac:(lra)) as H. fold y in H. change (dd n A y y) with (weighted n A y) in H.
      rewrite Rabs_pos_eq in H by exact W. rewrite <- Hq in *. lra.
  Qed.

  Lemma step_lin x y s i : (i < n)%nat -> jstep n A (fun j => s * x j - y j) i = s * jstep n A x i - jstep n A y i.
  Proof using Hp.
    intro Hi. unfold jstep, correction.
    rewrite (asum_ext _ _ n _ (fun j => s * (A i j * x j) - A i j * y j)) by (intros; ring).
    rewrite rsum_minus, rsum_scale. specialize (Hp i Hi). field. lra.
  Qed.

  Lemma dd_lin x y x' y' s r : dd n A (fun j => s * x j - y j) (fun j => r * x' j - y' j) =
    s * r * dd n A x x' - s * dd n A x y' - r * dd n A y x' + dd n A y y'.
  Proof using Type.
    unfold dd. rewrite <- !rsum_scale, <- !rsum_minus, <- rsum_plus. apply asum_ext. intros. ring.
  Qed.

  Lemma dd_ext x x' y : (forall i, (i < n)%nat -> x i = x' i) -> dd n A x y = dd n A x' y.
  Proof using Type. intro H. unfold dd. apply asum_ext. intros i Hi. rewrite H by auto. reflexivity. Qed.

  Lemma step_energy e : energy n A (jstep n A e) <= q * q * energy n A e.
  Proof using Hsd Hq1 Hs Hp.
    pose proof q_nonneg as Hq. pose proof (step_weighted e) as H2.
    assert (EE : forall x, energy n A x = dd n A x x - dd n A (jstep n A x) x).
    { intro x. rewrite (dd_step n A Hp). change (cross n A x x) with (energy n A x). ring. }
    set (j1 := jstep n A e) in *. rewrite (EE j1), (EE e). fold j1. set (j2 := jstep n A j1).
    set (u := fun j => q * e j - j1 j).
    pose proof (step_pair u u 1 ltac:(lra)) as Hu. change (weighted n A u) with (dd n A u u) in Hu.
    change (weighted n A j1) with (dd n A j1 j1) in H2. change (weighted n A e) with (dd n A e e) in H2.
    rewrite (dd_ext (jstep n A u) (fun j => q * j1 j - j2 j) u) in Hu by (intros; unfold u; apply step_lin; auto).
    unfold u in Hu. rewrite !dd_lin in Hu.
    assert (S1 : dd n A e j1 = dd n A j1 e) by apply dd_sym.
    assert (S2 : dd n A j2 e = dd n A j1 j1) by (unfold j2; apply dd_adjoint; auto).
    rewrite S1, S2 in Hu. pose proof (Rle_abs (- (q * q * dd n A j1 e - q * dd n A j1 j1 - q * dd n A j1 j1 + dd n A j2 j1))) as Ha.
    rewrite Rabs_Ropp in Ha. rewrite Rinv_1 in Hu.
    set (p0 := dd n A e e) in *. set (p1 := dd n A j1 e) in *. set (p2 := dd n A j1 j1) in *. set (p3 := dd n A j2 j1) in *.
    clearbody p0 p1 p2 p3. assert (0 <= (1 - q) * (q * q * p0 - p2)) by (apply Rmult_le_pos; lra). lra.
  Qed.

  Lemma scaled_jacobi : jacobi_factor n A q.
  Proof using Hsd Hq1 Hs Hp.
    pose proof q_nonneg as Hq. split; [lra|]. intros h xs f z Hx Hz.
    assert (EN : forall e, 0 <= energy n A e).
    { intro e. apply Rle_trans with (2 := energy_lower e). apply Rmult_le_pos; [lra|apply weighted_nonneg; auto]. }
    unfold enorm. rewrite <- (sqrt_square q Hq), <- sqrt_mult by (auto; apply Rle_0_sqr).
    apply sqrt_le_1; [apply EN|apply Rmult_le_pos; [apply Rle_0_sqr|apply EN]|].
    rewrite (energy_ext n A _ (jstep n A (fun j => f j - xs j))); [apply step_energy|].
    intros i Hi. rewrite (Hz i Hi). apply row_jstep; auto. specialize (Hp i Hi). lra.
  Qed.

  (** ** Successive sweeps *)
  Lemma scaled_sweep w : 0 < w < 2 -> forall h xs f z, (forall i, (i < n)%nat -> rsum n (fun j => A i j * xs j) = h i) ->
    (forall i, (i < n)%nat -> z i = relaxed rops n A h w i (fun j => if (j <? i)%nat then z j else f j)) ->
    energy n A (fun j => z j - xs j) <=
      (1 - (2 - w) / w * ((1 - q) / ((/ w + q) * (/ w + q)))) * energy n A (fun j => f j - xs j).
  Proof using Hsd Hq1 Hs Hp.
    intros Hw h xs f z Hx Hz. pose proof q_nonneg as Hq. set (e := fun j => f j - xs j). set (d := fun j => z j - f j).
    set (k := / w + q). assert (Hw0 : 0 < / w) by (apply Rinv_0_lt_compat; lra). assert (Hk : 0 < k) by (unfold k; lra).
    pose proof (sweep_energy n A h xs w f z Hs Hp Hw Hx Hz) as SE. fold e in SE.
    match type of SE with _ = _ * ?s => change s with (weighted n A d) in SE end.
    set (E := energy n A e) in *. set (W := weighted n A d) in *.
    assert (W0 : 0 <= W) by (apply weighted_nonneg; auto).
    pose proof (energy_lower e) as EL. fold E in EL. set (We := weighted n A e) in *.
    assert (We0 : 0 <= We) by (apply weighted_nonneg; auto).
    set (t := (1 - q) / k). assert (Ht : 0 < t) by (apply Rdiv_lt_0_compat; lra). assert (Hti : 0 < / t) by (apply Rinv_0_lt_compat, Ht).
    assert (HE : E <= k / 2 * (t * We + / t * W)).
    { pose proof (outside_bound e d t Ht) as OB. fold We W in OB.
      apply Rle_trans with (/ w / 2 * (t * We + / t * W) + q / 2 * (t * We + / t * W)); [|unfold k; right; field; lra].
      apply Rle_trans with (2 := Rplus_le_compat_l _ _ _ OB).
      assert (D1 : / w / 2 * (t * We + / t * W) = rsum n (fun i => / w / 2 * (t * (A i i * (e i * e i)) + / t * (A i i * (d i * d i))))).
      { rewrite rsum_scale, rsum_plus, !rsum_scale. reflexivity. }
      rewrite D1, <- rsum_plus. unfold E, energy. apply rsum_le. intros i Hi.
      unfold e at 2. rewrite (residual_corrections n A h xs w f z Hp Hw Hx Hz i Hi).
      assert (Hi2 : - rsum n (fun j => (if (j <? i)%nat then A i j else if (j =? i)%nat then A i i / w else 0) * (z j - f j)) =
        - (A i i / w * d i) + rsum n (fun j => if (j <? i)%nat then - (A i j * d j) else 0)).
      { rewrite <- (rsum_bump_l n i (A i i / w) d Hi).
        replace (- rsum n (fun j => bump i (A i i / w) j * d j) + rsum n (fun j => if (j <? i)%nat then - (A i j * d j) else 0)) with
          (-1 * (rsum n (fun j => bump i (A i i / w) j * d j) - rsum n (fun j => if (j <? i)%nat then - (A i j * d j) else 0))) by ring.
        rewrite <- rsum_minus.
        replace (- rsum n (fun j => (if (j <? i)%nat then A i j else if (j =? i)%nat then A i i / w else 0) * (z j - f j))) with
          (-1 * rsum n (fun j => (if (j <? i)%nat then A i j else if (j =? i)%nat then A i i / w else 0) * (z j - f j))) by ring.
        f_equal. apply asum_ext. intros j Hj. unfold bump, d. destruct (Nat.ltb_spec j i), (Nat.eqb_spec j i); try lia; ring. }
      rewrite Hi2, Rmult_plus_distr_l. apply Rplus_le_compat.
      - specialize (Hp i Hi). assert (H : 0 <= / w / 2 * A i i * / t * ((t * e i + d i) * (t * e i + d i))).
        { apply Rmult_le_pos; [|apply Rle_0_sqr]. apply Rmult_le_pos; [|lra]. apply Rmult_le_pos; lra. }
        replace (/ w / 2 * A i i * / t * ((t * e i + d i) * (t * e i + d i))) with
          (/ w / 2 * (t * (A i i * (e i * e i)) + / t * (A i i * (d i * d i))) - e i * - (A i i / w * d i)) in H by (field; lra). lra.
      - rewrite <- rsum_scale. apply rsum_le. intros j Hj.
        assert (G : 0 <= Rabs (A i j) * (Rabs (e i) * Rabs (d j))) by (apply Rmult_le_pos; [apply Rabs_pos|apply Rmult_le_pos; apply Rabs_pos]).
        destruct (Nat.ltb_spec j i) as [Hl|Hl], (Nat.eqb_spec j i); try lia; try lra.
        rewrite <- !Rabs_mult. replace (e i * - (A i j * d j)) with (- (A i j * (e i * d j))) by ring.
        rewrite <- (Rabs_Ropp (A i j * (e i * d j))). apply Rle_abs. }
    assert (HW : (1 - q) / (k * k) * E <= W).
    { apply (Rmult_le_compat_l (2 * (1 - q) / (k * k))) in HE; [|left; apply Rdiv_lt_0_compat; [lra|apply Rmult_lt_0_compat; auto]].
      replace (2 * (1 - q) / (k * k) * (k / 2 * (t * We + / t * W))) with ((1 - q) / (k * k) * ((1 - q) * We) + W) in HE
        by (unfold t; field; lra).
      assert ((1 - q) / (k * k) * ((1 - q) * We) <= (1 - q) / (k * k) * E).
      { apply Rmult_le_compat_l; [|exact EL]. left. apply Rdiv_lt_0_compat; [lra|apply Rmult_lt_0_compat; auto]. }
      replace (2 * (1 - q) / (k * k) * E) with (2 * ((1 - q) / (k * k) * E)) in HE by (field; lra). lra. }
    assert (Hr : 0 < (2 - w) / w) by (apply Rdiv_lt_0_compat; lra).
    apply (Rmult_le_compat_l ((2 - w) / w)) in HW; [|lra]. fold k. change (energy n A (fun j => f j - xs j)) with E in SE |- *.
    set (m := (2 - w) / w) in *. set (c := (1 - q) / (k * k)) in *. clearbody m c. lra.
  Qed.

  Lemma scaled_factor w g : 0 < w < 2 -> 0 < g <= 1 -> g <= (2 - w) / w * ((1 - q) / ((/ w + q) * (/ w + q))) ->
    sweep_factor n A w (1 - g / 2).
  Proof using Hsd Hq1 Hs Hp.
    intros Hw Hg Hgb. split; [lra|]. intros h xs f z Hx Hz.
    assert (EN : forall e, 0 <= energy n A e).
    { intro e. apply Rle_trans with (2 := energy_lower e). apply Rmult_le_pos; [lra|apply weighted_nonneg; auto]. }
    assert (S0 : 0 <= 1 - g / 2) by lra.
    assert (S1 : 0 <= (1 - g / 2) * (1 - g / 2)) by (apply Rmult_le_pos; exact S0).
    unfold enorm. rewrite <- (sqrt_square (1 - g / 2) S0). rewrite <- (sqrt_mult _ _ S1 (EN _)).
    apply sqrt_le_1; [apply EN|apply Rmult_le_pos; [apply Rle_0_sqr|apply EN]|].
    apply Rle_trans with ((1 - (2 - w) / w * ((1 - q) / ((/ w + q) * (/ w + q)))) * energy n A (fun j => f j - xs j)).
    - apply (scaled_sweep w Hw h xs f z Hx). intros i Hi. rewrite (Hz i Hi). unfold relaxed.
      cbn [rops sc_add sc_mul sc_sub sc_div sc_one sc_zero]. rewrite Nat.ltb_irrefl. reflexivity.
    - apply Rmult_le_compat_r; [apply EN|]. pose proof (Rle_0_sqr g) as Sg. unfold Rsqr in Sg. lra.
  Qed.

  Lemma scaled_seidel : sweep_factor n A 1 (1 - (1 - q) / 8).
  Proof using Hsd Hq1 Hs Hp.
    pose proof q_nonneg as Hq. replace (1 - (1 - q) / 8) with (1 - (1 - q) / 4 / 2) by field.
    apply scaled_factor; [lra|lra|]. replace ((2 - 1) / 1) with 1 by field. rewrite Rmult_1_l, Rinv_1.
    apply (Rmult_le_reg_r ((1 + q) * (1 + q))); [nra|]. unfold Rdiv at 2. rewrite Rmult_assoc, Rinv_l, Rmult_1_r by nra.
    assert ((1 + q) * (1 + q) <= 2 * 2) by (apply Rmult_le_compat; lra).
    replace ((1 - q) / 4 * ((1 + q) * (1 + q))) with ((1 - q) * ((1 + q) * (1 + q) / 4)) by field. nra.
  Qed.

  Lemma scaled_sor : sweep_factor n A (3 / 2) (1 - 3 * (1 - q) / 50).
  Proof using Hsd Hq1 Hs Hp.
    pose proof q_nonneg as Hq. replace (1 - 3 * (1 - q) / 50) with (1 - 3 * (1 - q) / 25 / 2) by field.
    apply scaled_factor; [lra|lra|]. replace ((2 - 3 / 2) / (3 / 2)) with (/ 3) by field. replace (/ (3 / 2)) with (2 / 3) by field.
    set (k := 2 / 3 + q). assert (Hk : 0 < k <= 5 / 3) by (unfold k; lra).
    assert (Hkk : 0 < k * k <= 25 / 9) by nra.
    apply (Rmult_le_reg_r (k * k)); [lra|]. replace (/ 3 * ((1 - q) / (k * k)) * (k * k)) with ((1 - q) / 3) by (field; lra).
    nra.
  Qed.
End Scaled.
