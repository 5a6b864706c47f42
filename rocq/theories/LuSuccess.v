(** Matrices which the direct solver never refuses, over the reals. *)
From Coq Require Import ZArith Reals Lra Field Lia.
From Verif Require Import Base ListFacts DenseModel DenseFacts ScalarModel GeometryReal LuModel LuFacts LuField LuReal
  FloatError Energy PropLuLemmas.

Local Open Scope nat_scope.

Section Success.
  Context {S : Type}.
  Variables (O : sops S) (dbg pivot : bool).
  Implicit Types (m : list (list S)) (st : lu_state S) (g A : nat -> nat -> S).

  (** factorise succeeds when an invariant excludes small pivots. *)
  Lemma factorise_succeeds n st a A (Inv : nat -> (nat -> nat -> S) -> Prop) :
    is_mat n n a A ->
    (pivot = true -> forall m g i, is_mat n n m g -> i < n -> Inv i g -> lu_search O dbg m i = Ok i) ->
    Inv 0 A ->
    (forall i g, i < n -> Inv i g ->
       sc_lt O (sc_abs O (g i i)) (lu_tolerance st) = false /\
       Inv (i + 1) (fun r c => if i <? r then elim_row O g i r c else g r c)) ->
    exists st' g, factorise O dbg pivot st a = Ok (st', true) /\ is_mat n n (lu_matrix st') g /\ Inv n g /\
      (pivot = true -> lu_pivots st' = seq 0 n).
  Proof using.
    intros Ha HP H0 Hstep. unfold factorise. rewrite (is_mat_rows _ _ _ _ Ha).
    destruct (FOR_inv (fun i (r : bool * list (list S) * list nat) => let '(go, m, p) := r in
        go = true /\ exists g, is_mat n n m g /\ Inv i g /\ (pivot = true -> p = seq 0 n))
      n (lu_round O dbg pivot (lu_tolerance st)) (true, a, if pivot then seq 0 (m_cols a) else lu_pivots st))
      as (r & E & H).
    - split; auto. exists A. split; auto. split; auto. intros ->. rewrite (shape_cols _ _ _ _ Ha); auto.
    - intros i [[go m] p] Hi (-> & g & Hm & HI & Hp). unfold lu_round.
      assert (lu_pivot O dbg pivot m p i = Ok (m, p)) as Epiv.
      { unfold lu_pivot. destruct pivot; auto. rewrite (HP eq_refl m g i Hm Hi HI). cbn [bind].
        rewrite Nat.eqb_refl. reflexivity. }
      rewrite Epiv. cbn [bind]. rewrite (is_mat_get _ _ _ _ _ _ Hm) by lia. cbn [bind].
      destruct (Hstep i g Hi HI) as [-> HI'].
      destruct (eliminate_ok O n m g i Hm Hi) as (m2 & -> & Hm2). cbn [bind].
      eexists. split; [reflexivity|]. split; auto. eexists. split; [exact Hm2|]. split; auto.
    - rewrite E. destruct r as [[ok m] p]. cbn [bind]. destruct H as (-> & g & Hm & HI & Hp).
      eexists. exists g. split; [reflexivity|]. auto.
  Qed.
End Success.

Local Open Scope R_scope.

(** Sum of [h] over the indices from [k] on, without [i]. *)
Definition wsum (n k i : nat) (h : nat -> R) : R :=
  rsum n (fun j => if ((k <=? j) && negb (j =? i))%nat then h j else 0).

Lemma wsum_le n k i h h' : (forall j, (k <= j < n)%nat -> j <> i -> h j <= h' j) -> wsum n k i h <= wsum n k i h'.
Proof.
  intro H. apply rsum_le. intros j Hj. destruct (Nat.leb_spec k j), (Nat.eqb_spec j i); cbn; try lra. apply H; lia.
Qed.

Lemma wsum_lin n k i h h' c : wsum n k i (fun j => h j + c * h' j) = wsum n k i h + c * wsum n k i h'.
Proof.
  unfold wsum. rewrite <- rsum_scale, <- rsum_plus. apply asum_ext. intros j _.
  destruct ((k <=? j) && negb (j =? i))%nat; ring.
Qed.

Lemma wsum_nonneg n k i h : (forall j, 0 <= h j) -> 0 <= wsum n k i h.
Proof. intro H. apply rsum_nonneg. intros j _. destruct (_ && _); auto. lra. Qed.

(** Taking one index out of a sum. *)
Lemma rsum_out n i h : (i < n)%nat -> rsum n h = h i + rsum n (fun j => if (j =? i)%nat then 0 else h j).
Proof.
  induction n as [|n IH]; intro Hi; [lia|]. cbn [asum].
  destruct (Nat.eqb_spec n i) as [->|Hne].
  - replace (rsum i (fun j => if (j =? i)%nat then 0 else h j)) with (rsum i h); [ring|].
    apply asum_ext. intros j Hj. destruct (Nat.eqb_spec j i); [lia|auto].
  - rewrite IH by lia. ring.
Qed.

Lemma wsum_first n k i h : (k < i)%nat -> (i < n)%nat -> wsum n k i h = h k + wsum n (k + 1) i h.
Proof.
  intros Hk Hi. unfold wsum. rewrite (rsum_out n k) by lia. 
  rewrite Nat.leb_refl. destruct (Nat.eqb_spec k i); [lia|]. cbn [negb andb]. f_equal.
  apply asum_ext. intros j _.
  destruct (Nat.eqb_spec j k), (Nat.leb_spec k j), (Nat.leb_spec (k + 1) j), (Nat.eqb_spec j i); cbn; auto; lia.
Qed.

Lemma wsum_pivot n k i h : (k < i)%nat -> (i < n)%nat -> wsum n k k h = h i + wsum n (k + 1) i h.
Proof.
  intros Hk Hi. unfold wsum. rewrite (rsum_out n i) by lia.
  destruct (Nat.leb_spec k i); [|lia]. destruct (Nat.eqb_spec i k); [lia|]. cbn [negb andb]. f_equal.
  apply asum_ext. intros j _.
  destruct (Nat.eqb_spec j k), (Nat.leb_spec k j), (Nat.leb_spec (k + 1) j), (Nat.eqb_spec j i); cbn; auto; lia.
Qed.

(** Rows (columns) dominated by the diagonal with a margin, from row [k] on. *)
Definition row_margin n k (g : nat -> nat -> R) (d : R) : Prop :=
  forall i, (k <= i < n)%nat -> wsum n k i (fun j => Rabs (g i j)) + d <= Rabs (g i i).

Definition column_margin n k (g : nat -> nat -> R) (d : R) : Prop :=
  forall j, (k <= j < n)%nat -> wsum n k j (fun i => Rabs (g i j)) + d <= Rabs (g j j).

Definition eliminated (g : nat -> nat -> R) (k r c : nat) : R :=
  if (k <? r)%nat then elim_row rops g k r c else g r c.

Lemma eliminated_rest g k i j : (k < i)%nat -> (k < j)%nat ->
  eliminated g k i j = g i j - g i k / g k k * g k j.
Proof.
  intros Hi Hj. unfold eliminated, elim_row. destruct (Nat.ltb_spec k i); [|lia]. destruct (Nat.ltb_spec j k); [lia|].
  destruct (Nat.eqb_spec j k); [lia|]. reflexivity.
Qed.

Lemma abs_ratio a b : b <> 0 -> Rabs (a / b) * Rabs b = Rabs a.
Proof. intro H. rewrite <- Rabs_mult. f_equal. field. auto. Qed.

Lemma eliminated_abs g k i j : (k < i)%nat -> (k < j)%nat ->
  Rabs (eliminated g k i j) <= Rabs (g i j) + Rabs (g i k / g k k) * Rabs (g k j).
Proof.
  intros Hi Hj. rewrite eliminated_rest, <- Rabs_mult by auto. unfold Rminus.
  apply Rle_trans with (1 := Rabs_triang _ _). rewrite Rabs_Ropp. lra.
Qed.

Lemma eliminated_diag g k i : (k < i)%nat ->
  Rabs (g i i) - Rabs (g i k / g k k) * Rabs (g k i) <= Rabs (eliminated g k i i).
Proof.
  intro Hi. rewrite eliminated_rest by auto. rewrite <- Rabs_mult. apply Rabs_triang_inv.
Qed.

Lemma row_margin_pivot n k g d : row_margin n k g d -> (k < n)%nat -> d <= Rabs (g k k).
Proof.
  intros H Hk. specialize (H k ltac:(lia)).
  pose proof (wsum_nonneg n k k (fun j => Rabs (g k j)) ltac:(intro; apply Rabs_pos)). lra.
Qed.

Lemma row_margin_step n k g d : 0 < d -> row_margin n k g d -> (k < n)%nat -> row_margin n (k + 1) (eliminated g k) d.
Proof.
  intros Hd H Hk i Hi.
  pose proof (row_margin_pivot _ _ _ _ H Hk) as Hp.
  assert (Hp0 : g k k <> 0) by (intro E; rewrite E, Rabs_R0 in Hp; lra).
  pose proof (H k ltac:(lia)) as Rk. pose proof (H i ltac:(lia)) as Ri.
  rewrite (wsum_pivot n k i) in Rk by lia. rewrite (wsum_first n k i) in Ri by lia.
  set (l := Rabs (g i k / g k k)) in *.
  assert (Hl : l * Rabs (g k k) = Rabs (g i k)) by (apply abs_ratio; auto).
  assert (Hl0 : 0 <= l) by apply Rabs_pos.
  apply Rle_trans with (wsum n (k + 1) i (fun j => Rabs (g i j) + l * Rabs (g k j)) + d).
  - apply Rplus_le_compat_r. apply wsum_le. intros j Hj _. apply eliminated_abs; lia.
  - rewrite wsum_lin. pose proof (eliminated_diag g k i ltac:(lia)) as Hdiag. fold l in Hdiag.
    set (a := wsum n (k + 1) i (fun j => Rabs (g i j))) in *.
    set (b := wsum n (k + 1) i (fun j => Rabs (g k j))) in *.
    assert (l * (Rabs (g k i) + b + d) <= Rabs (g i k)).
    { rewrite <- Hl. apply Rmult_le_compat_l; lra. }
    assert (0 <= l * d) by (apply Rmult_le_pos; lra). lra.
Qed.

Lemma column_margin_pivot n k g d : column_margin n k g d -> (k < n)%nat -> d <= Rabs (g k k).
Proof.
  intros H Hk. specialize (H k ltac:(lia)).
  pose proof (wsum_nonneg n k k (fun j => Rabs (g j k)) ltac:(intro; apply Rabs_pos)). lra.
Qed.

Lemma column_margin_step n k g d : 0 < d -> column_margin n k g d -> (k < n)%nat ->
  column_margin n (k + 1) (eliminated g k) d.
Proof.
  intros Hd H Hk j Hj.
  pose proof (column_margin_pivot _ _ _ _ H Hk) as Hp.
  assert (Hp0 : g k k <> 0) by (intro E; rewrite E, Rabs_R0 in Hp; lra).
  pose proof (H k ltac:(lia)) as Ck. pose proof (H j ltac:(lia)) as Cj.
  rewrite (wsum_pivot n k j) in Ck by lia. rewrite (wsum_first n k j) in Cj by lia.
  set (p := Rabs (g k k)) in *. set (c := Rabs (g k j)) in *.
  assert (Hc : 0 <= c) by apply Rabs_pos.
  set (r := c / p). assert (Hr : r * p = c) by (unfold r; field; lra).
  assert (Hr0 : 0 <= r) by (unfold r, Rdiv; apply Rmult_le_pos; [auto|apply Rlt_le, Rinv_0_lt_compat; lra]).
  assert (Hq : forall i, Rabs (g i k / g k k) * c = r * Rabs (g i k)).
  { intro i. unfold r, Rdiv. rewrite Rabs_mult, Rabs_inv. fold p. ring. }
  apply Rle_trans with (wsum n (k + 1) j (fun i => Rabs (g i j) + r * Rabs (g i k)) + d).
  - apply Rplus_le_compat_r. apply wsum_le. intros i Hi _. rewrite <- Hq. apply eliminated_abs; lia.
  - rewrite wsum_lin. pose proof (eliminated_diag g k j ltac:(lia)) as Hdiag. fold c in Hdiag. rewrite Hq in Hdiag.
    set (a := wsum n (k + 1) j (fun i => Rabs (g i j))) in *.
    set (b := wsum n (k + 1) j (fun i => Rabs (g i k))) in *.
    assert (r * (Rabs (g j k) + b + d) <= c).
    { rewrite <- Hr. apply Rmult_le_compat_l; lra. }
    assert (0 <= r * d) by (apply Rmult_le_pos; lra). lra.
Qed.

(** Sums of columns do not grow. *)
Definition csum n k (g : nat -> nat -> R) (j : nat) : R :=
  rsum n (fun i => if (k <=? i)%nat then Rabs (g i j) else 0).

Lemma csum_split n k g j : (k < n)%nat -> csum n k g j = Rabs (g k j) + csum n (k + 1) g j.
Proof.
  intro Hk. unfold csum. rewrite (rsum_out n k) by auto. rewrite Nat.leb_refl. f_equal.
  apply asum_ext. intros i _. destruct (Nat.eqb_spec i k), (Nat.leb_spec k i), (Nat.leb_spec (k + 1) i); auto; lia.
Qed.

Lemma csum_wsum n k g j : (k < n)%nat -> wsum n k k (fun i => Rabs (g i j)) = csum n (k + 1) g j.
Proof.
  intro Hk. apply asum_ext. intros i _.
  destruct (Nat.eqb_spec i k), (Nat.leb_spec k i), (Nat.leb_spec (k + 1) i); auto; lia.
Qed.

Lemma csum_step n k g d j : 0 < d -> column_margin n k g d -> (k < j)%nat -> (k < n)%nat ->
  csum n (k + 1) (eliminated g k) j <= csum n k g j.
Proof.
  intros Hd H Hj Hk. pose proof (column_margin_pivot _ _ _ _ H Hk) as Hp.
  pose proof (H k ltac:(lia)) as Ck. rewrite csum_wsum in Ck by auto. rewrite (csum_split n k g j) by auto.
  set (p := Rabs (g k k)) in *. set (c := Rabs (g k j)) in *.
  assert (Hc : 0 <= c) by apply Rabs_pos.
  set (r := c / p). assert (Hr : r * p = c) by (unfold r; field; lra).
  assert (Hr0 : 0 <= r) by (unfold r, Rdiv; apply Rmult_le_pos; [auto|apply Rlt_le, Rinv_0_lt_compat; lra]).
  apply Rle_trans with (csum n (k + 1) g j + r * csum n (k + 1) g k).
  - unfold csum. rewrite <- rsum_scale, <- rsum_plus. apply rsum_le. intros i Hi.
    destruct (Nat.leb_spec (k + 1) i); [|lra].
    replace (r * Rabs (g i k)) with (Rabs (g i k / g k k) * c).
    + apply eliminated_abs; lia.
    + unfold r, Rdiv. rewrite Rabs_mult, Rabs_inv. fold p. ring.
  - assert (r * csum n (k + 1) g k <= c); [|lra]. rewrite <- Hr. apply Rmult_le_compat_l; lra.
Qed.

Lemma csum_member n k g i j : (k <= i < n)%nat -> Rabs (g i j) <= csum n k g j.
Proof.
  intro Hi. unfold csum. rewrite (rsum_out n i) by lia. destruct (Nat.leb_spec k i); [|lia].
  assert (0 <= rsum n (fun i0 => if (i0 =? i)%nat then 0 else if (k <=? i0)%nat then Rabs (g i0 j) else 0)); [|lra].
  apply rsum_nonneg. intros t _. pose proof (Rabs_pos (g t j)). destruct (t =? i)%nat, (k <=? t)%nat; lra.
Qed.

(** What is known after [k] rounds on a matrix with dominant columns. *)
Definition column_state n (C : nat -> R) d k (g : nat -> nat -> R) : Prop :=
  column_margin n k g d /\
  (forall j, (k <= j < n)%nat -> csum n k g j <= C j) /\
  (forall r c, (r < k)%nat -> (r <= c < n)%nat -> Rabs (g r c) <= C c) /\
  (forall c, (c < k)%nat -> csum n (c + 1) g c < 1).

Lemma csum_ext n k g h j : (forall i, (k <= i < n)%nat -> g i j = h i j) -> csum n k g j = csum n k h j.
Proof. intro H. apply asum_ext. intros i Hi. destruct (Nat.leb_spec k i); auto. rewrite H; auto. Qed.

Lemma column_state_step n C d k g : 0 < d -> (k < n)%nat -> column_state n C d k g ->
  column_state n C d (k + 1) (eliminated g k).
Proof.
  intros Hd Hk (M & G1 & G2 & L). pose proof (column_margin_pivot _ _ _ _ M Hk) as Hp.
  split; [apply column_margin_step; auto|]. split; [|split].
  - intros j Hj. apply Rle_trans with (csum n k g j); [|apply G1; lia]. apply (csum_step n k g d); auto. lia.
  - intros r c Hr Hc. unfold eliminated. destruct (Nat.ltb_spec k r); [lia|].
    destruct (Nat.eq_dec r k) as [->|]; [|apply G2; lia].
    apply Rle_trans with (csum n k g c); [apply csum_member; lia|apply G1; lia].
  - intros c Hc. destruct (Nat.eq_dec c k) as [->|Hne].
    + replace (csum n (k + 1) (eliminated g k) k) with (/ Rabs (g k k) * csum n (k + 1) g k).
      * pose proof (M k ltac:(lia)) as Ck. rewrite csum_wsum in Ck by auto.
        apply (Rmult_lt_reg_l (Rabs (g k k))); [lra|]. rewrite <- Rmult_assoc, Rinv_r by lra. lra.
      * unfold csum. rewrite <- rsum_scale. apply asum_ext. intros i Hi.
        destruct (Nat.leb_spec (k + 1) i); [|ring]. unfold eliminated, elim_row.
        destruct (Nat.ltb_spec k i); [|lia]. destruct (Nat.ltb_spec k k); [lia|]. rewrite Nat.eqb_refl.
        cbn [rops sc_div]. unfold Rdiv. rewrite Rabs_mult, Rabs_inv. ring.
    + rewrite (csum_ext n (c + 1) (eliminated g k) g c); [apply L; lia|]. intros i Hi.
      unfold eliminated, elim_row. destruct (Nat.ltb_spec k i), (Nat.ltb_spec c k); auto; lia.
Qed.

(** The search keeps a diagonal element which is the largest of its column and not tiny. *)
Lemma search_keeps dbg n m (g : nat -> nat -> R) i : is_mat n n m g -> (i < n)%nat ->
  / 2 ^ 46 <= Rabs (g i i) -> (forall k, (i <= k < n)%nat -> Rabs (g k i) <= Rabs (g i i)) ->
  lu_search rops dbg m i = Ok i.
Proof.
  intros Hm Hi Hb Hmax. unfold lu_search. rewrite (is_mat_cols _ _ _ _ Hm) by lia.
  assert (P46 : 0 < / 2 ^ 46) by (apply Rinv_0_lt_compat, pow_lt; lra).
  match goal with |- context[forM (seq i (n - i)) ?F _] =>
    destruct (forM_seq_inv (fun k (s : R * nat) => snd s = i /\
      (if (k =? i)%nat then fst s = 0 else fst s = Rabs (g i i))) i (n - i) F (sc_zero rops, i)) as (r & E & H) end.
  - cbn [fst snd]. rewrite Nat.eqb_refl. auto.
  - intros k [mx im] Hk [Hs Hmx]. cbn [fst snd] in *. subst im.
    rewrite (is_mat_get _ _ _ _ _ _ Hm) by lia. cbn [bind].
    destruct (nearly_total rops dbg (sc_abs rops (g k i)) mx (R_tol_default dbg)) as (gt & Eg). rewrite Eg. cbn [bind].
    cbn [rops sc_abs] in Eg. fold rops in Eg. eexists. split; [reflexivity|]. cbn [rops sc_abs].
    replace (k + 1 =? i)%nat with false by (symmetry; apply Nat.eqb_neq; lia).
    destruct gt; cbn [fst snd].
    + apply nearly_greater_gt in Eg. destruct (Nat.eqb_spec k i) as [->|]; [auto|].
      exfalso. specialize (Hmax k ltac:(lia)). lra.
    + destruct (Nat.eqb_spec k i) as [->|]; [|auto]. exfalso. subst mx.
      revert Eg. unfold is_nearly_greater, is_nearly_less_equal, is_nearly_equal.
      rewrite !assert_ok' by (intro D; apply R_tol_default with (1 := D)). cbn [bind].
      cbn [rops sc_lt sc_eq sc_abs sc_sub sc_add sc_mul sc_max]. fold rops.
      destruct (Rltb (Rabs (g i i)) 0) eqn:E1; [apply Rltb_true in E1; lra|].
      destruct (Reqb (Rabs (g i i)) 0) eqn:E2; [apply Reqb_true in E2; lra|].
      cbn [bind]. set (q := std_min _ _ _). intro H. apply Ok_inj in H. apply negb_false_iff in H.
      apply Rltb_true in H. rewrite Rminus_0_r, Rabs_pos_eq in H by lra.
      assert (Hq : q <= Rabs (g i i)).
      { unfold q, std_min. cbn [rops sc_lt sc_add]. rewrite Rabs_R0, Rplus_0_r, Rabs_Rabsolu.
        destruct (Rltb _ (Rabs (g i i))) eqn:E; [apply Rltb_true in E|]; lra. }
      pose proof eps_pos as Hp.
      unfold std_max, default_absolute, default_relative in H.
      cbn [rops sc_lt sc_mul sc_of_Z sc_eps] in H.
      assert (A : 64 * / 2 ^ 52 = / 2 ^ 46) by (rewrite two52; replace (2 ^ 46) with 70368744177664 by ring; field).
      assert (B : 65536 * / 2 ^ 52 = / 2 ^ 36) by (rewrite two52; replace (2 ^ 36) with 68719476736 by ring; field).
      rewrite A, B in H. assert (0 < / 2 ^ 36) by lra.
      assert (/ 2 ^ 36 <= 1 / 2) by (replace (2 ^ 36) with 68719476736 by ring; lra).
      destruct (Rltb (/ 2 ^ 46) (/ 2 ^ 36 * q)) eqn:E; [|lra].
      assert (/ 2 ^ 36 * q <= / 2 ^ 36 * Rabs (g i i)) by (apply Rmult_le_compat_l; lra).
      assert (/ 2 ^ 36 * Rabs (g i i) <= 1 / 2 * Rabs (g i i)) by (apply Rmult_le_compat_r; lra). lra.
  - rewrite E. cbn [bind]. destruct H as [<- _]. reflexivity.
Qed.

(** Positive definite matrices: the quadratic form of what is left stays bounded below. *)
Definition definite_state n l k (g : nat -> nat -> R) : Prop :=
  exists B, symmetric n B /\ (forall i j, (k <= i < n)%nat -> (k <= j < n)%nat -> g i j = B i j) /\
    forall e, (forall i, (i < k)%nat -> e i = 0) -> l * rsum n (fun i => e i * e i) <= energy n B e.

Lemma definite_pivot n l k g : definite_state n l k g -> (k < n)%nat -> l <= g k k.
Proof.
  intros (B & Hs & HB & H) Hk. rewrite HB by lia.
  specialize (H (bump k 1)). rewrite diagonal_energy in H by auto.
  rewrite rsum_bump in H by auto. unfold bump in H. rewrite Nat.eqb_refl, !Rmult_1_r in H. apply H.
  intros i Hi. destruct (Nat.eqb_spec i k); [lia|auto].
Qed.

Lemma definite_step n l k g : 0 < l -> (k < n)%nat -> definite_state n l k g ->
  definite_state n l (k + 1) (eliminated g k).
Proof.
  intros Hl Hk Hst. pose proof (definite_pivot _ _ _ _ Hst Hk) as Hp.
  destruct Hst as (B & Hs & HB & H). rewrite HB in Hp by lia.
  exists (fun i j => B i j - B i k * B k j / B k k). split; [|split].
  - intros i j Hi Hj. rewrite (Hs i j), (Hs i k), (Hs k j) by auto. field. lra.
  - intros i j Hi Hj. rewrite eliminated_rest by lia. rewrite !HB by lia. field. lra.
  - intros e He. set (s := rsum n (fun j => B k j * e j)).
    assert (Ee : energy n (fun i j => B i j - B i k * B k j / B k k) e = energy n B e - s * s / B k k).
    { unfold energy.
      rewrite (asum_ext _ _ n _ (fun i => e i * rsum n (fun j => B i j * e j) + (- (s / B k k)) * (B k i * e i))).
      - rewrite rsum_plus, rsum_scale. fold s. field. lra.
      - intros i Hi. rewrite (asum_ext _ _ n _ (fun j => B i j * e j + (- (B i k / B k k)) * (B k j * e j))).
        + rewrite rsum_plus, rsum_scale, (Hs i k) by auto. fold s. field. lra.
        + intros j Hj. field. lra. }
    rewrite Ee. set (c := - (s / B k k)).
    specialize (H (fun j => e j + bump k c j)).
    rewrite energy_bump in H by auto. fold s in H.
    replace (energy n B e + 2 * c * s + c * c * B k k) with (energy n B e - s * s / B k k) in H by (unfold c; field; lra).
    apply Rle_trans with (2 := H ltac:(intros i Hi; unfold bump; rewrite He by lia;
      destruct (Nat.eqb_spec i k); [lia|ring])).
    apply Rmult_le_compat_l; [lra|]. apply rsum_le. intros i Hi. unfold bump.
    destruct (Nat.eqb_spec i k) as [->|]; [|right; ring]. rewrite He by lia. pose proof (Rle_0_sqr c). unfold Rsqr in *. lra.
Qed.

(* ------------------------------------------------------------------ the solver *)
Lemma row_dominant_ok dbg n st a A d : is_mat n n a A -> 0 < d -> lu_tolerance st <= d -> row_margin n 0 A d ->
  exists st', factorise rops dbg false st a = Ok (st', true).
Proof.
  intros Ha Hd Ht HA.
  destruct (factorise_succeeds rops dbg false n st a A (fun k g => row_margin n k g d)) as (st' & g & E & _); eauto.
  - discriminate.
  - intros k g Hk Hg. split; [|apply row_margin_step; auto].
    apply Rltb_false. cbn [rops sc_abs]. pose proof (row_margin_pivot _ _ _ _ Hg Hk). lra.
Qed.

Lemma column_dominant_ok dbg pivot n st a A d : is_mat n n a A -> 0 < d -> lu_tolerance st <= d ->
  (pivot = true -> / 2 ^ 46 <= d) -> column_margin n 0 A d ->
  exists st' g, factorise rops dbg pivot st a = Ok (st', true) /\ is_mat n n (lu_matrix st') g /\
    (pivot = true -> lu_pivots st' = seq 0 n) /\
    (forall i j, (i <= j < n)%nat -> Rabs (g i j) <= rsum n (fun k => Rabs (A k j))) /\
    (forall j, (j < n)%nat -> csum n (j + 1) g j < 1).
Proof.
  intros Ha Hd Ht Hp HA.
  destruct (factorise_succeeds rops dbg pivot n st a A (column_state n (fun j => rsum n (fun k => Rabs (A k j))) d))
    as (st' & g & E & Hg & (_ & _ & G & L) & Hpiv); eauto.
  - intros Ep m g i Hm Hi (M & _). specialize (Hp Ep). pose proof (column_margin_pivot _ _ _ _ M Hi).
    apply (search_keeps dbg n m g i); auto; [lra|]. intros k Hk.
    destruct (Nat.eq_dec k i) as [->|]; [lra|]. specialize (M i ltac:(lia)). rewrite csum_wsum in M by auto.
    pose proof (csum_member n (i + 1) g k i ltac:(lia)). lra.
  - split; [exact HA|]. split; [|split; intros; lia]. intros j Hj. apply Req_le. apply asum_ext. auto.
  - intros k g Hk HI. split; [|apply column_state_step; auto].
    destruct HI as (M & _). apply Rltb_false. cbn [rops sc_abs]. pose proof (column_margin_pivot _ _ _ _ M Hk). lra.
  - exists st', g. split; auto. split; auto. split; auto. split; auto. intros i j Hij. apply G; lia.
Qed.

Lemma definite_ok dbg n st a A l : is_mat n n a A -> 0 < l -> lu_tolerance st <= l -> symmetric n A ->
  (forall e, l * rsum n (fun i => e i * e i) <= energy n A e) ->
  exists st' g, factorise rops dbg false st a = Ok (st', true) /\ is_mat n n (lu_matrix st') g /\
    forall i, (i < n)%nat -> l <= g i i.
Proof.
  intros Ha Hl Ht Hs HA.
  destruct (factorise_succeeds rops dbg false n st a A (fun k g => definite_state n l k g /\
    forall i, (i < k)%nat -> (i < n)%nat -> l <= g i i)) as (st' & g & E & Hg & (_ & D) & _); eauto.
  - discriminate.
  - split; [|intros; lia]. exists A. auto.
  - intros k g Hk [Hg Hd]. pose proof (definite_pivot _ _ _ _ Hg Hk) as Hp. split; [|split].
    + apply Rltb_false. cbn [rops sc_abs]. rewrite Rabs_pos_eq; lra.
    + apply definite_step; auto.
    + intros i Hi Hn. unfold eliminated. destruct (Nat.ltb_spec k i); [lia|].
      destruct (Nat.eq_dec i k) as [->|]; [auto|apply Hd; lia].
  - exists st', g. split; auto.
Qed.
