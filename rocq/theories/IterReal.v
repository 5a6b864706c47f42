(** Residuals and contraction of the sweeps over the reals, C59 and C60. *)
From Coq Require Import ZArith Reals Lra Field Lia.
From Verif Require Import Base ListFacts Csr DenseModel DenseFacts ScalarModel GeometryReal SparseModel SparseSpec
  SparseFacts SparseMul LuModel LuFacts LuField LuReal IterModel IterFacts IterLoop IterField.

Local Open Scope R_scope.

Definition R_semi := semi_ring rops Ropp Rinv R_field.

(* ------------------------------------------------------------------ residuals *)
Lemma fold_max_spec n (f : nat -> R) : (forall i, (i < n)%nat -> 0 <= f i) ->
  0 <= fold_max rops n f /\ (forall i, (i < n)%nat -> f i <= fold_max rops n f) /\
  ((0 < n)%nat -> exists i, (i < n)%nat /\ fold_max rops n f = f i).
Proof.
  induction n as [|n IH]; intro H; cbn [fold_max].
  - split; [cbn; lra|]. split; intros; lia.
  - destruct IH as (H0 & H1 & H2); [intros; apply H; lia|]. unfold std_max. cbn [rops sc_lt]. fold rops.
    set (m := fold_max rops n f) in *. pose proof (H n ltac:(lia)) as Hn.
    destruct (Rltb m (f n)) eqn:E; [apply Rltb_true in E|apply Rltb_false in E]; (split; [lra|]); split.
    + intros i Hi. destruct (Nat.eq_dec i n) as [->|]; [lra|]. specialize (H1 i ltac:(lia)). lra.
    + intros _. exists n. split; [lia|auto].
    + intros i Hi. destruct (Nat.eq_dec i n) as [->|]; [lra|]. apply H1. lia.
    + intros _. destruct n as [|n']; [|destruct H2 as (i & Hi & Ei); [lia|]; exists i; split; [lia|auto]].
      exists 0%nat. split; [lia|]. unfold m in *. cbn [fold_max rops sc_zero] in *. lra.
Qed.

Lemma residual_real dbg stray n a A b h x f : sparse_square 0 n a A -> is_vec n b h -> is_vec n x f -> (0 < n)%nat ->
  exists l2 linf, compute_residual rops dbg stray a x b = Ok (l2, linf) /\
    l2 = sqrt (rsum n (fun i => (h i - rsum n (fun j => A i j * f j)) ^ 2) / INR n) /\
    (forall i, (i < n)%nat -> Rabs (h i - rsum n (fun j => A i j * f j)) <= linf) /\
    (exists i, (i < n)%nat /\ linf = Rabs (h i - rsum n (fun j => A i j * f j))).
Proof.
  intros (Hw & Hr & Hc & HA) Hb Hx Hn. destruct Hw as (rs & Hs & Ho). rewrite Hc in Ho.
  assert (L : length rs = n) by (rewrite <- Hr; symmetry; apply srepr_rows, Hs).
  rewrite (residual_ok rops dbg stray n a b rs h x f Hs Ho L Hb Hx Hc) by lia.
  set (res := fun i => h i - rsum n (fun j => A i j * f j)).
  assert (E : forall i, (i < n)%nat -> row_square rops (nth i rs []) (h i) f = (res i) ^ 2).
  { intros i Hi. unfold row_square. rewrite (proj1 (row_sums rops R_semi n a rs A i f Hs Ho L Hi HA)).
    unfold res. cbn [rops sc_mul sc_sub sc_zero sc_add]. ring. }
  assert (Hp : forall i, (i < n)%nat -> 0 <= row_square rops (nth i rs []) (h i) f).
  { intros i Hi. rewrite E by auto. apply pow2_ge_0. }
  destruct (fold_max_spec n _ Hp) as (H0 & H1 & H2).
  eexists. eexists. split; [reflexivity|]. split; [|split].
  - cbn [rops sc_sqrt sc_div sc_of_Z sc_zero sc_add]. rewrite <- INR_IZR_INZ. f_equal. f_equal.
    apply asum_ext. exact E.
  - intros i Hi. cbn [rops sc_sqrt]. fold (res i). rewrite <- sqrt_Rsqr_abs. apply sqrt_le_1_alt.
    unfold Rsqr. replace (res i * res i) with (res i ^ 2) by ring. rewrite <- E by auto. apply H1, Hi.
  - destruct (H2 Hn) as (i & Hi & Ei). exists i. split; auto. cbn [rops sc_sqrt]. fold rops. rewrite Ei, E by auto.
    fold (res i). rewrite <- sqrt_Rsqr_abs. f_equal. unfold Rsqr. ring.
Qed.

(* ------------------------------------------------------------------ contraction *)
(** Strict row diagonal dominance. *)
Definition dominant n (A : nat -> nat -> R) : Prop :=
  forall i, (i < n)%nat -> rsum n (fun j => if j =? i then 0 else Rabs (A i j)) < Rabs (A i i).

(** Dominance with the factor [q]. *)
Definition dominance n (A : nat -> nat -> R) (q : R) : Prop :=
  0 <= q < 1 /\ forall i, (i < n)%nat -> A i i <> 0 /\
    rsum n (fun j => if j =? i then 0 else Rabs (A i j)) <= q * Rabs (A i i).

Lemma off_nonneg n (A : nat -> nat -> R) i : 0 <= rsum n (fun j => if j =? i then 0 else Rabs (A i j)).
Proof. apply rsum_nonneg. intros j _. destruct (j =? i); [lra|apply Rabs_pos]. Qed.

Lemma dominant_factor n A : dominant n A -> exists q, dominance n A q.
Proof.
  intro H. unfold dominant in H.
  assert (G : forall k, (k <= n)%nat -> exists q, 0 <= q < 1 /\ forall i, (i < k)%nat -> A i i <> 0 /\
      rsum n (fun j => if j =? i then 0 else Rabs (A i j)) <= q * Rabs (A i i)).
  { induction k as [|k IH]; intro Hk; [exists 0; split; [lra|intros; lia]|].
    destruct IH as (q & Hq & Hi); [lia|]. specialize (H k ltac:(lia)) as Hs.
    pose proof (off_nonneg n A k) as Hp. set (s := rsum n _) in *.
    assert (Hd : 0 < Rabs (A k k)) by lra.
    assert (Hne : A k k <> 0) by (intro E; rewrite E, Rabs_R0 in Hd; lra).
    set (p := s / Rabs (A k k)). assert (Hsp : s = p * Rabs (A k k)) by (unfold p; field; lra).
    assert (Hp0 : 0 <= p) by (unfold p; apply Rmult_le_pos; [lra|left; apply Rinv_0_lt_compat; lra]).
    assert (Hp1 : p < 1) by (apply (Rmult_lt_reg_r (Rabs (A k k))); lra).
    exists (Rmax q p). split; [split; [apply Rle_trans with q; [lra|apply Rmax_l]|apply Rmax_lub_lt; lra]|].
    intros i Hik. destruct (Nat.eq_dec i k) as [->|Hn].
    - split; auto. fold s. rewrite Hsp. apply Rmult_le_compat_r; [lra|apply Rmax_r].
    - destruct (Hi i ltac:(lia)) as [H1 H2]. split; auto. apply Rle_trans with (1 := H2).
      apply Rmult_le_compat_r; [apply Rabs_pos|apply Rmax_l]. }
  destruct (G n (Nat.le_refl n)) as (q & Hq & Hi). exists q. split; auto.
Qed.

Notation sweepf := (relaxed rops).

Lemma contract n A h q i f g e : dominance n A q -> (i < n)%nat -> 0 <= e ->
  (forall j, (j < n)%nat -> Rabs (f j - g j) <= e) -> Rabs (sweepf n A h 1 i f - sweepf n A h 1 i g) <= q * e.
Proof.
  intros (Hq & Hd) Hi He H. destruct (Hd i Hi) as [Hne Hs].
  assert (Hp : 0 < Rabs (A i i)) by (apply Rabs_pos_lt, Hne).
  unfold relaxed. cbn [rops sc_sub sc_add sc_mul sc_div sc_one sc_zero].
  set (sf := rsum n (fun j => if j =? i then 0 else A i j * f j)).
  set (sg := rsum n (fun j => if j =? i then 0 else A i j * g j)).
  replace (1 * (h i - sf) / A i i + (1 - 1) * f i - (1 * (h i - sg) / A i i + (1 - 1) * g i))
    with (- ((sf - sg) / A i i)) by (field; exact Hne).
  rewrite Rabs_Ropp. unfold Rdiv. rewrite Rabs_mult, Rabs_inv.
  assert (Hb : Rabs (sf - sg) <= rsum n (fun j => if j =? i then 0 else Rabs (A i j)) * e).
  { unfold sf, sg. rewrite <- rsum_minus. rewrite Rmult_comm, <- rsum_scale.
    clear Hs Hd sf sg. assert (G : forall m, (m <= n)%nat ->
      Rabs (rsum m (fun j => (if j =? i then 0 else A i j * f j) - (if j =? i then 0 else A i j * g j)))
      <= rsum m (fun j => e * (if j =? i then 0 else Rabs (A i j)))); [|apply G; auto].
    induction m as [|m IH]; intro Hm; cbn [asum]; [rewrite Rabs_R0; lra|].
    apply Rle_trans with (1 := Rabs_triang _ _). apply Rplus_le_compat; [apply IH; lia|].
    destruct (m =? i); [rewrite Rminus_0_r, Rabs_R0; lra|].
    replace (A i m * f m - A i m * g m) with (A i m * (f m - g m)) by ring. rewrite Rabs_mult, Rmult_comm.
    apply Rmult_le_compat_r; [apply Rabs_pos|]. apply H. lia. }
  apply Rle_trans with (q * Rabs (A i i) * e * / Rabs (A i i)).
  - apply Rmult_le_compat_r; [left; apply Rinv_0_lt_compat, Hp|]. apply Rle_trans with (1 := Hb).
    apply Rmult_le_compat_r; auto.
  - right. field. lra.
Qed.

Section Contraction.
  Variables (dbg : bool) (stray : option nat) (n : nat) (a : smat R) (A : nat -> nat -> R) (b : list R) (h xs : nat -> R) (q : R).
  Hypothesis Ha : sparse_square 0 n a A.
  Hypothesis Hb : is_vec n b h.
  Hypothesis Hd : dominance n A q.
  Hypothesis Hs : forall i, (i < n)%nat -> rsum n (fun j => A i j * xs j) = h i.

  Lemma solution_fixed i : (i < n)%nat -> sweepf n A h 1 i xs = xs i.
  Proof using Hd Hs.
    intro Hi. apply (relaxed_fixed rops Ropp Rinv R_field); auto using R1_neq_R0.
    apply Hd, Hi.
  Qed.

  Lemma jacobi_contract x u f e : is_vec n x f -> length u = n -> (forall i, (i < n)%nat -> Rabs (f i - xs i) <= e) ->
    exists x' f', forward_sweep rops dbg stray a (Some x) u b 1 = Ok x' /\ is_vec n x' f' /\
      forall i, (i < n)%nat -> Rabs (f' i - xs i) <= q * e.
  Proof using Ha Hb Hd Hs.
    intros Hx Hu He. destruct (field_rows rops Ropp Rinv dbg stray R_field n a A b h Ha Hb) as (rs & d & Hro & Hv).
    { intros i Hi. apply Hd, Hi. }
    destruct (jacobi_sweep_ok rops dbg stray n a b rs d h x u f 1 Hro Hx Hu) as (x' & E & Hx').
    exists x'. eexists. split; [exact E|]. split; [exact Hx'|]. intros i Hi. cbn beta. rewrite Hv by auto.
    rewrite <- (solution_fixed i Hi). apply contract; auto.
    apply Rle_trans with (2 := He i Hi), Rabs_pos.
  Qed.

  Lemma seidel_contract x f e : is_vec n x f -> (forall i, (i < n)%nat -> Rabs (f i - xs i) <= e) ->
    exists x' f', forward_sweep rops dbg stray a None x b 1 = Ok x' /\ is_vec n x' f' /\
      forall i, (i < n)%nat -> Rabs (f' i - xs i) <= q * e.
  Proof using Ha Hb Hd Hs.
    intros Hx He. destruct (field_rows rops Ropp Rinv dbg stray R_field n a A b h Ha Hb) as (rs & d & Hro & Hv).
    { intros i Hi. apply Hd, Hi. }
    destruct (seidel_sweep_ok rops dbg stray n a b rs d h x f 1 Hro Hx) as (x' & z & E & Hx' & Hz).
    exists x', z. split; [exact E|]. split; [exact Hx'|].
    intro i. induction i as [i IH] using lt_wf_ind. intro Hi.
    assert (He0 : 0 <= e) by (apply Rle_trans with (2 := He i Hi), Rabs_pos).
    rewrite (Hz i Hi), Hv by auto. rewrite <- (solution_fixed i Hi). apply contract; auto.
    intros j Hj. destruct (Nat.ltb_spec j i); [|apply He, Hj]. apply Rle_trans with (1 := IH j H Hj).
    destruct Hd as (Hq & _). nra.
  Qed.

  (** [k] sweeps. *)
  Lemma jacobi_times k x w f e : is_vec n x f -> length w = n -> (forall i, (i < n)%nat -> Rabs (f i - xs i) <= e) ->
    exists x' w' f', times (jacobi_step rops dbg stray a b) k (x, w) = Ok (x', w') /\ is_vec n x' f' /\ length w' = n /\
      forall i, (i < n)%nat -> Rabs (f' i - xs i) <= q ^ k * e.
  Proof using Ha Hb Hd Hs.
    intros Hx Hw He. induction k as [|k IH]; cbn [times].
    - exists x, w, f. split; [reflexivity|]. split; [exact Hx|]. split; [exact Hw|]. intros i Hi. rewrite pow_O, Rmult_1_l. auto.
    - destruct IH as (x1 & w1 & f1 & -> & H1 & L1 & E1). cbn [bind].
      destruct (jacobi_contract x1 w1 f1 (q ^ k * e) H1 L1 E1) as (x2 & f2 & E & H2 & E2).
      unfold jacobi_step. cbn [fst snd]. change (sc_one rops) with 1. rewrite E. cbn [bind].
      exists x2, x1, f2. split; [reflexivity|]. split; [exact H2|]. split; [apply H1|].
      intros i Hi. cbn [pow]. rewrite Rmult_assoc. apply E2, Hi.
  Qed.

  Lemma seidel_times k x w f e : is_vec n x f -> (forall i, (i < n)%nat -> Rabs (f i - xs i) <= e) ->
    exists x' f', times (gauss_seidel_step rops dbg stray a b) k (x, w) = Ok (x', w) /\ is_vec n x' f' /\
      forall i, (i < n)%nat -> Rabs (f' i - xs i) <= q ^ k * e.
  Proof using Ha Hb Hd Hs.
    intros Hx He. induction k as [|k IH]; cbn [times].
    - exists x, f. split; [reflexivity|]. split; [exact Hx|]. intros i Hi. rewrite pow_O, Rmult_1_l. auto.
    - destruct IH as (x1 & f1 & -> & H1 & E1). cbn [bind].
      destruct (seidel_contract x1 f1 (q ^ k * e) H1 E1) as (x2 & f2 & E & H2 & E2).
      unfold gauss_seidel_step. cbn [fst snd]. change (sc_one rops) with 1. rewrite E. cbn [bind].
      exists x2, f2. split; [reflexivity|]. split; [exact H2|].
      intros i Hi. cbn [pow]. rewrite Rmult_assoc. apply E2, Hi.
  Qed.
End Contraction.

(* ------------------------------------------------------------------ existence of the solution *)
Section Existence.
  Variables (n : nat) (A : nat -> nat -> R) (h : nat -> R) (q : R).
  Hypothesis Hd : dominance n A q.

  (** Jacobi iterates of the zero vector. *)
  Fixpoint iterate (k : nat) : nat -> R :=
    match k with
    | 0 => fun _ => 0
    | S k => fun i => sweepf n A h 1 i (iterate k)
    end.

  Lemma bounded_family m (g : nat -> R) : exists D, 0 <= D /\ forall i, (i < m)%nat -> Rabs (g i) <= D.
  Proof using.
    induction m as [|m (D & H0 & H)]; [exists 0; split; [lra|intros; lia]|].
    exists (Rmax D (Rabs (g m))). split; [apply Rle_trans with (1 := H0), Rmax_l|].
    intros i Hi. destruct (Nat.eq_dec i m) as [->|]; [apply Rmax_r|].
    apply Rle_trans with D; [apply H; lia|apply Rmax_l].
  Qed.

  Lemma iterate_close : exists D, 0 <= D /\ forall k i, (i < n)%nat -> Rabs (iterate (S k) i - iterate k i) <= q ^ k * D.
  Proof using Hd.
    destruct (bounded_family n (fun i => iterate 1 i - iterate 0 i)) as (D & H0 & H). exists D. split; auto.
    induction k as [|k IH]; intros i Hi; [rewrite pow_O, Rmult_1_l; apply H, Hi|].
    cbn [pow]. rewrite Rmult_assoc. change (iterate (S (S k)) i) with (sweepf n A h 1 i (iterate (S k))).
    change (iterate (S k) i) with (sweepf n A h 1 i (iterate k)). apply contract; auto.
    apply Rmult_le_pos; auto. apply pow_le. apply Hd.
  Qed.

  Lemma iterate_tail D : 0 <= D -> (forall k i, (i < n)%nat -> Rabs (iterate (S k) i - iterate k i) <= q ^ k * D) ->
    forall p k i, (i < n)%nat -> Rabs (iterate (k + p) i - iterate k i) <= q ^ k * D * / (1 - q).
  Proof using Hd.
    intros H0 H p. destruct Hd as (Hq & _).
    assert (Hi1 : 1 <= / (1 - q)) by (rewrite <- Rinv_1; apply Rinv_le_contravar; lra).
    induction p as [|p IH]; intros k i Hi.
    - rewrite Nat.add_0_r, Rminus_diag_eq, Rabs_R0 by auto.
      apply Rmult_le_pos; [apply Rmult_le_pos; auto; apply pow_le; lra|lra].
    - replace (k + S p)%nat with (S k + p)%nat by lia.
      replace (iterate (S k + p) i - iterate k i)
        with ((iterate (S k + p) i - iterate (S k) i) + (iterate (S k) i - iterate k i)) by ring.
      apply Rle_trans with (1 := Rabs_triang _ _).
      apply Rle_trans with (q ^ (S k) * D * / (1 - q) + q ^ k * D).
      + apply Rplus_le_compat; [apply IH, Hi|apply H, Hi].
      + right. cbn [pow]. field. lra.
  Qed.

  Lemma pow_small e : 0 < e -> exists N, forall k, (N <= k)%nat -> q ^ k < e.
  Proof using Hd.
    intro He. destruct Hd as ((Hq0 & Hq1) & _). destruct (pow_lt_1_zero q) with (y := e) as (N & HN); auto.
    - rewrite Rabs_pos_eq; auto.
    - exists N. intros k Hk. specialize (HN k ltac:(lia)). rewrite Rabs_pos_eq in HN; auto. apply pow_le. auto.
  Qed.

  Lemma iterate_cauchy i : (i < n)%nat -> Cauchy_crit (fun k => iterate k i).
  Proof using Hd.
    intros Hi e He. destruct iterate_close as (D & H0 & H). pose proof (iterate_tail D H0 H) as HT.
    destruct Hd as (Hq & _). assert (Hi0 : 0 < / (1 - q)) by (apply Rinv_0_lt_compat; lra).
    destruct (pow_small (e / 2 / ((D + 1) * / (1 - q)))) as (N & HN).
    { apply Rdiv_lt_0_compat; [lra|]. apply Rmult_lt_0_compat; lra. }
    exists N. assert (G : forall k, (N <= k)%nat -> Rabs (iterate k i - iterate N i) < e / 2).
    { intros k Hk. replace k with (N + (k - N))%nat by lia. apply Rle_lt_trans with (1 := HT _ _ _ Hi).
      specialize (HN N (Nat.le_refl N)).
      assert (Hc : 0 < (D + 1) * / (1 - q)) by (apply Rmult_lt_0_compat; lra).
      apply (Rmult_lt_compat_r _ _ _ Hc) in HN. unfold Rdiv in HN at 1. rewrite Rmult_assoc, (Rmult_comm (/ _)), Rinv_r, Rmult_1_r in HN by lra.
      apply Rle_lt_trans with (2 := HN). rewrite Rmult_assoc. apply Rmult_le_compat_l; [apply pow_le; lra|].
      apply Rmult_le_compat_r; lra. }
    intros k m Hk Hm. unfold R_dist.
    replace (iterate k i - iterate m i) with ((iterate k i - iterate N i) + - (iterate m i - iterate N i)) by ring.
    apply Rle_lt_trans with (1 := Rabs_triang _ _). rewrite Rabs_Ropp.
    specialize (G k ltac:(lia)) as G1. specialize (G m ltac:(lia)) as G2. lra.
  Qed.

  Definition limit (i : nat) : R :=
    match lt_dec i n with
    | left H => proj1_sig (R_complete _ (iterate_cauchy i H))
    | right _ => 0
    end.

  Lemma limit_cv i : (i < n)%nat -> Un_cv (fun k => iterate k i) (limit i).
  Proof using.
    intro Hi. unfold limit. destruct (lt_dec i n) as [H|]; [|contradiction]. apply proj2_sig.
  Qed.

  Lemma limit_uniform e m : (m <= n)%nat -> 0 < e -> exists N, forall k i, (N <= k)%nat -> (i < m)%nat -> Rabs (iterate k i - limit i) < e.
  Proof using.
    intros Hm He. induction m as [|m IH]; [exists 0%nat; intros; lia|].
    destruct IH as (N & HN); [lia|]. destruct (limit_cv m ltac:(lia) e He) as (N' & HN').
    exists (Nat.max N N'). intros k i Hk Hi. destruct (Nat.eq_dec i m) as [->|].
    - apply HN'. lia.
    - apply HN; lia.
  Qed.

  Lemma solution_exists : exists xs, forall i, (i < n)%nat -> rsum n (fun j => A i j * xs j) = h i.
  Proof using Hd.
    exists limit. intros i Hi. apply (relaxed_fixed rops Ropp Rinv R_field n A h 1); auto using R1_neq_R0; [apply Hd, Hi|].
    fold (sweepf n A h 1 i limit). destruct Hd as ((Hq0 & Hq1) & _).
    destruct (Req_dec (sweepf n A h 1 i limit) (limit i)) as [E|E]; [exact E|exfalso].
    set (x := sweepf n A h 1 i limit) in *. assert (Hp : 0 < Rabs (x - limit i)) by (apply Rabs_pos_lt; lra).
    set (e := Rabs (x - limit i) / 3) in *. assert (He : 0 < e) by (unfold e; lra).
    destruct (limit_uniform e n (Nat.le_refl n) He) as (N & HN).
    assert (H1 : Rabs (x - iterate (S N) i) <= q * e).
    { apply (contract n A h q i limit (iterate N)); auto; [lra|]. intros j Hj. rewrite Rabs_minus_sym.
      left. apply HN; auto. }
    assert (H2 : Rabs (iterate (S N) i - limit i) < e) by (apply HN; auto).
    assert (H3 : Rabs (x - limit i) <= Rabs (x - iterate (S N) i) + Rabs (iterate (S N) i - limit i)).
    { replace (x - limit i) with ((x - iterate (S N) i) + (iterate (S N) i - limit i)) by ring. apply Rabs_triang. }
    unfold e in *. nra.
  Qed.
End Existence.
