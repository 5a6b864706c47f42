(** Lemmas behind C122. *)
From Coq Require Import ZArith Reals Lra Lia List Psatz.
From Verif Require Import Base ListFacts DenseModel DenseFacts ScalarModel GeometryReal SparseModel SparseSpec
  SparseFacts SparseSeq SparseMul LuReal IterModel IterFacts IterLoop IterField IterReal LuFloat PropIterLemmas.
Import ListNotations.
Local Open Scope R_scope.

(** One sweep, ascending or descending, into another vector or in place. *)
Definition sweep_on (back apart : bool) dbg stray (a : smat R) (x u b : list R) (w : R) : res (list R) :=
  (if back then backward_sweep rops else forward_sweep rops) dbg stray a
    (if apart then Some x else None) (if apart then u else x) b w.

(** Dominance of the diagonal with the factor [q] after the columns are multiplied by the positive [v]. *)
Definition scaled_dominance n (A : nat -> nat -> R) (v : nat -> R) (q : R) : Prop :=
  0 <= q /\ forall i, (i < n)%nat -> 0 < v i /\ A i i <> 0 /\
    rsum n (fun j => if (j =? i)%nat then 0 else Rabs (A i j) * v j) <= q * (Rabs (A i i) * v i).

(** The error is at most [e v]. *)
Definition within_scaled n (f xs v : nat -> R) (e : R) : Prop := forall i, (i < n)%nat -> Rabs (f i - xs i) <= e * v i.

Lemma off_diff n (A : nat -> nat -> R) (f g v : nat -> R) i e m : (m <= n)%nat -> 0 <= e ->
  (forall j, (j < n)%nat -> Rabs (f j - g j) <= e * v j) ->
  Rabs (rsum m (fun j => if (j =? i)%nat then 0 else A i j * f j) - rsum m (fun j => if (j =? i)%nat then 0 else A i j * g j))
    <= e * rsum m (fun j => if (j =? i)%nat then 0 else Rabs (A i j) * v j).
Proof.
  intros Hm He H. rewrite <- rsum_minus, <- rsum_scale. induction m as [|m IH]; cbn [asum]; [rewrite Rabs_R0; lra|].
  apply Rle_trans with (1 := Rabs_triang _ _). apply Rplus_le_compat; [apply IH; lia|].
  destruct (m =? i)%nat; [rewrite Rminus_0_r, Rabs_R0; lra|].
  replace (A i m * f m - A i m * g m) with (A i m * (f m - g m)) by ring. rewrite Rabs_mult.
  pose proof (H m ltac:(lia)) as Hj. pose proof (Rabs_pos (A i m)). nra.
Qed.

Lemma relax_contract n A h v q w i f g e : scaled_dominance n A v q -> (i < n)%nat -> 0 <= e ->
  (forall j, (j < n)%nat -> Rabs (f j - g j) <= e * v j) ->
  Rabs (relaxed rops n A h w i f - relaxed rops n A h w i g) <= (Rabs w * q + Rabs (1 - w)) * e * v i.
Proof.
  intros (Hq & Hd) Hi He H. destruct (Hd i Hi) as (Hv & Hne & Hs).
  assert (Hp : 0 < Rabs (A i i)) by (apply Rabs_pos_lt, Hne).
  unfold relaxed. cbn [rops sc_sub sc_add sc_mul sc_div sc_one sc_zero].
  pose proof (off_diff n A f g v i e n (Nat.le_refl n) He H) as Hb.
  set (sf := rsum n (fun j => if (j =? i)%nat then 0 else A i j * f j)) in *.
  set (sg := rsum n (fun j => if (j =? i)%nat then 0 else A i j * g j)) in *.
  replace (w * (h i - sf) / A i i + (1 - w) * f i - (w * (h i - sg) / A i i + (1 - w) * g i))
    with (- (w * ((sf - sg) / A i i)) + (1 - w) * (f i - g i)) by (field; exact Hne).
  apply Rle_trans with (1 := Rabs_triang _ _). rewrite Rabs_Ropp, !Rabs_mult.
  assert (Hr : Rabs ((sf - sg) / A i i) <= q * e * v i).
  { unfold Rdiv. rewrite Rabs_mult, Rabs_inv.
    apply Rle_trans with (e * (q * (Rabs (A i i) * v i)) * / Rabs (A i i)).
    - apply Rmult_le_compat_r; [left; apply Rinv_0_lt_compat, Hp|]. apply Rle_trans with (1 := Hb).
      apply Rmult_le_compat_l; auto.
    - right. field. lra. }
  specialize (H i Hi). pose proof (Rabs_pos w). pose proof (Rabs_pos (1 - w)).
  apply Rle_trans with (Rabs w * (q * e * v i) + Rabs (1 - w) * (e * v i)); [|right; ring].
  apply Rplus_le_compat; apply Rmult_le_compat_l; auto.
Qed.

Section Sweeps.
  Variables (dbg : bool) (stray : option nat) (n : nat) (a : smat R) (A : nat -> nat -> R) (b : list R) (h xs v : nat -> R) (q : R).
  Hypothesis Ha : sparse_square 0 n a A.
  Hypothesis Hb : is_vec n b h.
  Hypothesis Hd : scaled_dominance n A v q.
  Hypothesis Hs : solves rops n A xs h.

  Lemma relax_fixed w i : (i < n)%nat -> w <> 0 -> relaxed rops n A h w i xs = xs i.
  Proof using Hd Hs. intros Hi Hw. apply (relaxed_fixed rops Ropp Rinv R_field); auto. apply Hd, Hi. Qed.

  Lemma sweep_contracts back apart w x u f e : w <> 0 -> is_vec n x f -> length u = n -> 0 <= e -> within_scaled n f xs v e ->
    (apart = false -> Rabs w * q + Rabs (1 - w) <= 1) ->
    exists x' f', sweep_on back apart dbg stray a x u b w = Ok x' /\ is_vec n x' f' /\
      within_scaled n f' xs v ((Rabs w * q + Rabs (1 - w)) * e).
  Proof using Ha Hb Hd Hs.
    intros Hw Hx Hu He H Hr.
    destruct (field_rows rops Ropp Rinv dbg stray R_field n a A b h Ha Hb) as (rs & d & Hro & Hv).
    { intros i Hi. apply Hd, Hi. }
    set (r := Rabs w * q + Rabs (1 - w)) in *.
    assert (Step : forall i g, (i < n)%nat -> within_scaled n g xs v e -> Rabs (swept rops rs d h w i g - xs i) <= r * e * v i).
    { intros i g Hi Hg. rewrite Hv by auto. rewrite <- (relax_fixed w i Hi Hw). apply relax_contract; auto. }
    assert (Less : r <= 1 -> forall i p, (i < n)%nat -> Rabs (p - xs i) <= r * e * v i -> Rabs (p - xs i) <= e * v i).
    { intros R1 i p Hi Hp. apply Rle_trans with (1 := Hp). apply Rmult_le_compat_r; [left; apply Hd, Hi|nra]. }
    unfold sweep_on. destruct back, apart.
    - destruct (jacobi_back_ok rops dbg stray n a b rs d h x u f w Hro Hx Hu) as (x' & E & Hx').
      exists x'. eexists. split; [exact E|]. split; [exact Hx'|]. intros i Hi. apply Step; auto.
    - destruct (seidel_back_ok rops dbg stray n a b rs d h x f w Hro Hx) as (x' & z & E & Hx' & Hz).
      exists x', z. split; [exact E|]. split; [exact Hx'|]. specialize (Hr eq_refl).
      intros i Hi. remember (n - i)%nat as m eqn:Em. revert i Hi Em. induction m as [m IH] using lt_wf_ind.
      intros i Hi Em. rewrite (Hz i Hi). apply Step; auto. intros j Hj.
      destruct (Nat.ltb_spec i j); [|apply H, Hj]. apply (Less Hr j (z j) Hj). apply (IH (n - j)%nat); auto; lia.
    - destruct (jacobi_sweep_ok rops dbg stray n a b rs d h x u f w Hro Hx Hu) as (x' & E & Hx').
      exists x'. eexists. split; [exact E|]. split; [exact Hx'|]. intros i Hi. apply Step; auto.
    - destruct (seidel_sweep_ok rops dbg stray n a b rs d h x f w Hro Hx) as (x' & z & E & Hx' & Hz).
      exists x', z. split; [exact E|]. split; [exact Hx'|]. specialize (Hr eq_refl).
      intro i. induction i as [i IH] using lt_wf_ind.
      intros Hi. rewrite (Hz i Hi). apply Step; auto. intros j Hj.
      destruct (Nat.ltb_spec j i); [|apply H, Hj]. apply (Less Hr j (z j) Hj), IH; auto.
  Qed.

  Lemma one_factor : Rabs (sc_one rops) * q + Rabs (1 - sc_one rops) = q.
  Proof using. cbn [rops sc_one]. rewrite Rabs_R1, Rminus_diag_eq, Rabs_R0 by reflexivity. ring. Qed.

  Lemma sor_real : sor_factor rops = 3 / 2.
  Proof using. reflexivity. Qed.

  Lemma sor_rate : Rabs (sor_factor rops) * q + Rabs (1 - sor_factor rops) = (1 + 3 * q) / 2.
  Proof using. rewrite sor_real, (Rabs_pos_eq (3 / 2)) by lra. rewrite Rabs_left by lra. field. Qed.

  (** [k] steps. *)
  Lemma jacobi_scaled k x w f e : is_vec n x f -> length w = n -> 0 <= e -> within_scaled n f xs v e ->
    exists x' w' f', times (jacobi_step rops dbg stray a b) k (x, w) = Ok (x', w') /\ is_vec n x' f' /\ length w' = n /\
      within_scaled n f' xs v (q ^ k * e).
  Proof using Ha Hb Hd Hs.
    intros Hx Lw He H. induction k as [|k IH]; cbn [times].
    - exists x, w, f. rewrite pow_O, Rmult_1_l. auto.
    - destruct IH as (x1 & w1 & f1 & -> & V1 & L1 & H1). cbn [bind].
      destruct (sweep_contracts false true (sc_one rops) x1 w1 f1 (q ^ k * e)) as (x2 & f2 & E & V2 & H2); auto.
      { exact R1_neq_R0. }
      { apply Rmult_le_pos; [apply pow_le, Hd|exact He]. }
      { discriminate. }
      unfold sweep_on in E. unfold jacobi_step. cbn [fst snd]. rewrite E. cbn [bind].
      exists x2, x1, f2. split; [reflexivity|]. split; [exact V2|]. split; [apply V1|].
      rewrite one_factor in H2. cbn [pow]. rewrite Rmult_assoc. exact H2.
  Qed.

  Lemma place_scaled (step : list R * list R -> res (list R * list R)) om r k x w f e :
    (forall s, step s = do x <- forward_sweep rops dbg stray a None (fst s) b om; Ok (x, snd s)) -> om <> 0 ->
    Rabs om * q + Rabs (1 - om) = r -> r <= 1 ->
    is_vec n x f -> 0 <= e -> within_scaled n f xs v e ->
    exists x' f', times step k (x, w) = Ok (x', w) /\ is_vec n x' f' /\ within_scaled n f' xs v (r ^ k * e).
  Proof using Ha Hb Hd Hs.
    intros Hstep Hom Er Hr Hx He H. assert (Hr0 : 0 <= r).
    { rewrite <- Er. apply Rplus_le_le_0_compat; [apply Rmult_le_pos; [apply Rabs_pos|apply Hd]|apply Rabs_pos]. }
    induction k as [|k IH]; cbn [times].
    - exists x, f. rewrite pow_O, Rmult_1_l. auto.
    - destruct IH as (x1 & f1 & -> & V1 & H1). cbn [bind]. rewrite Hstep. cbn [fst snd].
      destruct (sweep_contracts false false om x1 x1 f1 (r ^ k * e)) as (x2 & f2 & E & V2 & H2); auto.
      { apply V1. }
      { apply Rmult_le_pos; [apply pow_le, Hr0|exact He]. }
      { intros _. rewrite Er. exact Hr. }
      unfold sweep_on in E. rewrite E. cbn [bind]. exists x2, f2. split; [reflexivity|]. split; [exact V2|].
      rewrite Er in H2. cbn [pow]. rewrite Rmult_assoc. exact H2.
  Qed.

  Lemma seidel_scaled k x w f e : q <= 1 -> is_vec n x f -> 0 <= e -> within_scaled n f xs v e ->
    exists x' f', times (gauss_seidel_step rops dbg stray a b) k (x, w) = Ok (x', w) /\ is_vec n x' f' /\
      within_scaled n f' xs v (q ^ k * e).
  Proof using Ha Hb Hd Hs.
    intros Hq Hx He H. apply (place_scaled _ (sc_one rops) q k x w f e); auto using one_factor. exact R1_neq_R0.
  Qed.

  Lemma sor_scaled k x w f e : q <= / 3 -> is_vec n x f -> 0 <= e -> within_scaled n f xs v e ->
    exists x' f', times (sor_step rops dbg stray a b) k (x, w) = Ok (x', w) /\ is_vec n x' f' /\
      within_scaled n f' xs v (((1 + 3 * q) / 2) ^ k * e).
  Proof using Ha Hb Hd Hs.
    intros Hq Hx He H. apply (place_scaled _ (sor_factor rops) ((1 + 3 * q) / 2) k x w f e); auto using sor_rate; [rewrite sor_real|]; lra.
  Qed.
End Sweeps.

(** The largest error relative to [v]. *)
Lemma scaled_bound n (g v : nat -> R) : (forall i, (i < n)%nat -> 0 < v i) ->
  exists e, 0 <= e /\ forall i, (i < n)%nat -> Rabs (g i) <= e * v i.
Proof.
  intro Hv. destruct (bounded_family n (fun i => g i / v i)) as (e & He & H). exists e. split; [exact He|].
  intros i Hi. specialize (H i Hi). specialize (Hv i Hi). unfold Rdiv in H. rewrite Rabs_mult, Rabs_inv, (Rabs_pos_eq (v i)) in H by lra.
  apply (Rmult_le_compat_r (v i)) in H; [|lra]. rewrite Rmult_assoc, Rinv_l, Rmult_1_r in H by lra. exact H.
Qed.

Lemma scaled_solution n A v q (h : nat -> R) : scaled_dominance n A v q -> q < 1 ->
  exists xs, solves rops n A xs h /\ forall ys, solves rops n A ys h -> forall i, (i < n)%nat -> ys i = xs i.
Proof.
  intros (Hq & Hd) H1. assert (Hdom : dominance n (fun i j => A i j * v j) q).
  { split; [lra|]. intros i Hi. destruct (Hd i Hi) as (Hv & Hne & Hs). split; [apply Rmult_integral_contrapositive_currified; [exact Hne|lra]|].
    rewrite Rabs_mult, (Rabs_pos_eq (v i)) by lra. apply Rle_trans with (2 := Hs). right. apply asum_ext. intros j Hj.
    destruct (j =? i)%nat; [reflexivity|]. rewrite Rabs_mult, (Rabs_pos_eq (v j)); [reflexivity|]. left. apply Hd, Hj. }
  destruct (solution_exists n (fun i j => A i j * v j) h q Hdom) as (ys & Hy).
  assert (Hx : solves rops n A (fun j => v j * ys j) h).
  { intros i Hi. rewrite <- (Hy i Hi). apply asum_ext. intros j Hj. cbn [rops sc_mul]. ring. }
  set (xs := fun j => v j * ys j) in *. exists xs. split; [exact Hx|]. intros zs Hz.
  destruct (scaled_bound n (fun i => zs i - xs i) v) as (e & He & Hb); [intros; apply Hd; auto|].
  assert (C : forall k, within_scaled n zs xs v (q ^ k * e)).
  { induction k as [|k IH]; [intros i Hi; rewrite pow_O, Rmult_1_l; apply Hb, Hi|]. intros i Hi.
    rewrite <- (relax_fixed n A h zs v q (conj Hq Hd) Hz 1 i Hi R1_neq_R0).
    rewrite <- (relax_fixed n A h xs v q (conj Hq Hd) Hx 1 i Hi R1_neq_R0).
    eapply Rle_trans; [apply (relax_contract n A h v q 1 i zs xs (q ^ k * e)); auto|].
    - split; auto.
    - apply Rmult_le_pos; [apply pow_le; lra|exact He].
    - right. rewrite Rabs_R1, Rminus_diag_eq, Rabs_R0 by reflexivity. cbn [pow]. ring. }
  intros i Hi. apply Rminus_diag_uniq. destruct (Req_dec (zs i - xs i) 0) as [E|E]; [exact E|exfalso].
  destruct (Hd i Hi) as (Hv & _). apply Rabs_pos_lt in E. set (t := Rabs (zs i - xs i)) in *.
  destruct (pow_lt_1_zero q) with (y := t / ((e + 1) * v i)) as (N & HN).
  { rewrite Rabs_pos_eq; lra. }
  { apply Rdiv_lt_0_compat; [exact E|]. apply Rmult_lt_0_compat; lra. }
  specialize (HN N (Nat.le_refl N)). rewrite Rabs_pos_eq in HN by (apply pow_le; lra).
  specialize (C N i Hi). fold t in C.
  apply (Rmult_lt_compat_r ((e + 1) * v i)) in HN; [|apply Rmult_lt_0_compat; lra].
  unfold Rdiv in HN. rewrite (Rmult_assoc t), Rinv_l, Rmult_1_r in HN by (apply Rgt_not_eq, Rmult_lt_0_compat; lra).
  pose proof (pow_le q N Hq) as Hp. nra.
Qed.

(** The iterates converge. *)
Lemma scaled_small (q e D eps : R) : 0 <= q < 1 -> 0 <= e -> 0 <= D -> 0 < eps -> exists K, forall k, (K <= k)%nat -> q ^ k * e * D < eps.
Proof.
  intros Hq He HD Heps. destruct (pow_lt_1_zero q) with (y := eps / ((e + 1) * (D + 1))) as (N & HN).
  { rewrite Rabs_pos_eq; lra. }
  { apply Rdiv_lt_0_compat; [exact Heps|]. apply Rmult_lt_0_compat; lra. }
  exists N. intros k Hk. specialize (HN k Hk). pose proof (pow_le q k (proj1 Hq)) as Hp. rewrite Rabs_pos_eq in HN by exact Hp.
  assert (P : 0 < (e + 1) * (D + 1)) by (apply Rmult_lt_0_compat; lra).
  apply (Rmult_lt_compat_r _ _ _ P) in HN.
  unfold Rdiv in HN. rewrite (Rmult_assoc eps), Rinv_l, Rmult_1_r in HN by lra. apply Rle_lt_trans with (2 := HN).
  rewrite Rmult_assoc. apply Rmult_le_compat_l; [exact Hp|]. apply Rmult_le_compat; lra.
Qed.

Definition near n (f xs : nat -> R) (eps : R) : Prop := forall i, (i < n)%nat -> Rabs (f i - xs i) < eps.

Lemma scaled_converges dbg stray n a A b h v q : sparse_square 0 n a A -> is_vec n b h -> scaled_dominance n A v q -> q < 1 ->
  exists xs, solves rops n A xs h /\ (forall ys, solves rops n A ys h -> forall i, (i < n)%nat -> ys i = xs i) /\
  forall x, length x = n -> forall eps, 0 < eps -> exists K, forall k, (K <= k)%nat ->
    (forall w, length w = n -> exists x' w' f', times (jacobi_step rops dbg stray a b) k (x, w) = Ok (x', w') /\
       is_vec n x' f' /\ near n f' xs eps) /\
    (exists x' f', times (gauss_seidel_step rops dbg stray a b) k (x, []) = Ok (x', []) /\ is_vec n x' f' /\ near n f' xs eps) /\
    (q < / 3 -> exists x' f', times (sor_step rops dbg stray a b) k (x, []) = Ok (x', []) /\ is_vec n x' f' /\ near n f' xs eps).
Proof.
  intros Ha Hb Hd Hq. destruct (scaled_solution n A v q h Hd Hq) as (xs & Hs & Hu). exists xs. split; [exact Hs|].
  split; [exact Hu|]. intros x Lx eps Heps.
  assert (Hx : is_vec n x (fun i => nth i x 0)) by (rewrite <- Lx; apply is_vec_self).
  destruct (scaled_bound n (fun i => nth i x 0 - xs i) v) as (e & He & H); [intros; apply Hd; auto|].
  destruct (bounded_family n v) as (D & HD & HDv).
  assert (Nr : forall r k f', r ^ k * e * D < eps -> 0 <= r -> within_scaled n f' xs v (r ^ k * e) -> near n f' xs eps).
  { intros r k f' Hr Hr0 Hf i Hi. apply Rle_lt_trans with (1 := Hf i Hi). apply Rle_lt_trans with (2 := Hr).
    apply Rmult_le_compat_l; [apply Rmult_le_pos; [apply pow_le, Hr0|exact He]|].
    apply Rle_trans with (2 := HDv i Hi), Rle_abs. }
  pose proof (proj1 Hd) as Hq0. destruct (scaled_small q e D eps) as (K1 & HK1); auto.
  assert (K3 : exists K, q < / 3 -> forall k, (K <= k)%nat -> ((1 + 3 * q) / 2) ^ k * e * D < eps).
  { destruct (Rlt_dec q (/ 3)) as [L|L]; [|exists 0%nat; contradiction].
    destruct (scaled_small ((1 + 3 * q) / 2) e D eps) as (K & HK); auto; [lra|]. exists K. auto. }
  destruct K3 as (K3 & HK3). exists (Nat.max K1 K3). intros k Hk. split; [|split].
  - intros w Lw. destruct (jacobi_scaled dbg stray n a A b h xs v q Ha Hb Hd Hs k x w _ e Hx Lw He H) as (x' & w' & f' & E & V & _ & C).
    exists x', w', f'. split; [exact E|]. split; [exact V|]. apply (Nr q k); auto. apply HK1. lia.
  - destruct (seidel_scaled dbg stray n a A b h xs v q Ha Hb Hd Hs k x [] _ e ltac:(lra) Hx He H) as (x' & f' & E & V & C).
    exists x', f'. split; [exact E|]. split; [exact V|]. apply (Nr q k); auto. apply HK1. lia.
  - intro L. destruct (sor_scaled dbg stray n a A b h xs v q Ha Hb Hd Hs k x [] _ e ltac:(lra) Hx He H) as (x' & f' & E & V & C).
    exists x', f'. split; [exact E|]. split; [exact V|]. apply (Nr ((1 + 3 * q) / 2) k); auto; [apply HK3; auto; lia|lra].
Qed.

(** The bound 1/3 cannot be raised: x = c y turned, (1 c; -c 1). *)
Definition turn (c : R) : smat R := two 1 c (- c) 1.

Lemma turn_square c : sparse_square 0 2 (turn c) (fun i j => lookup 0 (nth i (two_rows 1 c (- c) 1) []) j).
Proof. apply two_square. Qed.

Lemma turn_sweep dbg stray c x y om : forward_sweep rops dbg stray (turn c) None [x; y] [0; 0] om =
  Ok [om * (0 - (0 + c * y)) / 1 + (1 - om) * x;
      om * (0 - (0 + - c * (om * (0 - (0 + c * y)) / 1 + (1 - om) * x))) / 1 + (1 - om) * y].
Proof. destruct dbg; reflexivity. Qed.

Lemma sor_diverges c : / 3 < c -> exists s, 1 < s /\ forall dbg stray k,
  times (sor_step rops dbg stray (turn c) [0; 0]) k ([1; s], []) = Ok ([(- s ^ 2) ^ k; (- s ^ 2) ^ k * s], []).
Proof.
  intro Hc. set (d := sqrt (9 * c * c + 8)). assert (Hd : d * d = 9 * c * c + 8) by (apply sqrt_sqrt; nra).
  assert (Hd0 : 0 <= d) by apply sqrt_pos. set (s := (3 * c + d) / 4).
  assert (Hs : 2 * (s * s) = 3 * c * s + 1) by (unfold s; nra).
  assert (H3 : 3 < d) by nra. exists s. split; [unfold s; lra|]. intros dbg stray.
  assert (E1 : forall p, 3 / 2 * (0 - (0 + c * (p * s))) / 1 + (1 - 3 / 2) * p = - s ^ 2 * p).
  { intro p. replace (3 / 2 * (0 - (0 + c * (p * s))) / 1 + (1 - 3 / 2) * p) with (- (p * / 2) * (3 * c * s + 1)) by field.
    rewrite <- Hs. cbn [pow]. field. }
  assert (E2 : forall p, 3 / 2 * (0 - (0 + - c * (- s ^ 2 * p))) / 1 + (1 - 3 / 2) * (p * s) = - s ^ 2 * p * s).
  { intro p. replace (3 / 2 * (0 - (0 + - c * (- s ^ 2 * p))) / 1 + (1 - 3 / 2) * (p * s))
      with (- (p * s * / 2) * (3 * c * s + 1)) by (cbn [pow]; field). rewrite <- Hs. cbn [pow]. field. }
  induction k as [|k IH]; cbn [times].
  - rewrite pow_O, Rmult_1_l. reflexivity.
  - rewrite IH. cbn [bind]. unfold sor_step. cbn [fst snd]. change (sor_factor rops) with (3 / 2). rewrite turn_sweep, E1, E2.
    reflexivity.
Qed.

(* ------------------------------------------------------------------ dominant columns *)
Definition column_dominance n (A : nat -> nat -> R) (q : R) : Prop :=
  0 <= q < 1 /\ forall j, (j < n)%nat -> A j j <> 0 /\
    rsum n (fun i => if (i =? j)%nat then 0 else Rabs (A i j)) <= q * Rabs (A j j).

(** The sum of the errors, each times its diagonal element. *)
Definition column_error n (A : nat -> nat -> R) (f xs : nat -> R) : R := rsum n (fun j => Rabs (A j j) * Rabs (f j - xs j)).

Section Columns.
  Variables (dbg : bool) (stray : option nat) (n : nat) (a : smat R) (A : nat -> nat -> R) (b : list R) (h xs : nat -> R) (q : R).
  Hypothesis Ha : sparse_square 0 n a A.
  Hypothesis Hb : is_vec n b h.
  Hypothesis Hd : column_dominance n A q.
  Hypothesis Hs : solves rops n A xs h.

  Lemma column_row i g : (i < n)%nat -> Rabs (A i i) * Rabs (relaxed rops n A h 1 i g - xs i) <=
    rsum n (fun j => if (j =? i)%nat then 0 else Rabs (A i j) * Rabs (g j - xs j)).
  Proof using Hd Hs.
    intro Hi. destruct (proj2 Hd i Hi) as [Hne _].
    assert (E : relaxed rops n A h 1 i xs = xs i) by (apply (relaxed_fixed rops Ropp Rinv R_field); auto using R1_neq_R0).
    rewrite <- E, <- Rabs_mult. unfold relaxed. cbn [rops sc_sub sc_add sc_mul sc_div sc_one sc_zero].
    set (sg := rsum n (fun j => if (j =? i)%nat then 0 else A i j * g j)).
    set (sx := rsum n (fun j => if (j =? i)%nat then 0 else A i j * xs j)).
    replace (A i i * (1 * (h i - sg) / A i i + (1 - 1) * g i - (1 * (h i - sx) / A i i + (1 - 1) * xs i)))
      with (- (sg - sx)) by (field; exact Hne). rewrite Rabs_Ropp. unfold sg, sx. rewrite <- rsum_minus.
    clear. induction n as [|m IH]; cbn [asum]; [rewrite Rabs_R0; lra|].
    apply Rle_trans with (1 := Rabs_triang _ _). apply Rplus_le_compat; [exact IH|].
    destruct (m =? i)%nat; [rewrite Rminus_0_r, Rabs_R0; lra|].
    replace (A i m * g m - A i m * xs m) with (A i m * (g m - xs m)) by ring. rewrite Rabs_mult. lra.
  Qed.

  Lemma jacobi_column x u f : is_vec n x f -> length u = n ->
    exists x' f', forward_sweep rops dbg stray a (Some x) u b 1 = Ok x' /\ is_vec n x' f' /\
      column_error n A f' xs <= q * column_error n A f xs.
  Proof using Ha Hb Hd Hs.
    intros Hx Hu. destruct (field_rows rops Ropp Rinv dbg stray R_field n a A b h Ha Hb) as (rs & d & Hro & Hv).
    { intros i Hi. apply Hd, Hi. }
    destruct (jacobi_sweep_ok rops dbg stray n a b rs d h x u f 1 Hro Hx Hu) as (x' & E & Hx').
    exists x', (fun i => relaxed rops n A h 1 i f). split; [exact E|]. split; [apply (is_vec_ext _ _ _ _ Hx'); auto|].
    unfold column_error. eapply Rle_trans; [apply rsum_le; intros i Hi; apply column_row, Hi|].
    rewrite rsum_exchange, <- rsum_scale. apply rsum_le. intros j Hj. destruct (proj2 Hd j Hj) as [_ Hc].
    rewrite <- Rmult_assoc. apply Rle_trans with (rsum n (fun i => if (i =? j)%nat then 0 else Rabs (A i j)) * Rabs (f j - xs j)).
    - rewrite Rmult_comm, <- rsum_scale. right. apply asum_ext. intros i Hi. rewrite (Nat.eqb_sym j i).
      destruct (i =? j)%nat; ring.
    - apply Rmult_le_compat_r; [apply Rabs_pos|exact Hc].
  Qed.

  (** Below and above the diagonal. *)
  Definition col_low (j : nat) : R := rsum n (fun i => if (j <? i)%nat then Rabs (A i j) else 0).
  Definition col_up (j : nat) : R := rsum n (fun i => if (i <? j)%nat then Rabs (A i j) else 0).

  Lemma col_split j : (j < n)%nat -> 0 <= col_low j /\ 0 <= col_up j /\ col_low j + col_up j <= q * Rabs (A j j).
  Proof using Hd.
    intro Hj. destruct (proj2 Hd j Hj) as [_ Hc]. unfold col_low, col_up.
    split; [apply rsum_nonneg; intros i _; destruct (j <? i)%nat; [apply Rabs_pos|lra]|].
    split; [apply rsum_nonneg; intros i _; destruct (i <? j)%nat; [apply Rabs_pos|lra]|].
    rewrite <- rsum_plus. apply Rle_trans with (2 := Hc). right. apply asum_ext. intros i _.
    destruct (Nat.eqb_spec i j), (Nat.ltb_spec j i), (Nat.ltb_spec i j); try lia; ring.
  Qed.

  Definition low_error (f : nat -> R) : R := rsum n (fun j => (Rabs (A j j) - col_low j) * Rabs (f j - xs j)).

  Lemma seidel_column x f : is_vec n x f ->
    exists x' f', forward_sweep rops dbg stray a None x b 1 = Ok x' /\ is_vec n x' f' /\ low_error f' <= q * low_error f.
  Proof using Ha Hb Hd Hs.
    intros Hx. destruct (field_rows rops Ropp Rinv dbg stray R_field n a A b h Ha Hb) as (rs & d & Hro & Hv).
    { intros i Hi. apply Hd, Hi. }
    destruct (seidel_sweep_ok rops dbg stray n a b rs d h x f 1 Hro Hx) as (x' & z & E & Hx' & Hz).
    exists x', z. split; [exact E|]. split; [exact Hx'|].
    assert (G : rsum n (fun i => Rabs (A i i) * Rabs (z i - xs i)) <=
      rsum n (fun j => col_low j * Rabs (z j - xs j)) + rsum n (fun j => col_up j * Rabs (f j - xs j))).
    { eapply Rle_trans; [apply rsum_le; intros i Hi; rewrite (Hz i Hi), Hv by auto; apply column_row, Hi|].
      rewrite rsum_exchange, <- rsum_plus. apply rsum_le. intros j Hj. unfold col_low, col_up.
      rewrite (Rmult_comm (rsum n _) (Rabs (z j - xs j))), (Rmult_comm (rsum n _) (Rabs (f j - xs j))), <- !rsum_scale, <- rsum_plus.
      apply rsum_le. intros i Hi.
      destruct (Nat.eqb_spec j i), (Nat.ltb_spec j i), (Nat.ltb_spec i j); try lia; lra. }
    assert (P : low_error z <= rsum n (fun j => col_up j * Rabs (f j - xs j))).
    { unfold low_error. rewrite (asum_ext _ _ n _ (fun j => Rabs (A j j) * Rabs (z j - xs j) - col_low j * Rabs (z j - xs j)))
        by (intros; ring). rewrite rsum_minus. lra. }
    apply Rle_trans with (1 := P). unfold low_error. rewrite <- rsum_scale. apply rsum_le. intros j Hj.
    rewrite <- Rmult_assoc. apply Rmult_le_compat_r; [apply Rabs_pos|].
    destruct (col_split j Hj) as (H1 & H2 & H3). destruct Hd as ((Hq0 & Hq1) & _). nra.
  Qed.

  Lemma low_bounds f : (1 - q) * column_error n A f xs <= low_error f <= column_error n A f xs.
  Proof using Hd.
    unfold low_error, column_error. rewrite <- rsum_scale. pose proof (proj1 Hd) as Hq.
    split; apply rsum_le; intros j Hj; destruct (col_split j Hj) as (H1 & H2 & H3).
    - rewrite <- Rmult_assoc. apply Rmult_le_compat_r; [apply Rabs_pos|]. lra.
    - apply Rmult_le_compat_r; [apply Rabs_pos|]. lra.
  Qed.

  Lemma column_runs k x w f : is_vec n x f -> length w = n ->
    (exists x' w' f', times (jacobi_step rops dbg stray a b) k (x, w) = Ok (x', w') /\ is_vec n x' f' /\
       column_error n A f' xs <= q ^ k * column_error n A f xs) /\
    (exists x' f', times (gauss_seidel_step rops dbg stray a b) k (x, w) = Ok (x', w) /\ is_vec n x' f' /\
       column_error n A f' xs <= q ^ k * / (1 - q) * column_error n A f xs).
  Proof using Ha Hb Hd Hs.
    intros Hx Lw. pose proof (proj1 Hd) as Hq. split.
    - enough (G : exists x' w' f', times (jacobi_step rops dbg stray a b) k (x, w) = Ok (x', w') /\ is_vec n x' f' /\ length w' = n /\
        column_error n A f' xs <= q ^ k * column_error n A f xs) by (destruct G as (x' & w' & f' & G1 & G2 & _ & G3); eauto 7).
      induction k as [|k IH]; cbn [times].
      + exists x, w, f. rewrite pow_O, Rmult_1_l. split; [reflexivity|]. split; [exact Hx|]. split; [exact Lw|lra].
      + destruct IH as (x1 & w1 & f1 & -> & V1 & L1 & H1). cbn [bind].
        destruct (jacobi_column x1 w1 f1 V1 L1) as (x2 & f2 & E & V2 & H2).
        unfold jacobi_step. cbn [fst snd]. change (sc_one rops) with 1. rewrite E. cbn [bind].
        exists x2, x1, f2. split; [reflexivity|]. split; [exact V2|]. split; [apply V1|]. cbn [pow]. nra.
    - enough (G : exists x' f', times (gauss_seidel_step rops dbg stray a b) k (x, w) = Ok (x', w) /\ is_vec n x' f' /\
        low_error f' <= q ^ k * low_error f).
      { destruct G as (x' & f' & G1 & G2 & G3). exists x', f'. split; [exact G1|]. split; [exact G2|].
        destruct (low_bounds f') as [B1 _], (low_bounds f) as [_ B2]. pose proof (pow_le q k (proj1 Hq)) as Hp.
        apply (Rmult_le_reg_l (1 - q)); [lra|]. apply Rle_trans with (q ^ k * column_error n A f xs); [nra|].
        right. field. lra. }
      induction k as [|k IH]; cbn [times].
      + exists x, f. rewrite pow_O, Rmult_1_l. split; [reflexivity|]. split; [exact Hx|lra].
      + destruct IH as (x1 & f1 & -> & V1 & H1). cbn [bind].
        destruct (seidel_column x1 f1 V1) as (x2 & f2 & E & V2 & H2).
        unfold gauss_seidel_step. cbn [fst snd]. change (sc_one rops) with 1. rewrite E. cbn [bind].
        exists x2, f2. split; [reflexivity|]. split; [exact V2|]. cbn [pow]. nra.
  Qed.
End Columns.
