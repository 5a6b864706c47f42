(** Lemmas behind C140. *)
From Coq Require Import ZArith Reals Lra Lia List SpecFloat Psatz.
From Verif Require Import Base ListFacts DenseModel DenseFacts ScalarModel GeometryReal SparseModel SparseSpec SparseFacts SparseMul LuModel
  LuReal IterModel IterFacts IterLoop IterField IterReal FloatFacts FloatError IterFloat PropFloatLemmas FloatUnit
  PropIterLemmas LuSuccess FloatSweep PropSweepLemmas FloatStop FloatStops PropStopLemmas FloatSor PropSorLemmas Energy EnergyDrift FloatDrift.
Import ListNotations.
Local Open Scope R_scope.

Notation reals A := (fun i j => f_real (A i j)).

Section Run.
  Variables (M : nat) (dbg : bool) (stray : option nat).
  Variables (n : nat) (a : smat f64) (A : nat -> nat -> f64) (b : list f64) (h : nat -> f64).
  Variables (l ro : R) (xs : nat -> R) (X : R).
  Hypothesis D : definite_doubles n a A b h l ro xs X.
  Hypothesis Hk : d_kappa n ro l < 1.

  Lemma norm_within f E : f_enorm n A f xs <= E -> within n f xs (E / sqrt l).
  Proof using D.
    intros H i Hi. pose proof (df_form _ _ _ _ _ _ _ _ _ D) as Hf.
    apply Rle_trans with (1 := component_bound n _ l Hf (fun j => f_real (f j) - xs j) i Hi).
    apply Rmult_le_compat_r; [|exact H]. left. apply Rinv_0_lt_compat, sqrt_lt_R0, Hf.
  Qed.

  Lemma start_norm f E : 0 <= E -> within n f xs E -> f_enorm n A f xs <= sqrt (INR n * ro) * E.
  Proof using D.
    intros HE H. destruct (df_rows _ _ _ _ _ _ _ _ _ D) as [Hro Hr]. pose proof (df_form _ _ _ _ _ _ _ _ _ D) as Hf.
    assert (Hnr : 0 <= INR n * ro) by (apply Rmult_le_pos; [apply pos_INR|auto]).
    unfold f_enorm, enorm. rewrite <- (sqrt_Rsqr E HE), <- sqrt_mult by (auto; apply Rle_0_sqr).
    apply sqrt_le_1; [apply (energy_nonneg n _ l Hf)|apply Rmult_le_pos; [apply Rmult_le_pos; [apply pos_INR|auto]|apply Rle_0_sqr]|].
    unfold Rsqr, energy. set (e := fun j => f_real (f j) - xs j).
    apply Rle_trans with (rsum n (fun _ => ro * (E * E))); [|rewrite rsum_const; right; ring].
    apply rsum_le. intros i Hi. apply Rle_trans with (1 := Rle_abs _). rewrite Rabs_mult.
    apply Rle_trans with (E * (E * ro)); [|right; ring]. apply Rmult_le_compat; try apply Rabs_pos; [apply H, Hi|].
    apply Rle_trans with (1 := rsum_abs _ _). apply Rle_trans with (E * rsum n (fun j => Rabs (f_real (A i j)))).
    - rewrite <- rsum_scale. apply rsum_le. intros j Hj. rewrite Rabs_mult, Rmult_comm.
      apply Rmult_le_compat_r; [apply Rabs_pos|apply H, Hj].
    - apply Rmult_le_compat_l; auto.
  Qed.

  Section Method.
    Variables (W : f64) (w s : R) (step : list f64 * list f64 -> res (list f64 * list f64)).
    Hypothesis HW : sweep_pair W w.
    Hypothesis Hs : sweep_factor n (reals A) w s.
    Hypothesis Hr : d_rate n ro l s < 1.
    Hypothesis Hst : forall x u, step (x, u) = (do x' <- forward_sweep fops dbg stray a None x b W; Ok (x', u)).

    Lemma method_times x f E0 k : is_vec n x f -> finite_vec n f -> 0 <= E0 ->
      f_enorm n A f xs <= d_floor n ro l s X + E0 -> d_no_overflow n ro l X (d_floor n ro l s X + E0) ->
      exists x' f', times step k (x, []) = Ok (x', []) /\ is_vec n x' f' /\ finite_vec n f' /\
        f_enorm n A f' xs <= d_floor n ro l s X + d_rate n ro l s ^ k * E0 /\
        within n f' xs ((d_floor n ro l s X + d_rate n ro l s ^ k * E0) / sqrt l).
    Proof using D Hk HW Hs Hr Hst.
      intros Hx Hf HE He Ho.
      assert (L0 : d_floor n ro l s X + E0 = d_level n l ro X s E0 0) by (unfold d_level; cbn [pow]; ring).
      rewrite L0 in He, Ho.
      destruct (definite_times dbg stray n a A b h l ro xs X D W w s step x [] f E0 k HW Hs Hk Hr Hst Hx Hf HE He Ho)
        as (x' & f' & H1 & H2 & H3 & H4).
      exists x', f'. split; [exact H1|]. split; [exact H2|]. split; [exact H3|]. split; [exact H4|]. apply norm_within, H4.
    Qed.

    Lemma method_reaches x f E0 eps : is_vec n x f -> finite_vec n f -> 0 <= E0 ->
      f_enorm n A f xs <= d_floor n ro l s X + E0 -> d_no_overflow n ro l X (d_floor n ro l s X + E0) -> 0 < eps ->
      exists N, forall k, (N <= k)%nat ->
      exists x' f', times step k (x, []) = Ok (x', []) /\ is_vec n x' f' /\ finite_vec n f' /\
        within n f' xs (d_floor n ro l s X / sqrt l + eps).
    Proof using D Hk HW Hs Hr Hst.
      intros Hx Hf HE He Ho Hp. pose proof (df_form _ _ _ _ _ _ _ _ _ D) as [Hl _].
      assert (Hq : 0 < sqrt l) by (apply sqrt_lt_R0, Hl).
      assert (R0 : 0 <= d_rate n ro l s).
      { unfold d_rate. pose proof (kappa_nonneg n a A b h l ro xs X D). destruct Hs as [H0 _].
        assert (0 <= d_kappa n ro l / (1 - d_kappa n ro l)) by (apply Rmult_le_pos; [auto|left; apply Rinv_0_lt_compat; lra]). lra. }
      destruct (pow_lt_1_zero (d_rate n ro l s) ltac:(rewrite Rabs_pos_eq; auto) (eps * sqrt l / (E0 + 1))) as (N & HN).
      { apply Rmult_lt_0_compat; [apply Rmult_lt_0_compat; auto|apply Rinv_0_lt_compat; lra]. }
      exists N. intros k Hkk. specialize (HN k ltac:(lia)). assert (P : 0 <= d_rate n ro l s ^ k) by (apply pow_le, R0).
      rewrite Rabs_pos_eq in HN by exact P.
      assert (H1 : d_rate n ro l s ^ k * E0 <= eps * sqrt l / (E0 + 1) * (E0 + 1)) by (apply Rmult_le_compat; lra).
      unfold Rdiv in H1. rewrite Rmult_assoc, Rinv_l, Rmult_1_r in H1 by lra.
      destruct (method_times x f E0 k Hx Hf HE He Ho) as (y & g & E1 & E2 & E3 & _ & E4).
      exists y, g. split; [exact E1|]. split; [exact E2|]. split; [exact E3|]. intros i Hi. apply Rle_trans with (1 := E4 i Hi).
      replace (d_floor n ro l s X / sqrt l + eps) with ((d_floor n ro l s X + eps * sqrt l) / sqrt l) by (field; lra).
      apply Rmult_le_compat_r; [left; apply Rinv_0_lt_compat, Hq|lra].
    Qed.
  End Method.

  Lemma definite_system : square_system n a b.
  Proof using D.
    destruct (df_square _ _ _ _ _ _ _ _ _ D) as (Hw & Hr & Hc & HA).
    split; [exact Hw|]. split; [exact Hr|]. split; [exact Hc|]. split; [apply (df_rhs _ _ _ _ _ _ _ _ _ D)|].
    intros i Hi. exists (A i i). destruct (stored_dec a i i Hw) as [(v & Hv)|Hno].
    - rewrite (proj1 (HA i i) v Hv). exact Hv.
    - pose proof (diagonal_l n a A b h l ro xs X D i Hi) as H. cbv beta in H. rewrite (proj2 (HA i i) Hno) in H. cbn [f_real] in H. lra.
  Qed.

  Lemma seidel_pair : sweep_pair (sc_one fops) 1.
  Proof using Type. left. auto. Qed.

  Lemma sor_pair : sweep_pair (sor_factor fops) (3 / 2).
  Proof using Type. right. auto. Qed.

  Lemma both_solve s1 s2 x f E1 E2 lim rho fuel :
    sweep_factor n (reals A) 1 s1 -> sweep_factor n (reals A) (3 / 2) s2 -> d_rate n ro l s1 < 1 -> d_rate n ro l s2 < 1 ->
    is_vec n x f -> finite_vec n f -> 0 <= E1 -> 0 <= E2 ->
    f_enorm n A f xs <= d_floor n ro l s1 X + E1 -> d_no_overflow n ro l X (d_floor n ro l s1 X + E1) ->
    f_enorm n A f xs <= d_floor n ro l s2 X + E2 -> d_no_overflow n ro l X (d_floor n ro l s2 X + E2) ->
    (dbg = true -> n <> 0%nat) -> (min_iterations lim <= M)%nat -> (max_iteration lim < M)%nat ->
    (Nat.max (min_iterations lim) (max_iteration lim + 1) < fuel)%nat ->
    (exists x' cd f', gauss_seidel_solve fops M dbg stray fuel lim a x b = Ok (x', cd) /\ is_vec n x' f' /\ finite_vec n f' /\
       within n f' xs ((d_floor n ro l s1 X + d_rate n ro l s1 ^ cd_iteration cd * E1) / sqrt l)) /\
    (exists x' cd f', sor_solve fops M dbg stray fuel lim rho a x b = Ok (x', cd) /\ is_vec n x' f' /\ finite_vec n f' /\
       within n f' xs ((d_floor n ro l s2 X + d_rate n ro l s2 ^ cd_iteration cd * E2) / sqrt l)).
  Proof using D Hk.
    intros F1 F2 R1 R2 Hx Hf P1 P2 N1 O1 N2 O2 Hn Hmin Hmax Hfuel.
    destruct (square_solve fops M dbg stray n lim a x b [] fuel definite_system (proj1 Hx) Hn Hmin Hmax Hfuel) as (_ & S2 & S3).
    split.
    - destruct S2 as (x' & cd & E & _). exists x', cd.
      pose proof E as H. apply gauss_seidel_Ok in H as (w & H). apply loop_bound in H as (k & _ & Ek & (Ht & _) & _); auto.
      rewrite Ek. destruct (method_times (sc_one fops) 1 s1 (gauss_seidel_step fops dbg stray a b) seidel_pair F1 R1
        ltac:(reflexivity) x f E1 k Hx Hf P1 N1 O1) as (y & f' & E' & H1 & H2 & _ & H3).
      rewrite E' in Ht. injection Ht as <- _. exists f'. auto.
    - destruct (S3 rho) as (x' & cd & E & _). exists x', cd.
      pose proof E as H. apply sor_Ok in H as (w & H). apply loop_bound in H as (k & _ & Ek & (Ht & _) & _); auto.
      rewrite Ek. destruct (method_times (sor_factor fops) (3 / 2) s2 (sor_step fops dbg stray a b) sor_pair F2 R2
        ltac:(reflexivity) x f E2 k Hx Hf P2 N2 O2) as (y & f' & E' & H1 & H2 & _ & H3).
      rewrite E' in Ht. injection Ht as <- _. exists f'. auto.
  Qed.
End Run.

Lemma gauss_seidel_definite dbg stray n a A b h l ro xs X s x f E0 k : definite_doubles n a A b h l ro xs X ->
  sweep_factor n (reals A) 1 s -> d_kappa n ro l < 1 -> d_rate n ro l s < 1 -> is_vec n x f -> finite_vec n f -> 0 <= E0 ->
  f_enorm n A f xs <= d_floor n ro l s X + E0 -> d_no_overflow n ro l X (d_floor n ro l s X + E0) ->
  exists x' f', times (gauss_seidel_step fops dbg stray a b) k (x, []) = Ok (x', []) /\ is_vec n x' f' /\ finite_vec n f' /\
    f_enorm n A f' xs <= d_floor n ro l s X + d_rate n ro l s ^ k * E0 /\
    within n f' xs ((d_floor n ro l s X + d_rate n ro l s ^ k * E0) / sqrt l).
Proof.
  intros D Hs Hk Hr. apply (method_times dbg stray n a A b h l ro xs X D Hk (sc_one fops) 1 s _ seidel_pair Hs Hr). reflexivity.
Qed.

Lemma sor_definite dbg stray n a A b h l ro xs X s x f E0 k : definite_doubles n a A b h l ro xs X ->
  sweep_factor n (reals A) (3 / 2) s -> d_kappa n ro l < 1 -> d_rate n ro l s < 1 -> is_vec n x f -> finite_vec n f -> 0 <= E0 ->
  f_enorm n A f xs <= d_floor n ro l s X + E0 -> d_no_overflow n ro l X (d_floor n ro l s X + E0) ->
  exists x' f', times (sor_step fops dbg stray a b) k (x, []) = Ok (x', []) /\ is_vec n x' f' /\ finite_vec n f' /\
    f_enorm n A f' xs <= d_floor n ro l s X + d_rate n ro l s ^ k * E0 /\
    within n f' xs ((d_floor n ro l s X + d_rate n ro l s ^ k * E0) / sqrt l).
Proof.
  intros D Hs Hk Hr. apply (method_times dbg stray n a A b h l ro xs X D Hk (sor_factor fops) (3 / 2) s _ sor_pair Hs Hr). reflexivity.
Qed.

Lemma definite_reaches dbg stray n a A b h l ro xs X s1 s2 x f E1 E2 eps : definite_doubles n a A b h l ro xs X ->
  sweep_factor n (reals A) 1 s1 -> sweep_factor n (reals A) (3 / 2) s2 -> d_kappa n ro l < 1 ->
  d_rate n ro l s1 < 1 -> d_rate n ro l s2 < 1 -> is_vec n x f -> finite_vec n f -> 0 <= E1 -> 0 <= E2 ->
  f_enorm n A f xs <= d_floor n ro l s1 X + E1 -> d_no_overflow n ro l X (d_floor n ro l s1 X + E1) ->
  f_enorm n A f xs <= d_floor n ro l s2 X + E2 -> d_no_overflow n ro l X (d_floor n ro l s2 X + E2) -> 0 < eps ->
  exists N, forall k, (N <= k)%nat ->
    (exists x' f', times (gauss_seidel_step fops dbg stray a b) k (x, []) = Ok (x', []) /\ is_vec n x' f' /\ finite_vec n f' /\
       within n f' xs (d_floor n ro l s1 X / sqrt l + eps)) /\
    (exists x' f', times (sor_step fops dbg stray a b) k (x, []) = Ok (x', []) /\ is_vec n x' f' /\ finite_vec n f' /\
       within n f' xs (d_floor n ro l s2 X / sqrt l + eps)).
Proof.
  intros D F1 F2 Hk R1 R2 Hx Hf P1 P2 N1 O1 N2 O2 Hp.
  destruct (method_reaches dbg stray n a A b h l ro xs X D Hk (sc_one fops) 1 s1 (gauss_seidel_step fops dbg stray a b)
    seidel_pair F1 R1 ltac:(reflexivity) x f E1 eps Hx Hf P1 N1 O1 Hp) as (k1 & K1).
  destruct (method_reaches dbg stray n a A b h l ro xs X D Hk (sor_factor fops) (3 / 2) s2 (sor_step fops dbg stray a b)
    sor_pair F2 R2 ltac:(reflexivity) x f E2 eps Hx Hf P2 N2 O2 Hp) as (k2 & K2).
  exists (Nat.max k1 k2). intros k Hkk. split; [apply K1; lia|apply K2; lia].
Qed.

(** The constants exist for every symmetric positive definite matrix. *)
Lemma definite_constants n (A : nat -> nat -> R) : symmetric n A -> positive_definite n A ->
  exists l ro s1 s2, coercivity n A l /\ 0 <= ro /\ (forall i, (i < n)%nat -> rsum n (fun j => Rabs (A i j)) <= ro) /\
    sweep_factor n A 1 s1 /\ sweep_factor n A (3 / 2) s2 /\
    forall h, exists xs, (forall i, (i < n)%nat -> rsum n (fun j => A i j * xs j) = h i) /\
      forall ys, (forall i, (i < n)%nat -> rsum n (fun j => A i j * ys j) = h i) -> forall i, (i < n)%nat -> ys i = xs i.
Proof.
  intros Hs Hp. destruct (coercive n A Hs Hp) as (l & Hl). destruct (factor_exists n A 1 Hs Hp ltac:(lra)) as (s1 & F1).
  destruct (factor_exists n A (3 / 2) Hs Hp ltac:(lra)) as (s2 & F2).
  exists l, (rsum n (fun i => rsum n (fun j => Rabs (A i j)))), s1, s2. split; [exact Hl|].
  assert (P : forall i, (i < n)%nat -> 0 <= rsum n (fun j => Rabs (A i j))) by (intros; apply rsum_nonneg; intros; apply Rabs_pos).
  split; [apply rsum_nonneg, P|]. split; [intros i Hi; apply (rsum_member n (fun i => rsum n (fun j => Rabs (A i j))) i Hi P)|].
  split; [exact F1|]. split; [exact F2|]. intro h. destruct (definite_solution n A h Hs Hp) as (xs & Hx). exists xs. split; [exact Hx|].
  intros ys Hy i Hi. destruct (Req_dec (ys i - xs i) 0) as [|Hne]; [lra|]. exfalso.
  assert (H : 0 < energy n A (fun j => ys j - xs j)) by (apply Hp; eauto).
  unfold energy in H. rewrite (rsum_zero n) in H; [lra|]. intros k Hkn.
  rewrite (asum_ext _ _ n _ (fun j => A k j * ys j - A k j * xs j)) by (intros; ring).
  rewrite rsum_minus, (Hy k Hkn). specialize (Hx k Hkn). cbn [rops sc_add sc_mul sc_zero] in Hx |- *. rewrite Hx. ring.
Qed.

(* ------------------------------------------------------------------ the example *)
(** 2 x - y = 1, - x + 2 y = 1 with the solution (1, 1). *)
Definition dx_sys : smat f64 := two (fz 2) (fz (-1)) (fz (-1)) (fz 2).
Definition dx_A (i j : nat) : f64 := lookup (S754_zero false) (nth i (two_rows (fz 2) (fz (-1)) (fz (-1)) (fz 2)) []) j.
Definition dx_b : list f64 := [fz 1; fz 1].
Definition dx_h (i : nat) : f64 := nth i dx_b (fz 0).

Lemma fzm1 : f_real (fz (-1)) = -1.
Proof. unfold fz. vm_compute (f_of_Z (-1)). cbn [f_real]. change (-52)%Z with (- Z.of_nat 52)%Z. rewrite powerRZ_neg', <- pow_powerRZ. field_simplify; [|lra..]; lra. Qed.

Lemma dx_energy e : energy 2 (reals dx_A) e = 2 * (e 0%nat * e 0%nat - e 0%nat * e 1%nat + e 1%nat * e 1%nat).
Proof.
  unfold energy. cbn [asum rops sc_add]. change (dx_A 0 0) with (fz 2). change (dx_A 1 1) with (fz 2).
  change (dx_A 0 1) with (fz (-1)). change (dx_A 1 0) with (fz (-1)). rewrite fz2, fzm1. ring.
Qed.

Lemma dx_form : coercivity 2 (reals dx_A) 1.
Proof.
  split; [lra|]. intro e. rewrite dx_energy. cbn [asum rops sc_add].
  pose proof (Rle_0_sqr (e 0%nat - e 1%nat)) as H. unfold Rsqr in H. lra.
Qed.

Lemma dx_factor w s : 0 <= s < 1 -> (forall p q, let z := w * q / 2 + (1 - w) * p in let y := w * z / 2 + (1 - w) * q in
    z * z - z * y + y * y <= s * s * (p * p - p * q + q * q)) -> sweep_factor 2 (reals dx_A) w s.
Proof.
  intros Hs H. split; [exact Hs|]. intros h xs f z Hx Hz. 
  pose proof (Hx 0%nat ltac:(lia)) as X0. pose proof (Hx 1%nat ltac:(lia)) as X1.
  pose proof (Hz 0%nat ltac:(lia)) as Z0. pose proof (Hz 1%nat ltac:(lia)) as Z1.
  cbn [asum rops sc_add Nat.eqb Nat.ltb Nat.leb] in X0, X1, Z0, Z1.
  change (dx_A 0 0) with (fz 2) in *. change (dx_A 1 1) with (fz 2) in *.
  change (dx_A 0 1) with (fz (-1)) in *. change (dx_A 1 0) with (fz (-1)) in *. rewrite fz2, fzm1 in *.
  unfold enorm. rewrite <- (sqrt_Rsqr s) by lra. rewrite <- sqrt_mult by (try apply Rle_0_sqr; apply (energy_nonneg 2 _ 1 dx_form)).
  apply sqrt_le_1; [apply (energy_nonneg 2 _ 1 dx_form)|apply Rmult_le_pos; [apply Rle_0_sqr|apply (energy_nonneg 2 _ 1 dx_form)]|].
  rewrite !dx_energy. specialize (H (f 0%nat - xs 0%nat) (f 1%nat - xs 1%nat)). cbv zeta in H.
  assert (E0 : z 0%nat - xs 0%nat = w * (f 1%nat - xs 1%nat) / 2 + (1 - w) * (f 0%nat - xs 0%nat)).
  { rewrite Z0, <- X0. field. }
  rewrite <- E0 in H.
  assert (E1 : z 1%nat - xs 1%nat = w * (z 0%nat - xs 0%nat) / 2 + (1 - w) * (f 1%nat - xs 1%nat)).
  { rewrite Z1, <- X1. field. }
  rewrite <- E1 in H. unfold Rsqr. lra.
Qed.

Lemma dx_factors : sweep_factor 2 (reals dx_A) 1 (1 / 2) /\ sweep_factor 2 (reals dx_A) (3 / 2) (3 / 4).
Proof.
  split; apply dx_factor; try lra; intros p q; cbv zeta.
  - pose proof (Rle_0_sqr (p - q / 2)) as H. unfold Rsqr in H. lra.
  - pose proof (Rle_0_sqr p). pose proof (Rle_0_sqr (p - q / 3)) as H1. pose proof (Rle_0_sqr q) as H2. unfold Rsqr in *. lra.
Qed.

Lemma dx_small : 0 <= d_kappa 2 3 1 <= 1 / 100 /\ 0 <= d_tau 2 3 1 1 <= 1.
Proof.
  pose proof (small_units) as (Hu1 & He1 & _). pose proof u_pos as Hu0. pose proof eta_pos as He0.
  assert (P7 : 1 <= (1 + f_u) ^ 7 <= 1 + / 4096).
  { split; [apply pow_R1_Rle; lra|]. apply Rle_trans with ((1 + / 1024 / 1024) ^ 7); [apply pow_incr; lra|lra]. }
  assert (P6 : 1 <= (1 + f_u) ^ 6 <= 1 + / 4096).
  { split; [apply pow_R1_Rle; lra|]. apply Rle_trans with ((1 + / 1024 / 1024) ^ 6); [apply pow_incr; lra|lra]. }
  assert (S2 : 0 <= sqrt (INR 2) <= 2).
  { split; [apply sqrt_pos|]. apply Rle_trans with (sqrt (2 * 2)); [|rewrite sqrt_square; lra]. apply sqrt_le_1; cbn; lra. }
  unfold d_kappa, d_tau, d_row, f_gamma. rewrite sqrt_1. change (2 + 5)%nat with 7%nat. change (2 + 4)%nat with 6%nat.
  set (p := (1 + f_u) ^ 7) in *. set (r := (1 + f_u) ^ 6) in *. clearbody p r. set (t := sqrt (INR 2)) in *. clearbody t.
  change (INR 2) with (1 + 1). split.
  - assert (0 <= (p - 1) * t <= / 4096 * 2) by (split; [apply Rmult_le_pos; lra|apply Rmult_le_compat; lra]). lra.
  - assert (Q : 0 <= f_eta * ((1 + 1) * r + 3 * (3 + 1)) <= / 1024 / 1024 * 20) by (split; [apply Rmult_le_pos; lra|apply Rmult_le_compat; lra]).
    set (c := f_eta * ((1 + 1) * r + 3 * (3 + 1))) in *. clearbody c.
    assert (0 <= t * (2 * (p - 1) * 3 * (1 + 0) + c) <= 2 * (2 * / 4096 * 3 + / 1024 / 1024 * 20)) by (split; [apply Rmult_le_pos; lra|apply Rmult_le_compat; lra]).
    lra.
Qed.

Lemma dx_hypotheses : definite_doubles 2 dx_sys dx_A dx_b dx_h 1 3 (fun _ => 1) 1 /\
  sweep_factor 2 (reals dx_A) 1 (1 / 2) /\ sweep_factor 2 (reals dx_A) (3 / 2) (3 / 4) /\
  d_kappa 2 3 1 < 1 /\ d_rate 2 3 1 (1 / 2) < 1 /\ d_rate 2 3 1 (3 / 4) < 1 /\
  finite_vec 2 (fun _ => fz 0) /\ 
  f_enorm 2 dx_A (fun _ => fz 0) (fun _ => 1) <= d_floor 2 3 1 (1 / 2) 1 + 2 /\ d_no_overflow 2 3 1 1 (d_floor 2 3 1 (1 / 2) 1 + 2) /\
  f_enorm 2 dx_A (fun _ => fz 0) (fun _ => 1) <= d_floor 2 3 1 (3 / 4) 1 + 2 /\ d_no_overflow 2 3 1 1 (d_floor 2 3 1 (3 / 4) 1 + 2).
Proof.
  assert (E : forall i j, (i < 2)%nat -> (j < 2)%nat -> dx_A i j = if (i =? j)%nat then fz 2 else fz (-1)).
  { intros [|[|i]] [|[|j]] Hi Hj; try lia; reflexivity. }
  destruct dx_small as [K T]. destruct dx_factors as [F1 F2].
  assert (Q : 0 <= d_kappa 2 3 1 / (1 - d_kappa 2 3 1) <= 1 / 50).
  { split; [apply Rmult_le_pos; [lra|left; apply Rinv_0_lt_compat; lra]|].
    apply (Rmult_le_reg_r (1 - d_kappa 2 3 1)); [lra|]. unfold Rdiv at 1. rewrite Rmult_assoc, Rinv_l, Rmult_1_r by lra. lra. }
  assert (FL : forall s, s <= 3 / 4 -> 0 <= d_floor 2 3 1 s 1 <= 10).
  { intros s Hs. unfold d_floor. assert (R : 1 / 5 <= 1 - d_rate 2 3 1 s) by (unfold d_rate; lra).
    assert (T1 : 0 <= d_tau 2 3 1 1 / (1 - d_kappa 2 3 1) <= 2).
    { split; [apply Rmult_le_pos; [lra|left; apply Rinv_0_lt_compat; lra]|].
      apply (Rmult_le_reg_r (1 - d_kappa 2 3 1)); [lra|]. unfold Rdiv at 1. rewrite Rmult_assoc, Rinv_l, Rmult_1_r by lra. lra. }
    split; [apply Rmult_le_pos; [lra|left; apply Rinv_0_lt_compat; lra]|].
    apply (Rmult_le_reg_r (1 - d_rate 2 3 1 s)); [lra|]. unfold Rdiv at 1. rewrite Rmult_assoc, Rinv_l, Rmult_1_r by lra. lra. }
  assert (NO : forall s, s <= 3 / 4 -> d_no_overflow 2 3 1 1 (d_floor 2 3 1 s 1 + 2)).
  { intros s Hs. specialize (FL s Hs). unfold d_no_overflow.
    assert (W : d_within 2 3 1 1 (d_floor 2 3 1 s 1 + 2) <= 20).
    { unfold d_within. rewrite sqrt_1. unfold Rdiv. rewrite Rinv_1, Rmult_1_r.
      apply (Rmult_le_reg_r (1 - d_kappa 2 3 1)); [lra|]. rewrite Rmult_assoc, Rinv_l, Rmult_1_r by lra. lra. }
    assert (L9 : 2 ^ 14 <= f_limit) by (unfold f_limit; apply Rle_pow; [lra|apply Nat.leb_le; reflexivity]).
    pose proof u_tiny as Hu. pose proof u_pos as Hu0. pose proof eta_pos as He0. pose proof eta_one as He.
    assert (P3 : 1 <= (1 + f_u) ^ (2 + 1) <= 11 / 10).
    { split; [apply pow_R1_Rle; lra|]. apply Rle_trans with ((1001 / 1000) ^ (2 + 1)); [apply pow_incr; lra|cbn [Nat.add]; lra]. }
    assert (P2 : 1 <= (1 + f_u) ^ 2 <= 11 / 10).
    { split; [apply pow_R1_Rle; lra|]. apply Rle_trans with ((1001 / 1000) ^ 2); [apply pow_incr; lra|lra]. }
    set (p := (1 + f_u) ^ (2 + 1)) in *. set (t := (1 + f_u) ^ 2) in *. clearbody p t. change (INR 2) with (1 + 1).
    set (v := d_within 2 3 1 1 (d_floor 2 3 1 s 1 + 2)) in *. clearbody v. rewrite Rinv_1.
    assert (p * 3 * (1 + v) <= 11 / 10 * 3 * 21).
    { apply Rle_trans with (p * 3 * 21); [apply Rmult_le_compat_l; lra|lra]. }
    assert ((1 + 1) * t * f_eta <= (1 + 1) * (11 / 10) * 1) by (apply Rmult_le_compat; lra). lra. }
  assert (EN : f_enorm 2 dx_A (fun _ => fz 0) (fun _ => 1) <= 2).
  { unfold f_enorm, enorm. rewrite dx_energy. apply Rle_trans with (sqrt (2 * 2)); [|rewrite sqrt_square; lra].
    apply sqrt_le_1; change (f_real (fz 0)) with 0; lra. }
  split.
  { split.
    - apply two_square.
    - apply is_vec_self.
    - intros i j Hi Hj. rewrite E by auto. destruct (i =? j)%nat; split; reflexivity.
    - intros [|[|i]] Hi; try lia; split; reflexivity.
    - intros i j Hi Hj. rewrite !E, Nat.eqb_sym by auto. reflexivity.
    - exact dx_form.
    - split; [lra|]. intros i Hi. destruct i as [|[|i]]; try lia; cbn [asum rops sc_add]; rewrite !E by lia; cbn [Nat.eqb];
        rewrite fz2, fzm1, (Rabs_left (-1)), (Rabs_pos_eq 2); lra.
    - intros i Hi. destruct i as [|[|i]]; try lia; cbn [asum rops sc_add dx_h dx_b nth]; rewrite !E by lia; cbn [Nat.eqb];
        rewrite fz2, fzm1, fz1; lra.
    - split; [lra|]. intros i Hi. rewrite Rabs_R1. lra. }
  split; [exact F1|]. split; [exact F2|]. split; [lra|]. split; [unfold d_rate; lra|]. split; [unfold d_rate; lra|].
  split; [intros i Hi; split; reflexivity|].
  pose proof (FL (1 / 2) ltac:(lra)). pose proof (FL (3 / 4) ltac:(lra)).
  split; [lra|]. split; [apply NO; lra|]. split; [lra|apply NO; lra].
Qed.

Lemma dx_definite : symmetric 2 (reals dx_A) /\ positive_definite 2 (reals dx_A).
Proof.
  destruct dx_hypotheses as (D & _). split; [apply (df_sym _ _ _ _ _ _ _ _ _ D)|].
  exact (definite_of_form 2 dx_sys dx_A dx_b dx_h 1 3 (fun _ => 1) 1 D).
Qed.
