(** Lemmas behind C140: when the tolerance stops the sweeps. *)
From Coq Require Import ZArith Reals Lra Lia List SpecFloat Psatz.
From Verif Require Import Base ListFacts DenseModel DenseFacts ScalarModel GeometryReal SparseModel SparseSpec SparseFacts SparseMul LuModel
  LuReal IterModel IterFacts IterLoop IterField IterReal FloatFacts FloatError IterFloat PropFloatLemmas FloatUnit
  PropIterLemmas LuSuccess FloatSweep PropSweepLemmas FloatStop FloatStops PropStopLemmas FloatForward FloatSor PropSorLemmas Energy EnergyDrift
  FloatDrift PropDefiniteLemmas FloatDefStop.
Import ListNotations.
Local Open Scope R_scope.

Lemma d_resid_shift n ro X E e : d_resid n ro X (E + e) = d_resid n ro X E + (1 + f_gamma (n + 1)) * ro * e.
Proof. unfold d_resid. ring. Qed.

Section Run.
  Variables (M : nat) (dbg : bool) (stray : option nat).
  Variables (n : nat) (a : smat f64) (A : nat -> nat -> f64) (b : list f64) (h : nat -> f64).
  Variables (l ro : R) (xs : nat -> R) (X : R).
  Hypothesis D : definite_doubles n a A b h l ro xs X.
  Hypothesis Hk : d_kappa n ro l < 1.
  Hypothesis Hn : (0 < n)%nat.
  Hypothesis HN : (Z.of_nat n < 2 ^ 64)%Z.

  Lemma definite_valid : valid_rows n a A b h.
  Proof using D.
    destruct (df_square _ _ _ _ _ _ _ _ _ D) as (Hw & Hr & Hc & HA).
    split; [apply (df_square _ _ _ _ _ _ _ _ _ D)|apply (df_rhs _ _ _ _ _ _ _ _ _ D)|intros; apply (df_A _ _ _ _ _ _ _ _ _ D); auto|
      intros; apply (df_h _ _ _ _ _ _ _ _ _ D); auto|].
    intros i Hi. destruct (stored_dec a i i Hw) as [(v & Hv)|Hno].
    - rewrite (proj1 (HA i i) v Hv). exact Hv.
    - pose proof (diagonal_l n a A b h l ro xs X D i Hi) as H. cbv beta in H. rewrite (proj2 (HA i i) Hno) in H. cbn [f_real] in H. lra.
  Qed.

  Section Method.
    Variables (W : f64) (w s : R) (step : list f64 * list f64 -> res (list f64 * list f64)).
    Hypothesis HW : sweep_pair W w.
    Hypothesis Hs : sweep_factor n (reals A) w s.
    Hypothesis Hr : d_rate n ro l s < 1.
    Hypothesis Hst : forall x u, step (x, u) = (do x' <- forward_sweep fops dbg stray a None x b W; Ok (x', u)).

    Lemma d_rate_nonneg : 0 <= d_rate n ro l s.
    Proof using D Hk Hs.
      unfold d_rate. pose proof (kappa_nonneg n a A b h l ro xs X D). destruct Hs as [H0 _].
      assert (0 <= d_kappa n ro l / (1 - d_kappa n ro l)) by (apply Rmult_le_pos; [auto|left; apply Rinv_0_lt_compat; lra]). lra.
    Qed.

    Lemma d_floor_nonneg : 0 <= d_floor n ro l s X.
    Proof using D Hk Hr.
      unfold d_floor. pose proof (tau_nonneg n a A b h l ro xs X D).
      apply Rmult_le_pos; [apply Rmult_le_pos; [auto|]|]; left; apply Rinv_0_lt_compat; lra.
    Qed.

    Lemma sqrt_l : 0 < sqrt l.
    Proof using D. apply sqrt_lt_R0, (df_form _ _ _ _ _ _ _ _ _ D). Qed.

    Lemma method_stop lim x f E0 k x' cd x1 w1 r1 rm1 : run fops M dbg stray a b lim (x, []) step x' cd ->
      is_vec n x f -> finite_vec n f -> 0 <= E0 ->
      f_enorm n A f xs <= d_floor n ro l s X + E0 -> d_no_overflow n ro l X (d_floor n ro l s X + E0) ->
      (min_iterations lim <= k)%nat -> (1 <= k <= M)%nat -> (min_iterations lim <= M)%nat -> (max_iteration lim < M)%nat ->
      f_valid (tolerance lim) -> f_finite (tolerance lim) = true -> 0 <= f_real (tolerance lim) -> 10 * f_real (tolerance lim) + 1 <= f_limit / 2 ->
      step (x, []) = Ok (x1, w1) -> compute_residual fops dbg stray a x1 b = Ok (r1, rm1) -> f_finite r1 = true ->
      0 < f_real r1 -> 0 < f_real rm1 ->
      let E := (d_floor n ro l s X + d_rate n ro l s ^ k * E0) / sqrt l in let T := d_resid n ro X E in
      room n (ro * (X + E) + T) T -> meets n (f_real (tolerance lim)) (f_real r1) (f_real rm1) T ->
      (cd_iteration cd <= k)%nat.
    Proof using D Hk Hn HN HW Hs Hr Hst.
      intros H Hx Hf HE He Ho Hmin Hkk Hm1 Hm2 Vt Ft Pt Lt Es Er F1 P1 PM1 E T HR Hm.
      assert (Hvs : valid_state n (x, [])).
      { exists f. split; [exact Hx|]. intros i Hi. apply Hf, Hi. }
      assert (E00 : 0 <= E).
      { pose proof d_floor_nonneg. pose proof d_rate_nonneg. pose proof sqrt_l.
        unfold E. assert (0 <= d_rate n ro l s ^ k * E0) by (apply Rmult_le_pos; [apply pow_le; assumption|exact HE]).
        apply Rmult_le_pos; [lra|left; apply Rinv_0_lt_compat; auto]. }
      destruct (method_times dbg stray n a A b h l ro xs X D Hk W w s step HW Hs Hr Hst x f E0 k Hx Hf HE He Ho)
        as (xk & fk & K1 & K2 & K3 & _ & K4).
      destruct (df_rows _ _ _ _ _ _ _ _ _ D) as [Hro Hrw].
      apply (rows_stop_at M dbg stray n a A b h ro xs X definite_valid) with (lim := lim) (s := (x, [])) (step := step) (x' := x') (xk := xk) (wk := [])
        (f := fk) (E := E) (x1 := x1) (w1 := w1) (r1 := r1) (rm1 := rm1); auto.
      - intros i j Hi Hj. apply (df_A _ _ _ _ _ _ _ _ _ D); auto.
      - intros i Hi. apply (df_h _ _ _ _ _ _ _ _ _ D); auto.
      - apply (df_sol _ _ _ _ _ _ _ _ _ D).
      - apply (df_X _ _ _ _ _ _ _ _ _ D).
    Qed.

    Lemma d_floor_limit E0 eps : 0 <= E0 -> 0 < eps -> exists N, forall k, (N <= k)%nat -> d_rate n ro l s ^ k * E0 <= eps.
    Proof using D Hk Hs Hr.
      clear Hn HN. intros HE Hp. pose proof d_rate_nonneg as R0.
      destruct (pow_lt_1_zero (d_rate n ro l s) ltac:(rewrite Rabs_pos_eq; auto) (eps / (E0 + 1))) as (N & HNN).
      { apply Rmult_lt_0_compat; [exact Hp|apply Rinv_0_lt_compat; lra]. }
      exists N. intros k Hkk. specialize (HNN k ltac:(lia)). assert (P : 0 <= d_rate n ro l s ^ k) by (apply pow_le, R0).
      rewrite Rabs_pos_eq in HNN by exact P.
      assert (H1 : d_rate n ro l s ^ k * E0 <= eps / (E0 + 1) * (E0 + 1)) by (apply Rmult_le_compat; lra).
      unfold Rdiv in H1. rewrite Rmult_assoc, Rinv_l, Rmult_1_r in H1 by lra. exact H1.
    Qed.

    Lemma method_meets E0 tol r1 rm1 : 0 <= E0 -> 0 < r1 -> 0 < rm1 ->
      (let E := (d_floor n ro l s X + E0) / sqrt l in let T := d_resid n ro X E in room n (ro * (X + E) + T) T) ->
      meets_floor n tol r1 rm1 (d_resid n ro X (d_floor n ro l s X / sqrt l)) ->
      exists K, forall k, (K <= k)%nat ->
        let E := (d_floor n ro l s X + d_rate n ro l s ^ k * E0) / sqrt l in let T := d_resid n ro X E in
        meets n tol r1 rm1 T /\ room n (ro * (X + E) + T) T.
    Proof using D Hk Hs Hr.
      clear Hn HN. intros HE P1 P2 HR Hm. destruct (meets_slack n tol r1 rm1 _ P1 P2 Hm) as (t & Ht & Hsl).
      pose proof d_rate_nonneg as R0. pose proof d_floor_nonneg as F0. pose proof sqrt_l as Q0.
      destruct (df_X _ _ _ _ _ _ _ _ _ D) as [X0 _]. destruct (df_rows _ _ _ _ _ _ _ _ _ D) as [Hro _].
      pose proof (gamma_nonneg (n + 1)) as G0. pose proof u_pos as Hu. pose proof eta_pos as Heta.
      assert (S0 : 0 <= (1 + f_gamma (n + 1)) * ro) by (apply Rmult_le_pos; lra).
      set (S1 := (1 + f_gamma (n + 1)) * ro) in *. set (fl := d_floor n ro l s X) in *. set (ra := d_rate n ro l s) in *.
      destruct (d_floor_limit E0 (sqrt l * (t / (S1 + 1))) HE) as (K & HK).
      { apply Rmult_lt_0_compat; [exact Q0|]. apply Rdiv_lt_0_compat; lra. }
      exists K. intros k Hkk E T. specialize (HK k Hkk). fold ra in HK.
      assert (PE : 0 <= ra ^ k * E0) by (apply Rmult_le_pos; [apply pow_le, R0|exact HE]).
      assert (PE1 : ra ^ k * E0 <= E0).
      { rewrite <- (Rmult_1_l E0) at 2. apply Rmult_le_compat_r; [exact HE|]. rewrite <- (pow1 k). apply pow_incr. lra. }
      assert (IQ : 0 < / sqrt l) by (apply Rinv_0_lt_compat, Q0).
      assert (EE : E = fl / sqrt l + ra ^ k * E0 / sqrt l) by (unfold E; field; lra).
      assert (E1 : 0 <= E) by (unfold E; apply Rmult_le_pos; lra).
      split.
      - apply Hsl. unfold T. rewrite EE, d_resid_shift. fold S1. apply Rplus_le_compat_l.
        assert (V : ra ^ k * E0 / sqrt l <= t / (S1 + 1)).
        { apply (Rmult_le_reg_r (sqrt l)); [exact Q0|]. unfold Rdiv at 1. rewrite Rmult_assoc, Rinv_l, Rmult_1_r by lra. lra. }
        apply Rle_trans with (S1 * (t / (S1 + 1))); [apply Rmult_le_compat_l; lra|].
        apply Rle_trans with ((S1 + 1) * (t / (S1 + 1))); [apply Rmult_le_compat_r; [apply Rlt_le, Rdiv_lt_0_compat; lra|lra]|right; field; lra].
      - set (E' := (fl + E0) / sqrt l) in *. assert (EL : E <= E') by (unfold E, E'; apply Rmult_le_compat_r; lra).
        assert (TL : T <= d_resid n ro X E').
        { unfold T. replace E' with (E + (E' - E)) by ring. rewrite d_resid_shift. fold S1.
          assert (0 <= S1 * (E' - E)) by (apply Rmult_le_pos; lra). lra. }
        cbv zeta in HR. apply (room_le n _ _ _ _) with (3 := HR).
        + apply Rplus_le_compat; [|exact TL]. apply Rmult_le_compat_l; lra.
        + split; [|exact TL]. unfold T, d_resid. assert (0 <= ro * E) by (apply Rmult_le_pos; lra).
          assert (0 <= f_gamma (n + 1) * (ro * (X + E))) by (apply Rmult_le_pos; [exact G0|apply Rmult_le_pos; lra]).
          assert (0 <= INR n * (1 + f_u) ^ n * f_eta) by (apply Rmult_le_pos; [apply Rmult_le_pos; [apply pos_INR|apply pow_le; lra]|lra]). lra.
    Qed.

    Lemma method_eventually x f E0 tol x1 w1 r1 rm1 : is_vec n x f -> finite_vec n f -> 0 <= E0 ->
      f_enorm n A f xs <= d_floor n ro l s X + E0 -> d_no_overflow n ro l X (d_floor n ro l s X + E0) ->
      f_valid tol -> f_finite tol = true -> 0 <= f_real tol -> 10 * f_real tol + 1 <= f_limit / 2 ->
      (let E := (d_floor n ro l s X + E0) / sqrt l in let T := d_resid n ro X E in room n (ro * (X + E) + T) T) ->
      step (x, []) = Ok (x1, w1) -> compute_residual fops dbg stray a x1 b = Ok (r1, rm1) -> f_finite r1 = true ->
      0 < f_real r1 -> 0 < f_real rm1 ->
      meets_floor n (f_real tol) (f_real r1) (f_real rm1) (d_resid n ro X (d_floor n ro l s X / sqrt l)) ->
      exists K, forall lim x' cd, run fops M dbg stray a b lim (x, []) step x' cd -> tolerance lim = tol ->
        (min_iterations lim <= M)%nat -> (max_iteration lim < M)%nat -> (cd_iteration cd <= Nat.max K (min_iterations lim))%nat.
    Proof using D Hk Hn HN HW Hs Hr Hst.
      intros Hx Hf HE He Ho Vt Ft Pt Lt HR Es Er F1 P1 PM1 Hm.
      destruct (method_meets E0 (f_real tol) _ _ HE P1 PM1 HR Hm) as (K & HK). exists (Nat.max 1 K).
      intros lim x' cd H Etol H1 H2.
      assert (HM : (cd_iteration cd <= M)%nat).
      { pose proof (run_bound fops M dbg stray a b lim _ _ x' cd H H1 H2) as [H3 _]. unfold sweep_bound in H3. lia. }
      set (k := Nat.max (Nat.max 1 K) (min_iterations lim)).
      destruct (Nat.le_gt_cases k M) as [L|L]; [|lia]. destruct (HK k ltac:(lia)) as [G1 G2].
      apply (method_stop lim x f E0 k x' cd x1 w1 r1 rm1); rewrite ?Etol; auto; lia.
    Qed.
  End Method.
End Run.

(** The solvers. *)
Lemma gauss_seidel_stops M dbg stray n a A b h l ro xs X s x f E0 k lim fuel : definite_doubles n a A b h l ro xs X ->
  sweep_factor n (reals A) 1 s -> d_kappa n ro l < 1 -> d_rate n ro l s < 1 -> (0 < n)%nat -> (Z.of_nat n < 2 ^ 64)%Z ->
  is_vec n x f -> finite_vec n f -> 0 <= E0 ->
  f_enorm n A f xs <= d_floor n ro l s X + E0 -> d_no_overflow n ro l X (d_floor n ro l s X + E0) ->
  (min_iterations lim <= k)%nat -> (1 <= k <= M)%nat -> (max_iteration lim < M)%nat ->
  (Nat.max (min_iterations lim) (max_iteration lim + 1) < fuel)%nat ->
  f_valid (tolerance lim) -> f_finite (tolerance lim) = true -> 0 <= f_real (tolerance lim) -> 10 * f_real (tolerance lim) + 1 <= f_limit / 2 ->
  let E := (d_floor n ro l s X + d_rate n ro l s ^ k * E0) / sqrt l in let T := d_resid n ro X E in
  room n (ro * (X + E) + T) T ->
  forall x1 w1 r1 rm1, gauss_seidel_step fops dbg stray a b (x, []) = Ok (x1, w1) ->
    compute_residual fops dbg stray a x1 b = Ok (r1, rm1) -> f_finite r1 = true -> 0 < f_real r1 -> 0 < f_real rm1 ->
    meets n (f_real (tolerance lim)) (f_real r1) (f_real rm1) T ->
    exists x' cd f', gauss_seidel_solve fops M dbg stray fuel lim a x b = Ok (x', cd) /\ (cd_iteration cd <= k)%nat /\
      is_vec n x' f' /\ finite_vec n f' /\ within n f' xs ((d_floor n ro l s X + d_rate n ro l s ^ cd_iteration cd * E0) / sqrt l).
Proof.
  intros D F Hk Hr Hn HN Hx Hf HE He Ho Hmin Hkk Hmax Hfuel Vt Ft Pt Lt E T HR x1 w1 r1 rm1 Es Er F1 P1 PM1 Hm.
  destruct (square_solve fops M dbg stray n lim a x b [] fuel (definite_system n a A b h l ro xs X D) (proj1 Hx)) as (_ & S2 & _); auto; try lia.
  destruct S2 as (x' & cd & R & _). exists x', cd. pose proof (run_seidel fops M dbg stray a b lim fuel x x' cd R) as Hrun.
  pose proof R as H. apply gauss_seidel_Ok in H as (w & H). apply loop_bound in H as (k' & _ & Ek & (Ht & _) & _); auto; try lia.
  destruct (gauss_seidel_definite dbg stray n a A b h l ro xs X s x f E0 k' D F Hk Hr Hx Hf HE He Ho) as (y & f' & E' & H1 & H2 & _ & H3).
  rewrite E' in Ht. injection Ht as <- _. exists f'. split; [exact R|]. split; [|rewrite Ek; auto].
  apply (method_stop M dbg stray n a A b h l ro xs X D Hk Hn HN (sc_one fops) 1 s (gauss_seidel_step fops dbg stray a b) seidel_pair F Hr
    ltac:(reflexivity) lim x f E0 k y cd x1 w1 r1 rm1); auto; lia.
Qed.

Lemma sor_stops M dbg stray n a A b h l ro xs X s x f E0 k lim rho fuel : definite_doubles n a A b h l ro xs X ->
  sweep_factor n (reals A) (3 / 2) s -> d_kappa n ro l < 1 -> d_rate n ro l s < 1 -> (0 < n)%nat -> (Z.of_nat n < 2 ^ 64)%Z ->
  is_vec n x f -> finite_vec n f -> 0 <= E0 ->
  f_enorm n A f xs <= d_floor n ro l s X + E0 -> d_no_overflow n ro l X (d_floor n ro l s X + E0) ->
  (min_iterations lim <= k)%nat -> (1 <= k <= M)%nat -> (max_iteration lim < M)%nat ->
  (Nat.max (min_iterations lim) (max_iteration lim + 1) < fuel)%nat ->
  f_valid (tolerance lim) -> f_finite (tolerance lim) = true -> 0 <= f_real (tolerance lim) -> 10 * f_real (tolerance lim) + 1 <= f_limit / 2 ->
  let E := (d_floor n ro l s X + d_rate n ro l s ^ k * E0) / sqrt l in let T := d_resid n ro X E in
  room n (ro * (X + E) + T) T ->
  forall x1 w1 r1 rm1, sor_step fops dbg stray a b (x, []) = Ok (x1, w1) ->
    compute_residual fops dbg stray a x1 b = Ok (r1, rm1) -> f_finite r1 = true -> 0 < f_real r1 -> 0 < f_real rm1 ->
    meets n (f_real (tolerance lim)) (f_real r1) (f_real rm1) T ->
    exists x' cd f', sor_solve fops M dbg stray fuel lim rho a x b = Ok (x', cd) /\ (cd_iteration cd <= k)%nat /\
      is_vec n x' f' /\ finite_vec n f' /\ within n f' xs ((d_floor n ro l s X + d_rate n ro l s ^ cd_iteration cd * E0) / sqrt l).
Proof.
  intros D F Hk Hr Hn HN Hx Hf HE He Ho Hmin Hkk Hmax Hfuel Vt Ft Pt Lt E T HR x1 w1 r1 rm1 Es Er F1 P1 PM1 Hm.
  destruct (square_solve fops M dbg stray n lim a x b [] fuel (definite_system n a A b h l ro xs X D) (proj1 Hx)) as (_ & _ & S3); auto; try lia.
  destruct (S3 rho) as (x' & cd & R & _). exists x', cd. pose proof (run_sor fops M dbg stray a b lim fuel rho x x' cd R) as Hrun.
  pose proof R as H. apply sor_Ok in H as (w & H). apply loop_bound in H as (k' & _ & Ek & (Ht & _) & _); auto; try lia.
  destruct (sor_definite dbg stray n a A b h l ro xs X s x f E0 k' D F Hk Hr Hx Hf HE He Ho) as (y & f' & E' & H1 & H2 & _ & H3).
  rewrite E' in Ht. injection Ht as <- _. exists f'. split; [exact R|]. split; [|rewrite Ek; auto].
  apply (method_stop M dbg stray n a A b h l ro xs X D Hk Hn HN (sor_factor fops) (3 / 2) s (sor_step fops dbg stray a b) sor_pair F Hr
    ltac:(reflexivity) lim x f E0 k y cd x1 w1 r1 rm1); auto; lia.
Qed.

Lemma definite_eventually M dbg stray n a A b h l ro xs X s x f E0 tol : definite_doubles n a A b h l ro xs X ->
  d_kappa n ro l < 1 -> d_rate n ro l s < 1 -> (0 < n)%nat -> (Z.of_nat n < 2 ^ 64)%Z ->
  is_vec n x f -> finite_vec n f -> 0 <= E0 ->
  f_enorm n A f xs <= d_floor n ro l s X + E0 -> d_no_overflow n ro l X (d_floor n ro l s X + E0) ->
  f_valid tol -> f_finite tol = true -> 0 <= f_real tol -> 10 * f_real tol + 1 <= f_limit / 2 ->
  (let E := (d_floor n ro l s X + E0) / sqrt l in let T := d_resid n ro X E in room n (ro * (X + E) + T) T) ->
  (sweep_factor n (reals A) 1 s ->
   forall x1 w1 r1 rm1, gauss_seidel_step fops dbg stray a b (x, []) = Ok (x1, w1) -> compute_residual fops dbg stray a x1 b = Ok (r1, rm1) ->
     f_finite r1 = true -> 0 < f_real r1 -> 0 < f_real rm1 ->
     meets_floor n (f_real tol) (f_real r1) (f_real rm1) (d_resid n ro X (d_floor n ro l s X / sqrt l)) ->
     exists K, forall lim fuel, tolerance lim = tol -> (min_iterations lim <= M)%nat -> (max_iteration lim < M)%nat ->
       (Nat.max (min_iterations lim) (max_iteration lim + 1) < fuel)%nat ->
       exists x' cd, gauss_seidel_solve fops M dbg stray fuel lim a x b = Ok (x', cd) /\ (cd_iteration cd <= Nat.max K (min_iterations lim))%nat) /\
  (sweep_factor n (reals A) (3 / 2) s ->
   forall x1 w1 r1 rm1, sor_step fops dbg stray a b (x, []) = Ok (x1, w1) -> compute_residual fops dbg stray a x1 b = Ok (r1, rm1) ->
     f_finite r1 = true -> 0 < f_real r1 -> 0 < f_real rm1 ->
     meets_floor n (f_real tol) (f_real r1) (f_real rm1) (d_resid n ro X (d_floor n ro l s X / sqrt l)) ->
     exists K, forall lim rho fuel, tolerance lim = tol -> (min_iterations lim <= M)%nat -> (max_iteration lim < M)%nat ->
       (Nat.max (min_iterations lim) (max_iteration lim + 1) < fuel)%nat ->
       exists x' cd, sor_solve fops M dbg stray fuel lim rho a x b = Ok (x', cd) /\ (cd_iteration cd <= Nat.max K (min_iterations lim))%nat).
Proof.
  intros D Hk Hr Hn HN Hx Hf HE He Ho Vt Ft Pt Lt HR. split; intros F x1 w1 r1 rm1 Es Er F1 P1 PM1 Hm.
  - destruct (method_eventually M dbg stray n a A b h l ro xs X D Hk Hn HN (sc_one fops) 1 s (gauss_seidel_step fops dbg stray a b) seidel_pair F Hr
      ltac:(reflexivity) x f E0 tol x1 w1 r1 rm1) as (K & HK); auto.
    exists K. intros lim fuel Et H1 H2 H3.
    destruct (square_solve fops M dbg stray n lim a x b [] fuel (definite_system n a A b h l ro xs X D) (proj1 Hx)) as (_ & S2 & _); auto; try lia.
    destruct S2 as (x' & cd & R & _). exists x', cd. split; [exact R|]. apply (HK lim x' cd); auto. apply (run_seidel fops M dbg stray a b lim fuel x x' cd R).
  - destruct (method_eventually M dbg stray n a A b h l ro xs X D Hk Hn HN (sor_factor fops) (3 / 2) s (sor_step fops dbg stray a b) sor_pair F Hr
      ltac:(reflexivity) x f E0 tol x1 w1 r1 rm1) as (K & HK); auto.
    exists K. intros lim rho fuel Et H1 H2 H3.
    destruct (square_solve fops M dbg stray n lim a x b [] fuel (definite_system n a A b h l ro xs X D) (proj1 Hx)) as (_ & _ & S3); auto; try lia.
    destruct (S3 rho) as (x' & cd & R & _). exists x', cd. split; [exact R|]. apply (HK lim x' cd); auto. apply (run_sor fops M dbg stray a b lim fuel rho x x' cd R).
Qed.

(* ------------------------------------------------------------------ the example *)
Lemma dx_run : (exists x' cd, gauss_seidel_solve fops 100 true None 60 (mkLimits 0 50 f_half) dx_sys [S754_zero false; S754_zero false] dx_b = Ok (x', cd) /\
    cd_iteration cd = 2%nat) /\
  exists x' cd, sor_solve fops 100 true None 60 (mkLimits 0 50 f_half) (fz 1) dx_sys [S754_zero false; S754_zero false] dx_b = Ok (x', cd) /\
    cd_iteration cd = 3%nat.
Proof. split; eexists; eexists; (split; [vm_compute; reflexivity|]); vm_compute; reflexivity. Qed.

Lemma dx_first : (exists x1 w1 r1 rm1, gauss_seidel_step fops true None dx_sys dx_b ([S754_zero false; S754_zero false], []) = Ok (x1, w1) /\
    compute_residual fops true None dx_sys x1 dx_b = Ok (r1, rm1) /\ f_finite r1 = true /\ 1 / 2 <= f_real r1 /\ 1 / 2 <= f_real rm1) /\
  exists x1 w1 r1 rm1, sor_step fops true None dx_sys dx_b ([S754_zero false; S754_zero false], []) = Ok (x1, w1) /\
    compute_residual fops true None dx_sys x1 dx_b = Ok (r1, rm1) /\ f_finite r1 = true /\ 1 / 2 <= f_real r1 /\ 1 / 2 <= f_real rm1.
Proof.
  split; eexists; eexists; eexists; eexists; (split; [vm_compute; reflexivity|]); (split; [vm_compute; reflexivity|]); (split; [reflexivity|]);
  cbn [f_real]; change (-53)%Z with (- Z.of_nat 53)%Z; rewrite powerRZ_neg', <- pow_powerRZ; lra.
Qed.

Lemma dx_smaller : 0 <= d_kappa 2 3 1 <= 1 / 1000 /\ 0 <= d_tau 2 3 1 1 <= 1 / 1000.
Proof.
  pose proof (small_units) as (Hu1 & He1 & _). pose proof u_pos as Hu0. pose proof eta_pos as He0.
  assert (P7 : 1 <= (1 + f_u) ^ 7 <= 1 + / 100000).
  { split; [apply pow_R1_Rle; lra|]. apply Rle_trans with ((1 + / 1024 / 1024) ^ 7); [apply pow_incr; lra|lra]. }
  assert (P6 : 1 <= (1 + f_u) ^ 6 <= 1 + / 4096).
  { split; [apply pow_R1_Rle; lra|]. apply Rle_trans with ((1 + / 1024 / 1024) ^ 6); [apply pow_incr; lra|lra]. }
  assert (S2 : 0 <= sqrt (INR 2) <= 2).
  { split; [apply sqrt_pos|]. apply Rle_trans with (sqrt (2 * 2)); [|rewrite sqrt_square; lra]. apply sqrt_le_1; cbn; lra. }
  unfold d_kappa, d_tau, d_row, f_gamma. rewrite sqrt_1. change (2 + 5)%nat with 7%nat. change (2 + 4)%nat with 6%nat.
  set (p := (1 + f_u) ^ 7) in *. set (r := (1 + f_u) ^ 6) in *. clearbody p r. set (t := sqrt (INR 2)) in *. clearbody t.
  change (INR 2) with (1 + 1). split.
  - assert (0 <= (p - 1) * t <= / 100000 * 2) by (split; [apply Rmult_le_pos; lra|apply Rmult_le_compat; lra]). lra.
  - assert (Q : 0 <= f_eta * ((1 + 1) * r + 3 * (3 + 1)) <= / 1024 / 1024 * 20) by (split; [apply Rmult_le_pos; lra|apply Rmult_le_compat; lra]).
    set (c := f_eta * ((1 + 1) * r + 3 * (3 + 1))) in *. clearbody c.
    assert (0 <= t * (2 * (p - 1) * 3 * (1 + 0) + c) <= 2 * (2 * / 100000 * 3 + / 1024 / 1024 * 20)) by (split; [apply Rmult_le_pos; lra|apply Rmult_le_compat; lra]).
    lra.
Qed.

Lemma dx_level s : 0 <= s <= 3 / 4 -> 0 <= d_floor 2 3 1 s 1 <= 1 / 100 /\ 0 <= d_rate 2 3 1 s <= 755 / 1000.
Proof.
  intro Hs. destruct dx_smaller as [K T].
  assert (Q : 0 <= d_kappa 2 3 1 / (1 - d_kappa 2 3 1) <= 2 / 1000).
  { split; [apply Rmult_le_pos; [lra|left; apply Rinv_0_lt_compat; lra]|].
    apply (Rmult_le_reg_r (1 - d_kappa 2 3 1)); [lra|]. unfold Rdiv at 1. rewrite Rmult_assoc, Rinv_l, Rmult_1_r by lra. lra. }
  assert (R : 0 <= d_rate 2 3 1 s <= 755 / 1000) by (unfold d_rate; lra). split; [|exact R].
  unfold d_floor. assert (T1 : 0 <= d_tau 2 3 1 1 / (1 - d_kappa 2 3 1) <= 2 / 1000).
  { split; [apply Rmult_le_pos; [lra|left; apply Rinv_0_lt_compat; lra]|].
    apply (Rmult_le_reg_r (1 - d_kappa 2 3 1)); [lra|]. unfold Rdiv at 1. rewrite Rmult_assoc, Rinv_l, Rmult_1_r by lra. lra. }
  split; [apply Rmult_le_pos; [lra|left; apply Rinv_0_lt_compat; lra]|].
  apply (Rmult_le_reg_r (1 - d_rate 2 3 1 s)); [lra|]. unfold Rdiv at 1. rewrite Rmult_assoc, Rinv_l, Rmult_1_r by lra. lra.
Qed.

Lemma dx_resid E : 0 <= E <= 3 -> 3 * E <= d_resid 2 3 1 E <= 3 * E + 1 / 1000.
Proof.
  intro HE. destruct small_units as (U & H & _). pose proof u_pos as Hu. pose proof eta_pos as He.
  assert (P3 : 1 <= (1 + f_u) ^ 3 <= 1 + 1 / 20000).
  { split; [apply pow_R1_Rle; lra|]. apply Rle_trans with ((1 + / 1024 / 1024) ^ 3); [apply pow_incr; lra|lra]. }
  assert (P2 : 1 <= (1 + f_u) ^ 2 <= 11 / 10).
  { split; [apply pow_R1_Rle; lra|]. apply Rle_trans with ((1 + / 1024 / 1024) ^ 2); [apply pow_incr; lra|lra]. }
  unfold d_resid, f_gamma. change (2 + 1)%nat with 3%nat. change (INR 2) with (1 + 1). set (p := (1 + f_u) ^ 3) in *. set (r := (1 + f_u) ^ 2) in *.
  assert (A1 : 0 <= (p - 1) * (3 * (1 + E)) <= 1 / 20000 * 12).
  { split; [apply Rmult_le_pos; lra|]. apply Rmult_le_compat; lra. }
  assert (A2 : 0 <= (1 + 1) * r * f_eta <= (1 + 1) * (11 / 10) * (/ 1024 / 1024)).
  { split; [apply Rmult_le_pos; lra|]. apply Rmult_le_compat; lra. }
  lra.
Qed.

Lemma dx_room E : 0 <= E <= 3 -> let T := d_resid 2 3 1 E in room 2 (3 * (1 + E) + T) T.
Proof.
  intros HE T. destruct (dx_resid E HE) as [T0 T1]. fold T in T0, T1. destruct small_units as (U & H & _). pose proof u_pos as Hu. pose proof eta_pos as He.
  assert (L : 2 ^ 12 <= f_limit) by (unfold f_limit; apply Rle_pow; [lra|apply Nat.leb_le; reflexivity]).
  assert (P5 : 1 <= (1 + f_u) ^ 5 <= 11 / 10).
  { split; [apply pow_R1_Rle; lra|]. apply Rle_trans with ((1 + / 1024 / 1024) ^ 5); [apply pow_incr; lra|lra]. }
  assert (P2 : 1 <= (1 + f_u) ^ 2 <= 11 / 10).
  { split; [apply pow_R1_Rle; lra|]. apply Rle_trans with ((1 + / 1024 / 1024) ^ 2); [apply pow_incr; lra|lra]. }
  split; [lra|]. change (INR 2) with (1 + 1).
  assert (A1 : 0 <= (1 + f_u) ^ 5 * T ^ 2 + f_eta <= 11 / 10 * 11 ^ 2 + 1).
  { assert (0 <= T ^ 2 <= 11 ^ 2) by (split; [apply pow2_ge_0|apply pow_incr; lra]).
    assert (0 <= (1 + f_u) ^ 5 * T ^ 2 <= 11 / 10 * 11 ^ 2) by (split; [apply Rmult_le_pos; lra|apply Rmult_le_compat; lra]). lra. }
  apply Rle_trans with (2 * (1 + 1) * (11 / 10) * (11 / 10 * 11 ^ 2 + 1)); [|lra]. apply Rmult_le_compat; lra.
Qed.

Lemma dx_meets r rm T : 1 / 2 <= r -> 1 / 2 <= rm -> 0 <= T <= 1 / 5 -> meets 2 (1 / 2) r rm T /\ meets_floor 2 (1 / 2) r rm T.
Proof.
  intros Hr Hm HT. destruct small_units as (U & H & Th). pose proof u_pos as Hu. pose proof eta_pos as He. pose proof theta_pos as Ht0.
  assert (P13 : 1 <= (1 + f_u) ^ 13 <= 11 / 10).
  { split; [apply pow_R1_Rle; lra|]. apply Rle_trans with ((1 + / 1024 / 1024) ^ 13); [apply pow_incr; lra|lra]. }
  assert (P5 : 1 <= (1 + f_u) ^ 5 <= 11 / 10).
  { split; [apply pow_R1_Rle; lra|]. apply Rle_trans with ((1 + / 1024 / 1024) ^ 5); [apply pow_incr; lra|lra]. }
  assert (Q : forall y c t p, 1 / 2 <= y -> 0 <= t <= c -> 1 <= p <= 11 / 10 -> p * (t / y) <= 11 / 10 * (c * 2)).
  { intros y c t p Hy Ht Hp. assert (0 <= / y <= 2).
    { split; [left; apply Rinv_0_lt_compat; lra|]. replace 2 with (/ (1 / 2)) by field. apply Rinv_le_contravar; lra. }
    assert (0 <= t / y <= c * 2) by (split; [apply Rmult_le_pos; lra|apply Rmult_le_compat; lra]). apply Rmult_le_compat; lra. }
  pose proof (Q r (1 / 5 + 2 / 1000) (T + 2 * f_theta) _ Hr ltac:(lra) P13) as Q1.
  pose proof (Q rm (1 / 5 + 1 / 1000) (T + f_theta) _ Hm ltac:(lra) P5) as Q2.
  assert (W : (1 - 1 / 1000) * 5 <= (1 - f_u) * (10 * (1 / 2))) by (replace (10 * (1 / 2)) with 5 by field; apply Rmult_le_compat_r; lra).
  unfold meets, meets_floor. change (2 + 11)%nat with 13%nat. lra.
Qed.

Lemma dx_stops s : 0 <= s <= 3 / 4 -> let E := (d_floor 2 3 1 s 1 + d_rate 2 3 1 s ^ 24 * 2) / sqrt 1 in let T := d_resid 2 3 1 E in
  room 2 (3 * (1 + E) + T) T /\
  (let E := (d_floor 2 3 1 s 1 + 2) / sqrt 1 in let T := d_resid 2 3 1 E in room 2 (3 * (1 + E) + T) T) /\
  (forall r rm, 1 / 2 <= r -> 1 / 2 <= rm -> meets 2 (f_real f_half) r rm T /\
     meets_floor 2 (f_real f_half) r rm (d_resid 2 3 1 (d_floor 2 3 1 s 1 / sqrt 1))) /\
  10 * f_real f_half + 1 <= f_limit / 2.
Proof.
  intros Hs E T. destruct (dx_level s Hs) as [[F0 F1] [R0 R1]]. unfold T, E. clear T E. rewrite sqrt_1. unfold Rdiv. rewrite !Rinv_1, !Rmult_1_r.
  set (fl := d_floor 2 3 1 s 1) in *. set (ra := d_rate 2 3 1 s) in *.
  assert (R4 : 0 <= ra ^ 24 <= (755 / 1000) ^ 24) by (split; [apply pow_le; lra|apply pow_incr; lra]).
  assert (R5 : (755 / 1000) ^ 24 <= 2 / 1000) by lra.
  assert (E1 : 0 <= fl + ra ^ 24 * 2 <= 15 / 1000) by lra.
  split; [apply dx_room; lra|]. split; [apply dx_room; lra|]. rewrite half_real. split.
  - intros r rm Hr Hm. destruct (dx_resid (fl + ra ^ 24 * 2) ltac:(lra)) as [A1 A2]. destruct (dx_resid fl ltac:(lra)) as [A3 A4].
    split; apply dx_meets; auto; lra.
  - assert (L : 2 ^ 12 <= f_limit) by (unfold f_limit; apply Rle_pow; [lra|apply Nat.leb_le; reflexivity]). lra.
Qed.
