(** Lemmas behind C142. *)
From Coq Require Import ZArith Reals Lra Lia List SpecFloat Psatz.
From Verif Require Import Base ListFacts DenseModel DenseFacts ScalarModel GeometryReal SparseModel SparseSpec SparseFacts SparseMul LuModel
  LuReal IterModel IterFacts IterLoop IterField IterReal FloatFacts FloatError IterFloat PropFloatLemmas FloatUnit
  PropIterLemmas LuSuccess FloatSweep PropSweepLemmas FloatStop FloatStops PropStopLemmas FloatForward FloatSor PropSorLemmas Energy EnergyDrift
  FloatDrift PropDefiniteLemmas FloatDefStop PropDefiniteStopLemmas SymmetricJacobi FloatDefJacobi.
Import ListNotations.
Local Open Scope R_scope.

Lemma jacobi_definite dbg stray n a A b h l ro xs X s x u f E0 k : definite_doubles n a A b h l ro xs X ->
  positive_definite n (mirrored (reals A)) -> jacobi_factor n (reals A) s -> j_rate n ro l s < 1 ->
  is_vec n x f -> finite_vec n f -> length u = n -> 0 <= E0 ->
  f_enorm n A f xs <= j_floor n ro l s X + E0 -> j_no_overflow n ro l X (j_floor n ro l s X + E0) ->
  exists x' u' f', times (jacobi_step fops dbg stray a b) k (x, u) = Ok (x', u') /\ is_vec n x' f' /\ finite_vec n f' /\
    f_enorm n A f' xs <= j_floor n ro l s X + j_rate n ro l s ^ k * E0 /\
    within n f' xs ((j_floor n ro l s X + j_rate n ro l s ^ k * E0) / sqrt l).
Proof.
  intros D Hm Hs Hr Hx Hf Hu HE He Ho.
  destruct (j_times dbg stray n a A b h l ro xs X D Hm s x u f E0 k Hs Hr Hx Hf Hu HE He Ho) as (x' & u' & f' & H1 & H2 & H3 & _ & H4).
  exists x', u', f'. split; [exact H1|]. split; [exact H2|]. split; [exact H3|]. split; [exact H4|].
  apply (norm_within n a A b h l ro xs X D), H4.
Qed.

Lemma jacobi_definite_constants n (A : nat -> nat -> R) : symmetric n A -> positive_definite n A -> positive_definite n (mirrored A) ->
  exists s, jacobi_factor n A s.
Proof. exact (jacobi_factor_exists n A). Qed.

Section Run.
  Variables (M : nat) (dbg : bool) (stray : option nat).
  Variables (n : nat) (a : smat f64) (A : nat -> nat -> f64) (b : list f64) (h : nat -> f64).
  Variables (l ro : R) (xs : nat -> R) (X s : R).
  Hypothesis D : definite_doubles n a A b h l ro xs X.
  Hypothesis Hm : positive_definite n (mirrored (reals A)).
  Hypothesis Hs : jacobi_factor n (reals A) s.
  Hypothesis Hr : j_rate n ro l s < 1.

  Lemma rows_n : s_rows a = n.
  Proof using D. apply (df_square _ _ _ _ _ _ _ _ _ D). Qed.

  Lemma jr_nonneg : 0 <= j_rate n ro l s.
  Proof using D Hs. apply (j_rate_nonneg n a A b h l ro xs X D), Hs. Qed.

  Lemma jf_nonneg : 0 <= j_floor n ro l s X.
  Proof using D Hr. apply (j_floor_nonneg n a A b h l ro xs X D), Hr. Qed.

  Lemma j_limit E0 eps : 0 <= E0 -> 0 < eps -> exists N, forall k, (N <= k)%nat -> j_rate n ro l s ^ k * E0 <= eps.
  Proof using D Hs Hr.
    intros HE Hp. pose proof jr_nonneg as R0.
    destruct (pow_lt_1_zero (j_rate n ro l s) ltac:(rewrite Rabs_pos_eq; auto) (eps / (E0 + 1))) as (N & HNN).
    { apply Rmult_lt_0_compat; [exact Hp|apply Rinv_0_lt_compat; lra]. }
    exists N. intros k Hkk. specialize (HNN k ltac:(lia)). assert (P : 0 <= j_rate n ro l s ^ k) by (apply pow_le, R0).
    rewrite Rabs_pos_eq in HNN by exact P.
    assert (H1 : j_rate n ro l s ^ k * E0 <= eps / (E0 + 1) * (E0 + 1)) by (apply Rmult_le_compat; lra).
    unfold Rdiv in H1. rewrite Rmult_assoc, Rinv_l, Rmult_1_r in H1 by lra. exact H1.
  Qed.

  Lemma j_sqrt : 0 < sqrt l.
  Proof using D. apply sqrt_lt_R0, (df_form _ _ _ _ _ _ _ _ _ D). Qed.

  Lemma jacobi_reaches x u f E0 eps : is_vec n x f -> finite_vec n f -> length u = n -> 0 <= E0 ->
    f_enorm n A f xs <= j_floor n ro l s X + E0 -> j_no_overflow n ro l X (j_floor n ro l s X + E0) -> 0 < eps ->
    exists N, forall k, (N <= k)%nat ->
      exists x' u' f', times (jacobi_step fops dbg stray a b) k (x, u) = Ok (x', u') /\ is_vec n x' f' /\ finite_vec n f' /\
        within n f' xs (j_floor n ro l s X / sqrt l + eps).
  Proof using D Hm Hs Hr.
    intros Hx Hf Hu HE He Ho Hp. pose proof j_sqrt as Hq.
    destruct (j_limit E0 (eps * sqrt l) HE) as (N & HN); [apply Rmult_lt_0_compat; auto|].
    exists N. intros k Hk. specialize (HN k Hk).
    destruct (jacobi_definite dbg stray n a A b h l ro xs X s x u f E0 k D Hm Hs Hr Hx Hf Hu HE He Ho) as (y & v & g & E1 & E2 & E3 & _ & E4).
    exists y, v, g. split; [exact E1|]. split; [exact E2|]. split; [exact E3|]. intros i Hi. apply Rle_trans with (1 := E4 i Hi).
    replace (j_floor n ro l s X / sqrt l + eps) with ((j_floor n ro l s X + eps * sqrt l) / sqrt l) by (field; lra).
    apply Rmult_le_compat_r; [left; apply Rinv_0_lt_compat, Hq|lra].
  Qed.

  Lemma jacobi_solves x w f E0 lim fuel : is_vec n x f -> finite_vec n f -> 0 <= E0 ->
    f_enorm n A f xs <= j_floor n ro l s X + E0 -> j_no_overflow n ro l X (j_floor n ro l s X + E0) ->
    (dbg = true -> n <> 0%nat) -> (min_iterations lim <= M)%nat -> (max_iteration lim < M)%nat ->
    (Nat.max (min_iterations lim) (max_iteration lim + 1) < fuel)%nat ->
    exists x' w' cd f', jacobi_solve fops M dbg stray fuel lim w a x b = Ok (x', w', cd) /\ is_vec n x' f' /\ finite_vec n f' /\
      within n f' xs ((j_floor n ro l s X + j_rate n ro l s ^ cd_iteration cd * E0) / sqrt l).
  Proof using D Hm Hs Hr.
    intros Hx Hf HE He Ho Hn Hmin Hmax Hfuel.
    destruct (square_solve fops M dbg stray n lim a x b w fuel (definite_system n a A b h l ro xs X D) (proj1 Hx) Hn Hmin Hmax Hfuel)
      as ((x' & w' & cd & E & _) & _ & _).
    exists x', w', cd. pose proof E as H. unfold jacobi_solve in H. apply loop_bound in H as (k & _ & Ek & (Ht & _) & _); auto.
    rewrite Ek. destruct (jacobi_definite dbg stray n a A b h l ro xs X s x (vresize w (s_rows a) (sc_zero fops)) f E0 k D Hm Hs Hr Hx Hf)
      as (y & v & f' & E' & H1 & H2 & _ & H3); auto.
    { rewrite vresize_length'. apply rows_n. }
    rewrite E' in Ht. injection Ht as <- _. exists f'. auto.
  Qed.

  Hypothesis Hn : (0 < n)%nat.
  Hypothesis HN : (Z.of_nat n < 2 ^ 64)%Z.

  Lemma jacobi_stop lim x w f E0 k fuel : is_vec n x f -> finite_vec n f -> 0 <= E0 ->
    f_enorm n A f xs <= j_floor n ro l s X + E0 -> j_no_overflow n ro l X (j_floor n ro l s X + E0) ->
    (min_iterations lim <= k)%nat -> (1 <= k <= M)%nat -> (min_iterations lim <= M)%nat -> (max_iteration lim < M)%nat ->
    (Nat.max (min_iterations lim) (max_iteration lim + 1) < fuel)%nat ->
    f_valid (tolerance lim) -> f_finite (tolerance lim) = true -> 0 <= f_real (tolerance lim) -> 10 * f_real (tolerance lim) + 1 <= f_limit / 2 ->
    let E := (j_floor n ro l s X + j_rate n ro l s ^ k * E0) / sqrt l in let T := d_resid n ro X E in
    room n (ro * (X + E) + T) T ->
    forall u x1 w1 r1 rm1, length u = n -> jacobi_step fops dbg stray a b (x, u) = Ok (x1, w1) ->
      compute_residual fops dbg stray a x1 b = Ok (r1, rm1) -> f_finite r1 = true -> 0 < f_real r1 -> 0 < f_real rm1 ->
      meets n (f_real (tolerance lim)) (f_real r1) (f_real rm1) T ->
      exists x' w' cd f', jacobi_solve fops M dbg stray fuel lim w a x b = Ok (x', w', cd) /\ (cd_iteration cd <= k)%nat /\
        is_vec n x' f' /\ finite_vec n f' /\ within n f' xs ((j_floor n ro l s X + j_rate n ro l s ^ cd_iteration cd * E0) / sqrt l).
  Proof using D Hm Hs Hr Hn HN.
    intros Hx Hf HE He Ho Hmin Hkk Hm1 Hm2 Hfuel Vt Ft Pt Lt E T HR u x1 w1 r1 rm1 Lu Es Er F1 P1 PM1 Hmt.
    destruct (jacobi_solves x w f E0 lim fuel Hx Hf HE He Ho ltac:(lia) Hm1 Hm2 Hfuel) as (x' & w' & cd & f' & R & V & F & B).
    exists x', w', cd, f'. split; [exact R|]. split; [|auto].
    pose proof (run_jacobi fops M dbg stray a b lim fuel w x x' w' cd R) as Hrun.
    set (v := vresize w (s_rows a) (sc_zero fops)) in *.
    assert (Lv : length v = n) by (unfold v; rewrite vresize_length'; apply rows_n).
    assert (Hvs : valid_state n (x, v)).
    { exists f. split; [exact Hx|]. intros i Hi. apply Hf, Hi. }
    assert (E00 : 0 <= E).
    { pose proof jf_nonneg. pose proof jr_nonneg. pose proof j_sqrt.
      unfold E. assert (0 <= j_rate n ro l s ^ k * E0) by (apply Rmult_le_pos; [apply pow_le; assumption|exact HE]).
      apply Rmult_le_pos; [lra|left; apply Rinv_0_lt_compat; auto]. }
    destruct (jacobi_definite dbg stray n a A b h l ro xs X s x v f E0 k D Hm Hs Hr Hx Hf Lv HE He Ho) as (xk & vk & fk & K1 & K2 & K3 & _ & K4).
    assert (Es' : jacobi_step fops dbg stray a b (x, v) = Ok (x1, w1)).
    { destruct (definite_rows dbg stray n a A b h l ro xs X D) as (rs & d & Hro & _).
      destruct (jacobi_sweep_ok fops dbg stray n a b rs d h x u f (sc_one fops) Hro Hx Lu) as (y1 & Y1 & Z1).
      destruct (jacobi_sweep_ok fops dbg stray n a b rs d h x v f (sc_one fops) Hro Hx Lv) as (y2 & Y2 & Z2).
      unfold jacobi_step in *. cbn [fst snd] in *. rewrite Y1 in Es. rewrite Y2. cbn [bind] in *. rewrite <- Es.
      rewrite (is_vec_eq n y1 y2 _ _ Z1 Z2); [reflexivity|]. intros; reflexivity. }
    destruct (df_rows _ _ _ _ _ _ _ _ _ D) as [Hro Hrw].
    apply (rows_stop_at M dbg stray n a A b h ro xs X (definite_valid n a A b h l ro xs X D)) with (lim := lim) (s := (x, v))
      (step := jacobi_step fops dbg stray a b) (x' := x') (xk := xk) (wk := vk) (f := fk) (E := E) (x1 := x1) (w1 := w1) (r1 := r1) (rm1 := rm1); auto.
    - intros i j Hi Hj. apply (df_A _ _ _ _ _ _ _ _ _ D); auto.
    - intros i Hi. apply (df_h _ _ _ _ _ _ _ _ _ D); auto.
    - apply (df_sol _ _ _ _ _ _ _ _ _ D).
    - apply (df_X _ _ _ _ _ _ _ _ _ D).
  Qed.

  Lemma jacobi_meets E0 tol r1 rm1 : 0 <= E0 -> 0 < r1 -> 0 < rm1 ->
    (let E := (j_floor n ro l s X + E0) / sqrt l in let T := d_resid n ro X E in room n (ro * (X + E) + T) T) ->
    meets_floor n tol r1 rm1 (d_resid n ro X (j_floor n ro l s X / sqrt l)) ->
    exists K, forall k, (K <= k)%nat ->
      let E := (j_floor n ro l s X + j_rate n ro l s ^ k * E0) / sqrt l in let T := d_resid n ro X E in
      meets n tol r1 rm1 T /\ room n (ro * (X + E) + T) T.
  Proof using D Hs Hr.
    clear Hn HN Hm. intros HE P1 P2 HR Hm. destruct (meets_slack n tol r1 rm1 _ P1 P2 Hm) as (t & Ht & Hsl).
    pose proof jr_nonneg as R0. pose proof jf_nonneg as F0. pose proof j_sqrt as Q0.
    destruct (df_X _ _ _ _ _ _ _ _ _ D) as [X0 _]. destruct (df_rows _ _ _ _ _ _ _ _ _ D) as [Hro _].
    pose proof (gamma_nonneg (n + 1)) as G0. pose proof u_pos as Hu. pose proof eta_pos as Heta.
    assert (S0 : 0 <= (1 + f_gamma (n + 1)) * ro) by (apply Rmult_le_pos; lra).
    destruct (j_limit E0 (sqrt l * (t / ((1 + f_gamma (n + 1)) * ro + 1))) HE) as (K & HK).
    { apply Rmult_lt_0_compat; [exact Q0|]. apply Rdiv_lt_0_compat; lra. }
    set (S1 := (1 + f_gamma (n + 1)) * ro) in *. set (fl := j_floor n ro l s X) in *. set (ra := j_rate n ro l s) in *.
    exists K. intros k Hkk E T. specialize (HK k Hkk).
    assert (PE : 0 <= ra ^ k * E0) by (apply Rmult_le_pos; [apply pow_le, R0|exact HE]).
    assert (PE1 : ra ^ k * E0 <= E0).
    { rewrite <- (Rmult_1_l E0) at 2. apply Rmult_le_compat_r; [exact HE|]. rewrite <- (pow1 k). apply pow_incr. lra. }
    assert (IQ : 0 < / sqrt l) by (apply Rinv_0_lt_compat, Q0).
    assert (EE : E = fl / sqrt l + ra ^ k * E0 / sqrt l) by (unfold E; field; lra).
    assert (E1 : 0 <= E) by (unfold E; apply Rmult_le_pos; lra).
    split.
    - apply Hsl. unfold T. rewrite EE, d_resid_shift. fold S1. apply Rplus_le_compat_l.
      assert (V : ra ^ k * E0 / sqrt l <= t / (S1 + 1)).
      { apply (Rmult_le_reg_r (sqrt l)); [exact Q0|]. unfold Rdiv at 1. rewrite Rmult_assoc, Rinv_l, Rmult_1_r by lra. lra. }
      apply Rle_trans with (S1 * (t / (S1 + 1))); [apply Rmult_le_compat_l; lra|].
      apply Rle_trans with ((S1 + 1) * (t / (S1 + 1))); [apply Rmult_le_compat_r; [apply Rlt_le, Rdiv_lt_0_compat; lra|lra]|right; field; lra].
    - set (E' := (fl + E0) / sqrt l) in *. assert (EL : E <= E') by (unfold E, E'; apply Rmult_le_compat_r; lra).
      assert (TL : T <= d_resid n ro X E').
      { unfold T. replace E' with (E + (E' - E)) by ring. rewrite d_resid_shift. fold S1.
        assert (0 <= S1 * (E' - E)) by (apply Rmult_le_pos; lra). lra. }
      cbv zeta in HR. apply (room_le n _ _ _ _) with (3 := HR).
      + apply Rplus_le_compat; [|exact TL]. apply Rmult_le_compat_l; lra.
      + split; [|exact TL]. unfold T, d_resid. assert (0 <= ro * E) by (apply Rmult_le_pos; lra).
        assert (0 <= f_gamma (n + 1) * (ro * (X + E))) by (apply Rmult_le_pos; [exact G0|apply Rmult_le_pos; lra]).
        assert (0 <= INR n * (1 + f_u) ^ n * f_eta) by (apply Rmult_le_pos; [apply Rmult_le_pos; [apply pos_INR|apply pow_le; lra]|lra]). lra.
  Qed.

  Lemma jacobi_eventually x f E0 tol u x1 w1 r1 rm1 : is_vec n x f -> finite_vec n f -> 0 <= E0 ->
    f_enorm n A f xs <= j_floor n ro l s X + E0 -> j_no_overflow n ro l X (j_floor n ro l s X + E0) ->
    f_valid tol -> f_finite tol = true -> 0 <= f_real tol -> 10 * f_real tol + 1 <= f_limit / 2 ->
    (let E := (j_floor n ro l s X + E0) / sqrt l in let T := d_resid n ro X E in room n (ro * (X + E) + T) T) ->
    length u = n -> jacobi_step fops dbg stray a b (x, u) = Ok (x1, w1) -> compute_residual fops dbg stray a x1 b = Ok (r1, rm1) ->
    f_finite r1 = true -> 0 < f_real r1 -> 0 < f_real rm1 ->
    meets_floor n (f_real tol) (f_real r1) (f_real rm1) (d_resid n ro X (j_floor n ro l s X / sqrt l)) ->
    exists K, forall lim w fuel, tolerance lim = tol -> (min_iterations lim <= M)%nat -> (max_iteration lim < M)%nat ->
      (Nat.max (min_iterations lim) (max_iteration lim + 1) < fuel)%nat ->
      exists x' w' cd, jacobi_solve fops M dbg stray fuel lim w a x b = Ok (x', w', cd) /\ (cd_iteration cd <= Nat.max K (min_iterations lim))%nat.
  Proof using D Hm Hs Hr Hn HN.
    intros Hx Hf HE He Ho Vt Ft Pt Lt HR Lu Es Er F1 P1 PM1 Hmt.
    destruct (jacobi_meets E0 (f_real tol) _ _ HE P1 PM1 HR Hmt) as (K & HK). exists (Nat.max 1 K).
    intros lim w fuel Etol H1 H2 H3.
    destruct (jacobi_solves x w f E0 lim fuel Hx Hf HE He Ho ltac:(lia) H1 H2 H3) as (x' & w' & cd & f' & R & _).
    exists x', w', cd. split; [exact R|].
    assert (HM : (cd_iteration cd <= M)%nat).
    { pose proof (run_jacobi fops M dbg stray a b lim fuel w x x' w' cd R) as Hrun.
      pose proof (run_bound fops M dbg stray a b lim _ _ x' cd Hrun H1 H2) as [H4 _]. unfold sweep_bound in H4. lia. }
    set (k := Nat.max (Nat.max 1 K) (min_iterations lim)).
    destruct (Nat.le_gt_cases k M) as [L|L]; [|lia]. destruct (HK k ltac:(lia)) as [G1 G2].
    destruct (jacobi_stop lim x w f E0 k fuel) with (u := u) (x1 := x1) (w1 := w1) (r1 := r1) (rm1 := rm1)
      as (y & v & cd' & g & R' & B & _); rewrite ?Etol; auto; try lia.
    rewrite R in R'. injection R' as <- <- <-. exact B.
  Qed.
End Run.

(* ------------------------------------------------------------------ the example *)
Lemma jx_mirrored : positive_definite 2 (mirrored (reals dx_A)).
Proof.
  intros e (i & Hi & He). assert (E : energy 2 (mirrored (reals dx_A)) e = 2 * (e 0%nat * e 0%nat + e 0%nat * e 1%nat + e 1%nat * e 1%nat)).
  { unfold energy. cbn [asum rops sc_add]. unfold mirrored. cbn [Nat.eqb]. change (dx_A 0 0) with (fz 2). change (dx_A 1 1) with (fz 2).
    change (dx_A 0 1) with (fz (-1)). change (dx_A 1 0) with (fz (-1)). rewrite fz2, fzm1. ring. }
  rewrite E. pose proof (Rlt_0_sqr _ He) as H0. pose proof (Rle_0_sqr (e 0%nat + e 1%nat)). pose proof (Rle_0_sqr (e 0%nat)).
  pose proof (Rle_0_sqr (e 1%nat)). unfold Rsqr in *. destruct i as [|[|i]]; try lia; nra.
Qed.

Lemma jx_factor : jacobi_factor 2 (reals dx_A) (1 / 2).
Proof.
  split; [lra|]. intros h xs f z Hx Hz.
  pose proof (Hx 0%nat ltac:(lia)) as X0. pose proof (Hx 1%nat ltac:(lia)) as X1.
  pose proof (Hz 0%nat ltac:(lia)) as Z0. pose proof (Hz 1%nat ltac:(lia)) as Z1.
  cbn [asum rops sc_add Nat.eqb] in X0, X1, Z0, Z1.
  change (dx_A 0 0) with (fz 2) in *. change (dx_A 1 1) with (fz 2) in *.
  change (dx_A 0 1) with (fz (-1)) in *. change (dx_A 1 0) with (fz (-1)) in *. rewrite fz2, fzm1 in *.
  unfold enorm. rewrite <- (sqrt_Rsqr (1 / 2)) by lra. rewrite <- sqrt_mult by (try apply Rle_0_sqr; apply (energy_nonneg 2 _ 1 dx_form)).
  apply sqrt_le_1; [apply (energy_nonneg 2 _ 1 dx_form)|apply Rmult_le_pos; [apply Rle_0_sqr|apply (energy_nonneg 2 _ 1 dx_form)]|].
  rewrite !dx_energy.
  assert (E0 : z 0%nat - xs 0%nat = (f 1%nat - xs 1%nat) / 2) by (rewrite Z0, <- X0; field).
  assert (E1 : z 1%nat - xs 1%nat = (f 0%nat - xs 0%nat) / 2) by (rewrite Z1, <- X1; field).
  rewrite E0, E1. unfold Rsqr. right. field.
Qed.

Lemma jx_level : 0 <= j_floor 2 3 1 (1 / 2) 1 <= 1 / 100 /\ 0 <= j_rate 2 3 1 (1 / 2) <= 501 / 1000.
Proof.
  destruct dx_smaller as [K T]. assert (R : 0 <= j_rate 2 3 1 (1 / 2) <= 501 / 1000) by (unfold j_rate; lra). split; [|exact R].
  unfold j_floor. split; [apply Rmult_le_pos; [lra|left; apply Rinv_0_lt_compat; lra]|].
  apply (Rmult_le_reg_r (1 - j_rate 2 3 1 (1 / 2))); [lra|]. unfold Rdiv at 1. rewrite Rmult_assoc, Rinv_l, Rmult_1_r by lra. lra.
Qed.

Lemma jx_hypotheses : definite_doubles 2 dx_sys dx_A dx_b dx_h 1 3 (fun _ => 1) 1 /\ positive_definite 2 (mirrored (reals dx_A)) /\
  jacobi_factor 2 (reals dx_A) (1 / 2) /\ j_rate 2 3 1 (1 / 2) < 1 /\ finite_vec 2 (fun _ => fz 0) /\
  f_enorm 2 dx_A (fun _ => fz 0) (fun _ => 1) <= j_floor 2 3 1 (1 / 2) 1 + 2 /\ j_no_overflow 2 3 1 1 (j_floor 2 3 1 (1 / 2) 1 + 2).
Proof.
  destruct dx_hypotheses as (D & _ & _ & _ & _ & _ & F & _). destruct jx_level as [[F0 F1] [R0 R1]].
  split; [exact D|]. split; [exact jx_mirrored|]. split; [exact jx_factor|]. split; [lra|]. split; [exact F|]. split.
  - assert (EN : f_enorm 2 dx_A (fun _ => fz 0) (fun _ => 1) <= 2); [|lra].
    unfold f_enorm, enorm. rewrite dx_energy. apply Rle_trans with (sqrt (2 * 2)); [|rewrite sqrt_square; lra].
    apply sqrt_le_1; change (f_real (fz 0)) with 0; lra.
  - unfold j_no_overflow. rewrite sqrt_1. unfold Rdiv. rewrite !Rinv_1, !Rmult_1_r.
    change (1 * / 2) with (1 / 2).
    set (fl := j_floor 2 3 1 (1 / 2) 1) in *. clearbody fl.
    assert (L9 : 2 ^ 14 <= f_limit) by (unfold f_limit; apply Rle_pow; [lra|apply Nat.leb_le; reflexivity]).
    pose proof u_tiny as Hu. pose proof u_pos as Hu0. pose proof eta_pos as He0. pose proof eta_one as He.
    assert (P3 : 1 <= (1 + f_u) ^ (2 + 1) <= 11 / 10).
    { split; [apply pow_R1_Rle; lra|]. apply Rle_trans with ((1001 / 1000) ^ (2 + 1)); [apply pow_incr; lra|cbn [Nat.add]; lra]. }
    assert (P2 : 1 <= (1 + f_u) ^ 2 <= 11 / 10).
    { split; [apply pow_R1_Rle; lra|]. apply Rle_trans with ((1001 / 1000) ^ 2); [apply pow_incr; lra|lra]. }
    set (p := (1 + f_u) ^ (2 + 1)) in *. set (t := (1 + f_u) ^ 2) in *. clearbody p t. change (INR 2) with (1 + 1).
    assert (p * 3 * (1 + (fl + 2)) <= 11 / 10 * 3 * 4).
    { apply Rle_trans with (p * 3 * 4); [apply Rmult_le_compat_l; lra|lra]. }
    assert ((1 + 1) * t * f_eta <= (1 + 1) * (11 / 10) * 1) by (apply Rmult_le_compat; lra). lra.
Qed.

Lemma jx_first : exists x1 w1 r1 rm1,
    jacobi_step fops true None dx_sys dx_b ([S754_zero false; S754_zero false], [S754_zero false; S754_zero false]) = Ok (x1, w1) /\
    compute_residual fops true None dx_sys x1 dx_b = Ok (r1, rm1) /\ f_finite r1 = true /\ 1 / 2 <= f_real r1 /\ 1 / 2 <= f_real rm1.
Proof.
  eexists; eexists; eexists; eexists; (split; [vm_compute; reflexivity|]); (split; [vm_compute; reflexivity|]); (split; [reflexivity|]);
  cbn [f_real]; change (-53)%Z with (- Z.of_nat 53)%Z; rewrite powerRZ_neg', <- pow_powerRZ; lra.
Qed.

Lemma jx_stops : let E := (j_floor 2 3 1 (1 / 2) 1 + j_rate 2 3 1 (1 / 2) ^ 10 * 2) / sqrt 1 in let T := d_resid 2 3 1 E in
  room 2 (3 * (1 + E) + T) T /\
  (let E := (j_floor 2 3 1 (1 / 2) 1 + 2) / sqrt 1 in let T := d_resid 2 3 1 E in room 2 (3 * (1 + E) + T) T) /\
  (forall r rm, 1 / 2 <= r -> 1 / 2 <= rm -> meets 2 (f_real f_half) r rm T /\
     meets_floor 2 (f_real f_half) r rm (d_resid 2 3 1 (j_floor 2 3 1 (1 / 2) 1 / sqrt 1))) /\
  10 * f_real f_half + 1 <= f_limit / 2.
Proof.
  intros E T. destruct jx_level as [[F0 F1] [R0 R1]]. unfold T, E. clear T E. rewrite sqrt_1.
  set (fl := j_floor 2 3 1 (1 / 2) 1) in *. set (ra := j_rate 2 3 1 (1 / 2)) in *. unfold Rdiv. rewrite !Rinv_1, !Rmult_1_r.
  assert (R4 : 0 <= ra ^ 10 <= (501 / 1000) ^ 10) by (split; [apply pow_le; lra|apply pow_incr; lra]).
  assert (R5 : (501 / 1000) ^ 10 <= 2 / 1000) by lra.
  assert (E1 : 0 <= fl + ra ^ 10 * 2 <= 15 / 1000) by lra.
  split; [apply dx_room; lra|]. split; [apply dx_room; lra|]. rewrite half_real. split.
  - intros r rm Hr Hm. destruct (dx_resid (fl + ra ^ 10 * 2) ltac:(lra)) as [A1 A2]. destruct (dx_resid fl ltac:(lra)) as [A3 A4].
    split; apply dx_meets; auto; lra.
  - assert (L : 2 ^ 12 <= f_limit) by (unfold f_limit; apply Rle_pow; [lra|apply Nat.leb_le; reflexivity]). lra.
Qed.
