(** Lemmas behind C103. *)
From Coq Require Import Reals Lra Lia ZArith.
From Verif Require Import Base ListFacts DenseModel ScalarModel SparseModel LuModel IterModel GeometryReal InPlaceModel.

Section OneSweep.
  Context {S : Type}.
  Variables (O : sops S) (dbg : bool) (stray : option nat).

  (** A row update changes its own component only. *)
  Lemma sweep_row_only a x b w i u u' : sweep_row O dbg stray a x b w i u = Ok u' ->
    exists v, vset u i v = Ok u'.
  Proof using.
    unfold sweep_row. destruct (row_check dbg a i); try discriminate. cbn [bind].
    destruct (row_entries stray a i); try discriminate. cbn [bind].
    match goal with |- bind ?t _ = _ -> _ => destruct t; try discriminate end. cbn [bind].
    destruct (vget b i); try discriminate. cbn [bind].
    destruct (s_subscript_const _ _ _ _ _); try discriminate. cbn [bind].
    destruct (vget (other_of u x) i); try discriminate. cbn [bind]. eauto.
  Qed.

  (** It reads one component of the constant vector. *)
  Lemma sweep_row_b a x b1 b2 w i u : vget b1 i = vget b2 i ->
    sweep_row O dbg stray a x b1 w i u = sweep_row O dbg stray a x b2 w i u.
  Proof using. intro E. unfold sweep_row. rewrite E. reflexivity. Qed.

  Lemma vset_other {A} (l l' : list A) i j v : vset l i v = Ok l' -> i < j -> vget l' j = vget l j.
  Proof using.
    unfold vset, vget. destruct (i <? length l) eqn:E; [|discriminate]. intros H Hj. injection H as <-.
    apply Nat.ltb_lt in E. unfold upd. rewrite nth_error_app2 by (rewrite firstn_length; lia).
    rewrite firstn_length, Nat.min_l by lia. replace (j - i) with (Datatypes.S (j - Datatypes.S i)) by lia. cbn [nth_error].
    rewrite <- (firstn_skipn (Datatypes.S i) l) at 2. rewrite nth_error_app2 by (rewrite firstn_length; lia).
    rewrite firstn_length, Nat.min_l by lia. reflexivity.
  Qed.

  Lemma own_sweep_copy a w b : own_sweep O dbg stray a w b = forward_sweep O dbg stray a None b b w.
  Proof using.
    unfold own_sweep, forward_sweep, FOR.
    assert (G : forall k p u, (forall j, p <= j -> vget u j = vget b j) ->
      forM (seq p k) (fun i u => sweep_row O dbg stray a None u w i u) u =
      forM (seq p k) (sweep_row O dbg stray a None b w) u).
    { induction k as [|k IH]; intros p u H; [reflexivity|]. cbn [seq forM].
      rewrite (sweep_row_b a None u b w p u) by (apply H; lia).
      destruct (sweep_row _ _ _ _ _ _ _ _ _) as [u'| | |] eqn:E; try reflexivity. cbn [bind]. apply IH.
      intros j Hj. apply sweep_row_only in E as [v E]. rewrite (vset_other _ _ _ _ _ E) by lia. apply H. lia. }
    apply G. auto.
  Qed.
End OneSweep.

Local Open Scope R_scope.

(** The system d x = b of one equation. *)
Definition one (d : R) : smat R := mkS [0%nat; 1%nat] [0%nat] [d] 1.

Lemma own_row dbg stray d w x : own_sweep rops dbg stray (one d) w [x] = Ok [x * (w / d + (1 - w))].
Proof.
  rewrite own_sweep_copy.
  assert (E : forward_sweep rops dbg stray (one d) None [x] [x] w = Ok [w * (x - R0) / d + (R1 - w) * x])
    by (destruct dbg; cbv -[Rplus Rminus Rmult Rdiv]; reflexivity).
  rewrite E. f_equal. f_equal. change R0 with 0. change R1 with 1. unfold Rdiv. ring.
Qed.

Lemma own_jacobi_row dbg stray d x y : forward_sweep rops dbg stray (one d) (Some [x]) [y] [x] 1 = Ok [x * (1 / d + (1 - 1))].
Proof.
  assert (E : forward_sweep rops dbg stray (one d) (Some [x]) [y] [x] 1 = Ok [1 * (x - R0) / d + (R1 - 1) * x])
    by (destruct dbg; cbv -[Rplus Rminus Rmult Rdiv]; reflexivity).
  rewrite E. f_equal. f_equal. change R0 with 0. change R1 with 1. unfold Rdiv. ring.
Qed.

Lemma std_max_sq t : std_max rops 0 (t * t) = t * t.
Proof.
  unfold std_max. cbn [sc_lt rops]. destruct (Rltb 0 (t * t)) eqn:E; [reflexivity|]. apply Rltb_false in E. nra.
Qed.

Lemma residual_one dbg stray d x y : compute_residual rops dbg stray (one d) [x] [y] = Ok (Rabs (d * x - y), Rabs (d * x - y)).
Proof.
  assert (E : compute_residual rops dbg stray (one d) [x] [y] =
    Ok (sqrt ((0 + (0 + d * x - y) * (0 + d * x - y)) / IZR 1), sqrt (std_max rops 0 ((0 + d * x - y) * (0 + d * x - y)))))
    by (destruct dbg; reflexivity).
  rewrite E, std_max_sq. unfold Rdiv. rewrite Rinv_1, Rmult_1_r, !Rplus_0_l. fold (Rsqr (d * x - y)). rewrite sqrt_Rsqr_abs. reflexivity.
Qed.

Section One.
  Variables (M : nat) (dbg : bool) (stray : option nat) (lim : limits R) (d b g : R) (P : list R -> Prop).
  Variable step : list R * list R -> res (list R * list R).
  Hypothesis step_ok : forall x s, P s -> exists s', step ([x], s) = Ok ([x * g], s') /\ P s'.
  Hypotheses (d1 : d <> 1) (b0 : b <> 0) (g0 : g <> 0).
  Hypotheses (tol1 : tolerance lim < 1) (mx : (1 <= max_iteration lim)%nat) (mxM : (max_iteration lim < M)%nat)
    (mn : (min_iterations lim <= max_iteration lim)%nat).

  (** The convergence data after k sweeps. *)
  Definition after (k : nat) : conv_data R :=
    mkConv false k (Rabs (d * (b * g ^ k) - b * g ^ k)) (Rabs (d * (b * g) - b * g)) (Rabs g ^ (k - 1))
      (Rabs (d * (b * g ^ k) - b * g ^ k)) (Rabs (d * (b * g) - b * g)) (Rabs g ^ (k - 1)).

  Lemma ratio k : (1 <= k)%nat ->
    Rabs (d * (b * g ^ k) - b * g ^ k) / Rabs (d * (b * g) - b * g) = Rabs g ^ (k - 1).
  Proof using step_ok d1 b0 g0 tol1 mx mxM mn.
    intro Hk. replace (d * (b * g ^ k) - b * g ^ k) with ((d * (b * g) - b * g) * g ^ (k - 1)).
    2:{ destruct k as [|k]; [lia|]. rewrite Nat.sub_1_r. cbn [pow pred]. ring. }
    rewrite Rabs_mult, <- RPow_abs. field. apply Rabs_no_R0.
    replace (d * (b * g) - b * g) with ((d - 1) * (b * g)) by ring.
    apply Rmult_integral_contrapositive_currified; [lra|]. apply Rmult_integral_contrapositive_currified; auto.
  Qed.

  Lemma update_after k : (1 <= k)%nat -> (k < M)%nat ->
    update rops M dbg stray (one d) [b * g ^ k * g] [b * g ^ k * g] (after k) = Ok (after (Datatypes.S k)).
  Proof using step_ok d1 b0 g0 tol1 mx mxM mn.
    intros Hk HM. unfold update. rewrite residual_one. cbn [bind fst snd]. cbn [cd_iteration after].
    replace (k =? 0)%nat with false by (symmetry; apply Nat.eqb_neq; lia).
    replace (k =? M)%nat with false by (symmetry; apply Nat.eqb_neq; lia).
    cbn [cd_residual_0 cd_residual_max_0 cd_converged after sc_div rops].
    replace (b * g ^ k * g) with (b * g ^ Datatypes.S k) by (cbn [pow]; ring).
    rewrite ratio by lia. unfold after. rewrite Nat.add_1_r. reflexivity.
  Qed.

  Lemma update_first : update rops M dbg stray (one d) [b * g] [b * g] (conv_default rops) = Ok (after 1).
  Proof using step_ok d1 b0 g0 tol1 mx mxM mn.
    unfold update. rewrite residual_one. cbn [bind fst snd conv_default cd_iteration cd_converged]. 
    replace (0 =? M)%nat with false by (symmetry; apply Nat.eqb_neq; lia). cbn [Nat.eqb].
    cbn [sc_div rops]. pose proof (ratio 1 (le_n 1)) as H. rewrite !pow_1 in H. rewrite H.
    unfold after. rewrite !pow_1. reflexivity.
  Qed.

  Lemma own_loop_from fuel : forall k s, (1 <= k <= max_iteration lim + 1)%nat -> (max_iteration lim + 2 - k <= fuel)%nat -> P s ->
    exists K s', (k <= K <= max_iteration lim + 1)%nat /\ is_converged rops lim (after K) = true /\
      own_loop rops M dbg stray step fuel lim (one d) ([b * g ^ k], s) (after k) = Ok ([b * g ^ K], s', after K).
  Proof using step_ok d1 b0 g0 tol1 mx mxM mn.
    induction fuel as [|f IH]; intros k s Hk Hf Hs; [lia|]. cbn [own_loop].
    destruct (is_converged rops lim (after k)) eqn:E; [exists k, s; repeat split; auto; lia|].
    assert (k <= max_iteration lim)%nat.
    { unfold is_converged in E. cbn [cd_iteration after] in E.
      destruct (k <? min_iterations lim)%nat eqn:E1; [apply Nat.ltb_lt in E1; lia|].
      destruct (max_iteration lim <? k)%nat eqn:E2; [discriminate|]. apply Nat.ltb_ge in E2. exact E2. }
    destruct (step_ok (b * g ^ k) s Hs) as (s' & -> & Hs'). cbn [bind fst]. rewrite update_after by lia. cbn [bind].
    destruct (IH (Datatypes.S k) s' ltac:(lia) ltac:(lia) Hs') as (K & s2 & HK & C & R).
    exists K, s2. split; [lia|]. split; auto. replace (b * g ^ k * g) with (b * g ^ Datatypes.S k) by (cbn [pow]; ring). exact R.
  Qed.

  Lemma own_loop_all s : P s ->
    exists K s', (2 <= K <= max_iteration lim + 1)%nat /\ (K = (max_iteration lim + 1)%nat \/ Rabs g ^ (K - 1) <= tolerance lim) /\
      own_loop rops M dbg stray step (max_iteration lim + 2) lim (one d) ([b], s) (conv_default rops) =
      Ok ([b * g ^ K], s', after K).
  Proof using step_ok d1 b0 g0 tol1 mx mxM mn.
    intro Hs. replace (max_iteration lim + 2)%nat with (Datatypes.S (max_iteration lim + 1)) by lia. cbn [own_loop].
    assert (C0 : is_converged rops lim (conv_default rops) = false).
    { unfold is_converged. cbn [conv_default cd_iteration cd_residual_normalised sc_lt rops].
      destruct (0 <? min_iterations lim)%nat; [reflexivity|].
      replace (max_iteration lim <? 0)%nat with false by (symmetry; apply Nat.ltb_ge; lia).
      replace (Rltb (tolerance lim) (sc_max rops)) with true; [reflexivity|]. symmetry. apply Rltb_true.
      apply Rlt_le_trans with 1; [auto|]. cbn [sc_max rops].
      assert (1 <= 2 ^ 971) by (apply pow_R1_Rle; lra).
      replace (2 ^ 1024) with (2 ^ 53 * 2 ^ 971) by (rewrite <- pow_add; reflexivity).
      assert (2 <= 2 ^ 53) by (replace (2 ^ 53) with (2 * 2 ^ 52) by (cbn [pow]; ring); assert (1 <= 2 ^ 52) by (apply pow_R1_Rle; lra); lra).
      nra. }
    rewrite C0. destruct (step_ok b s Hs) as (s' & -> & Hs'). cbn [bind fst]. rewrite update_first. cbn [bind].
    destruct (own_loop_from (max_iteration lim + 1) 1 s' ltac:(lia) ltac:(lia) Hs') as (K & s2 & HK & C & R).
    rewrite pow_1 in R. exists K, s2. 
    assert (N1 : is_converged rops lim (after 1) = false).
    { unfold is_converged. cbn [after cd_iteration cd_residual_normalised sc_lt rops].
      destruct (1 <? min_iterations lim)%nat; [reflexivity|].
      replace (max_iteration lim <? 1)%nat with false by (symmetry; apply Nat.ltb_ge; lia).
      replace (Rltb (tolerance lim) (Rabs g ^ (1 - 1))) with true; [reflexivity|]. symmetry. apply Rltb_true. exact tol1. }
    split; [destruct (Nat.eq_dec K 1) as [->|]; [congruence|lia]|]. split; [|exact R].
    unfold is_converged in C. cbn [after cd_iteration cd_residual_normalised sc_lt rops] in C.
    destruct (K <? min_iterations lim)%nat; [discriminate|].
    destruct (max_iteration lim <? K)%nat eqn:E2; [apply Nat.ltb_lt in E2; left; lia|].
    destruct (Rltb (tolerance lim) (Rabs g ^ (K - 1))) eqn:E3; [discriminate|]. apply Rltb_false in E3. auto.
  Qed.
End One.

(** What a run of a solver in place ends with: after at least two sweeps, by the tolerance or by the number of sweeps,
    and the result does not solve d x = b. *)
Definition wrong (lim : limits R) (d b g : R) (r : res (list R * conv_data R)) : Prop :=
  exists K x cd, r = Ok ([x], cd) /\ (2 <= K <= max_iteration lim + 1)%nat /\ cd_iteration cd = K /\ x = b * g ^ K /\
    (K = (max_iteration lim + 1)%nat \/ cd_residual_normalised cd <= tolerance lim) /\ d * x <> b.

Section Solvers.
  Variables (M : nat) (dbg : bool) (stray : option nat) (lim : limits R) (b : R).
  Hypotheses (b0 : b <> 0) (tol1 : tolerance lim < 1) (mx : (1 <= max_iteration lim < M)%nat)
    (mn : (min_iterations lim <= max_iteration lim)%nat).

  Lemma inverse_power d K : 1 < Rabs d -> (2 <= K)%nat -> d * (b * (1 / d + (1 - 1)) ^ K) <> b.
  Proof using b0 mx mn.
    intros Hd HK E. assert (d0 : d <> 0) by (intros ->; rewrite Rabs_R0 in Hd; lra).
    replace (1 / d + (1 - 1)) with (/ d) in E by (unfold Rdiv; ring).
    destruct K as [|[|K]]; [lia|lia|]. replace (d * (b * (/ d) ^ Datatypes.S (Datatypes.S K))) with (b * (/ d) ^ Datatypes.S K) in E
      by (cbn [pow]; field; auto).
    assert (E1 : (/ d) ^ Datatypes.S K = 1) by (apply (Rmult_eq_reg_l b); [rewrite E; ring|auto]).
    apply (f_equal Rabs) in E1. rewrite <- RPow_abs, Rabs_R1, Rabs_inv in E1.
    assert (0 < / Rabs d < 1) by (split; [apply Rinv_0_lt_compat; lra|rewrite <- Rinv_1; apply Rinv_lt_contravar; lra]).
    assert ((/ Rabs d) ^ Datatypes.S K < 1); [|lra].
    cbn [pow]. assert (0 <= (/ Rabs d) ^ K <= 1) by (split; [apply pow_le; lra|]; rewrite <- (pow1 K); apply pow_incr; lra). nra.
  Qed.

  Lemma own_gauss_seidel_wrong d : 1 < Rabs d ->
    wrong lim d b (1 / d + (1 - 1)) (own_gauss_seidel rops M dbg stray (max_iteration lim + 2) lim (one d) [b]).
  Proof using b0 tol1 mx mn.
    intro Hd. assert (d0 : d <> 0) by (intros ->; rewrite Rabs_R0 in Hd; lra).
    assert (d1 : d <> 1) by (intros ->; rewrite Rabs_R1 in Hd; lra).
    destruct (own_loop_all M dbg stray lim d b (1 / d + (1 - 1)) (fun _ => True) (own_gauss_seidel_step rops dbg stray (one d)))
      with (s := @nil R) as (K & s' & HK & C & R); auto; try lia.
    - intros x s _. exists s. split; [|exact I]. unfold own_gauss_seidel_step. cbn [fst snd]. 
      change (sc_one rops) with 1. rewrite own_row. reflexivity.
    - replace (1 / d + (1 - 1)) with (/ d) by (unfold Rdiv; ring). apply Rinv_neq_0_compat. auto.
    - exists K, (b * (1 / d + (1 - 1)) ^ K), (after d b (1 / d + (1 - 1)) K). unfold own_gauss_seidel. rewrite R. cbn [bind fst snd].
      repeat split; auto; try lia. apply inverse_power; auto. lia.
  Qed.

  Lemma own_jacobi_wrong d w : 1 < Rabs d ->
    wrong lim d b (1 / d + (1 - 1)) (own_jacobi rops M dbg stray (max_iteration lim + 2) lim w (one d) [b]).
  Proof using b0 tol1 mx mn.
    intro Hd. assert (d0 : d <> 0) by (intros ->; rewrite Rabs_R0 in Hd; lra).
    assert (d1 : d <> 1) by (intros ->; rewrite Rabs_R1 in Hd; lra).
    destruct (own_loop_all M dbg stray lim d b (1 / d + (1 - 1)) (fun s => length s = 1%nat) (own_jacobi_step rops dbg stray (one d)))
      with (s := vresize w (s_rows (one d)) (sc_zero rops)) as (K & s' & HK & C & R); auto; try lia.
    - intros x s Hs. destruct s as [|y [|]]; try discriminate. exists [x]. split; [|reflexivity]. unfold own_jacobi_step. cbn [fst snd].
      change (sc_one rops) with 1. rewrite own_jacobi_row. reflexivity.
    - replace (1 / d + (1 - 1)) with (/ d) by (unfold Rdiv; ring). apply Rinv_neq_0_compat. auto.
    - unfold vresize. rewrite app_length, firstn_length, repeat_length. change (s_rows (one d)) with 1%nat. lia.
    - exists K, (b * (1 / d + (1 - 1)) ^ K), (after d b (1 / d + (1 - 1)) K). unfold own_jacobi. rewrite R. cbn [bind fst snd].
      repeat split; auto; try lia. apply inverse_power; auto. lia.
  Qed.

  Lemma own_sor_wrong : wrong lim 2 b (/ 4) (own_sor rops M dbg stray (max_iteration lim + 2) lim (one 2) [b]).
  Proof using b0 tol1 mx mn.
    destruct (own_loop_all M dbg stray lim 2 b (/ 4) (fun _ => True) (own_sor_step rops dbg stray (one 2)))
      with (s := @nil R) as (K & s' & HK & C & R); auto; try lia; try lra.
    - intros x s _. exists s. split; [|exact I]. unfold own_sor_step. cbn [fst snd]. rewrite own_row. cbn [bind].
      do 4 f_equal. unfold sor_factor. cbn [sc_div sc_of_Z rops]. field.
    - exists K, (b * (/ 4) ^ K), (after 2 b (/ 4) K). unfold own_sor. rewrite R. cbn [bind fst snd].
      repeat split; auto; try lia. destruct K as [|K]; [lia|]. cbn [pow].
      assert (0 <= (/ 4) ^ K <= 1) by (split; [apply pow_le; lra|]; rewrite <- (pow1 K); apply pow_incr; lra).
      intro E. assert (2 * (/ 4 * (/ 4) ^ K) = 1) by (apply (Rmult_eq_reg_l b); [rewrite <- E at 2; ring|auto]). lra.
  Qed.
End Solvers.

Lemma own_steps {S} (O : sops S) dbg stray a b s :
  own_jacobi_step O dbg stray a (b, s) = jacobi_step O dbg stray a b (b, s) /\
  own_gauss_seidel_step O dbg stray a (b, s) = gauss_seidel_step O dbg stray a b (b, s) /\
  own_sor_step O dbg stray a (b, s) = sor_step O dbg stray a b (b, s).
Proof.
  unfold own_gauss_seidel_step, own_sor_step, gauss_seidel_step, sor_step. cbn [fst]. rewrite !own_sweep_copy. auto.
Qed.
