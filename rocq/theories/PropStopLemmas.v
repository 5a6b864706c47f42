(** Lemmas behind C104. *)
From Coq Require Import ZArith Reals Lra Lia List Sorted SpecFloat Psatz.
From Flocq Require Import Core BinarySingleNaN.
From Verif Require Import Base ListFacts DenseModel DenseFacts ScalarModel GeometryReal SparseModel SparseSpec
  SparseFacts SparseSeq SparseMul LuModel LuReal IterModel IterFacts IterLoop IterField IterReal FloatFacts FloatError
  IterFloat PropFloatLemmas FloatUnit PropIterLemmas LuSuccess FloatSweep PropSweepLemmas FloatStop FloatStops.
Import ListNotations.
Local Open Scope R_scope.

(** A quotient of finite doubles that does not exceed a finite one is finite. *)
Lemma quotient_finite x y t : f_valid x -> f_valid y -> f_finite x = true -> f_finite y = true -> 0 <= f_real x -> 0 < f_real y ->
  f_finite t = true -> SFltb t (SFdiv 53 1024 x y) = false -> f_finite (SFdiv 53 1024 x y) = true.
Proof.
  intros Hx Hy. destruct (valid_SF2B x Hx) as (a & <- & <- & <-), (valid_SF2B y Hy) as (c & <- & <- & <-). intros Fa Fc Pa Pc Ft.
  rewrite div_equiv, B2SF_finite. intro Hlt.
  pose proof (BinarySingleNaN.Bdiv_correct 53 1024 Hprec Hmax BinarySingleNaN.mode_NE a c ltac:(lra)) as C.
  destruct (Rlt_bool _ _); [destruct C as (_ & -> & _); exact Fa|]. rewrite C in Hlt.
  assert (Ss : xorb (BinarySingleNaN.Bsign a) (BinarySingleNaN.Bsign c) = false \/ BinarySingleNaN.B2R a = 0).
  { destruct a as [sa|sa| |sa ma ea Ba]; try discriminate Fa; [right; reflexivity|].
    destruct c as [sc|sc| |sc mc ec Bc]; try discriminate Fc; [cbn in Pc; lra|]. left. cbn [BinarySingleNaN.Bsign].
    cbn [BinarySingleNaN.B2R] in Pa, Pc. destruct sa.
    - exfalso. assert (F2R (Float radix2 (cond_Zopp true (Zpos ma)) ea) < 0) by (apply Float_prop.F2R_lt_0; reflexivity). lra.
    - destruct sc; [|reflexivity]. exfalso.
      assert (F2R (Float radix2 (cond_Zopp true (Zpos mc)) ec) < 0) by (apply Float_prop.F2R_lt_0; reflexivity). lra. }
  destruct Ss as [Ss|Z0].
  - exfalso. rewrite Ss in Hlt. cbn in Hlt. destruct t as [st|st| |st mt et]; cbn in Ft, Hlt; try discriminate; destruct st; discriminate.
  - destruct a as [sa|sa| |sa ma ea Ba]; try discriminate Fa.
    + destruct c as [sc|sc| |sc mc ec Bc]; try discriminate Fc; [cbn in Pc; lra|]. reflexivity.
    + exfalso. cbn [BinarySingleNaN.B2R] in Z0. apply Float_prop.eq_0_F2R in Z0. destruct sa; discriminate.
Qed.

(** The residuals a run that met the tolerance ends with. *)
Lemma run_tolerance M dbg stray n a A b h q lo lim s step x' cd : dominant_rows n a A b h q lo ->
  run fops M dbg stray a b lim s step x' cd -> valid_state n s -> (0 < n)%nat -> (Z.of_nat n < 2 ^ 64)%Z ->
  (min_iterations lim <= M)%nat -> (max_iteration lim < M)%nat -> (1 <= cd_iteration cd <= max_iteration lim)%nat ->
  f_finite (cd_residual cd) = true -> f_finite (cd_residual_0 cd) = true ->
  0 < f_real (cd_residual_0 cd) -> 0 < f_real (cd_residual_max_0 cd) ->
  f_valid (tolerance lim) -> f_finite (tolerance lim) = true -> 0 <= f_real (tolerance lim) -> 10 * f_real (tolerance lim) <= f_limit ->
  f_real (cd_residual cd) <= ((1 + f_u) * f_real (tolerance lim) + f_eta) * f_real (cd_residual_0 cd) /\
  f_real (cd_residual_max cd) <= ((1 + f_u) ^ 2 * (10 * f_real (tolerance lim)) + 3 * f_eta) * f_real (cd_residual_max_0 cd).
Proof.
  intros D H Hs Hn HN H1 H2 [K1 K2] F F0 P0 PM0 Vt Ft Pt Lt. pose proof u_pos as Hu. pose proof eta_pos as He.
  pose proof H as H'. apply run_loop in H' as (fuel & w' & H').
  apply loop_bound in H' as (k & Hkb & Ek & (Ht & _ & Hd) & Hc); auto. rewrite Ek in K1, K2.
  destruct Hd as (_ & _ & Hp); [lia|].
  destruct Hp as ([x1 w1] & [r rm] & [r1 rm1] & E1 & E2 & E3 & N0 & N1 & N2 & N3 & N4 & N5); [lia|]. cbn [fst snd] in *.
  destruct (run_valid M dbg stray n a A b h q lo D lim s step x' cd k x' w' H Hs Ht) as (f & Hf & Vf).
  destruct (run_valid M dbg stray n a A b h q lo D lim s step x' cd 1 x1 w1 H Hs E1) as (g & Hg & Vg).
  rewrite N0 in F. rewrite N1 in F0, P0. rewrite N4 in PM0.
  destruct (residual_more dbg stray n a A b h q lo D x' f r rm) as (_ & Vr & Pr & Vm & Fm & Pm); auto.
  destruct (residual_more dbg stray n a A b h q lo D x1 g r1 rm1) as (_ & Vr1 & _ & Vm1 & Fm1 & _); auto.
  unfold is_converged in Hc. rewrite Ek, N2, N5 in Hc. cbn [fops sc_lt sc_mul sc_of_Z sc_div] in Hc.
  destruct (Nat.ltb_spec k (min_iterations lim)); [discriminate|]. destruct (Nat.ltb_spec (max_iteration lim) k); [lia|].
  rewrite N0, N1, N3, N4. destruct (ten_times _ Vt Ft Pt Lt) as (V10 & F10 & B10). set (t10 := SFmul 53 1024 (f_of_Z 10) (tolerance lim)) in *.
  change (fun x y => SFltb x y) with SFltb in Hc.
  destruct (SFltb (tolerance lim) (SFdiv 53 1024 r r1)) eqn:Q1; [discriminate|].
  destruct (SFltb t10 (SFdiv 53 1024 rm rm1)) eqn:Q2; [discriminate|].
  pose proof (quotient_finite r r1 _ Vr Vr1 F F0 Pr P0 Ft Q1) as G1.
  pose proof (quotient_finite rm rm1 _ Vm Vm1 Fm Fm1 Pm PM0 F10 Q2) as G2. split.
  - apply (quotient_bound r r1); auto. lra.
  - apply Rle_trans with (((1 + f_u) * f_real t10 + f_eta) * f_real rm1).
    + apply (quotient_bound rm rm1); auto. lra.
    + apply Rmult_le_compat_r; [lra|]. apply Rabs_le_between in B10.
      replace ((1 + f_u) ^ 2 * (10 * f_real (tolerance lim)) + 3 * f_eta) with
        ((1 + f_u) * ((1 + f_u) * (10 * f_real (tolerance lim))) + 3 * f_eta) by ring.
      assert (U : f_u <= 1) by (pose proof u_small; lra).
      assert (f_u * f_eta <= 1 * f_eta) by (apply Rmult_le_compat_r; lra).
      assert (Z : (1 + f_u) * f_real t10 <= (1 + f_u) * ((1 + f_u) * (10 * f_real (tolerance lim)) + f_eta)) by (apply Rmult_le_compat_l; lra).
      lra.
Qed.

(** The residuals of [T] are small enough for the tolerance, compared with those of the first sweep. *)
Definition meets (n : nat) (tol r1 rm1 T : R) : Prop :=
  (1 + f_u) ^ (n + 11) * ((T + 2 * f_theta) / r1) + f_eta <= tol /\
  (1 + f_u) ^ 5 * ((T + f_theta) / rm1) + 2 * f_eta <= (1 - f_u) * (10 * tol).

Lemma dominant_doubles_rows n a A b h q lo xs X : dominant_doubles n a A b h q lo xs X -> dominant_rows n a A b h q lo.
Proof.
  intro D. destruct (q_bounds n a A b h q lo xs X D) as (Q1 & _ & Q2 & _). destruct D. split; auto. intros i Hi. apply dd_h, Hi.
Qed.

Section Stops.
  Variables (M : nat) (dbg : bool) (stray : option nat).
  Variables (n : nat) (a : smat f64) (A : nat -> nat -> f64) (b : list f64) (h : nat -> f64) (q lo : R).
  Variables (xs : nat -> R) (X dmax : R).
  Hypothesis D : dominant_doubles n a A b h q lo xs X.
  Hypothesis Hd : forall i, (i < n)%nat -> Rabs (f_real (A i i)) <= dmax.
  Hypothesis Hn : (0 < n)%nat.
  Hypothesis HN : (Z.of_nat n < 2 ^ 64)%Z.

  Lemma stop_at lim s step x' cd k xk wk f E x1 w1 r1 rm1 : run fops M dbg stray a b lim s step x' cd -> valid_state n s ->
    (min_iterations lim <= k)%nat -> (1 <= k <= M)%nat -> (min_iterations lim <= M)%nat -> (max_iteration lim < M)%nat ->
    f_valid (tolerance lim) -> f_finite (tolerance lim) = true -> 0 <= f_real (tolerance lim) -> 10 * f_real (tolerance lim) + 1 <= f_limit / 2 ->
    times step k s = Ok (xk, wk) -> is_vec n xk f -> finite_vec n f -> 0 <= E -> within n f xs E ->
    times step 1 s = Ok (x1, w1) -> compute_residual fops dbg stray a x1 b = Ok (r1, rm1) -> f_finite r1 = true ->
    0 < f_real r1 -> 0 < f_real rm1 ->
    let T := f_resid n q dmax X E in room n ((1 + q) * dmax * (X + E) + T) T -> meets n (f_real (tolerance lim)) (f_real r1) (f_real rm1) T ->
    (cd_iteration cd <= k)%nat.
  Proof using D Hd Hn HN.
    intros H Hs Hmin Hk H1 H2 Vt Ft Pt Lt Ek Hf Ff HE He E1 C1 F1 P1 PM1 T HR [HM1 HM2].
    pose proof u_pos as Hu. pose proof eta_pos as Heta. pose proof theta_pos as Hth. pose proof u_small as Us. pose proof eta_one as E1'.
    pose proof (dominant_doubles_rows _ _ _ _ _ _ _ _ _ D) as DR.
    destruct (Nat.le_gt_cases (cd_iteration cd) k) as [L|L]; [exact L|exfalso].
    destruct (run_before fops M dbg stray a b lim s step x' cd k H H1 H2 L) as (t & c & (Et & _ & Hc) & Hnc).
    rewrite Ek in Et. injection Et as <-. destruct Hc as (Ei & _ & Hp); [lia|].
    destruct Hp as ([y1 v1] & [r rm] & [r0 rm0] & G1 & G2 & G3 & N0 & N1 & N2 & N3 & N4 & N5); [lia|]. cbn [fst snd] in *.
    rewrite E1 in G1. injection G1 as <- <-. rewrite C1 in G3. injection G3 as <- <-.
    destruct (run_valid M dbg stray n a A b h q lo DR lim s step x' cd 1 x1 w1 H Hs E1) as (g & Hg & Vg).
    destruct (residual_more dbg stray n a A b h q lo DR x1 g r1 rm1) as (_ & Vr1 & _ & Vm1 & Fm1 & _); auto.
    destruct (near_residual dbg stray n a A b h q lo xs X dmax DR (fun i Hi => proj2 (dd_h _ _ _ _ _ _ _ _ _ D i Hi)) (dd_sol _ _ _ _ _ _ _ _ _ D)
      (proj2 (dd_X _ _ _ _ _ _ _ _ _ D)) Hd Hn HN xk f E Hf Ff HE He HR) as (l2 & linf & C2 & Fl & B1 & B2). fold T in B1, B2.
    rewrite C2 in G2. injection G2 as <- <-.
    destruct (residual_more dbg stray n a A b h q lo DR xk f l2 linf) as (_ & Vl & Pl & Vm & Fm & Pm); auto.
    { intros i Hi. apply Ff, Hi. }
    destruct (ten_times _ Vt Ft Pt) as (V10 & F10 & B10); [lra|]. set (t10 := SFmul 53 1024 (f_of_Z 10) (tolerance lim)) in *.
    apply Rabs_le_between in B10. assert (UT : f_u * (10 * f_real (tolerance lim)) <= 1 * (10 * f_real (tolerance lim))) by (apply Rmult_le_compat_r; lra).
    unfold is_converged in Hnc. rewrite Ei, N2, N5 in Hnc. cbn [fops sc_lt sc_mul sc_of_Z sc_div] in Hnc.
    destruct (Nat.ltb_spec k (min_iterations lim)); [lia|]. destruct (Nat.ltb_spec (max_iteration lim) k); [discriminate|].
    change (fun x y => SFltb x y) with SFltb in Hnc. fold t10 in Hnc.
    assert (Q1 : SFltb (tolerance lim) (SFdiv 53 1024 l2 r1) = false).
    { apply (quotient_small l2 r1 _ ((1 + f_u) ^ (n + 10) * (T + 2 * f_theta))); auto; [|lra].
      apply Rle_trans with (2 := HM1). right. replace (n + 11)%nat with (S (n + 10)) by lia. cbn [pow]. field. lra. }
    assert (Q2 : SFltb t10 (SFdiv 53 1024 linf rm1) = false).
    { apply (quotient_small linf rm1 _ ((1 + f_u) ^ 4 * (T + f_theta))); auto; [|lra].
      replace ((1 + f_u) * ((1 + f_u) ^ 4 * (T + f_theta) / f_real rm1)) with ((1 + f_u) ^ 5 * ((T + f_theta) / f_real rm1)) by (field; lra). lra. }
    rewrite Q1, Q2 in Hnc. discriminate.
  Qed.
End Stops.

Lemma jacobi_gauss_stop M dbg stray n a A b h q lo xs X dmax x f E0 k lim fuel : dominant_doubles n a A b h q lo xs X ->
  (forall i, (i < n)%nat -> Rabs (f_real (A i i)) <= dmax) -> (0 < n)%nat -> (Z.of_nat n < 2 ^ 64)%Z ->
  is_vec n x f -> finite_vec n f -> 0 <= E0 -> within n f xs (f_floor n q X lo + E0) -> no_overflow n A lo X (f_floor n q X lo + E0) ->
  (min_iterations lim <= k)%nat -> (1 <= k <= M)%nat -> (max_iteration lim < M)%nat ->
  (Nat.max (min_iterations lim) (max_iteration lim + 1) < fuel)%nat ->
  f_valid (tolerance lim) -> f_finite (tolerance lim) = true -> 0 <= f_real (tolerance lim) -> 10 * f_real (tolerance lim) + 1 <= f_limit / 2 ->
  let E := f_floor n q X lo + f_rate n q ^ k * E0 in let T := f_resid n q dmax X E in
  room n ((1 + q) * dmax * (X + E) + T) T ->
  (forall w x1 w1 r1 rm1, jacobi_step fops dbg stray a b (x, vresize w n (S754_zero false)) = Ok (x1, w1) ->
     compute_residual fops dbg stray a x1 b = Ok (r1, rm1) -> f_finite r1 = true -> 0 < f_real r1 -> 0 < f_real rm1 ->
     meets n (f_real (tolerance lim)) (f_real r1) (f_real rm1) T ->
     exists x' w' cd f', jacobi_solve fops M dbg stray fuel lim w a x b = Ok (x', w', cd) /\ (cd_iteration cd <= k)%nat /\
       is_vec n x' f' /\ finite_vec n f' /\ within n f' xs (f_floor n q X lo + f_rate n q ^ cd_iteration cd * E0)) /\
  (forall x1 w1 r1 rm1, gauss_seidel_step fops dbg stray a b (x, []) = Ok (x1, w1) ->
     compute_residual fops dbg stray a x1 b = Ok (r1, rm1) -> f_finite r1 = true -> 0 < f_real r1 -> 0 < f_real rm1 ->
     meets n (f_real (tolerance lim)) (f_real r1) (f_real rm1) T ->
     exists x' cd f', gauss_seidel_solve fops M dbg stray fuel lim a x b = Ok (x', cd) /\ (cd_iteration cd <= k)%nat /\
       is_vec n x' f' /\ finite_vec n f' /\ within n f' xs (f_floor n q X lo + f_rate n q ^ cd_iteration cd * E0)).
Proof.
  intros D Hd Hn HN Hx Hf HE He Ho Hmin Hk Hmax Hfuel Vt Ft Pt Lt E T HR.
  assert (Hvs : forall w, valid_state n (x, w)).
  { intro w. exists f. split; [exact Hx|]. intros i Hi. apply Hf, Hi. }
  assert (E00 : 0 <= E).
  { pose proof (floor_nonneg n a A b h q lo xs X D). pose proof (rate_nonneg n a A b h q lo xs X D).
    unfold E. assert (0 <= f_rate n q ^ k * E0) by (apply Rmult_le_pos; [apply pow_le; assumption|exact HE]). lra. }
  destruct (sweeps_float dbg stray n a A b h q lo xs X x f E0 k D Hx Hf HE He Ho) as [SJ SG].
  destruct (solves_float M dbg stray n a A b h q lo xs X x f E0 lim fuel D Hx Hf HE He Ho) as [RJ RG]; auto; try lia.
  assert (Hr : s_rows a = n) by apply (dd_square _ _ _ _ _ _ _ _ _ D).
  split.
  - intros w x1 w1 r1 rm1 Es Er F1 P1 PM1 Hm. destruct (RJ w) as (x' & w' & cd & f' & R1 & R2). exists x', w', cd, f'.
    split; [exact R1|]. split; [|exact R2].
    destruct (SJ (vresize w n (S754_zero false))) as (xk & wk & fk & K1 & K2 & K3 & K4); [apply vresize_length'|].
    apply (stop_at M dbg stray n a A b h q lo xs X dmax D Hd Hn HN lim (x, vresize w n (S754_zero false)) (jacobi_step fops dbg stray a b)
      x' cd k xk wk fk E x1 w1 r1 rm1); auto; try lia.
    + rewrite <- Hr. apply (run_jacobi fops M dbg stray a b lim fuel w x x' w' cd R1).
  - intros x1 w1 r1 rm1 Es Er F1 P1 PM1 Hm. destruct RG as (x' & cd & f' & R1 & R2). exists x', cd, f'.
    split; [exact R1|]. split; [|exact R2]. destruct SG as (xk & fk & K1 & K2 & K3 & K4).
    apply (stop_at M dbg stray n a A b h q lo xs X dmax D Hd Hn HN lim (x, []) (gauss_seidel_step fops dbg stray a b)
      x' cd k xk [] fk E x1 w1 r1 rm1); auto; try lia.
    apply (run_seidel fops M dbg stray a b lim fuel x x' cd R1).
Qed.

(** With room to spare at the floor the tolerance is met after finitely many sweeps. *)
Definition meets_floor (n : nat) (tol r1 rm1 T : R) : Prop :=
  (1 + f_u) ^ (n + 11) * ((T + 2 * f_theta) / r1) + f_eta < tol /\
  (1 + f_u) ^ 5 * ((T + f_theta) / rm1) + 2 * f_eta < (1 - f_u) * (10 * tol).

Lemma resid_shift n q dmax X E e : f_resid n q dmax X (E + e) = f_resid n q dmax X E + (1 + f_gamma (n + 1)) * ((1 + q) * dmax) * e.
Proof. unfold f_resid. ring. Qed.

Lemma room_le n W T W' T' : W' <= W -> 0 <= T' <= T -> room n W T -> room n W' T'.
Proof.
  intros HW [HT0 HT] [H1 H2]. split; [lra|]. apply Rle_trans with (2 := H2). pose proof u_pos.
  apply Rmult_le_compat_l; [apply Rmult_le_pos; [apply Rmult_le_pos; [lra|apply pos_INR]|apply pow_le; lra]|].
  apply Rplus_le_compat_r, Rmult_le_compat_l; [apply pow_le; lra|]. apply pow_incr. lra.
Qed.

Lemma meets_slack n tol r1 rm1 T : 0 < r1 -> 0 < rm1 -> meets_floor n tol r1 rm1 T ->
  exists t, 0 < t /\ forall T', T' <= T + t -> meets n tol r1 rm1 T'.
Proof.
  intros P1 P2 [H1 H2]. pose proof u_pos as Hu. set (p := (1 + f_u) ^ (n + 11)) in *. set (c := (1 + f_u) ^ 5) in *.
  assert (Pp : 0 < p) by (apply pow_lt; lra). assert (Pc : 0 < c) by (apply pow_lt; lra).
  set (d1 := tol - (p * ((T + 2 * f_theta) / r1) + f_eta)). set (d2 := (1 - f_u) * (10 * tol) - (c * ((T + f_theta) / rm1) + 2 * f_eta)).
  assert (D1 : 0 < d1) by (unfold d1; lra). assert (D2 : 0 < d2) by (unfold d2; lra).
  assert (Z1 : 0 < d1 * (r1 / p)) by (apply Rmult_lt_0_compat; [exact D1|apply Rdiv_lt_0_compat; auto]).
  assert (Z2 : 0 < d2 * (rm1 / c)) by (apply Rmult_lt_0_compat; [exact D2|apply Rdiv_lt_0_compat; auto]).
  exists (Rmin (d1 * (r1 / p)) (d2 * (rm1 / c))). split; [apply Rmin_glb_lt; auto|].
  intros T' HT. pose proof (Rmin_l (d1 * (r1 / p)) (d2 * (rm1 / c))) as M1. pose proof (Rmin_r (d1 * (r1 / p)) (d2 * (rm1 / c))) as M2.
  split; fold p c.
  - assert (G : p * ((T' + 2 * f_theta) / r1) <= p * ((T + d1 * (r1 / p) + 2 * f_theta) / r1)).
    { apply Rmult_le_compat_l; [lra|]. apply Rmult_le_compat_r; [apply Rlt_le, Rinv_0_lt_compat, P1|lra]. }
    replace (p * ((T + d1 * (r1 / p) + 2 * f_theta) / r1)) with (p * ((T + 2 * f_theta) / r1) + d1) in G by (field; lra). unfold d1 in G. lra.
  - assert (G : c * ((T' + f_theta) / rm1) <= c * ((T + d2 * (rm1 / c) + f_theta) / rm1)).
    { apply Rmult_le_compat_l; [lra|]. apply Rmult_le_compat_r; [apply Rlt_le, Rinv_0_lt_compat, P2|lra]. }
    replace (c * ((T + d2 * (rm1 / c) + f_theta) / rm1)) with (c * ((T + f_theta) / rm1) + d2) in G by (field; lra). unfold d2 in G. lra.
Qed.

Section Eventually.
  Variables (M : nat) (dbg : bool) (stray : option nat).
  Variables (n : nat) (a : smat f64) (A : nat -> nat -> f64) (b : list f64) (h : nat -> f64) (q lo : R).
  Variables (xs : nat -> R) (X dmax : R) (x : list f64) (f : nat -> f64) (E0 : R) (tol : f64).
  Hypothesis D : dominant_doubles n a A b h q lo xs X.
  Hypothesis Hd : forall i, (i < n)%nat -> Rabs (f_real (A i i)) <= dmax.
  Hypothesis Hn : (0 < n)%nat.
  Hypothesis HN : (Z.of_nat n < 2 ^ 64)%Z.
  Hypothesis Hx : is_vec n x f.
  Hypothesis Hf : finite_vec n f.
  Hypothesis HE : 0 <= E0.
  Hypothesis He : within n f xs (f_floor n q X lo + E0).
  Hypothesis Ho : no_overflow n A lo X (f_floor n q X lo + E0).
  Hypothesis Vt : f_valid tol.
  Hypothesis Ft : f_finite tol = true.
  Hypothesis Pt : 0 <= f_real tol.
  Hypothesis Lt : 10 * f_real tol + 1 <= f_limit / 2.
  Hypothesis HR : let E := f_floor n q X lo + E0 in let T := f_resid n q dmax X E in room n ((1 + q) * dmax * (X + E) + T) T.

  Lemma eventually_meets r1 rm1 : 0 < r1 -> 0 < rm1 -> meets_floor n (f_real tol) r1 rm1 (f_resid n q dmax X (f_floor n q X lo)) ->
    exists K, forall k, (K <= k)%nat -> let E := f_floor n q X lo + f_rate n q ^ k * E0 in let T := f_resid n q dmax X E in
      meets n (f_real tol) r1 rm1 T /\ room n ((1 + q) * dmax * (X + E) + T) T.
  Proof using D Hd Hn HE HR.
    intros P1 P2 Hm. destruct (meets_slack n (f_real tol) r1 rm1 _ P1 P2 Hm) as (t & Ht & Hs).
    destruct (dd_rate _ _ _ _ _ _ _ _ _ D) as [Hq Hr]. pose proof (rate_nonneg n a A b h q lo xs X D) as R0.
    pose proof (floor_nonneg n a A b h q lo xs X D) as F0. destruct (dd_X _ _ _ _ _ _ _ _ _ D) as [X0 _].
    assert (Dm : 0 <= dmax) by (apply Rle_trans with (2 := Hd 0%nat Hn), Rabs_pos). pose proof (gamma_nonneg (n + 1)) as G0.
    assert (S0 : 0 <= (1 + f_gamma (n + 1)) * ((1 + q) * dmax)) by (apply Rmult_le_pos; [lra|apply Rmult_le_pos; lra]).
    set (S1 := (1 + f_gamma (n + 1)) * ((1 + q) * dmax)) in *. pose proof u_pos as Hu. pose proof eta_pos as Heta.
    destruct (floor_limit n q X lo E0 (t / (S1 + 1)) Hq Hr HE) as (K & HK); [apply Rdiv_lt_0_compat; lra|].
    exists K. intros k Hk E T. specialize (HK k Hk).
    assert (PE : 0 <= f_rate n q ^ k * E0) by (apply Rmult_le_pos; [apply pow_le, R0|exact HE]).
    assert (PE1 : f_rate n q ^ k * E0 <= E0).
    { rewrite <- (Rmult_1_l E0) at 2. apply Rmult_le_compat_r; [exact HE|]. rewrite <- (pow1 k). apply pow_incr. lra. }
    split.
    - apply Hs. unfold T, E. rewrite resid_shift. fold S1. apply Rplus_le_compat_l.
      apply Rle_trans with (S1 * (t / (S1 + 1))); [apply Rmult_le_compat_l; lra|].
      apply Rle_trans with ((S1 + 1) * (t / (S1 + 1))); [apply Rmult_le_compat_r; [apply Rlt_le, Rdiv_lt_0_compat; lra|lra]|right; field; lra].
    - assert (EL : E <= f_floor n q X lo + E0) by (unfold E; lra).
      assert (TL : T <= f_resid n q dmax X (f_floor n q X lo + E0)).
      { unfold T. replace (f_floor n q X lo + E0) with (E + (f_floor n q X lo + E0 - E)) by ring. rewrite resid_shift. fold S1.
        assert (0 <= S1 * (f_floor n q X lo + E0 - E)) by (apply Rmult_le_pos; lra). lra. }
      cbv zeta in HR. assert (Q0 : 0 <= (1 + q) * dmax) by (apply Rmult_le_pos; lra).
      apply (room_le n _ _ _ _) with (3 := HR).
      + apply Rplus_le_compat; [|exact TL]. apply Rmult_le_compat_l; lra.
      + split; [|exact TL]. unfold T, f_resid. assert (0 <= (1 + q) * dmax * E) by (apply Rmult_le_pos; unfold E; lra).
        assert (0 <= f_gamma (n + 1) * ((1 + q) * dmax * (X + E))) by (apply Rmult_le_pos; [exact G0|apply Rmult_le_pos; unfold E; lra]).
        assert (0 <= INR n * (1 + f_u) ^ n * f_eta) by (apply Rmult_le_pos; [apply Rmult_le_pos; [apply pos_INR|apply pow_le; lra]|lra]). lra.
  Qed.

  Lemma eventually_stop :
    (forall w x1 w1 r1 rm1, jacobi_step fops dbg stray a b (x, vresize w n (S754_zero false)) = Ok (x1, w1) ->
       compute_residual fops dbg stray a x1 b = Ok (r1, rm1) -> f_finite r1 = true -> 0 < f_real r1 -> 0 < f_real rm1 ->
       meets_floor n (f_real tol) (f_real r1) (f_real rm1) (f_resid n q dmax X (f_floor n q X lo)) ->
       exists K, forall lim fuel, tolerance lim = tol -> (min_iterations lim <= M)%nat -> (max_iteration lim < M)%nat ->
         (Nat.max (min_iterations lim) (max_iteration lim + 1) < fuel)%nat ->
         exists x' w' cd, jacobi_solve fops M dbg stray fuel lim w a x b = Ok (x', w', cd) /\
           (cd_iteration cd <= Nat.max K (min_iterations lim))%nat) /\
    (forall x1 w1 r1 rm1, gauss_seidel_step fops dbg stray a b (x, []) = Ok (x1, w1) ->
       compute_residual fops dbg stray a x1 b = Ok (r1, rm1) -> f_finite r1 = true -> 0 < f_real r1 -> 0 < f_real rm1 ->
       meets_floor n (f_real tol) (f_real r1) (f_real rm1) (f_resid n q dmax X (f_floor n q X lo)) ->
       exists K, forall lim fuel, tolerance lim = tol -> (min_iterations lim <= M)%nat -> (max_iteration lim < M)%nat ->
         (Nat.max (min_iterations lim) (max_iteration lim + 1) < fuel)%nat ->
         exists x' cd, gauss_seidel_solve fops M dbg stray fuel lim a x b = Ok (x', cd) /\
           (cd_iteration cd <= Nat.max K (min_iterations lim))%nat).
  Proof using D Hd Hn HN Hx Hf HE He Ho Vt Ft Pt Lt HR.
    assert (Hlim : forall lim x' s step cd, run fops M dbg stray a b lim s step x' cd -> (min_iterations lim <= M)%nat ->
      (max_iteration lim < M)%nat -> (cd_iteration cd <= M)%nat).
    { intros lim x' s step cd H H1 H2. pose proof (run_bound fops M dbg stray a b lim s step x' cd H H1 H2) as [H3 _]. unfold sweep_bound in H3. lia. }
    split.
    - intros w x1 w1 r1 rm1 Es Er F1 P1 PM1 Hm. destruct (eventually_meets _ _ P1 PM1 Hm) as (K & HK). exists (Nat.max 1 K).
      intros lim fuel Etol H1 H2 Hfuel.
      destruct (solves_float M dbg stray n a A b h q lo xs X x f E0 lim fuel D Hx Hf HE He Ho) as [RJ _]; auto; try lia.
      destruct (RJ w) as (x' & w' & cd & f' & R1 & _). pose proof (Hlim lim _ _ _ _ (run_jacobi fops M dbg stray a b lim fuel w x x' w' cd R1) H1 H2) as HM.
      exists x', w', cd. split; [exact R1|]. set (k := Nat.max (Nat.max 1 K) (min_iterations lim)).
      destruct (Nat.le_gt_cases k M) as [L|L]; [|lia]. destruct (HK k) as [G1 G2]; [lia|].
      destruct (jacobi_gauss_stop M dbg stray n a A b h q lo xs X dmax x f E0 k lim fuel D Hd Hn HN Hx Hf HE He Ho) as [SJ _];
        rewrite ?Etol; auto; try lia.
      rewrite Etol in SJ. destruct (SJ w x1 w1 r1 rm1 Es Er F1 P1 PM1 G1) as (y & v & c & f'' & R2 & R3 & _). rewrite R1 in R2. injection R2 as _ _ <-. exact R3.
    - intros x1 w1 r1 rm1 Es Er F1 P1 PM1 Hm. destruct (eventually_meets _ _ P1 PM1 Hm) as (K & HK). exists (Nat.max 1 K).
      intros lim fuel Etol H1 H2 Hfuel.
      destruct (solves_float M dbg stray n a A b h q lo xs X x f E0 lim fuel D Hx Hf HE He Ho) as [_ RG]; auto; try lia.
      destruct RG as (x' & cd & f' & R1 & _). pose proof (Hlim lim _ _ _ _ (run_seidel fops M dbg stray a b lim fuel x x' cd R1) H1 H2) as HM.
      exists x', cd. split; [exact R1|]. set (k := Nat.max (Nat.max 1 K) (min_iterations lim)).
      destruct (Nat.le_gt_cases k M) as [L|L]; [|lia]. destruct (HK k) as [G1 G2]; [lia|].
      destruct (jacobi_gauss_stop M dbg stray n a A b h q lo xs X dmax x f E0 k lim fuel D Hd Hn HN Hx Hf HE He Ho) as [_ SG];
        rewrite ?Etol; auto; try lia.
      rewrite Etol in SG. destruct (SG x1 w1 r1 rm1 Es Er F1 P1 PM1 G1) as (y & c & f'' & R2 & R3 & _). rewrite R1 in R2. injection R2 as _ <-. exact R3.
  Qed.
End Eventually.

(* ------------------------------------------------------------------ the example *)
Lemma half_real : f_real f_half = 1 / 2.
Proof.
  assert (E : f_half = S754_finite false 4503599627370496 (-53)) by (vm_compute; reflexivity). rewrite E. cbn [f_real]. change (-53)%Z with (- Z.of_nat 53)%Z. rewrite powerRZ_neg', <- pow_powerRZ. field_simplify; [|lra..]; lra.
Qed.

Lemma small_units : f_u <= / 1024 / 1024 /\ f_eta <= / 1024 / 1024 /\ f_theta <= / 1024 / 1024.
Proof.
  assert (H : forall k, (20 <= k)%nat -> / 2 ^ k <= / 1024 / 1024).
  { intros k Hk. replace (/ 1024 / 1024) with (/ 2 ^ 20) by field. apply Rinv_le_contravar; [apply pow_lt; lra|apply Rle_pow; [lra|exact Hk]]. }
  unfold f_u, f_eta, f_theta. split; [|split]; apply H, Nat.leb_le; reflexivity.
Qed.

Lemma ex_run : exists x' w' cd, jacobi_solve fops 100 true None 20 (mkLimits 0 9 f_half) [] ex_sys [S754_zero false; S754_zero false] ex_b = Ok (x', w', cd) /\
  cd_iteration cd = 2%nat /\ f_finite (cd_residual cd) = true /\ f_finite (cd_residual_0 cd) = true /\ cd_residual_0 cd = f_half /\ cd_residual_max_0 cd = f_half.
Proof. eexists. eexists. eexists. split; [vm_compute; reflexivity|]. repeat split; vm_compute; reflexivity. Qed.

Lemma ex_first : exists x1 w1, jacobi_step fops true None ex_sys ex_b ([S754_zero false; S754_zero false], vresize [] 2 (S754_zero false)) = Ok (x1, w1) /\
  compute_residual fops true None ex_sys x1 ex_b = Ok (f_half, f_half).
Proof. eexists. eexists. split; [vm_compute; reflexivity|vm_compute; reflexivity]. Qed.

Lemma ex_floor : 0 <= f_floor 2 (1 / 2) 1 2 <= 1 / 1000 /\ f_rate 2 (1 / 2) <= 501 / 1000 /\ 0 <= f_rate 2 (1 / 2).
Proof.
  destruct small_units as (U & E & _). pose proof u_pos as Hu. pose proof eta_pos as He.
  assert (P5 : 1 <= (1 + f_u) ^ 5 <= 1 + 1 / 10000).
  { split; [apply pow_R1_Rle; lra|]. apply Rle_trans with ((1 + / 1024 / 1024) ^ 5); [apply pow_incr; lra|lra]. }
  assert (P4 : 1 <= (1 + f_u) ^ 4 <= 11 / 10).
  { split; [apply pow_R1_Rle; lra|]. apply Rle_trans with ((1 + / 1024 / 1024) ^ 4); [apply pow_incr; lra|lra]. }
  unfold f_floor, f_step, f_rate, f_gamma. change (2 + 3)%nat with 5%nat. change (2 + 2)%nat with 4%nat. change (INR 2) with (1 + 1).
  set (p := (1 + f_u) ^ 5) in *. set (r := (1 + f_u) ^ 4) in *.
  assert (S1 : (p - 1) * 1 + f_eta * (1 + (1 + 1) * r / 2) <= 1 / 5000).
  { assert (f_eta * (1 + (1 + 1) * r / 2) <= / 1024 / 1024 * (1 + (1 + 1) * r / 2)) by (apply Rmult_le_compat_r; lra). lra. }
  assert (S0 : 0 <= (p - 1) * 1 + f_eta * (1 + (1 + 1) * r / 2)).
  { assert (0 <= f_eta * (1 + (1 + 1) * r / 2)) by (apply Rmult_le_pos; lra). lra. }
  set (s := (p - 1) * 1 + f_eta * (1 + (1 + 1) * r / 2)) in *. split; [|lra]. split.
  - apply Rmult_le_pos; [exact S0|]. apply Rlt_le, Rinv_0_lt_compat. lra.
  - apply (Rmult_le_reg_r (1 - 1 / 2 * p)); [lra|]. unfold Rdiv at 1. rewrite Rmult_assoc, Rinv_l, Rmult_1_r by lra. lra.
Qed.

Lemma ex_resid E : 0 <= E <= 2 -> 3 * E <= f_resid 2 (1 / 2) 2 1 E <= 3 * E + 1 / 1000.
Proof.
  intro HE. destruct small_units as (U & H & _). pose proof u_pos as Hu. pose proof eta_pos as He.
  assert (P3 : 1 <= (1 + f_u) ^ 3 <= 1 + 1 / 20000).
  { split; [apply pow_R1_Rle; lra|]. apply Rle_trans with ((1 + / 1024 / 1024) ^ 3); [apply pow_incr; lra|lra]. }
  assert (P2 : 1 <= (1 + f_u) ^ 2 <= 11 / 10).
  { split; [apply pow_R1_Rle; lra|]. apply Rle_trans with ((1 + / 1024 / 1024) ^ 2); [apply pow_incr; lra|lra]. }
  unfold f_resid, f_gamma. change (2 + 1)%nat with 3%nat. change (INR 2) with (1 + 1). set (p := (1 + f_u) ^ 3) in *. set (r := (1 + f_u) ^ 2) in *.
  assert (A1 : 0 <= (p - 1) * ((1 + 1 / 2) * 2 * (1 + E)) <= 1 / 20000 * 9).
  { split; [apply Rmult_le_pos; lra|]. apply Rmult_le_compat; lra. }
  assert (A2 : 0 <= (1 + 1) * r * f_eta <= (1 + 1) * (11 / 10) * (/ 1024 / 1024)).
  { split; [apply Rmult_le_pos; lra|]. apply Rmult_le_compat; lra. }
  lra.
Qed.

Lemma ex_room E : 0 <= E <= 2 -> let T := f_resid 2 (1 / 2) 2 1 E in room 2 ((1 + 1 / 2) * 2 * (1 + E) + T) T.
Proof.
  intros HE T. destruct (ex_resid E HE) as [T0 T1]. fold T in T0, T1. destruct small_units as (U & H & _). pose proof u_pos as Hu. pose proof eta_pos as He.
  assert (L : 2 ^ 12 <= f_limit) by (unfold f_limit; apply Rle_pow; [lra|apply Nat.leb_le; reflexivity]).
  assert (P5 : 1 <= (1 + f_u) ^ 5 <= 11 / 10).
  { split; [apply pow_R1_Rle; lra|]. apply Rle_trans with ((1 + / 1024 / 1024) ^ 5); [apply pow_incr; lra|lra]. }
  assert (P2 : 1 <= (1 + f_u) ^ 2 <= 11 / 10).
  { split; [apply pow_R1_Rle; lra|]. apply Rle_trans with ((1 + / 1024 / 1024) ^ 2); [apply pow_incr; lra|lra]. }
  split; [lra|]. change (INR 2) with (1 + 1).
  assert (A1 : 0 <= (1 + f_u) ^ 5 * T ^ 2 + f_eta <= 11 / 10 * 7 ^ 2 + 1).
  { assert (0 <= T ^ 2 <= 7 ^ 2) by (split; [apply pow2_ge_0|apply pow_incr; lra]).
    assert (0 <= (1 + f_u) ^ 5 * T ^ 2 <= 11 / 10 * 7 ^ 2) by (split; [apply Rmult_le_pos; lra|apply Rmult_le_compat; lra]). lra. }
  apply Rle_trans with (2 * (1 + 1) * (11 / 10) * (11 / 10 * 7 ^ 2 + 1)); [|lra]. apply Rmult_le_compat; lra.
Qed.

Lemma ex_stops : let X := 1 / (2 * (1 - 1 / 2)) in let E := f_floor 2 (1 / 2) X 2 + f_rate 2 (1 / 2) ^ 4 * X in
  let T := f_resid 2 (1 / 2) 2 X E in
  dominant_doubles 2 ex_sys ex_A ex_b ex_h (1 / 2) 2 (fun _ => 1 / 3) X /\
  (forall i, (i < 2)%nat -> Rabs (f_real (ex_A i i)) <= 2) /\
  room 2 ((1 + 1 / 2) * 2 * (X + E) + T) T /\ meets 2 (f_real f_half) (f_real f_half) (f_real f_half) T /\
  (let E := f_floor 2 (1 / 2) X 2 + X in let T := f_resid 2 (1 / 2) 2 X E in room 2 ((1 + 1 / 2) * 2 * (X + E) + T) T) /\
  meets_floor 2 (f_real f_half) (f_real f_half) (f_real f_half) (f_resid 2 (1 / 2) 2 X (f_floor 2 (1 / 2) X 2)) /\
  10 * f_real f_half + 1 <= f_limit / 2.
Proof.
  intros X E T. destruct ex_solution as (H1 & _). fold X in H1. split; [exact H1|].
  assert (EX : X = 1) by (unfold X; field). unfold T, E. rewrite EX. clear H1 T E EX X.
  destruct ex_floor as ((F0 & F1) & R1 & R0). set (fl := f_floor 2 (1 / 2) 1 2) in *. set (ra := f_rate 2 (1 / 2)) in *.
  assert (R4 : 0 <= ra ^ 4 <= (501 / 1000) ^ 4) by (split; [apply pow_le; lra|apply pow_incr; lra]).
  set (E := fl + ra ^ 4 * 1). assert (HE : 0 <= E <= 65 / 1000) by (unfold E; lra).
  destruct small_units as (U & H & Th). pose proof u_pos as Hu. pose proof eta_pos as He. pose proof theta_pos as Ht0.
  assert (P : forall T, 0 <= T <= 2 / 10 -> meets_floor 2 (f_real f_half) (f_real f_half) (f_real f_half) T).
  { intros T HT. unfold meets_floor. rewrite half_real. change (2 + 11)%nat with 13%nat.
    assert (P13 : 1 <= (1 + f_u) ^ 13 <= 101 / 100).
    { split; [apply pow_R1_Rle; lra|]. apply Rle_trans with ((1 + / 1024 / 1024) ^ 13); [apply pow_incr; lra|lra]. }
    assert (P5 : 1 <= (1 + f_u) ^ 5 <= 101 / 100).
    { split; [apply pow_R1_Rle; lra|]. apply Rle_trans with ((1 + / 1024 / 1024) ^ 5); [apply pow_incr; lra|lra]. }
    set (p := (1 + f_u) ^ 13) in *. set (c := (1 + f_u) ^ 5) in *.
    assert (p * ((T + 2 * f_theta) / (1 / 2)) <= 101 / 100 * (45 / 100)) by (apply Rmult_le_compat; lra).
    assert (c * ((T + f_theta) / (1 / 2)) <= 101 / 100 * (45 / 100)) by (apply Rmult_le_compat; lra).
    lra. }
  split; [|split; [apply ex_room; lra|split; [|split; [apply ex_room; lra|split]]]].
  - intros [|[|i]] Hi; try lia; rewrite ?(eq_refl : ex_A 0 0 = fz 2), ?(eq_refl : ex_A 1 1 = fz 2), fz2, Rabs_pos_eq; lra.
  - destruct (P (f_resid 2 (1 / 2) 2 1 E)) as [Q1 Q2]; [|split; lra]. destruct (ex_resid E) as [T0 T1]; lra.
  - apply P. destruct (ex_resid fl) as [T0 T1]; lra.
  - rewrite half_real. assert (L : 2 ^ 12 <= f_limit) by (unfold f_limit; apply Rle_pow; [lra|apply Nat.leb_le; reflexivity]). lra.
Qed.

Lemma ex_valid : valid_state 2 ([S754_zero false; S754_zero false], []) /\ dominant_rows 2 ex_sys ex_A ex_b ex_h (1 / 2) 2.
Proof.
  destruct ex_solution as (H1 & _). split; [|apply (dominant_doubles_rows _ _ _ _ _ _ _ _ _ H1)].
  exists (fun _ => S754_zero false). split; [|intros i _; reflexivity]. split; [reflexivity|]. intros [|[|i]] Hi; try reflexivity; lia.
Qed.
