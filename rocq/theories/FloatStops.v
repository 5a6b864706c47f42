(** When the iterative solvers stop by their tolerance, in double precision. *)
From Coq Require Import ZArith Reals Lra Lia List Sorted SpecFloat Psatz.
From Verif Require Import Base ListFacts DenseModel DenseFacts ScalarModel GeometryReal SparseModel SparseSpec
  SparseFacts SparseSeq SparseMul LuModel LuReal IterModel IterFacts IterLoop IterField IterReal FloatFacts FloatError
  IterFloat PropFloatLemmas FloatUnit PropIterLemmas LuSuccess FloatSweep PropSweepLemmas FloatStop.
Import ListNotations.
Local Open Scope R_scope.

Lemma eta_one : f_eta <= 1.
Proof. unfold f_eta. rewrite <- Rinv_1. apply Rinv_le_contravar; [lra|]. apply pow_R1_Rle. lra. Qed.

Lemma limit_big : 2 <= f_limit.
Proof. unfold f_limit. replace 2 with (2 ^ 1) at 1 by ring. apply Rle_pow; [lra|]. apply Nat.leb_le. reflexivity. Qed.

Lemma ten_real : f_real (f_of_Z 10) = 10.
Proof.
  vm_compute (f_of_Z 10). cbn [f_real]. change (-49)%Z with (- Z.of_nat 49)%Z. rewrite powerRZ_neg', <- pow_powerRZ.
  replace (IZR _) with (10 * 2 ^ 49); [field; apply pow_nonzero; lra|].
  rewrite pow_IZR, <- mult_IZR. apply f_equal. reflexivity.
Qed.

Lemma f_div_finite x y : f_valid x -> f_valid y -> f_finite x = true -> f_finite y = true -> f_real y <> 0 ->
  Rabs (f_real x / f_real y) <= f_limit -> f_finite (SFdiv 53 1024 x y) = true.
Proof.
  intros Hx Hy. destruct (valid_SF2B x Hx) as (a & <- & <- & <-), (valid_SF2B y Hy) as (c & <- & <- & <-). intros Fa Fc Hn H.
  rewrite div_equiv, B2SF_finite.
  pose proof (BinarySingleNaN.Bdiv_correct 53 1024 Hprec Hmax BinarySingleNaN.mode_NE a c Hn) as C.
  rewrite (rnd_below _ H) in C. destruct C as (_ & -> & _). exact Fa.
Qed.

(** Ten times the tolerance. *)
Lemma ten_times tol : f_valid tol -> f_finite tol = true -> 0 <= f_real tol -> 10 * f_real tol <= f_limit ->
  let t := SFmul 53 1024 (f_of_Z 10) tol in f_valid t /\ f_finite t = true /\
    Rabs (f_real t - 10 * f_real tol) <= f_u * (10 * f_real tol) + f_eta.
Proof.
  intros Vt Ft Pt Ht t. assert (V10 : f_valid (f_of_Z 10)) by reflexivity. assert (F10 : f_finite (f_of_Z 10) = true) by reflexivity.
  assert (Vm : f_valid t) by (apply f_mul_valid; auto).
  assert (Fm : f_finite t = true).
  { apply f_mul_finite; auto. rewrite ten_real, Rabs_pos_eq by lra. exact Ht. }
  split; [exact Vm|]. split; [exact Fm|].
  destruct (f_mul_error _ _ V10 Vt Fm) as (_ & _ & d & e & Hd & He & E). rewrite ten_real in E.
  pose proof (rounding_bound _ _ d e Hd He E) as B. rewrite (Rabs_pos_eq (10 * f_real tol)) in B by lra. exact B.
Qed.

(** A quotient at most [t] bounds its numerator. *)
Lemma quotient_bound x y t : f_valid x -> f_valid y -> f_finite y = true -> 0 <= f_real y -> f_valid t -> f_finite t = true ->
  f_finite (SFdiv 53 1024 x y) = true -> 0 <= f_real x -> SFltb t (SFdiv 53 1024 x y) = false ->
  f_real x <= ((1 + f_u) * f_real t + f_eta) * f_real y.
Proof.
  intros Vx Vy Fy Py Vt Ft Fd Px Hlt. pose proof (f_div_valid _ _ Vx Vy) as Vd.
  pose proof (f_lt t _ Vt Vd Ft Fd) as L. rewrite Hlt in L.
  assert (Hq : f_real (SFdiv 53 1024 x y) <= f_real t) by (apply Rnot_lt_le; intro C; apply L in C; discriminate).
  destruct (f_div_back x y Vx Vy Fy Fd) as (Fx & d & e & Hd & He & E). pose proof u_pos.
  destruct (f_div_round x y Vx Vy Fy Fd) as (_ & Hn & Er).
  assert (Qp : 0 <= f_real (SFdiv 53 1024 x y)).
  { rewrite Er. apply Flocq.Core.Generic_fmt.round_ge_generic;
      [apply Flocq.Core.FLT.FLT_exp_valid; reflexivity|apply Flocq.Core.Generic_fmt.valid_rnd_N|apply Flocq.Core.Generic_fmt.generic_format_0|].
    apply Rmult_le_pos; [exact Px|]. apply Rlt_le, Rinv_0_lt_compat. lra. }
  rewrite E. replace (f_real (SFdiv 53 1024 x y) * f_real y * (1 + d) + e * f_real y) with
    ((f_real (SFdiv 53 1024 x y) * (1 + d) + e) * f_real y) by ring.
  apply Rmult_le_compat_r; [exact Py|]. pose proof (grow _ d Qp Hd). apply Rabs_le_between in He.
  apply Rplus_le_compat; [|lra]. apply Rle_trans with (1 := H0). apply Rmult_le_compat_l; lra.
Qed.

(** A quotient of small numerator is at most [t]. *)
Lemma quotient_small x y t B : f_valid x -> f_valid y -> f_finite x = true -> f_finite y = true -> 0 < f_real y ->
  f_valid t -> f_finite t = true -> 0 <= f_real x <= B -> (1 + f_u) * (B / f_real y) + f_eta <= f_real t -> f_real t <= f_limit ->
  SFltb t (SFdiv 53 1024 x y) = false.
Proof.
  intros Vx Vy Fx Fy Py Vt Ft [Px Bx] Hb Hl. pose proof u_pos. pose proof eta_pos.
  assert (Iy : 0 < / f_real y) by (apply Rinv_0_lt_compat, Py).
  assert (Q0 : 0 <= f_real x / f_real y) by (apply Rmult_le_pos; lra).
  assert (QB : f_real x / f_real y <= B / f_real y) by (apply Rmult_le_compat_r; lra).
  assert (Q1 : 1 * (B / f_real y) <= (1 + f_u) * (B / f_real y)) by (apply Rmult_le_compat_r; lra).
  assert (Fd : f_finite (SFdiv 53 1024 x y) = true).
  { apply f_div_finite; auto; [lra|]. rewrite Rabs_pos_eq by exact Q0. lra. }
  destruct (f_div_round x y Vx Vy Fy Fd) as (_ & _ & Er). destruct (rnd_error (f_real x / f_real y)) as (d & e & Hd & He & E).
  rewrite <- Er in E. pose proof (grow _ d Q0 Hd) as G. apply Rabs_le_between in He.
  assert ((1 + f_u) * (f_real x / f_real y) <= (1 + f_u) * (B / f_real y)) by (apply Rmult_le_compat_l; lra).
  destruct (SFltb t (SFdiv 53 1024 x y)) eqn:Hlt; [|reflexivity].
  apply (f_lt t _ Vt (f_div_valid _ _ Vx Vy) Ft Fd) in Hlt. lra.
Qed.

(** A run did not stop before. *)
Lemma run_before {S} (O : sops S) M dbg stray a b lim s step x' cd k : run O M dbg stray a b lim s step x' cd ->
  (min_iterations lim <= M)%nat -> (max_iteration lim < M)%nat -> (k < cd_iteration cd)%nat ->
  exists t c, data_at O M dbg stray step a b s k t c /\ is_converged O lim c = false.
Proof.
  intros H H1 H2 Hk. apply run_loop in H as (fuel & w' & H).
  destruct (loop_invariant O M dbg stray (fun j t c => data_at O M dbg stray step a b s j t c /\
      forall i, (i < j)%nat -> exists t c, data_at O M dbg stray step a b s i t c /\ is_converged O lim c = false)
      step lim a b fuel 0 s (conv_default O) (x', w') cd) as (j & _ & (HD & HP) & _); auto.
  - split; [apply data_at_0|]. intros i Hi. lia.
  - intros j t c t1 c1 [HD HP] Hc Es Eu. split; [apply (data_at_step O M dbg stray step a b s j t c t1 c1); auto|].
    intros i Hi. destruct (Nat.eq_dec i j) as [->|]; [exists t, c; auto|apply HP; lia].
  - apply HP. pose proof H as H'. apply loop_bound in H' as (j' & Hj' & Ej & (Et & _ & Hd') & _); auto.
    destruct HD as (Et2 & _ & Hd). destruct (Nat.le_gt_cases j M) as [L|L]; [|lia].
    destruct (Hd L) as (Ei & _). lia.
Qed.

(** The largest residual of a vector at most [E] away from the solution, with the rounding of its products: [dmax]
    bounds the diagonal and [X] the solution. *)
Definition f_resid (n : nat) (q dmax X E : R) : R :=
  (1 + q) * dmax * E + (f_gamma (n + 1) * ((1 + q) * dmax * (X + E)) + INR n * (1 + f_u) ^ n * f_eta).

(** Nothing overflows in the computation of a residual of at most [T] from products of at most [W]. *)
Definition room (n : nat) (W T : R) : Prop := W <= f_limit /\ 2 * INR n * (1 + f_u) ^ n * ((1 + f_u) ^ 5 * T ^ 2 + f_eta) <= f_limit.

Lemma fsum_finite n f C : (forall i, (i < n)%nat -> f_valid (f i) /\ f_finite (f i) = true /\ 0 <= f_real (f i) <= C) ->
  INR n * (1 + f_u) ^ n * C <= f_limit -> f_finite (fsum n f) = true.
Proof.
  pose proof u_pos as Hu. induction n as [|n IH]; intros H Hl; [reflexivity|]. cbn [asum].
  destruct (H n (Nat.lt_succ_diag_r n)) as (Vn & Fn & Pn & Cn).
  assert (C0 : 0 <= C) by lra. assert (H1 : 1 <= (1 + f_u) ^ n) by (apply pow_R1_Rle; lra). pose proof (pos_INR n) as Hn.
  rewrite S_INR in Hl. cbn [pow] in Hl. set (P := (1 + f_u) ^ n) in *.
  assert (HP : P <= (1 + f_u) * P) by (apply Rle_trans with (1 * P); [lra|apply Rmult_le_compat_r; lra]).
  assert (G1 : (INR n + 1) * P * C <= f_limit).
  { apply Rle_trans with (2 := Hl). apply Rmult_le_compat_r; [exact C0|]. apply Rmult_le_compat_l; lra. }
  assert (G2 : C <= P * C) by (apply Rle_trans with (1 * C); [lra|apply Rmult_le_compat_r; lra]).
  assert (G3 : INR n * P * C + P * C <= f_limit) by (apply Rle_trans with (2 := G1); right; ring).
  assert (F1 : f_finite (fsum n f) = true) by (apply IH; [intros; apply H; lia|lra]).
  apply f_add_finite; auto; [apply fsum_valid; intros; apply H; lia|].
  destruct (fsum_nonneg n f) as (P0 & U & _); [intros i Hi; split; apply H; lia|exact F1|].
  rewrite Rabs_pos_eq by lra.
  assert (U2 : rsum n (fun i => f_real (f i)) <= INR n * C).
  { rewrite <- rsum_const. apply rsum_le. intros i Hi. apply H. lia. }
  assert (P * rsum n (fun i => f_real (f i)) <= P * (INR n * C)) by (apply Rmult_le_compat_l; lra).
  fold P in U. replace (P * (INR n * C)) with (INR n * P * C) in H0 by ring. lra.
Qed.

Section Near.
  Variables (M : nat) (dbg : bool) (stray : option nat).
  Variables (n : nat) (a : smat f64) (A : nat -> nat -> f64) (b : list f64) (h : nat -> f64) (q lo : R).
  Variables (xs : nat -> R) (X dmax : R).
  Hypothesis D : dominant_rows n a A b h q lo.
  Hypothesis Fh : forall i, (i < n)%nat -> f_finite (h i) = true.
  Hypothesis Hs : forall i, (i < n)%nat -> rsum n (fun j => f_real (A i j) * xs j) = f_real (h i).
  Hypothesis HX : forall i, (i < n)%nat -> Rabs (xs i) <= X.
  Hypothesis Hd : forall i, (i < n)%nat -> Rabs (f_real (A i i)) <= dmax.
  Hypothesis Hn : (0 < n)%nat.
  Hypothesis HN : (Z.of_nat n < 2 ^ 64)%Z.

  Lemma near_bounds : 0 <= q /\ 0 <= dmax /\ 0 <= X /\ 0 <= (1 + q) * dmax.
  Proof using D HX Hd Hn.
    pose proof (dr_q _ _ _ _ _ _ _ D). specialize (HX 0%nat Hn). specialize (Hd 0%nat Hn).
    pose proof (Rabs_pos (xs 0%nat)). pose proof (Rabs_pos (f_real (A 0%nat 0%nat))).
    assert (0 <= (1 + q) * dmax) by (apply Rmult_le_pos; lra). lra.
  Qed.

  Lemma row_weight i (e : nat -> R) E : (i < n)%nat -> 0 <= E -> (forall j, (j < n)%nat -> Rabs (e j) <= E) ->
    rsum n (fun j => Rabs (f_real (A i j) * e j)) <= (1 + q) * dmax * E.
  Proof using D HX Hd Hn.
    intros Hi HE He. destruct near_bounds as (Hq & Hm & HX0 & Hqm).
    apply Rle_trans with (E * rsum n (fun j => Rabs (f_real (A i j)))).
    - rewrite <- rsum_scale. apply rsum_le. intros j Hj. rewrite Rabs_mult, Rmult_comm.
      apply Rmult_le_compat_r; [apply Rabs_pos|apply He, Hj].
    - rewrite (rsum_out n i) by auto. pose proof (dr_dom _ _ _ _ _ _ _ D i Hi) as H. specialize (Hd i Hi).
      assert (q * Rabs (f_real (A i i)) <= q * dmax) by (apply Rmult_le_compat_l; lra).
      rewrite (Rmult_comm _ E). apply Rmult_le_compat_l; lra.
  Qed.

  (** The computed residual of a vector close to the solution. *)
  Lemma near_residual x f E : is_vec n x f -> finite_vec n f -> 0 <= E -> within n f xs E ->
    let T := f_resid n q dmax X E in room n ((1 + q) * dmax * (X + E) + T) T ->
    exists l2 linf, compute_residual fops dbg stray a x b = Ok (l2, linf) /\ f_finite l2 = true /\
      f_real l2 <= (1 + f_u) ^ (n + 10) * (T + 2 * f_theta) /\ f_real linf <= (1 + f_u) ^ 4 * (T + f_theta).
  Proof using D Fh Hs HX Hd Hn HN.
    intros Hx Hf HE He T [HW HR]. pose proof u_pos as Hu. pose proof eta_pos as Heta. pose proof theta_pos as Hth.
    destruct near_bounds as (Hq & Hm & HX0 & Hqm).
    assert (Vf : valid_vec n f) by (intros i Hi; apply Hf, Hi).
    assert (HF : forall j, (j < n)%nat -> Rabs (f_real (f j)) <= X + E).
    { intros j Hj. replace (f_real (f j)) with (xs j + (f_real (f j) - xs j)) by ring.
      apply Rle_trans with (1 := Rabs_triang _ _). specialize (HX j Hj). specialize (He j Hj). lra. }
    set (G := f_gamma (n + 1) * ((1 + q) * dmax * (X + E)) + INR n * (1 + f_u) ^ n * f_eta).
    assert (HT : T = (1 + q) * dmax * E + G) by reflexivity.
    assert (G0 : 0 <= G).
    { unfold G. assert (0 <= f_gamma (n + 1) * ((1 + q) * dmax * (X + E))) by (apply Rmult_le_pos; [apply gamma_nonneg|apply Rmult_le_pos; lra]).
      assert (0 <= INR n * (1 + f_u) ^ n * f_eta) by (apply Rmult_le_pos; [apply Rmult_le_pos; [apply pos_INR|apply pow_le; lra]|lra]). lra. }
    assert (T1 : 0 <= (1 + q) * dmax * E) by (apply Rmult_le_pos; lra). assert (T0 : 0 <= T) by lra.
    assert (Hib : forall i, (i < n)%nat -> rsum n (fun j => Rabs (f_real (A i j) * f_real (f j))) <= (1 + q) * dmax * (X + E) /\ inner_bound n (A i) f <= G).
    { intros i Hi. assert (W : rsum n (fun j => Rabs (f_real (A i j) * f_real (f j))) <= (1 + q) * dmax * (X + E)).
      { apply row_weight; auto. lra. }
      split; [exact W|]. unfold inner_bound, G. apply Rplus_le_compat_r, Rmult_le_compat_l; [apply gamma_nonneg|exact W]. }
    assert (Ht : forall i, (i < n)%nat -> Rabs (f_real (h i) - rsum n (fun j => f_real (A i j) * f_real (f j))) <= (1 + q) * dmax * E).
    { intros i Hi. rewrite <- (Hs i Hi), <- rsum_minus.
      apply Rle_trans with (rsum n (fun j => Rabs (f_real (A i j) * (f_real (f j) - xs j)))).
      - apply Rle_trans with (1 := rsum_abs _ _). apply rsum_le. intros j Hj. rewrite <- Rabs_Ropp. right. apply f_equal. ring.
      - apply (row_weight i (fun j => f_real (f j) - xs j)); auto. }
    destruct (dr_rows dbg stray n a A b h q lo D) as (rs & d & Hro & Hso & Hdi & Hen).
    destruct (dr_square _ _ _ _ _ _ _ D) as (Hw & Hr & Hc & HA).
    pose proof (residual_ok fops dbg stray n a b rs h x f (ro_repr _ _ _ _ _ _ _ _ Hro) Hso (ro_len _ _ _ _ _ _ _ _ Hro)
      (dr_rhs _ _ _ _ _ _ _ D) Hx Hc) as E1. specialize (E1 ltac:(lia)).
    set (r := fun i => full_sum fops (nth i rs []) f (S754_zero false)).
    set (qq := fun i => row_square fops (nth i rs []) (h i) f) in *.
    (* the rows *)
    assert (Hrow : forall i, (i < n)%nat -> f_valid (r i) /\ f_finite (r i) = true /\ Rabs (f_real (r i) - f_real (h i)) <= T).
    { intros i Hi. assert (Hin : forall j v, In (j, v) (nth i rs []) <-> stored a i j v).
      { intros j v. symmetry. apply (srepr_stored _ _ _ _ _ (ro_repr _ _ _ _ _ _ _ _ Hro)). }
      destruct (Hso i) as [Hsort Hlt]; [rewrite (ro_len _ _ _ _ _ _ _ _ Hro); exact Hi|].
      destruct (sparse_row_error n a A f i (nth i rs []) Hw Hc HA) as [Vr Br]; auto.
      { intros j Hj. apply (dr_A _ _ _ _ _ _ _ D); auto. }
      destruct (Hib i Hi) as [W1 W2]. fold (r i) in Vr, Br. split; [exact Vr|].
      assert (Fr : f_finite (r i) = true).
      { unfold r. rewrite full_sum_fsum. set (es := nth i rs []) in *. set (k := length es).
        assert (Hent : forall t, (t < k)%nat -> f_valid (snd (entry t es)) /\ f_finite (snd (entry t es)) = true /\ (fst (entry t es) < n)%nat).
        { intros t Htk. assert (H : In (entry t es) es) by (apply nth_In, Htk). destruct (entry t es) as [j v] eqn:Ee.
          destruct (Hen i j v Hi H) as [Hj ->]. cbn [fst snd]. destruct (dr_A _ _ _ _ _ _ _ D i j Hi Hj). auto. }
        assert (Hk : (k <= n)%nat).
        { unfold k. rewrite <- (map_length fst es), <- (seq_length n 0). apply NoDup_incl_length.
          - clear - Hsort. induction (map fst es) as [|j l IH]; constructor; inversion Hsort; subst.
            + intro H. rewrite Forall_forall in H2. specialize (H2 _ H). lia.
            + apply IH; auto.
          - intros j Hj. apply in_seq. specialize (Hlt j Hj). lia. }
        assert (Es : rsum k (fun t => Rabs (f_real (snd (entry t es)) * f_real (f (fst (entry t es))))) =
          rsum n (fun j => Rabs (f_real (A i j) * f_real (f j)))).
        { apply (entries_sum n es (A i) (fun j v => Rabs (f_real v * f_real (f j)))); auto.
          - intros j v Hj. symmetry. apply (Hen i j v Hi Hj).
          - intros j Hj. apply (proj2 (HA i j)). intros v Hv. apply Hj. apply Hin in Hv. apply (in_map fst) in Hv. exact Hv.
          - intro j. cbn [f_real]. rewrite Rmult_0_l. apply Rabs_R0. }
        apply (inner_finite k (fun t => snd (entry t es)) (fun t => f (fst (entry t es)))).
        - intros t Htk. destruct (Hent t Htk) as (V & F & _). auto.
        - intros t Htk. apply Hf, Hent, Htk.
        - unfold inner_bound. rewrite Es.
          apply Rle_trans with ((1 + q) * dmax * (X + E) + G); [|lra]. apply Rplus_le_compat; [exact W1|].
          unfold G. apply Rplus_le_compat.
          + apply Rmult_le_compat; [apply gamma_nonneg|apply rsum_nonneg; intros; apply Rabs_pos|apply gamma_le; lia|exact W1].
          + apply Rmult_le_compat_r; [lra|]. apply Rmult_le_compat; [apply pos_INR|apply pow_le; lra|apply le_INR, Hk|apply Rle_pow; [lra|lia]]. }
      split; [exact Fr|]. specialize (Br Fr).
      replace (f_real (r i) - f_real (h i)) with ((f_real (r i) - rsum n (fun j => f_real (A i j) * f_real (f j))) -
        (f_real (h i) - rsum n (fun j => f_real (A i j) * f_real (f j)))) by ring.
      apply Rle_trans with (1 := Rabs_triang _ _). rewrite Rabs_Ropp. specialize (Ht i Hi). lra. }
    (* the squares *)
    set (C := (1 + f_u) ^ 5 * T ^ 2 + f_eta). assert (T2 : 0 <= T ^ 2) by apply pow2_ge_0.
    assert (P5 : 1 <= (1 + f_u) ^ 5) by (apply pow_R1_Rle; lra). assert (Pn : 1 <= (1 + f_u) ^ n) by (apply pow_R1_Rle; lra).
    assert (In1 : 1 <= INR n) by (change 1 with (INR 1); apply le_INR; lia).
    assert (C0 : 0 <= C) by (unfold C; assert (0 <= (1 + f_u) ^ 5 * T ^ 2) by (apply Rmult_le_pos; lra); lra).
    assert (HC : 2 * C <= 2 * INR n * (1 + f_u) ^ n * C).
    { apply Rmult_le_compat_r; [exact C0|]. rewrite <- (Rmult_1_r 2) at 1. rewrite Rmult_assoc. apply Rmult_le_compat_l; [lra|].
      rewrite <- (Rmult_1_r 1) at 1. apply Rmult_le_compat; lra. }
    fold C in HR. assert (HTl : T ^ 2 <= C) by (unfold C; assert (1 * T ^ 2 <= (1 + f_u) ^ 5 * T ^ 2) by (apply Rmult_le_compat_r; lra); lra).
    assert (Hsq : forall i, (i < n)%nat -> f_valid (qq i) /\ f_finite (qq i) = true /\ 0 <= f_real (qq i) <= C).
    { intros i Hi. destruct (Hrow i Hi) as (Vr & Fr & Br). unfold qq, row_square. cbn [fops sc_mul sc_sub sc_zero]. fold (r i).
      pose proof (dr_h _ _ _ _ _ _ _ D i Hi) as Vh.
      assert (TL : T <= f_limit).
      { assert (0 <= (1 + q) * dmax * (X + E)) by (apply Rmult_le_pos; lra). lra. }
      assert (Ft : f_finite (SFsub 53 1024 (r i) (h i)) = true) by (apply f_sub_finite; auto; lra).
      assert (Vt : f_valid (SFsub 53 1024 (r i) (h i))) by (apply f_sub_valid; auto).
      destruct (f_sub_error (r i) (h i) Vr Vh Ft) as (dd & Hdd & Et).
      assert (Bt : Rabs (f_real (SFsub 53 1024 (r i) (h i))) <= (1 + f_u) * T).
      { rewrite Et, Rabs_mult, Rmult_comm. apply Rmult_le_compat; try apply Rabs_pos; [|exact Br].
        apply Rle_trans with (1 := Rabs_triang _ _). rewrite Rabs_R1. lra. }
      assert (Fq : f_finite (SFmul 53 1024 (SFsub 53 1024 (r i) (h i)) (SFsub 53 1024 (r i) (h i))) = true).
      { apply f_mul_finite; auto. rewrite Rabs_mult. apply Rle_trans with ((1 + f_u) * T * ((1 + f_u) * T)).
        - apply Rmult_le_compat; auto; apply Rabs_pos.
        - replace ((1 + f_u) * T * ((1 + f_u) * T)) with ((1 + f_u) ^ 2 * T ^ 2) by ring.
          apply Rle_trans with ((1 + f_u) ^ 5 * T ^ 2); [apply up_le; [lia|exact T2]|]. unfold C in *. lra. }
      destruct (square_error (r i) (h i) Vr Vh) as [Vq Hq']. destruct (Hq' Fq) as (_ & _ & P & _ & U).
      split; [exact Vq|]. split; [exact Fq|]. split; [exact P|]. apply Rle_trans with (1 := U). unfold C.
      apply Rplus_le_compat_r, Rmult_le_compat_l; [lra|]. replace (T ^ 2) with (T * T) by ring.
      rewrite <- (Rabs_pos_eq ((f_real (r i) - f_real (h i)) * (f_real (r i) - f_real (h i)))) by apply Rle_0_sqr.
      rewrite Rabs_mult. apply Rmult_le_compat; auto; apply Rabs_pos. }
    cbn [fops sc_sqrt sc_div sc_zero sc_add sc_of_Z] in E1.
    assert (Fs : f_finite (fsum n qq) = true).
    { apply (fsum_finite n qq C Hsq). assert (0 <= INR n * (1 + f_u) ^ n * C) by (apply Rmult_le_pos; [apply Rmult_le_pos; lra|lra]). lra. }
    assert (Vs : f_valid (fsum n qq)) by (apply fsum_valid; intros i Hi; apply Hsq, Hi).
    destruct (fsum_nonneg n qq) as (S0 & SU & _); [intros i Hi; split; apply (Hsq i Hi)|exact Fs|].
    assert (SB : f_real (fsum n qq) <= INR n * (1 + f_u) ^ n * C).
    { apply Rle_trans with (1 := SU). apply Rle_trans with ((1 + f_u) ^ n * (INR n * C)); [|right; ring].
      apply Rmult_le_compat_l; [lra|]. rewrite <- rsum_const. apply rsum_le. intros i Hi. apply Hsq, Hi. }
    destruct (f_of_Z_finite (Z.of_nat n)) as [VN FN]; [lia|]. destruct (f_of_Z_near (Z.of_nat n)) as (dn & Hdn & EN); [lia|].
    rewrite <- INR_IZR_INZ in EN. set (N := f_of_Z (Z.of_nat n)) in *.
    assert (N2 : 1 / 2 <= f_real N).
    { rewrite EN. apply Rabs_le_between in Hdn. pose proof u_small. apply Rle_trans with (1 * (1 / 2)); [lra|]. apply Rmult_le_compat; lra. }
    assert (Fd : f_finite (SFdiv 53 1024 (fsum n qq) N) = true).
    { apply f_div_finite; auto; [lra|]. rewrite Rabs_pos_eq by (apply Rmult_le_pos; [exact S0|apply Rlt_le, Rinv_0_lt_compat; lra]).
      apply Rle_trans with (f_real (fsum n qq) * 2).
      - apply Rmult_le_compat_l; [exact S0|]. replace 2 with (/ (1 / 2)) by field. apply Rinv_le_contravar; lra.
      - lra. }
    assert (Vd : f_valid (SFdiv 53 1024 (fsum n qq) N)) by (apply f_div_valid; auto).
    assert (Qp : 0 <= f_real (SFdiv 53 1024 (fsum n qq) N)).
    { destruct (f_div_round _ _ Vs VN FN Fd) as (_ & _ & Er). rewrite Er.
      apply Flocq.Core.Generic_fmt.round_ge_generic;
      [apply Flocq.Core.FLT.FLT_exp_valid; reflexivity|apply Flocq.Core.Generic_fmt.valid_rnd_N|apply Flocq.Core.Generic_fmt.generic_format_0|].
      apply Rmult_le_pos; [exact S0|]. apply Rlt_le, Rinv_0_lt_compat. lra. }
    pose proof (f_sqrt_finite _ Vd Fd Qp) as Fl.
    eexists. eexists. split; [exact E1|]. split; [exact Fl|].
    destruct (residual_float n rs h f r Hn HN (fun _ _ => eq_refl) (fun i Hi => proj1 (Hrow i Hi)) (dr_h _ _ _ _ _ _ _ D) Fl)
      as (_ & _ & (i0 & Hi0 & R2) & _ & R4). fold qq N in R2, R4. split.
    - set (L := f_real (SFsqrt 53 1024 (SFdiv 53 1024 (fsum n qq) N))) in *.
      change (L <= (1 + f_u) ^ (n + 10) * (T + 2 * f_theta)).
      assert (LP : L ^ 2 <= ((1 + f_u) ^ (n + 10) * (T + 2 * f_theta)) ^ 2).
      { apply Rle_trans with (1 := R4). set (K := (1 + f_u) ^ (n + 10)). assert (K1 : 1 <= K) by (apply pow_R1_Rle; lra).
        apply Rle_trans with (K * (T + 2 * f_theta) ^ 2).
        - apply Rmult_le_compat_l; [lra|].
          assert (rsum n (fun i => (f_real (r i) - f_real (h i)) ^ 2) / INR n <= T ^ 2).
          { apply Rmult_le_reg_r with (INR n); [lra|]. unfold Rdiv. rewrite Rmult_assoc, Rinv_l, Rmult_1_r by lra.
            rewrite Rmult_comm, <- rsum_const. apply rsum_le. intros i Hi. destruct (Hrow i Hi) as (_ & _ & B).
            rewrite <- (pow2_abs (f_real (r i) - f_real (h i))). apply pow_incr. split; [apply Rabs_pos|exact B]. }
          pose proof eta_theta. assert (0 <= T * f_theta) by (apply Rmult_le_pos; lra).
          replace ((T + 2 * f_theta) ^ 2) with (T ^ 2 + (4 * (T * f_theta) + 4 * (f_theta * f_theta))) by ring. lra.
        - replace ((K * (T + 2 * f_theta)) ^ 2) with (K * (K * (T + 2 * f_theta) ^ 2)) by ring.
          apply Rle_trans with (1 * (K * (T + 2 * f_theta) ^ 2)); [lra|].
          apply Rmult_le_compat_r; [apply Rmult_le_pos; [lra|apply pow2_ge_0]|exact K1]. }
      assert (0 <= (1 + f_u) ^ (n + 10) * (T + 2 * f_theta)) by (apply Rmult_le_pos; [apply pow_le; lra|lra]).
      apply Rsqr_incr_0_var; [|assumption]. rewrite !Rsqr_pow2. exact LP.
    - apply Rle_trans with (1 := R2). apply Rmult_le_compat_l; [apply pow_le; lra|]. destruct (Hrow i0 Hi0) as (_ & _ & B). lra.
  Qed.
End Near.
