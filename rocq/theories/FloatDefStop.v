(** When Gauss-Seidel and SOR in double precision meet a tolerance on symmetric positive definite systems. *)
From Coq Require Import ZArith Reals Lra Lia List Sorted SpecFloat Psatz.
From Flocq Require Import Core BinarySingleNaN.
From Verif Require Import Base ListFacts DenseModel DenseFacts ScalarModel GeometryReal SparseModel SparseSpec
  SparseFacts SparseSeq SparseMul LuModel LuReal IterModel IterFacts IterLoop IterField IterReal FloatFacts FloatError
  IterFloat PropFloatLemmas FloatUnit PropIterLemmas LuSuccess FloatSweep PropSweepLemmas FloatStop FloatStops PropStopLemmas
  FloatForward.
Import ListNotations.
Local Open Scope R_scope.

(** The largest residual of a vector at most [E] away from the solution, with the rounding of its products: [ro] bounds the
    sums of the absolute values of the rows and [X] the solution. *)
Definition d_resid (n : nat) (ro X E : R) : R :=
  ro * E + (f_gamma (n + 1) * (ro * (X + E)) + INR n * (1 + f_u) ^ n * f_eta).

Section Near.
  Variables (M : nat) (dbg : bool) (stray : option nat).
  Variables (n : nat) (a : smat f64) (A : nat -> nat -> f64) (b : list f64) (h : nat -> f64) (ro : R).
  Variables (xs : nat -> R) (X : R).
  Hypothesis D : valid_rows n a A b h.
  Hypothesis FA : forall i j, (i < n)%nat -> (j < n)%nat -> f_finite (A i j) = true.
  Hypothesis Fh : forall i, (i < n)%nat -> f_finite (h i) = true.
  Hypothesis Hs : forall i, (i < n)%nat -> rsum n (fun j => f_real (A i j) * xs j) = f_real (h i).
  Hypothesis HX : forall i, (i < n)%nat -> Rabs (xs i) <= X.
  Hypothesis Hro0 : 0 <= ro.
  Hypothesis Hrows : forall i, (i < n)%nat -> rsum n (fun j => Rabs (f_real (A i j))) <= ro.
  Hypothesis Hn : (0 < n)%nat.
  Hypothesis HN : (Z.of_nat n < 2 ^ 64)%Z.

  Lemma near_X : 0 <= X.
  Proof using HX Hn. specialize (HX 0%nat Hn). pose proof (Rabs_pos (xs 0%nat)). lra. Qed.

  Lemma row_weight i (e : nat -> R) E : (i < n)%nat -> 0 <= E -> (forall j, (j < n)%nat -> Rabs (e j) <= E) ->
    rsum n (fun j => Rabs (f_real (A i j) * e j)) <= ro * E.
  Proof using Hrows.
    intros Hi HE He. apply Rle_trans with (E * rsum n (fun j => Rabs (f_real (A i j)))).
    - rewrite <- rsum_scale. apply rsum_le. intros j Hj. rewrite Rabs_mult, Rmult_comm.
      apply Rmult_le_compat_r; [apply Rabs_pos|apply He, Hj].
    - rewrite (Rmult_comm ro). apply Rmult_le_compat_l; auto.
  Qed.

  (** The computed residual of a vector close to the solution. *)
  Lemma rows_residual x f E : is_vec n x f -> finite_vec n f -> 0 <= E -> within n f xs E ->
    let T := d_resid n ro X E in room n (ro * (X + E) + T) T ->
    exists l2 linf, compute_residual fops dbg stray a x b = Ok (l2, linf) /\ f_finite l2 = true /\
      f_real l2 <= (1 + f_u) ^ (n + 10) * (T + 2 * f_theta) /\ f_real linf <= (1 + f_u) ^ 4 * (T + f_theta).
  Proof using D FA Fh Hs HX Hro0 Hrows Hn HN.
    intros Hx Hf HE He T [HW HR]. pose proof u_pos as Hu. pose proof eta_pos as Heta. pose proof theta_pos as Hth.
    pose proof near_X as HX0. pose proof Hro0 as Hqm.
    assert (Vf : valid_vec n f) by (intros i Hi; apply Hf, Hi).
    assert (HF : forall j, (j < n)%nat -> Rabs (f_real (f j)) <= X + E).
    { intros j Hj. replace (f_real (f j)) with (xs j + (f_real (f j) - xs j)) by ring.
      apply Rle_trans with (1 := Rabs_triang _ _). specialize (HX j Hj). specialize (He j Hj). lra. }
    set (G := f_gamma (n + 1) * (ro * (X + E)) + INR n * (1 + f_u) ^ n * f_eta).
    assert (HT : T = ro * E + G) by reflexivity.
    assert (G0 : 0 <= G).
    { unfold G. assert (0 <= f_gamma (n + 1) * (ro * (X + E))) by (apply Rmult_le_pos; [apply gamma_nonneg|apply Rmult_le_pos; lra]).
      assert (0 <= INR n * (1 + f_u) ^ n * f_eta) by (apply Rmult_le_pos; [apply Rmult_le_pos; [apply pos_INR|apply pow_le; lra]|lra]). lra. }
    assert (T1 : 0 <= ro * E) by (apply Rmult_le_pos; lra). assert (T0 : 0 <= T) by lra.
    assert (Hib : forall i, (i < n)%nat -> rsum n (fun j => Rabs (f_real (A i j) * f_real (f j))) <= ro * (X + E) /\ inner_bound n (A i) f <= G).
    { intros i Hi. assert (W : rsum n (fun j => Rabs (f_real (A i j) * f_real (f j))) <= ro * (X + E)).
      { apply row_weight; auto. lra. }
      split; [exact W|]. unfold inner_bound, G. apply Rplus_le_compat_r, Rmult_le_compat_l; [apply gamma_nonneg|exact W]. }
    assert (Ht : forall i, (i < n)%nat -> Rabs (f_real (h i) - rsum n (fun j => f_real (A i j) * f_real (f j))) <= ro * E).
    { intros i Hi. rewrite <- (Hs i Hi), <- rsum_minus.
      apply Rle_trans with (rsum n (fun j => Rabs (f_real (A i j) * (f_real (f j) - xs j)))).
      - apply Rle_trans with (1 := rsum_abs _ _). apply rsum_le. intros j Hj. rewrite <- Rabs_Ropp. right. apply f_equal. ring.
      - apply (row_weight i (fun j => f_real (f j) - xs j)); auto. }
    destruct (vr_rows dbg stray n a A b h D) as (rs & d & Hro & Hso & Hdi & Hen).
    destruct (vr_square _ _ _ _ _ D) as (Hw & Hr & Hc & HA).
    pose proof (residual_ok fops dbg stray n a b rs h x f (ro_repr _ _ _ _ _ _ _ _ Hro) Hso (ro_len _ _ _ _ _ _ _ _ Hro)
      (vr_rhs _ _ _ _ _ D) Hx Hc) as E1. specialize (E1 ltac:(lia)).
    set (r := fun i => full_sum fops (nth i rs []) f (S754_zero false)).
    set (qq := fun i => row_square fops (nth i rs []) (h i) f) in *.
    (* the rows *)
    assert (Hrow : forall i, (i < n)%nat -> f_valid (r i) /\ f_finite (r i) = true /\ Rabs (f_real (r i) - f_real (h i)) <= T).
    { intros i Hi. assert (Hin : forall j v, In (j, v) (nth i rs []) <-> stored a i j v).
      { intros j v. symmetry. apply (srepr_stored _ _ _ _ _ (ro_repr _ _ _ _ _ _ _ _ Hro)). }
      destruct (Hso i) as [Hsort Hlt]; [rewrite (ro_len _ _ _ _ _ _ _ _ Hro); exact Hi|].
      destruct (sparse_row_error n a A f i (nth i rs []) Hw Hc HA) as [Vr Br]; auto.
      { intros j Hj. apply (vr_A _ _ _ _ _ D); auto. }
      destruct (Hib i Hi) as [W1 W2]. fold (r i) in Vr, Br. split; [exact Vr|].
      assert (Fr : f_finite (r i) = true).
      { unfold r. rewrite full_sum_fsum. set (es := nth i rs []) in *. set (k := length es).
        assert (Hent : forall t, (t < k)%nat -> f_valid (snd (entry t es)) /\ f_finite (snd (entry t es)) = true /\ (fst (entry t es) < n)%nat).
        { intros t Htk. assert (H : In (entry t es) es) by (apply nth_In, Htk). destruct (entry t es) as [j v] eqn:Ee.
          destruct (Hen i j v Hi H) as [Hj ->]. cbn [fst snd]. split; [apply (vr_A _ _ _ _ _ D)|split; [apply FA|]]; auto. }
        assert (Hk : (k <= n)%nat).
        { unfold k. rewrite <- (map_length fst es), <- (seq_length n 0). apply NoDup_incl_length.
          - clear - Hsort. induction (map fst es) as [|j l IH]; constructor; inversion Hsort; subst.
            + intro H. rewrite Forall_forall in H2. specialize (H2 _ H). lia.
            + apply IH; auto.
          - intros j Hj. apply in_seq. specialize (Hlt j Hj). lia. }
        assert (Es : rsum k (fun t => Rabs (f_real (snd (entry t es)) * f_real (f (fst (entry t es))))) =
          rsum n (fun j => Rabs (f_real (A i j) * f_real (f j)))).
        { apply (entries_sum n es (A i) (fun j v => Rabs (f_real v * f_real (f j)))); auto.
          - intros j v Hj. symmetry. apply (Hen i j v Hi Hj).
          - intros j Hj. apply (proj2 (HA i j)). intros v Hv. apply Hj. apply Hin in Hv. apply (in_map fst) in Hv. exact Hv.
          - intro j. cbn [f_real]. rewrite Rmult_0_l. apply Rabs_R0. }
        apply (inner_finite k (fun t => snd (entry t es)) (fun t => f (fst (entry t es)))).
        - intros t Htk. destruct (Hent t Htk) as (V & F & _). auto.
        - intros t Htk. apply Hf, Hent, Htk.
        - unfold inner_bound. rewrite Es.
          apply Rle_trans with (ro * (X + E) + G); [|lra]. apply Rplus_le_compat; [exact W1|].
          unfold G. apply Rplus_le_compat.
          + apply Rmult_le_compat; [apply gamma_nonneg|apply rsum_nonneg; intros; apply Rabs_pos|apply gamma_le; lia|exact W1].
          + apply Rmult_le_compat_r; [lra|]. apply Rmult_le_compat; [apply pos_INR|apply pow_le; lra|apply le_INR, Hk|apply Rle_pow; [lra|lia]]. }
      split; [exact Fr|]. specialize (Br Fr).
      replace (f_real (r i) - f_real (h i)) with ((f_real (r i) - rsum n (fun j => f_real (A i j) * f_real (f j))) -
        (f_real (h i) - rsum n (fun j => f_real (A i j) * f_real (f j)))) by ring.
      apply Rle_trans with (1 := Rabs_triang _ _). rewrite Rabs_Ropp. specialize (Ht i Hi). lra. }
    (* the squares *)
    set (C := (1 + f_u) ^ 5 * T ^ 2 + f_eta). assert (T2 : 0 <= T ^ 2) by apply pow2_ge_0.
    assert (P5 : 1 <= (1 + f_u) ^ 5) by (apply pow_R1_Rle; lra). assert (Pn : 1 <= (1 + f_u) ^ n) by (apply pow_R1_Rle; lra).
    assert (In1 : 1 <= INR n) by (change 1 with (INR 1); apply le_INR; lia).
    assert (C0 : 0 <= C) by (unfold C; assert (0 <= (1 + f_u) ^ 5 * T ^ 2) by (apply Rmult_le_pos; lra); lra).
    assert (HC : 2 * C <= 2 * INR n * (1 + f_u) ^ n * C).
    { apply Rmult_le_compat_r; [exact C0|]. rewrite <- (Rmult_1_r 2) at 1. rewrite Rmult_assoc. apply Rmult_le_compat_l; [lra|].
      rewrite <- (Rmult_1_r 1) at 1. apply Rmult_le_compat; lra. }
    fold C in HR. assert (HTl : T ^ 2 <= C) by (unfold C; assert (1 * T ^ 2 <= (1 + f_u) ^ 5 * T ^ 2) by (apply Rmult_le_compat_r; lra); lra).
    assert (Hsq : forall i, (i < n)%nat -> f_valid (qq i) /\ f_finite (qq i) = true /\ 0 <= f_real (qq i) <= C).
    { intros i Hi. destruct (Hrow i Hi) as (Vr & Fr & Br). unfold qq, row_square. cbn [fops sc_mul sc_sub sc_zero]. fold (r i).
      pose proof (vr_h _ _ _ _ _ D i Hi) as Vh.
      assert (TL : T <= f_limit).
      { assert (0 <= ro * (X + E)) by (apply Rmult_le_pos; lra). lra. }
      assert (Ft : f_finite (SFsub 53 1024 (r i) (h i)) = true) by (apply f_sub_finite; auto; lra).
      assert (Vt : f_valid (SFsub 53 1024 (r i) (h i))) by (apply f_sub_valid; auto).
      destruct (f_sub_error (r i) (h i) Vr Vh Ft) as (dd & Hdd & Et).
      assert (Bt : Rabs (f_real (SFsub 53 1024 (r i) (h i))) <= (1 + f_u) * T).
      { rewrite Et, Rabs_mult, Rmult_comm. apply Rmult_le_compat; try apply Rabs_pos; [|exact Br].
        apply Rle_trans with (1 := Rabs_triang _ _). rewrite Rabs_R1. lra. }
      assert (Fq : f_finite (SFmul 53 1024 (SFsub 53 1024 (r i) (h i)) (SFsub 53 1024 (r i) (h i))) = true).
      { apply f_mul_finite; auto. rewrite Rabs_mult. apply Rle_trans with ((1 + f_u) * T * ((1 + f_u) * T)).
        - apply Rmult_le_compat; auto; apply Rabs_pos.
        - replace ((1 + f_u) * T * ((1 + f_u) * T)) with ((1 + f_u) ^ 2 * T ^ 2) by ring.
          apply Rle_trans with ((1 + f_u) ^ 5 * T ^ 2); [apply up_le; [lia|exact T2]|]. unfold C in *. lra. }
      destruct (square_error (r i) (h i) Vr Vh) as [Vq Hq']. destruct (Hq' Fq) as (_ & _ & P & _ & U).
      split; [exact Vq|]. split; [exact Fq|]. split; [exact P|]. apply Rle_trans with (1 := U). unfold C.
      apply Rplus_le_compat_r, Rmult_le_compat_l; [lra|]. replace (T ^ 2) with (T * T) by ring.
      rewrite <- (Rabs_pos_eq ((f_real (r i) - f_real (h i)) * (f_real (r i) - f_real (h i)))) by apply Rle_0_sqr.
      rewrite Rabs_mult. apply Rmult_le_compat; auto; apply Rabs_pos. }
    cbn [fops sc_sqrt sc_div sc_zero sc_add sc_of_Z] in E1.
    assert (Fs : f_finite (fsum n qq) = true).
    { apply (fsum_finite n qq C Hsq). assert (0 <= INR n * (1 + f_u) ^ n * C) by (apply Rmult_le_pos; [apply Rmult_le_pos; lra|lra]). lra. }
    assert (Vs : f_valid (fsum n qq)) by (apply fsum_valid; intros i Hi; apply Hsq, Hi).
    destruct (fsum_nonneg n qq) as (S0 & SU & _); [intros i Hi; split; apply (Hsq i Hi)|exact Fs|].
    assert (SB : f_real (fsum n qq) <= INR n * (1 + f_u) ^ n * C).
    { apply Rle_trans with (1 := SU). apply Rle_trans with ((1 + f_u) ^ n * (INR n * C)); [|right; ring].
      apply Rmult_le_compat_l; [lra|]. rewrite <- rsum_const. apply rsum_le. intros i Hi. apply Hsq, Hi. }
    destruct (f_of_Z_finite (Z.of_nat n)) as [VN FN]; [lia|]. destruct (f_of_Z_near (Z.of_nat n)) as (dn & Hdn & EN); [lia|].
    rewrite <- INR_IZR_INZ in EN. set (N := f_of_Z (Z.of_nat n)) in *.
    assert (N2 : 1 / 2 <= f_real N).
    { rewrite EN. apply Rabs_le_between in Hdn. pose proof u_small. apply Rle_trans with (1 * (1 / 2)); [lra|]. apply Rmult_le_compat; lra. }
    assert (Fd : f_finite (SFdiv 53 1024 (fsum n qq) N) = true).
    { apply f_div_finite; auto; [lra|]. rewrite Rabs_pos_eq by (apply Rmult_le_pos; [exact S0|apply Rlt_le, Rinv_0_lt_compat; lra]).
      apply Rle_trans with (f_real (fsum n qq) * 2).
      - apply Rmult_le_compat_l; [exact S0|]. replace 2 with (/ (1 / 2)) by field. apply Rinv_le_contravar; lra.
      - lra. }
    assert (Vd : f_valid (SFdiv 53 1024 (fsum n qq) N)) by (apply f_div_valid; auto).
    assert (Qp : 0 <= f_real (SFdiv 53 1024 (fsum n qq) N)).
    { destruct (f_div_round _ _ Vs VN FN Fd) as (_ & _ & Er). rewrite Er.
      apply Flocq.Core.Generic_fmt.round_ge_generic;
      [apply Flocq.Core.FLT.FLT_exp_valid; reflexivity|apply Flocq.Core.Generic_fmt.valid_rnd_N|apply Flocq.Core.Generic_fmt.generic_format_0|].
      apply Rmult_le_pos; [exact S0|]. apply Rlt_le, Rinv_0_lt_compat. lra. }
    pose proof (f_sqrt_finite _ Vd Fd Qp) as Fl.
    eexists. eexists. split; [exact E1|]. split; [exact Fl|].
    destruct (residual_float n rs h f r Hn HN (fun _ _ => eq_refl) (fun i Hi => proj1 (Hrow i Hi)) (vr_h _ _ _ _ _ D) Fl)
      as (_ & _ & (i0 & Hi0 & R2) & _ & R4). fold qq N in R2, R4. split.
    - set (L := f_real (SFsqrt 53 1024 (SFdiv 53 1024 (fsum n qq) N))) in *.
      change (L <= (1 + f_u) ^ (n + 10) * (T + 2 * f_theta)).
      assert (LP : L ^ 2 <= ((1 + f_u) ^ (n + 10) * (T + 2 * f_theta)) ^ 2).
      { apply Rle_trans with (1 := R4). set (K := (1 + f_u) ^ (n + 10)). assert (K1 : 1 <= K) by (apply pow_R1_Rle; lra).
        apply Rle_trans with (K * (T + 2 * f_theta) ^ 2).
        - apply Rmult_le_compat_l; [lra|].
          assert (rsum n (fun i => (f_real (r i) - f_real (h i)) ^ 2) / INR n <= T ^ 2).
          { apply Rmult_le_reg_r with (INR n); [lra|]. unfold Rdiv. rewrite Rmult_assoc, Rinv_l, Rmult_1_r by lra.
            rewrite Rmult_comm, <- rsum_const. apply rsum_le. intros i Hi. destruct (Hrow i Hi) as (_ & _ & B).
            rewrite <- (pow2_abs (f_real (r i) - f_real (h i))). apply pow_incr. split; [apply Rabs_pos|exact B]. }
          pose proof eta_theta. assert (0 <= T * f_theta) by (apply Rmult_le_pos; lra).
          replace ((T + 2 * f_theta) ^ 2) with (T ^ 2 + (4 * (T * f_theta) + 4 * (f_theta * f_theta))) by ring. lra.
        - replace ((K * (T + 2 * f_theta)) ^ 2) with (K * (K * (T + 2 * f_theta) ^ 2)) by ring.
          apply Rle_trans with (1 * (K * (T + 2 * f_theta) ^ 2)); [lra|].
          apply Rmult_le_compat_r; [apply Rmult_le_pos; [lra|apply pow2_ge_0]|exact K1]. }
      assert (0 <= (1 + f_u) ^ (n + 10) * (T + 2 * f_theta)) by (apply Rmult_le_pos; [apply pow_le; lra|lra]).
      apply Rsqr_incr_0_var; [|assumption]. rewrite !Rsqr_pow2. exact LP.
    - apply Rle_trans with (1 := R2). apply Rmult_le_compat_l; [apply pow_le; lra|]. destruct (Hrow i0 Hi0) as (_ & _ & B). lra.
  Qed.
  Lemma rows_stop_at lim s step x' cd k xk wk f E x1 w1 r1 rm1 : run fops M dbg stray a b lim s step x' cd -> valid_state n s ->
    (min_iterations lim <= k)%nat -> (1 <= k <= M)%nat -> (min_iterations lim <= M)%nat -> (max_iteration lim < M)%nat ->
    f_valid (tolerance lim) -> f_finite (tolerance lim) = true -> 0 <= f_real (tolerance lim) -> 10 * f_real (tolerance lim) + 1 <= f_limit / 2 ->
    times step k s = Ok (xk, wk) -> is_vec n xk f -> finite_vec n f -> 0 <= E -> within n f xs E ->
    times step 1 s = Ok (x1, w1) -> compute_residual fops dbg stray a x1 b = Ok (r1, rm1) -> f_finite r1 = true ->
    0 < f_real r1 -> 0 < f_real rm1 ->
    let T := d_resid n ro X E in room n (ro * (X + E) + T) T -> meets n (f_real (tolerance lim)) (f_real r1) (f_real rm1) T ->
    (cd_iteration cd <= k)%nat.
  Proof using D FA Fh Hs HX Hro0 Hrows Hn HN.
    intros H Hvs Hmin Hk H1 H2 Vt Ft Pt Lt Ek Hf Ff HE He E1 C1 F1 P1 PM1 T HR [HM1 HM2].
    pose proof u_pos as Hu. pose proof eta_pos as Heta. pose proof theta_pos as Hth. pose proof u_small as Us. pose proof eta_one as E1'.
    destruct (Nat.le_gt_cases (cd_iteration cd) k) as [L|L]; [exact L|exfalso].
    destruct (run_before fops M dbg stray a b lim s step x' cd k H H1 H2 L) as (t & c & (Et & _ & Hc) & Hnc).
    rewrite Ek in Et. injection Et as <-. destruct Hc as (Ei & _ & Hp); [lia|].
    destruct Hp as ([y1 v1] & [r rm] & [r0 rm0] & G1 & G2 & G3 & N0 & N1 & N2 & N3 & N4 & N5); [lia|]. cbn [fst snd] in *.
    rewrite E1 in G1. injection G1 as <- <-. rewrite C1 in G3. injection G3 as <- <-.
    destruct (v_run_valid M dbg stray n a A b h D lim s step x' cd 1 x1 w1 H Hvs E1) as (g & Hg & Vg).
    destruct (v_residual_more dbg stray n a A b h D x1 g r1 rm1) as (_ & Vr1 & _ & Vm1 & Fm1 & _); auto.
    destruct (rows_residual xk f E Hf Ff HE He HR) as (l2 & linf & C2 & Fl & B1 & B2). fold T in B1, B2.
    rewrite C2 in G2. injection G2 as <- <-.
    destruct (v_residual_more dbg stray n a A b h D xk f l2 linf) as (_ & Vl & Pl & Vm & Fm & Pm); auto.
    { intros i Hi. apply Ff, Hi. }
    destruct (ten_times _ Vt Ft Pt) as (V10 & F10 & B10); [lra|]. set (t10 := SFmul 53 1024 (f_of_Z 10) (tolerance lim)) in *.
    apply Rabs_le_between in B10. assert (UT : f_u * (10 * f_real (tolerance lim)) <= 1 * (10 * f_real (tolerance lim))) by (apply Rmult_le_compat_r; lra).
    unfold is_converged in Hnc. rewrite Ei, N2, N5 in Hnc. cbn [fops sc_lt sc_mul sc_of_Z sc_div] in Hnc.
    destruct (Nat.ltb_spec k (min_iterations lim)); [lia|]. destruct (Nat.ltb_spec (max_iteration lim) k); [discriminate|].
    change (fun x y => SFltb x y) with SFltb in Hnc. fold t10 in Hnc.
    assert (Q1 : SFltb (tolerance lim) (SFdiv 53 1024 l2 r1) = false).
    { apply (quotient_small l2 r1 _ ((1 + f_u) ^ (n + 10) * (T + 2 * f_theta))); auto; [|lra].
      apply Rle_trans with (2 := HM1). right. replace (n + 11)%nat with (S (n + 10)) by lia. cbn [pow]. field. lra. }
    assert (Q2 : SFltb t10 (SFdiv 53 1024 linf rm1) = false).
    { apply (quotient_small linf rm1 _ ((1 + f_u) ^ 4 * (T + f_theta))); auto; [|lra].
      replace ((1 + f_u) * ((1 + f_u) ^ 4 * (T + f_theta) / f_real rm1)) with ((1 + f_u) ^ 5 * ((T + f_theta) / f_real rm1)) by (field; lra). lra. }
    rewrite Q1, Q2 in Hnc. discriminate.
  Qed.
End Near.
