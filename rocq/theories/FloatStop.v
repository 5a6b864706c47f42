(** What the residual an iterative solver reports says about the error of its result, in double precision. *)
From Coq Require Import ZArith Reals Lra Lia List Sorted SpecFloat Psatz.
From Verif Require Import Base ListFacts DenseModel DenseFacts ScalarModel GeometryReal SparseModel SparseSpec
  SparseFacts SparseSeq SparseMul LuModel LuReal IterModel IterFacts IterLoop IterField IterReal FloatFacts FloatError
  IterFloat PropFloatLemmas FloatUnit PropIterLemmas LuSuccess FloatSweep PropSweepLemmas.
Import ListNotations.
Local Open Scope R_scope.

(** A system of finite doubles with dominant rows: the sum of the absolute values beside the diagonal is at most
    q < 1 times the one on the diagonal, which is at least [lo]. *)
Record dominant_rows (n : nat) (a : smat f64) (A : nat -> nat -> f64) (b : list f64) (h : nat -> f64) (q lo : R) : Prop := {
  dr_square : sparse_square (S754_zero false) n a A;
  dr_rhs : is_vec n b h;
  dr_A : forall i j, (i < n)%nat -> (j < n)%nat -> f_valid (A i j) /\ f_finite (A i j) = true;
  dr_h : forall i, (i < n)%nat -> f_valid (h i);
  dr_q : 0 <= q < 1;
  dr_lo : 0 < lo /\ forall i, (i < n)%nat -> lo <= Rabs (f_real (A i i));
  dr_dom : forall i, (i < n)%nat ->
    rsum n (fun j => if (j =? i)%nat then 0 else Rabs (f_real (A i j))) <= q * Rabs (f_real (A i i))
}.

Definition valid_vec n (f : nat -> f64) : Prop := forall i, (i < n)%nat -> f_valid (f i).

(** The bound of the error: [r] is the reported largest residual, [F] bounds the result. *)
Definition f_error (n : nat) (q lo F r : R) : R :=
  ((1 + f_u) ^ 4 * (r + f_theta) / lo + (f_gamma (n + 1) * ((1 + q) * F) + INR n * (1 + f_u) ^ n * f_eta / lo)) / (1 - q).

Lemma fold_valid es (f : nat -> f64) : forall s, f_valid s -> (forall e, In e es -> f_valid (snd e) /\ f_valid (f (fst e))) ->
  f_valid (full_sum fops es f s).
Proof.
  induction es as [|e es IH]; intros s Hs H; [exact Hs|]. unfold full_sum. cbn [fold_left]. apply IH.
  - apply f_add_valid; [exact Hs|]. destruct (H e); [left; reflexivity|]. apply f_mul_valid; auto.
  - intros e' He'. apply H. right. exact He'.
Qed.

Lemma fold_finite es (f : nat -> f64) : forall s, f_valid s -> (forall e, In e es -> f_valid (snd e) /\ f_valid (f (fst e))) ->
  f_finite (full_sum fops es f s) = true -> f_finite s = true /\ forall e, In e es -> f_finite (f (fst e)) = true.
Proof.
  induction es as [|e es IH]; intros s Hs H Hf; [split; [exact Hf|contradiction]|]. unfold full_sum in Hf. cbn [fold_left] in Hf.
  destruct (H e) as [V1 V2]; [left; reflexivity|].
  assert (Vm : f_valid (SFmul 53 1024 (snd e) (f (fst e)))) by (apply f_mul_valid; auto).
  apply IH in Hf as [F1 F2].
  - destruct (f_add_error _ _ Hs Vm F1) as (Fs & Fm & _). destruct (f_mul_error _ _ V1 V2 Fm) as (_ & Ff & _).
    split; [exact Fs|]. intros e' [<-|He']; [exact Ff|apply F2, He'].
  - apply f_add_valid; auto.
  - intros e' He'. apply H. right. exact He'.
Qed.

Lemma filter_off i es (f : nat -> f64) s : off_sum fops i es f s = full_sum fops (filter (fun e => negb (fst e =? i)%nat) es) f s.
Proof.
  revert s; induction es as [|e es IH]; intro s; [reflexivity|]. unfold off_sum. cbn [fold_left filter].
  destruct (fst e =? i)%nat; cbn [negb]; apply IH.
Qed.

Section Rows.
  Variables (M : nat) (dbg : bool) (stray : option nat).
  Variables (n : nat) (a : smat f64) (A : nat -> nat -> f64) (b : list f64) (h : nat -> f64) (q lo : R).
  Hypothesis D : dominant_rows n a A b h q lo.

  Lemma dr_stored i : (i < n)%nat -> stored a i i (A i i).
  Proof using D.
    intro Hi. destruct (dr_square _ _ _ _ _ _ _ D) as (Hw & Hr & Hc & HA). destruct (dr_lo _ _ _ _ _ _ _ D) as [Hl Hlo].
    destruct (stored_dec a i i Hw) as [(v & Hv)|Hn].
    - rewrite (proj1 (HA i i) v Hv). exact Hv.
    - specialize (Hlo i Hi). rewrite (proj2 (HA i i) Hn) in Hlo. cbn [f_real] in Hlo. rewrite Rabs_R0 in Hlo. lra.
  Qed.

  Lemma dr_system : square_system n a b.
  Proof using D.
    destruct (dr_square _ _ _ _ _ _ _ D) as (Hw & Hr & Hc & HA).
    split; [exact Hw|]. split; [exact Hr|]. split; [exact Hc|]. split; [apply (dr_rhs _ _ _ _ _ _ _ D)|].
    intros i Hi. exists (A i i). apply dr_stored, Hi.
  Qed.

  Lemma dr_rows : exists rs d, rows_of dbg stray n a b rs d h /\ srows_ok n rs /\
    (forall k, (k < n)%nat -> d k = A k k) /\
    forall i j v, (i < n)%nat -> In (j, v) (nth i rs []) -> (j < n)%nat /\ v = A i j.
  Proof using D.
    destruct (dr_square _ _ _ _ _ _ _ D) as (Hw & Hr & Hc & HA).
    destruct (system_rows fops dbg stray n a b dr_system) as (rs & d & Hro & Hs & Hdi).
    exists rs, d. split; [destruct Hro; constructor; auto; apply (dr_rhs _ _ _ _ _ _ _ D)|]. split; [exact Hs|]. split.
    - intros k Hk. symmetry. apply (proj1 (HA k k)), Hdi, Hk.
    - intros i j v Hi Hin. split; [apply (ro_cols _ _ _ _ _ _ _ _ Hro i j Hi), in_map_iff; exists (j, v); auto|].
      symmetry. apply (proj1 (HA i j)). apply (srepr_stored _ _ _ _ _ (ro_repr _ _ _ _ _ _ _ _ Hro)). exact Hin.
  Qed.

  Lemma swept_valid rs d w f i : rows_of dbg stray n a b rs d h -> (forall k, (k < n)%nat -> d k = A k k) ->
    (forall i j v, (i < n)%nat -> In (j, v) (nth i rs []) -> (j < n)%nat /\ v = A i j) ->
    f_valid w -> valid_vec n f -> (i < n)%nat -> f_valid (swept fops rs d h w i f).
  Proof using D.
    intros Hro Hd He Vw Vf Hi. unfold swept, new_value. rewrite Hd by exact Hi. rewrite filter_off.
    assert (Vo : f_valid (full_sum fops (filter (fun e => negb (fst e =? i)%nat) (nth i rs [])) f (sc_zero fops))).
    { apply fold_valid; [reflexivity|]. intros [j v] Hin. apply filter_In in Hin as [Hin _]. cbn [fst snd].
      destruct (He i j v Hi Hin) as [Hj ->]. split; [apply (dr_A _ _ _ _ _ _ _ D); auto|apply Vf, Hj]. }
    cbn [fops sc_add sc_mul sc_sub sc_div sc_one].
    apply f_add_valid.
    - apply f_div_valid; [apply f_mul_valid; [exact Vw|apply f_sub_valid; [apply (dr_h _ _ _ _ _ _ _ D), Hi|exact Vo]]|].
      apply (dr_A _ _ _ _ _ _ _ D); auto.
    - apply f_mul_valid; [apply f_sub_valid; [reflexivity|exact Vw]|apply Vf, Hi].
  Qed.

  Definition valid_state (s : list f64 * list f64) : Prop := exists f, is_vec n (fst s) f /\ valid_vec n f.

  Lemma seidel_valid w s s' : f_valid w -> valid_state s ->
    (do x <- forward_sweep fops dbg stray a None (fst s) b w; Ok (x, snd s)) = Ok s' -> valid_state s'.
  Proof using D.
    intros Vw (f & Hx & Vf) E. destruct dr_rows as (rs & d & Hro & Hso & Hd & He).
    destruct (seidel_sweep_ok fops dbg stray n a b rs d h (fst s) f w Hro Hx) as (x' & z & Es & Hx' & Hz).
    rewrite Es in E. cbn [bind] in E. injection E as <-. exists z. split; [exact Hx'|].
    intro i. induction i as [i IH] using lt_wf_ind. intro Hi. rewrite Hz by exact Hi.
    apply swept_valid; auto. intros j Hj. destruct (Nat.ltb_spec j i); [apply IH; auto|apply Vf, Hj].
  Qed.

  Lemma jacobi_valid s s' : valid_state s -> length (snd s) = n -> jacobi_step fops dbg stray a b s = Ok s' ->
    valid_state s' /\ length (snd s') = n.
  Proof using D.
    intros (f & Hx & Vf) Hw E. destruct dr_rows as (rs & d & Hro & Hso & Hd & He).
    destruct (jacobi_sweep_ok fops dbg stray n a b rs d h (fst s) (snd s) f (sc_one fops) Hro Hx Hw) as (x' & Es & Hx').
    unfold jacobi_step in E. rewrite Es in E. cbn [bind] in E. injection E as <-. split; [|apply Hx].
    eexists. split; [exact Hx'|]. intros i Hi. apply swept_valid; auto. reflexivity.
  Qed.

  Lemma times_inv {T} (P : T -> Prop) (step : T -> res T) k s s' : (forall s s', P s -> step s = Ok s' -> P s') ->
    P s -> times step k s = Ok s' -> P s'.
  Proof using.
    clear. intro H. revert s'; induction k as [|k IH]; intros s' Hs E; cbn [times] in E.
    - injection E as <-. exact Hs.
    - destruct (times step k s) as [t| | |] eqn:Et; cbn [bind] in E; try discriminate. apply (H t s'); auto.
  Qed.

  Lemma run_valid lim s step x' cd k y w' : run fops M dbg stray a b lim s step x' cd -> valid_state s ->
    times step k s = Ok (y, w') -> exists f, is_vec n y f /\ valid_vec n f.
  Proof using D.
    intros H Hs Et. destruct H as [fuel w x x' v cd H|fuel x x' cd H|fuel rho x x' cd H].
    - apply (times_inv (fun s => valid_state s /\ length (snd s) = n)) in Et; [apply Et|..].
      + intros s s' [H1 H2] E. apply (jacobi_valid s); auto.
      + split; [exact Hs|]. cbn [snd]. rewrite vresize_length'. apply (dr_square _ _ _ _ _ _ _ D).
    - apply (times_inv valid_state) in Et; [apply Et| |exact Hs]. intros s s' H1 E. apply (seidel_valid (sc_one fops) s); auto. reflexivity.
    - apply (times_inv valid_state) in Et; [apply Et| |exact Hs]. intros s s' H1 E. apply (seidel_valid (sor_factor fops) s); auto. reflexivity.
  Qed.

  (** What the two reported numbers say, beyond C88. *)
  Lemma residual_more x f l2 linf : is_vec n x f -> valid_vec n f -> (0 < n)%nat -> (Z.of_nat n < 2 ^ 64)%Z ->
    compute_residual fops dbg stray a x b = Ok (l2, linf) -> f_finite l2 = true ->
    finite_vec n f /\ f_valid l2 /\ 0 <= f_real l2 /\ f_valid linf /\ f_finite linf = true /\ 0 <= f_real linf.
  Proof using D.
    intros Hx Vf Hn HN E Fl. destruct dr_rows as (rs & d & Hro & Hso & Hd & He).
    destruct (dr_square _ _ _ _ _ _ _ D) as (Hw & Hr & Hc & HA).
    rewrite (residual_ok fops dbg stray n a b rs h x f (ro_repr _ _ _ _ _ _ _ _ Hro) Hso (ro_len _ _ _ _ _ _ _ _ Hro)
      (dr_rhs _ _ _ _ _ _ _ D) Hx Hc) in E by lia. injection E as <- <-.
    set (qq := fun i => row_square fops (nth i rs []) (h i) f) in *.
    assert (Vr : forall i, (i < n)%nat -> f_valid (full_sum fops (nth i rs []) f (sc_zero fops))).
    { intros i Hi. apply fold_valid; [reflexivity|]. intros [j v] Hin. destruct (He i j v Hi Hin) as [Hj ->]. cbn [fst snd].
      split; [apply (dr_A _ _ _ _ _ _ _ D); auto|apply Vf, Hj]. }
    assert (Hsq : forall i, (i < n)%nat -> f_valid (qq i) /\ (f_finite (qq i) = true ->
      f_finite (full_sum fops (nth i rs []) f (sc_zero fops)) = true /\ 0 <= f_real (qq i))).
    { intros i Hi. unfold qq, row_square. cbn [fops sc_mul sc_sub].
      destruct (square_error (full_sum fops (nth i rs []) f (sc_zero fops)) (h i)) as [V1 V2];
        [apply Vr, Hi|apply (dr_h _ _ _ _ _ _ _ D), Hi|]. split; [exact V1|]. intro F. destruct (V2 F) as (F1 & _ & P & _). auto. }
    cbn [fops sc_sqrt sc_div sc_zero sc_add sc_of_Z] in *.
    assert (Vs : f_valid (fsum n qq)) by (apply fsum_valid; intros i Hi; apply Hsq, Hi).
    destruct (f_of_Z_finite (Z.of_nat n)) as [Vn Fn]; [lia|].
    assert (Vd : f_valid (SFdiv 53 1024 (fsum n qq) (f_of_Z (Z.of_nat n)))) by (apply f_div_valid; auto).
    destruct (f_sqrt_error _ Vd Fl) as (Fd & Pd & d2 & Hd2 & E2).
    assert (P2 := keep_sign _ d2 (sqrt_pos (f_real (SFdiv 53 1024 (fsum n qq) (f_of_Z (Z.of_nat n))))) Hd2). rewrite <- E2 in P2.
    destruct (f_div_back _ _ Vs Vn Fn Fd) as (Fs & _).
    destruct (fsum_error n qq) as [Fq _]; [intros i Hi; apply Hsq, Hi|exact Fs|].
    destruct (fold_max_ok n qq) as (Vm & Fm & Pm & _).
    { intros i Hi. split; [apply Hsq, Hi|]. split; [apply Fq, Hi|apply (proj2 (Hsq i Hi)), Fq, Hi]. }
    pose proof (f_sqrt_finite _ Vm Fm Pm) as Fx. destruct (f_sqrt_error _ Vm Fx) as (_ & _ & d1 & Hd1 & E1).
    assert (P1 := keep_sign _ d1 (sqrt_pos (f_real (fold_max fops n qq))) Hd1). rewrite <- E1 in P1.
    split; [|split; [apply f_sqrt_valid, Vd|split; [exact P2|split; [apply f_sqrt_valid, Vm|split; [exact Fx|]]]]].
    - intros i Hi. split; [apply Vf, Hi|]. destruct (proj2 (Hsq i Hi) (Fq i Hi)) as [Fr _].
      pose proof (dr_stored i Hi) as Hst. apply (srepr_stored _ _ _ _ _ (ro_repr _ _ _ _ _ _ _ _ Hro)) in Hst.
      apply fold_finite in Fr as [_ Fr]; [exact (Fr _ Hst)|reflexivity|].
      intros [j v] Hin. destruct (He i j v Hi Hin) as [Hj ->]. cbn [fst snd].
      split; [apply (dr_A _ _ _ _ _ _ _ D); auto|apply Vf, Hj].
    - exact P1.
  Qed.

  (** The error of any vector with a finite residual. *)
  Lemma vector_error xs x f l2 linf F : (forall i, (i < n)%nat -> rsum n (fun j => f_real (A i j) * xs j) = f_real (h i)) ->
    is_vec n x f -> valid_vec n f -> (0 < n)%nat -> (Z.of_nat n < 2 ^ 64)%Z ->
    compute_residual fops dbg stray a x b = Ok (l2, linf) -> f_finite l2 = true ->
    (forall i, (i < n)%nat -> Rabs (f_real (f i)) <= F) -> within n f xs (f_error n q lo F (f_real linf)).
  Proof using D.
    intros Hs Hx Vf Hn HN E Fl HF.
    destruct (residual_more x f l2 linf Hx Vf Hn HN E Fl) as (_ & _ & _ & _ & _ & P0).
    destruct (dr_lo _ _ _ _ _ _ _ D) as [Hl Hlo]. pose proof (dr_q _ _ _ _ _ _ _ D) as Hq.
    destruct (residual_error dbg stray n a A b h x f (dr_square _ _ _ _ _ _ _ D) (dr_rhs _ _ _ _ _ _ _ D) Hx Hn HN) as (l2' & linf' & E' & H).
    { intros. apply (dr_A _ _ _ _ _ _ _ D); auto. } { apply (dr_h _ _ _ _ _ _ _ D). } { exact Vf. }
    rewrite E' in E. injection E as -> ->. destruct (H Fl) as (p & Hp & Hm & _).
    assert (F0 : 0 <= F) by (specialize (HF 0%nat ltac:(lia)); pose proof (Rabs_pos (f_real (f 0%nat))); lra).
    pose proof (dr_dom _ _ _ _ _ _ _ D) as Hdom. pose proof u_pos. pose proof theta_pos. pose proof eta_pos.
    set (B := (1 + f_u) ^ 4 * (f_real linf + f_theta) / lo + (f_gamma (n + 1) * ((1 + q) * F) + INR n * (1 + f_u) ^ n * f_eta / lo)).
    set (K := INR n * (1 + f_u) ^ n * f_eta).
    assert (K0 : 0 <= K) by (apply Rmult_le_pos; [apply Rmult_le_pos; [apply pos_INR|apply pow_le; lra]|lra]).
    set (R0 := (1 + f_u) ^ 4 * (f_real linf + f_theta)).
    assert (R00 : 0 <= R0) by (apply Rmult_le_pos; [apply pow_le; lra|lra]).
    assert (Il : 0 < / lo) by (apply Rinv_0_lt_compat, Hl).
    assert (G0 : 0 <= f_gamma (n + 1) * ((1 + q) * F)) by (apply Rmult_le_pos; [apply gamma_nonneg|apply Rmult_le_pos; lra]).
    assert (B0 : 0 <= B).
    { unfold B. fold K R0. assert (0 <= R0 / lo) by (apply Rmult_le_pos; lra). assert (0 <= K / lo) by (apply Rmult_le_pos; lra). lra. }
    intros i Hi. unfold f_error. fold B. replace (B / (1 - q)) with (B / (1 * (1 - q))) by (field; lra).
    set (g := fun i => rsum n (fun j => f_real (A i j) * (f_real (f j) - xs j))).
    apply (solution_bound n (fun i j => f_real (A i j) / f_real (A i i)) (fun i => g i / f_real (A i i)) q 1 B
             (fun j => f_real (f j) - xs j)); auto; try lra.
    - intros k Hk. specialize (Hlo k Hk). assert (f_real (A k k) <> 0) by (intro Z; rewrite Z, Rabs_R0 in Hlo; lra).
      replace (f_real (A k k) / f_real (A k k)) with 1 by (field; auto). rewrite Rabs_R1. lra.
    - intros k Hk. specialize (Hlo k Hk). assert (Z : f_real (A k k) <> 0) by (intro Z; rewrite Z, Rabs_R0 in Hlo; lra).
      replace (f_real (A k k) / f_real (A k k)) with 1 by (field; auto). rewrite Rabs_R1, Rmult_1_r.
      apply (Rmult_le_reg_l (Rabs (f_real (A k k)))); [lra|]. rewrite <- rsum_scale.
      apply Rle_trans with (2 := Req_le _ _ (Rmult_comm q (Rabs (f_real (A k k))))). apply Rle_trans with (2 := Hdom k Hk).
      apply rsum_le. intros j Hj. destruct (j =? k)%nat; [lra|]. unfold Rdiv. rewrite Rabs_mult, Rabs_inv. right. field. lra.
    - intros k Hk. specialize (Hlo k Hk). assert (Z : f_real (A k k) <> 0) by (intro Z; rewrite Z, Rabs_R0 in Hlo; lra).
      assert (Dp : 0 < Rabs (f_real (A k k))) by lra. unfold Rdiv. rewrite Rabs_mult, Rabs_inv.
      apply (Rmult_le_reg_r (Rabs (f_real (A k k)))); [exact Dp|]. rewrite Rmult_assoc, Rinv_l, Rmult_1_r by lra.
      assert (Eg : g k = - (f_real (h k) - rsum n (fun j => f_real (A k j) * f_real (f j)))).
      { unfold g. rewrite <- (Hs k Hk). rewrite <- rsum_minus. rewrite <- (Rmult_1_l (rsum n _)) at 1.
        replace (- rsum n (fun i0 => f_real (A k i0) * xs i0 - f_real (A k i0) * f_real (f i0))) with
          ((-1) * rsum n (fun i0 => f_real (A k i0) * xs i0 - f_real (A k i0) * f_real (f i0))) by ring.
        rewrite <- !rsum_scale. apply asum_ext. intros; ring. }
      rewrite Eg, Rabs_Ropp. set (t := f_real (h k) - rsum n (fun j => f_real (A k j) * f_real (f j))) in *.
      assert (Ht : Rabs t <= R0 + inner_bound n (A k) f).
      { replace t with (p k - (p k - t)) by ring. apply Rle_trans with (1 := Rabs_triang _ _). rewrite Rabs_Ropp.
        specialize (Hp k Hk). specialize (Hm k Hk). fold t in Hp. fold R0 in Hm. lra. }
      assert (HS : rsum n (fun j => Rabs (f_real (A k j) * f_real (f j))) <= (1 + q) * F * Rabs (f_real (A k k))).
      { apply Rle_trans with (F * rsum n (fun j => Rabs (f_real (A k j)))).
        - rewrite <- rsum_scale. apply rsum_le. intros j Hj. rewrite Rabs_mult, Rmult_comm.
          apply Rmult_le_compat_r; [apply Rabs_pos|apply HF, Hj].
        - rewrite (rsum_out n k) by auto. specialize (Hdom k Hk).
          apply Rle_trans with (F * ((1 + q) * Rabs (f_real (A k k)))); [apply Rmult_le_compat_l; lra|right; ring]. }
      apply Rle_trans with (1 := Ht). unfold inner_bound. fold K. unfold B. fold K R0.
      rewrite !Rmult_plus_distr_r.
      assert (L1 : R0 <= R0 / lo * Rabs (f_real (A k k))).
      { apply Rle_trans with (R0 / lo * lo); [right; field; lra|]. apply Rmult_le_compat_l; [apply Rmult_le_pos; lra|lra]. }
      assert (L2 : K <= K / lo * Rabs (f_real (A k k))).
      { apply Rle_trans with (K / lo * lo); [right; field; lra|]. apply Rmult_le_compat_l; [apply Rmult_le_pos; lra|lra]. }
      assert (L3 : f_gamma (n + 1) * rsum n (fun j => Rabs (f_real (A k j) * f_real (f j))) <= f_gamma (n + 1) * ((1 + q) * F) * Rabs (f_real (A k k))).
      { rewrite (Rmult_assoc (f_gamma (n + 1))). apply Rmult_le_compat_l; [apply gamma_nonneg|exact HS]. }
      lra.
    - intros k Hk. unfold g, Rdiv. rewrite Rmult_comm, <- rsum_scale. apply asum_ext. intros j Hj. ring.
  Qed.

  (** The error of a result. *)
  Lemma run_error lim s step x' cd xs : run fops M dbg stray a b lim s step x' cd -> valid_state s ->
    (forall i, (i < n)%nat -> rsum n (fun j => f_real (A i j) * xs j) = f_real (h i)) ->
    (0 < n)%nat -> (Z.of_nat n < 2 ^ 64)%Z -> (min_iterations lim <= M)%nat -> (max_iteration lim < M)%nat ->
    (1 <= cd_iteration cd)%nat -> f_finite (cd_residual cd) = true ->
    exists f, is_vec n x' f /\ finite_vec n f /\
      forall F, (forall i, (i < n)%nat -> Rabs (f_real (f i)) <= F) -> within n f xs (f_error n q lo F (f_real (cd_residual_max cd))).
  Proof using D.
    intros H Hs Hx Hn HN H1 H2 Hk Fr. pose proof H as H'. apply run_loop in H' as (fuel & w' & H').
    apply loop_bound in H' as (k & Hkb & Ek & (Ht & _ & Hd) & _); auto. rewrite Ek in Hk.
    destruct Hd as (_ & _ & Hp); [lia|].
    destruct Hp as ([x1 w1] & [r rm] & [r1 rm1] & E1 & E2 & E3 & N0 & N1 & N2 & N3 & N4 & N5); [lia|]. cbn [fst snd] in *.
    destruct (run_valid lim s step x' cd k x' w' H Hs Ht) as (f & Hf & Vf). exists f. split; [exact Hf|].
    rewrite N0 in Fr. rewrite N3. split; [apply (residual_more x' f r rm); auto|].
    intros F HF. apply (vector_error xs x' f r rm F); auto.
  Qed.
End Rows.
