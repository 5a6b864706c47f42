(** Jacobi in double precision on symmetric systems that are positive definite together with the mirrored matrix. *)
From Coq Require Import ZArith Reals Lra Lia List Sorted SpecFloat Psatz.
From Verif Require Import Base ListFacts Csr DenseModel DenseFacts ScalarModel GeometryReal SparseModel SparseSpec
  SparseFacts SparseMul LuModel LuReal IterModel IterFacts IterLoop IterField IterReal FloatFacts FloatError IterFloat
  PropFloatLemmas FloatUnit PropIterLemmas LuSuccess FloatSweep FloatStops FloatSor Energy EnergyDrift FloatDrift SymmetricJacobi.
Import ListNotations.
Local Open Scope R_scope.

(** [s] bounds the factor of one exact step of Jacobi in the norm of [A]. *)
Definition jacobi_factor (n : nat) (A : nat -> nat -> R) (s : R) : Prop :=
  0 <= s < 1 /\ forall h xs f z, (forall i, (i < n)%nat -> rsum n (fun j => A i j * xs j) = h i) ->
    (forall i, (i < n)%nat -> z i = (h i - rsum n (fun j => if (j =? i)%nat then 0 else A i j * f j)) / A i i) ->
    enorm n A (fun j => z j - xs j) <= s * enorm n A (fun j => f j - xs j).

Lemma row_off n (A : nat -> nat -> R) f i : (i < n)%nat ->
  rsum n (fun j => A i j * f j) = rsum n (fun j => if (j =? i)%nat then 0 else A i j * f j) + A i i * f i.
Proof. intro Hi. apply (sum_split rops Ropp Rinv R_field n i (fun j => A i j * f j) Hi). Qed.

Lemma row_jstep n (A : nat -> nat -> R) h xs f i : (i < n)%nat -> A i i <> 0 ->
  (forall i, (i < n)%nat -> rsum n (fun j => A i j * xs j) = h i) ->
  (h i - rsum n (fun j => if (j =? i)%nat then 0 else A i j * f j)) / A i i - xs i = jstep n A (fun j => f j - xs j) i.
Proof.
  intros Hi Hd Hx. unfold jstep, correction. rewrite (error_row n A h xs Hx f i Hi), (row_off n A f i Hi). field. exact Hd.
Qed.

Lemma jacobi_factor_exists n A : symmetric n A -> positive_definite n A -> positive_definite n (mirrored A) ->
  exists s, jacobi_factor n A s.
Proof.
  intros Hs Hp Hm. assert (Hd : forall i, (i < n)%nat -> 0 < A i i) by (intros; eapply positive_diagonal; eauto).
  destruct (jstep_rate n A Hs Hd Hp Hm) as (q & Hq & H). destruct (coercive n A Hs Hp) as (l & Hl & Hco).
  exists (sqrt q). split.
  - split; [apply sqrt_pos|]. rewrite <- sqrt_1. apply sqrt_lt_1_alt. lra.
  - intros h xs f z Hx Hz. unfold enorm. rewrite <- sqrt_mult; [|lra|apply (energy_nonneg n A l (conj Hl Hco))].
    apply sqrt_le_1; [apply (energy_nonneg n A l (conj Hl Hco))| |].
    + apply Rmult_le_pos; [lra|apply (energy_nonneg n A l (conj Hl Hco))].
    + rewrite (energy_ext n A _ (jstep n A (fun j => f j - xs j))); [apply H|]. intros i Hi. rewrite (Hz i Hi).
      apply row_jstep; auto. specialize (Hd i Hi). lra.
Qed.

(** The norm of a change, small in every row. *)
Lemma change_norm n A l dl m : symmetric n A -> coercivity n A l -> positive_definite n (mirrored A) -> 0 <= m ->
  (forall i, (i < n)%nat -> A i i * Rabs (dl i) <= m) -> enorm n A dl <= 2 * (sqrt (INR n) * m / sqrt l).
Proof.
  intros Hs Hl Hm Hm0 Hdl. pose proof (proj1 Hl) as Hl0. assert (Hq : 0 < sqrt l) by (apply sqrt_lt_R0, Hl0).
  assert (Hd : forall i, (i < n)%nat -> l <= A i i) by (intros; apply (diagonal_ge n A l Hs Hl); auto).
  assert (M0 : 0 <= energy n (mirrored A) dl).
  { destruct (coercive n _ (mirrored_symmetric n A Hs) Hm) as (l2 & Hl2 & Hc2).
    apply Rle_trans with (2 := Hc2 dl). apply Rmult_le_pos; [lra|apply rsum_sq_nonneg]. }
  rewrite mirrored_energy in M0.
  assert (W1 : weighted n A dl <= INR n * (m * m / l)).
  { rewrite <- rsum_const. apply rsum_le. intros i Hi. specialize (Hd i Hi). specialize (Hdl i Hi).
    assert (Hp : 0 < A i i) by lra. apply (Rmult_le_reg_r l); [exact Hl0|].
    replace (m * m / l * l) with (m * m) by (field; lra).
    replace (A i i * (dl i * dl i) * l) with (A i i * l * (Rabs (dl i) * Rabs (dl i)))
      by (rewrite <- Rabs_mult, (Rabs_pos_eq (dl i * dl i)) by apply Rle_0_sqr; ring).
    apply Rle_trans with (A i i * Rabs (dl i) * (A i i * Rabs (dl i))).
    - pose proof (Rle_0_sqr (Rabs (dl i))) as S0. unfold Rsqr in S0. set (t := Rabs (dl i) * Rabs (dl i)) in *.
      replace (A i i * Rabs (dl i) * (A i i * Rabs (dl i))) with (A i i * A i i * t) by (unfold t; ring).
      apply Rmult_le_compat_r; [exact S0|]. apply Rmult_le_compat_l; lra.
    - assert (0 <= A i i * Rabs (dl i)) by (apply Rmult_le_pos; [lra|apply Rabs_pos]). apply Rmult_le_compat; lra. }
  assert (Q0 : 0 <= 2 * (sqrt (INR n) * m / sqrt l)).
  { apply Rmult_le_pos; [lra|]. apply Rmult_le_pos; [apply Rmult_le_pos; [apply sqrt_pos|auto]|left; apply Rinv_0_lt_compat; auto]. }
  unfold enorm. rewrite <- (sqrt_Rsqr _ Q0). apply sqrt_le_1; [apply (energy_nonneg n A l Hl)|apply Rle_0_sqr|].
  unfold Rsqr.
  replace (2 * (sqrt (INR n) * m / sqrt l) * (2 * (sqrt (INR n) * m / sqrt l))) with
    (4 * (sqrt (INR n) * sqrt (INR n)) * (m * m) / (sqrt l * sqrt l)) by (field; lra).
  rewrite !sqrt_sqrt by (try apply pos_INR; lra).
  assert (0 <= INR n * (m * m / l)).
  { apply Rmult_le_pos; [apply pos_INR|]. apply Rmult_le_pos; [apply Rle_0_sqr|left; apply Rinv_0_lt_compat; auto]. }
  replace (4 * INR n * (m * m) / l) with (4 * (INR n * (m * m / l))) by (field; lra). lra.
Qed.

(** The factor of one step in double precision, [s] being the one of an exact step, and the distance at which rounding
    stops the progress. *)
Definition j_rate (n : nat) (ro l s : R) : R := s + d_kappa n ro l.
Definition j_floor (n : nat) (ro l s X : R) : R := d_tau n ro l X / (1 - j_rate n ro l s).

(** Nothing overflows in a step from an error of norm [E]. *)
Definition j_no_overflow (n : nat) (ro l X E : R) : Prop :=
  2 * (1 + / l) * ((1 + f_u) ^ (n + 1) * ro * (X + E / sqrt l) + INR n * (1 + f_u) ^ n * f_eta + 1) +
    (X + E / sqrt l) + 3 * (1 + / l) <= f_limit.

Section Jacobi.
  Variables (dbg : bool) (stray : option nat).
  Variables (n : nat) (a : smat f64) (A : nat -> nat -> f64) (b : list f64) (h : nat -> f64).
  Variables (l ro : R) (xs : nat -> R) (X : R).
  Hypothesis D : definite_doubles n a A b h l ro xs X.
  Let Ar i j := f_real (A i j).
  Let hr i := f_real (h i).
  Hypothesis Hm : positive_definite n (mirrored Ar).

  Lemma d_row_nonneg B : 0 <= B -> 0 <= d_row n ro X B.
  Proof using D.
    intro HB. unfold d_row. destruct (df_rows _ _ _ _ _ _ _ _ _ D) as [Hro0 _]. destruct (df_X _ _ _ _ _ _ _ _ _ D) as [HX _].
    pose proof u_pos. pose proof eta_pos. pose proof (gamma_nonneg (n + 5)).
    apply Rplus_le_le_0_compat; [apply Rmult_le_pos; [apply Rmult_le_pos|]; lra|].
    apply Rmult_le_pos; [lra|]. apply Rplus_le_le_0_compat; [|lra]. apply Rmult_le_pos; [apply pos_INR|apply pow_le; lra].
  Qed.

  (** One step. *)
  Lemma j_step s x u f E : jacobi_factor n Ar s -> is_vec n x f -> finite_vec n f -> length u = n ->
    f_enorm n A f xs <= E -> j_no_overflow n ro l X E ->
    exists x' f', jacobi_step fops dbg stray a b (x, u) = Ok (x', x) /\ is_vec n x' f' /\ finite_vec n f' /\
      f_enorm n A f' xs <= j_rate n ro l s * E + d_tau n ro l X.
  Proof using D Hm.
    intros Hs Hx Hf Hu HE Hov. destruct (definite_rows dbg stray n a A b h l ro xs X D) as (rs & d & Hro & Hso & Hd).
    destruct (jacobi_sweep_ok fops dbg stray n a b rs d h x u f (sc_one fops) Hro Hx Hu) as (x' & Es & Hx').
    exists x', (fun i => swept fops rs d h (sc_one fops) i f). unfold jacobi_step. cbn [fst snd]. rewrite Es. cbn [bind].
    split; [reflexivity|]. split; [exact Hx'|].
    pose proof (df_sym _ _ _ _ _ _ _ _ _ D) as Hsym. pose proof (df_form _ _ _ _ _ _ _ _ _ D) as Hform.
    fold Ar in Hsym, Hform. pose proof (proj1 Hform) as Hl. pose proof (df_sol _ _ _ _ _ _ _ _ _ D) as Hsol.
    assert (Hq : 0 < sqrt l) by (apply sqrt_lt_R0, Hl).
    assert (E0 : 0 <= E) by (apply Rle_trans with (2 := HE); apply sqrt_pos).
    set (B := E / sqrt l). assert (HB : 0 <= B) by (unfold B; apply Rmult_le_pos; [auto|left; apply Rinv_0_lt_compat, Hq]).
    assert (Wf : within n f xs B).
    { intros j Hj. apply Rle_trans with (1 := component_bound n Ar l Hform (fun j => f_real (f j) - xs j) j Hj).
      unfold B. apply Rmult_le_compat_r; [left; apply Rinv_0_lt_compat, Hq|exact HE]. }
    unfold j_no_overflow in Hov. fold B in Hov.
    set (z := fun i => swept fops rs d h (sc_one fops) i f).
    assert (G : forall i, (i < n)%nat -> f_valid (z i) /\ f_finite (z i) = true /\
      Ar i i * Rabs (f_real (z i) - exact_row n Ar hr 1 i (fun j => f_real (f j))) <= d_row n ro X B).
    { intros i Hi.
      destruct (definite_row dbg stray n a A b h l ro xs X D (sc_one fops) 1 rs d f B i) as (V & F & R1); auto.
      - left. auto.
      - split; [exact V|]. split; [exact F|]. rewrite Rmult_1_l in R1. exact R1. }
    split; [intros i Hi; destruct (G i Hi) as (V & F & _); auto|].
    set (y := fun i => (hr i - rsum n (fun j => if (j =? i)%nat then 0 else Ar i j * f_real (f j))) / Ar i i).
    set (dl := fun i => f_real (z i) - y i).
    unfold f_enorm. fold Ar.
    change (enorm n Ar (fun j => f_real (z j) - xs j) <= j_rate n ro l s * E + d_tau n ro l X).
    rewrite (enorm_ext n Ar _ (fun j => (y j - xs j) + dl j)) by (intros; unfold dl; ring).
    apply Rle_trans with (1 := enorm_triangle n Ar l Hsym Hform _ _).
    assert (N1 : enorm n Ar (fun j => y j - xs j) <= s * E).
    { destruct Hs as [Hs0 Hs1]. apply Rle_trans with (s * enorm n Ar (fun j => f_real (f j) - xs j)).
      - apply (Hs1 hr xs (fun j => f_real (f j)) y Hsol). intros i Hi. reflexivity.
      - apply Rmult_le_compat_l; [lra|exact HE]. }
    assert (N2 : enorm n Ar dl <= d_kappa n ro l * E + d_tau n ro l X).
    { rewrite <- (row_tau n a A b h l ro xs X D E). fold B.
      apply (change_norm n Ar l dl _ Hsym Hform Hm (d_row_nonneg B HB)). intros i Hi.
      destruct (G i Hi) as (_ & _ & G3). apply Rle_trans with (2 := G3). right. f_equal. f_equal. unfold dl, y, exact_row.
      unfold Rdiv. ring. }
    unfold j_rate. lra.
  Qed.

  Lemma j_no_overflow_le E E' : E <= E' -> j_no_overflow n ro l X E' -> j_no_overflow n ro l X E.
  Proof using D.
    intros HE Ho. destruct (df_form _ _ _ _ _ _ _ _ _ D) as [Hl _]. assert (Hq : 0 < sqrt l) by (apply sqrt_lt_R0, Hl).
    assert (HB : E / sqrt l <= E' / sqrt l) by (apply Rmult_le_compat_r; [left; apply Rinv_0_lt_compat, Hq|exact HE]).
    unfold j_no_overflow in *. apply Rle_trans with (2 := Ho).
    apply Rplus_le_compat_r. apply Rplus_le_compat; [|lra]. apply Rmult_le_compat_l.
    - assert (0 < / l) by (apply Rinv_0_lt_compat, Hl). lra.
    - apply Rplus_le_compat_r, Rplus_le_compat_r. apply Rmult_le_compat_l; [|lra].
      apply Rmult_le_pos; [apply pow_le; pose proof u_pos; lra|apply (df_rows _ _ _ _ _ _ _ _ _ D)].
  Qed.

  Lemma j_rate_nonneg s : 0 <= s -> 0 <= j_rate n ro l s.
  Proof using D. intro. unfold j_rate. pose proof (kappa_nonneg n a A b h l ro xs X D). lra. Qed.

  Lemma j_floor_nonneg s : j_rate n ro l s < 1 -> 0 <= j_floor n ro l s X.
  Proof using D.
    intro Hr. unfold j_floor. pose proof (tau_nonneg n a A b h l ro xs X D).
    apply Rmult_le_pos; [auto|left; apply Rinv_0_lt_compat; lra].
  Qed.

  (** Any number of steps. *)
  Lemma j_times s x u f E0 k : jacobi_factor n Ar s -> j_rate n ro l s < 1 ->
    is_vec n x f -> finite_vec n f -> length u = n -> 0 <= E0 ->
    f_enorm n A f xs <= j_floor n ro l s X + E0 -> j_no_overflow n ro l X (j_floor n ro l s X + E0) ->
    exists x' u' f', times (jacobi_step fops dbg stray a b) k (x, u) = Ok (x', u') /\ is_vec n x' f' /\ finite_vec n f' /\
      length u' = n /\ f_enorm n A f' xs <= j_floor n ro l s X + j_rate n ro l s ^ k * E0.
  Proof using D Hm.
    intros Hs Hr Hx Hf Hu HE He Ho. pose proof (j_rate_nonneg s (proj1 (proj1 Hs))) as R0.
    assert (HF : j_rate n ro l s * j_floor n ro l s X + d_tau n ro l X = j_floor n ro l s X) by (unfold j_floor; field; lra).
    induction k as [|k (x' & u' & f' & E & Hx' & Hf' & Hu' & He')].
    - exists x, u, f. cbn [times pow]. rewrite Rmult_1_l. auto.
    - destruct (j_step s x' u' f' (j_floor n ro l s X + j_rate n ro l s ^ k * E0)) as (y & g & Ey & Hy & Hg & Heg); auto.
      { apply (j_no_overflow_le _ (j_floor n ro l s X + E0)); auto. apply Rplus_le_compat_l.
        assert (P1 : j_rate n ro l s ^ k <= 1) by (rewrite <- (pow1 k); apply pow_incr; lra).
        rewrite <- (Rmult_1_l E0) at 2. apply Rmult_le_compat_r; auto. }
      exists y, x', g. cbn [times]. rewrite E. cbn [bind]. split; [exact Ey|]. split; [exact Hy|]. split; [exact Hg|].
      split; [apply Hx'|]. apply Rle_trans with (1 := Heg). right. cbn [pow]. lra.
  Qed.
End Jacobi.
