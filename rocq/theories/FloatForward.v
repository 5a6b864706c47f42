(** What residuals say about errors for matrices with a known inverse, in double precision, and the systems that the
    computed results solve exactly. *)
From Coq Require Import ZArith Reals Lra Lia List Sorted Permutation SpecFloat Psatz.
From Verif Require Import Base ListFacts DenseModel DenseFacts ScalarModel GeometryReal SparseModel SparseSpec
  SparseFacts SparseSeq SparseMul LuModel LuFacts LuReal LuFloat IterModel IterFacts IterLoop IterField IterReal FloatFacts FloatError
  IterFloat PropFloatLemmas FloatUnit PropIterLemmas LuSuccess FloatSweep PropSweepLemmas FloatStop.
Import ListNotations.
Local Open Scope R_scope.

(* ------------------------------------------------------------------ sums *)
Lemma rsum_list n (F : nat -> R) : rsum n F = fold_right Rplus 0 (map F (seq 0 n)).
Proof.
  induction n as [|n IH]; [reflexivity|]. cbn [asum]. rewrite seq_S, map_app, IH. cbn [map plus].
  generalize (map F (seq 0 n)). intro l. induction l as [|x l IHl]; cbn [app fold_right]; [lra|]. rewrite <- IHl. lra.
Qed.

Lemma fold_perm (l l' : list R) : Permutation l l' -> fold_right Rplus 0 l = fold_right Rplus 0 l'.
Proof. induction 1; cbn [fold_right]; lra. Qed.

Lemma rsum_rows n s (F : nat -> R) : rows_permuted n s -> rsum n (fun i => F (s i)) = rsum n F.
Proof.
  intros [Hb Ho]. rewrite !rsum_list, <- (map_map s F). apply fold_perm, Permutation_map. symmetry.
  apply NoDup_Permutation_bis; [apply seq_NoDup|rewrite map_length, !seq_length; lia|].
  intros r Hr. apply in_seq in Hr. destruct (Ho r ltac:(lia)) as (k & Hk & <-). apply in_map, in_seq. lia.
Qed.

(** [H] is a left inverse of [A]. *)
Definition left_inverse (n : nat) (H A : nat -> nat -> R) : Prop :=
  forall k j, (k < n)%nat -> (j < n)%nat -> rsum n (fun i => H k i * A i j) = if (k =? j)%nat then 1 else 0.

(** The error is the inverse times the residual. *)
Lemma error_of_residual n H A z xs B k : left_inverse n H A -> (k < n)%nat ->
  (forall i, (i < n)%nat -> rsum n (fun j => A i j * xs j) = B i) ->
  xs k - z k = rsum n (fun i => H k i * (B i - rsum n (fun j => A i j * z j))).
Proof.
  intros HI Hk Hs.
  rewrite (asum_ext 0 Rplus n _ (fun i => rsum n (fun j => H k i * A i j * (xs j - z j)))).
  2: { intros i Hi. rewrite <- (Hs i Hi), <- rsum_minus, <- rsum_scale. apply asum_ext. intros j Hj. ring. }
  rewrite rsum_exchange.
  rewrite (asum_ext 0 Rplus n _ (fun j => if (j =? k)%nat then xs k - z k else 0)).
  - rewrite (rsum_out n k) by exact Hk. rewrite Nat.eqb_refl.
    rewrite (rsum_zero n); [ring|]. intros j Hj. destruct (j =? k)%nat; reflexivity.
  - intros j Hj. rewrite (asum_ext 0 Rplus n _ (fun i => (xs j - z j) * (H k i * A i j))) by (intros; ring).
    rewrite rsum_scale, (HI k j Hk Hj), (Nat.eqb_sym j k). destruct (Nat.eqb_spec k j) as [->|]; ring.
Qed.

Lemma error_rows n H A z xs B bd k : left_inverse n H A -> (k < n)%nat ->
  (forall i, (i < n)%nat -> rsum n (fun j => A i j * xs j) = B i) ->
  (forall i, (i < n)%nat -> Rabs (B i - rsum n (fun j => A i j * z j)) <= bd i) ->
  Rabs (z k - xs k) <= rsum n (fun i => Rabs (H k i) * bd i).
Proof.
  intros HI Hk Hs Hb. rewrite Rabs_minus_sym, (error_of_residual n H A z xs B k HI Hk Hs).
  apply Rle_trans with (1 := rsum_abs _ _). apply rsum_le. intros i Hi. rewrite Rabs_mult.
  apply Rmult_le_compat_l; [apply Rabs_pos|apply Hb, Hi].
Qed.

(** A residual bounded by a matrix E of tolerances times |z| plus f is that of a system changed by no more than E and f. *)
Lemma nearby_row n (a z : nat -> R) B E f : (forall j, (j < n)%nat -> 0 <= E j) -> 0 <= f ->
  Rabs (B - rsum n (fun j => a j * z j)) <= rsum n (fun j => E j * Rabs (z j)) + f ->
  exists da db, (forall j, (j < n)%nat -> Rabs (da j) <= E j) /\ Rabs db <= f /\
    rsum n (fun j => (a j + da j) * z j) = B + db.
Proof.
  intros HE Hf Hr. set (r := B - rsum n (fun j => a j * z j)) in *. set (m := rsum n (fun j => E j * Rabs (z j)) + f) in *.
  assert (M0 : 0 <= rsum n (fun j => E j * Rabs (z j))).
  { apply rsum_nonneg. intros j Hj. apply Rmult_le_pos; [apply HE, Hj|apply Rabs_pos]. }
  destruct (Rle_lt_or_eq_dec 0 m) as [Hm|Hm]; [unfold m; lra|..].
  - set (t := r / m). assert (Ht : Rabs t <= 1).
    { unfold t, Rdiv. rewrite Rabs_mult, Rabs_inv, (Rabs_pos_eq m) by lra.
      apply (Rmult_le_reg_r m); [exact Hm|]. rewrite Rmult_assoc, Rinv_l by lra. lra. }
    exists (fun j => t * E j * (if Rle_dec 0 (z j) then 1 else -1)), (- (t * f)).
    assert (A1 : forall y, 0 <= y -> Rabs (t * y) <= y).
    { intros y Hy. rewrite Rabs_mult, (Rabs_pos_eq y) by exact Hy. rewrite <- (Rmult_1_l y) at 2. apply Rmult_le_compat_r; auto. }
    split; [|split].
    + intros j Hj. rewrite Rabs_mult.
      replace (Rabs (if Rle_dec 0 (z j) then 1 else -1)) with 1
        by (destruct (Rle_dec 0 (z j)); [symmetry; apply Rabs_R1|rewrite Rabs_left; lra]).
      rewrite Rmult_1_r. apply A1, HE, Hj.
    + rewrite Rabs_Ropp. apply A1, Hf.
    + rewrite (asum_ext 0 Rplus n _ (fun j => a j * z j + t * (E j * Rabs (z j)))).
      * rewrite rsum_plus, rsum_scale.
        assert (Et : t * m = r) by (unfold t; field; lra). unfold m in Et. unfold r in Et. rewrite Rmult_plus_distr_l in Et. lra.
      * intros j Hj. unfold Rabs. destruct (Rle_dec 0 (z j)), (Rcase_abs (z j)); try lra; ring.
  - exists (fun _ => 0), 0. split; [intros j Hj; rewrite Rabs_R0; apply HE, Hj|]. split; [rewrite Rabs_R0; exact Hf|].
    assert (R0 : r = 0) by (destruct (Req_dec r 0) as [|NZ]; [assumption|apply Rabs_pos_lt in NZ; lra]).
    rewrite (asum_ext 0 Rplus n _ (fun j => a j * z j)) by (intros; ring). unfold r in R0. lra.
Qed.

(* ------------------------------------------------------------------ the direct solver *)
(** The two parts of the bound of C87: relative to the matrix, and from underflow. *)
Definition lu_abs (n : nat) (g : nat -> nat -> f64) (i j : nat) : R := rsum n (fun k => Rabs (f_lower g i k) * Rabs (f_upper g k j)).

Definition lu_tiny (n : nat) (g : nat -> nat -> f64) (z : nat -> f64) (i : nat) : R :=
  (1 + f_u) ^ (2 * n) * f_eta *
    (INR n + rsum n (fun k => (INR n + Rabs (f_real (g k k))) * (Rabs (f_lower g i k) + Rabs (f_real (z k))))).

Lemma lu_abs_nonneg n g i j : 0 <= lu_abs n g i j.
Proof. apply rsum_nonneg. intros k Hk. apply Rmult_le_pos; apply Rabs_pos. Qed.

Lemma lu_tiny_nonneg n g z i : 0 <= lu_tiny n g z i.
Proof.
  pose proof u_pos. pose proof eta_pos. pose proof (pos_INR n).
  apply Rmult_le_pos; [apply Rmult_le_pos; [apply pow_le; lra|lra]|].
  assert (0 <= rsum n (fun k => (INR n + Rabs (f_real (g k k))) * (Rabs (f_lower g i k) + Rabs (f_real (z k))))); [|lra].
  apply rsum_nonneg. intros k Hk. pose proof (Rabs_pos (f_real (g k k))). pose proof (Rabs_pos (f_lower g i k)). pose proof (Rabs_pos (f_real (z k))).
  apply Rmult_le_pos; lra.
Qed.

Lemma lu_swap n (g : nat -> nat -> f64) (z : nat -> f64) i :
  rsum n (fun k => rsum n (fun j => Rabs (f_lower g i k) * Rabs (f_upper g k j) * Rabs (f_real (z j)))) =
  rsum n (fun j => lu_abs n g i j * Rabs (f_real (z j))).
Proof.
  rewrite rsum_exchange. apply asum_ext. intros j Hj. unfold lu_abs. rewrite (Rmult_comm _ (Rabs (f_real (z j)))), <- rsum_scale.
  apply asum_ext. intros k Hk. ring.
Qed.

(** How much of the size of the result the error can be, and the rest. *)
Definition lu_rate (n : nat) (H : nat -> nat -> R) (g : nat -> nat -> f64) (s : nat -> nat) (k : nat) : R :=
  rsum n (fun i => Rabs (H k (s i)) *
    (f_gamma (3 * n) * rsum n (lu_abs n g i) + (1 + f_u) ^ (2 * n) * f_eta * rsum n (fun k => INR n + Rabs (f_real (g k k))))).

Definition lu_rest (n : nat) (H : nat -> nat -> R) (g : nat -> nat -> f64) (s : nat -> nat) (k : nat) : R :=
  rsum n (fun i => Rabs (H k (s i)) *
    ((1 + f_u) ^ (2 * n) * f_eta * (INR n + rsum n (fun k => (INR n + Rabs (f_real (g k k))) * Rabs (f_lower g i k))))).

Lemma max_at n (e : nat -> R) : (0 < n)%nat -> exists m, (m < n)%nat /\ forall k, (k < n)%nat -> e k <= e m.
Proof.
  induction n as [|[|n] IH]; intro Hn; [lia|exists 0%nat; split; [lia|]; intros k Hk; replace k with 0%nat by lia; lra|].
  destruct IH as (m & Hm & H); [lia|]. destruct (Rle_lt_dec (e (S n)) (e m)).
  - exists m. split; [lia|]. intros k Hk. destruct (Nat.eq_dec k (S n)) as [->|]; [lra|apply H; lia].
  - exists (S n). split; [lia|]. intros k Hk. destruct (Nat.eq_dec k (S n)) as [->|]; [lra|]. specialize (H k ltac:(lia)). lra.
Qed.

Lemma error_split n H g s (z : nat -> f64) Z k : (forall j, (j < n)%nat -> Rabs (f_real (z j)) <= Z) ->
  rsum n (fun i => Rabs (H k (s i)) * (f_gamma (3 * n) * rsum n (fun j => lu_abs n g i j * Rabs (f_real (z j))) + lu_tiny n g z i)) <=
  lu_rate n H g s k * Z + lu_rest n H g s k.
Proof.
  intro HZ. unfold lu_rate, lu_rest. rewrite (Rmult_comm _ Z), <- rsum_scale, <- rsum_plus. apply rsum_le. intros i Hi.
  set (e := (1 + f_u) ^ (2 * n) * f_eta).
  assert (He : 0 <= e) by (pose proof u_pos; pose proof eta_pos; apply Rmult_le_pos; [apply pow_le; lra|lra]).
  pose proof (Rabs_pos (H k (s i))) as H0. set (c := Rabs (H k (s i))) in *.
  assert (L1 : rsum n (fun j => lu_abs n g i j * Rabs (f_real (z j))) <= Z * rsum n (lu_abs n g i)).
  { rewrite <- rsum_scale. apply rsum_le. intros j Hj. rewrite (Rmult_comm Z). apply Rmult_le_compat_l; [apply lu_abs_nonneg|apply HZ, Hj]. }
  assert (L2 : rsum n (fun k => (INR n + Rabs (f_real (g k k))) * (Rabs (f_lower g i k) + Rabs (f_real (z k)))) <=
    rsum n (fun k => (INR n + Rabs (f_real (g k k))) * Rabs (f_lower g i k)) + Z * rsum n (fun k => INR n + Rabs (f_real (g k k)))).
  { rewrite <- rsum_scale, <- rsum_plus. apply rsum_le. intros j Hj. rewrite Rmult_plus_distr_l. apply Rplus_le_compat_l.
    rewrite (Rmult_comm Z). apply Rmult_le_compat_l; [|apply HZ, Hj]. pose proof (pos_INR n). pose proof (Rabs_pos (f_real (g j j))). lra. }
  unfold lu_tiny. fold e. set (d := rsum n (fun k => (INR n + Rabs (f_real (g k k))) * Rabs (f_lower g i k))) in *.
  set (t := rsum n (fun k => INR n + Rabs (f_real (g k k)))) in *.
  apply Rle_trans with (c * (f_gamma (3 * n) * (Z * rsum n (lu_abs n g i)) + e * (INR n + (d + Z * t)))); [|right; ring].
  apply Rmult_le_compat_l; [exact H0|]. apply Rplus_le_compat.
  - apply Rmult_le_compat_l; [apply gamma_nonneg|exact L1].
  - apply Rmult_le_compat_l; [exact He|lra].
Qed.

Lemma direct_forward dbg pivot n st a A st' x b B : is_mat n n a A ->
  (forall i j, (i < n)%nat -> (j < n)%nat -> f_valid (A i j)) ->
  factorise fops dbg pivot st a = Ok (st', true) ->
  is_vec n (other_of x b) B -> (b = None -> pivot = false) -> (forall i, (i < n)%nat -> f_valid (B i)) ->
  exists s g x' d z, is_mat n n (lu_matrix st') g /\ (pivot = true -> is_vec n (lu_pivots st') s) /\
    (pivot = false -> forall k, s k = k) /\ rows_permuted n s /\
    lu_solve fops dbg pivot st' x b = Ok (x', d) /\ is_vec n x' z /\
    ((forall i j, (i < n)%nat -> (j < n)%nat -> f_finite (g i j) = true) -> (forall i, (i < n)%nat -> f_finite (z i) = true) ->
     (exists dA dB, (forall i j, (i < n)%nat -> (j < n)%nat -> Rabs (dA i j) <= f_gamma (3 * n) * lu_abs n g i j) /\
       (forall i, (i < n)%nat -> Rabs (dB i) <= lu_tiny n g z i) /\
       forall i, (i < n)%nat -> rsum n (fun j => (f_real (A (s i) j) + dA i j) * f_real (z j)) = f_real (B (s i)) + dB i) /\
     (forall H xs, left_inverse n H (fun i j => f_real (A i j)) ->
       (forall i, (i < n)%nat -> rsum n (fun j => f_real (A i j) * xs j) = f_real (B i)) ->
       (forall k, (k < n)%nat -> Rabs (f_real (z k) - xs k) <=
         rsum n (fun i => Rabs (H k (s i)) * (f_gamma (3 * n) * rsum n (fun j => lu_abs n g i j * Rabs (f_real (z j))) + lu_tiny n g z i))) /\
       forall r c X, r < 1 -> (forall k, (k < n)%nat -> lu_rate n H g s k <= r /\ lu_rest n H g s k <= c /\ Rabs (xs k) <= X) ->
         forall k, (k < n)%nat -> Rabs (f_real (z k) - xs k) <= (r * X + c) / (1 - r))).
Proof.
  intros Ha VA E Hb Hn VB. destruct (direct_solve_error dbg pivot n st a A st' x b B Ha VA E Hb Hn VB)
    as (s & g & x' & d & z & H1 & H2 & H3 & H4 & H5 & H6 & H7).
  exists s, g, x', d, z. split; [exact H1|]. split; [exact H2|]. split; [exact H3|]. split; [exact H4|]. split; [exact H5|]. split; [exact H6|].
  intros Fg Fz. specialize (H7 Fg Fz).
  assert (H8 : forall i, (i < n)%nat -> Rabs (f_real (B (s i)) - rsum n (fun j => f_real (A (s i) j) * f_real (z j))) <=
    f_gamma (3 * n) * rsum n (fun j => lu_abs n g i j * Rabs (f_real (z j))) + lu_tiny n g z i).
  { intros i Hi. specialize (H7 i Hi). rewrite lu_swap in H7. exact H7. }
  split.
  - assert (P : forall i, exists p : (nat -> R) * R, (i < n)%nat -> (forall j, (j < n)%nat -> Rabs (fst p j) <= f_gamma (3 * n) * lu_abs n g i j) /\
      Rabs (snd p) <= lu_tiny n g z i /\ rsum n (fun j => (f_real (A (s i) j) + fst p j) * f_real (z j)) = f_real (B (s i)) + snd p).
    { intro i. destruct (Nat.lt_ge_cases i n) as [Hi|Hi]; [|exists ((fun _ => 0), 0); lia].
      destruct (nearby_row n (fun j => f_real (A (s i) j)) (fun j => f_real (z j)) (f_real (B (s i)))
        (fun j => f_gamma (3 * n) * lu_abs n g i j) (lu_tiny n g z i)) as (da & db & D1 & D2 & D3).
      - intros j Hj. apply Rmult_le_pos; [apply gamma_nonneg|apply lu_abs_nonneg].
      - apply lu_tiny_nonneg.
      - apply Rle_trans with (1 := H8 i Hi). apply Rplus_le_compat_r. right. rewrite <- rsum_scale. apply asum_ext. intros; ring.
      - exists (da, db). intros _. auto. }
    clear -P. assert (Q : forall m, (m <= n)%nat -> exists dA dB, forall i, (i < m)%nat ->
      (forall j, (j < n)%nat -> Rabs (dA i j) <= f_gamma (3 * n) * lu_abs n g i j) /\ Rabs (dB i) <= lu_tiny n g z i /\
      rsum n (fun j => (f_real (A (s i) j) + dA i j) * f_real (z j)) = f_real (B (s i)) + dB i).
    { induction m as [|m IH]; intro Hm; [exists (fun _ _ => 0), (fun _ => 0); lia|].
      destruct IH as (dA & dB & IH); [lia|]. destruct (P m) as ((da & db) & Pm). cbn [fst snd] in Pm.
      exists (fun i => if (i =? m)%nat then da else dA i), (fun i => if (i =? m)%nat then db else dB i). intros i Hi.
      destruct (Nat.eqb_spec i m) as [->|]; [apply Pm; lia|apply IH; lia]. }
    destruct (Q n (le_n n)) as (dA & dB & Q'). exists dA, dB. split; [|split]; intros; apply Q'; auto.
  - intros H xs HI Hs.
    assert (G : forall k, (k < n)%nat -> Rabs (f_real (z k) - xs k) <=
      rsum n (fun i => Rabs (H k (s i)) * (f_gamma (3 * n) * rsum n (fun j => lu_abs n g i j * Rabs (f_real (z j))) + lu_tiny n g z i))).
    2: { split; [exact G|]. intros r c X Hr Hc k Hk.
      destruct (max_at n (fun k => Rabs (f_real (z k) - xs k))) as (m & Hm & HM); [lia|]. set (E0 := Rabs (f_real (z m) - xs m)) in *.
      apply Rle_trans with (1 := HM k Hk). destruct (Hc m Hm) as (C1 & C2 & _). pose proof (Rabs_pos (f_real (z m) - xs m)) as P0. fold E0 in P0.
      assert (EM : E0 <= lu_rate n H g s m * (X + E0) + lu_rest n H g s m).
      { apply Rle_trans with (1 := G m Hm). apply error_split. intros j Hj. destruct (Hc j Hj) as (_ & _ & C3). specialize (HM j Hj).
        replace (f_real (z j)) with (xs j + (f_real (z j) - xs j)) by ring. apply Rle_trans with (1 := Rabs_triang _ _). fold E0 in HM. lra. }
      assert (X0 : 0 <= X + E0) by (destruct (Hc m Hm) as (_ & _ & C3); pose proof (Rabs_pos (xs m)); lra).
      assert (E2 : lu_rate n H g s m * (X + E0) <= r * (X + E0)) by (apply Rmult_le_compat_r; auto).
      apply (Rmult_le_reg_r (1 - r)); [lra|]. unfold Rdiv. rewrite Rmult_assoc, Rinv_l, Rmult_1_r by lra. lra. }
    intros k Hk. set (bd := fun r => Rabs (f_real (B r) - rsum n (fun j => f_real (A r j) * f_real (z j)))).
    apply Rle_trans with (rsum n (fun i => Rabs (H k i) * bd i)).
    + apply (error_rows n H (fun i j => f_real (A i j)) (fun j => f_real (z j)) xs (fun i => f_real (B i))); auto. intros; unfold bd; lra.
    + rewrite <- (rsum_rows n s _ H4). apply rsum_le. intros i Hi. apply Rmult_le_compat_l; [apply Rabs_pos|apply H8, Hi].
Qed.

(* ------------------------------------------------------------------ residuals *)
Lemma residual_certifies dbg stray n a A b h x f l2 linf H xs : sparse_square (S754_zero false) n a A -> is_vec n b h ->
  is_vec n x f -> (0 < n)%nat -> (Z.of_nat n < 2 ^ 64)%Z ->
  (forall i j, (i < n)%nat -> (j < n)%nat -> f_valid (A i j)) -> (forall i, (i < n)%nat -> f_valid (h i)) -> (forall j, (j < n)%nat -> f_valid (f j)) ->
  compute_residual fops dbg stray a x b = Ok (l2, linf) -> f_finite l2 = true ->
  left_inverse n H (fun i j => f_real (A i j)) -> (forall i, (i < n)%nat -> rsum n (fun j => f_real (A i j) * xs j) = f_real (h i)) ->
  forall k, (k < n)%nat -> Rabs (f_real (f k) - xs k) <=
    rsum n (fun i => Rabs (H k i) * ((1 + f_u) ^ 4 * (f_real linf + f_theta) + inner_bound n (A i) f)).
Proof.
  intros Hq Hb Hx Hn HN VA Vh Vf E Fl HI Hs k Hk.
  destruct (residual_error dbg stray n a A b h x f Hq Hb Hx Hn HN VA Vh Vf) as (l2' & linf' & E' & HR).
  rewrite E' in E. injection E as -> ->. destruct (HR Fl) as (p & Hp & Hm & _).
  apply (error_rows n H (fun i j => f_real (A i j)) (fun j => f_real (f j)) xs (fun i => f_real (h i))
    (fun i => (1 + f_u) ^ 4 * (f_real linf + f_theta) + inner_bound n (A i) f)); auto.
  intros i Hi. set (t := f_real (h i) - rsum n (fun j => f_real (A i j) * f_real (f j))).
  replace t with (p i - (p i - t)) by ring. apply Rle_trans with (1 := Rabs_triang _ _). rewrite Rabs_Ropp.
  specialize (Hp i Hi). specialize (Hm i Hi). fold t in Hp. lra.
Qed.

(** A square system of doubles that holds its diagonal. *)
Record valid_rows (n : nat) (a : smat f64) (A : nat -> nat -> f64) (b : list f64) (h : nat -> f64) : Prop := {
  vr_square : sparse_square (S754_zero false) n a A;
  vr_rhs : is_vec n b h;
  vr_A : forall i j, (i < n)%nat -> (j < n)%nat -> f_valid (A i j);
  vr_h : forall i, (i < n)%nat -> f_valid (h i);
  vr_stored : forall i, (i < n)%nat -> stored a i i (A i i)
}.

Section Rows.
  Variables (M : nat) (dbg : bool) (stray : option nat).
  Variables (n : nat) (a : smat f64) (A : nat -> nat -> f64) (b : list f64) (h : nat -> f64).
  Hypothesis D : valid_rows n a A b h.

  Lemma vr_system : square_system n a b.
  Proof using D.
    destruct (vr_square _ _ _ _ _ D) as (Hw & Hr & Hc & HA).
    split; [exact Hw|]. split; [exact Hr|]. split; [exact Hc|]. split; [apply (vr_rhs _ _ _ _ _ D)|].
    intros i Hi. exists (A i i). apply (vr_stored _ _ _ _ _ D), Hi.
  Qed.

  Lemma vr_rows : exists rs d, rows_of dbg stray n a b rs d h /\ srows_ok n rs /\
    (forall k, (k < n)%nat -> d k = A k k) /\
    forall i j v, (i < n)%nat -> In (j, v) (nth i rs []) -> (j < n)%nat /\ v = A i j.
  Proof using D.
    destruct (vr_square _ _ _ _ _ D) as (Hw & Hr & Hc & HA).
    destruct (system_rows fops dbg stray n a b vr_system) as (rs & d & Hro & Hs & Hdi).
    exists rs, d. split; [destruct Hro; constructor; auto; apply (vr_rhs _ _ _ _ _ D)|]. split; [exact Hs|]. split.
    - intros k Hk. symmetry. apply (proj1 (HA k k)), Hdi, Hk.
    - intros i j v Hi Hin. split; [apply (ro_cols _ _ _ _ _ _ _ _ Hro i j Hi), in_map_iff; exists (j, v); auto|].
      symmetry. apply (proj1 (HA i j)). apply (srepr_stored _ _ _ _ _ (ro_repr _ _ _ _ _ _ _ _ Hro)). exact Hin.
  Qed.

  Lemma v_swept_valid rs d w f i : rows_of dbg stray n a b rs d h -> (forall k, (k < n)%nat -> d k = A k k) ->
    (forall i j v, (i < n)%nat -> In (j, v) (nth i rs []) -> (j < n)%nat /\ v = A i j) ->
    f_valid w -> valid_vec n f -> (i < n)%nat -> f_valid (swept fops rs d h w i f).
  Proof using D.
    intros Hro Hd He Vw Vf Hi. unfold swept, new_value. rewrite Hd by exact Hi. rewrite filter_off.
    assert (Vo : f_valid (full_sum fops (filter (fun e => negb (fst e =? i)%nat) (nth i rs [])) f (sc_zero fops))).
    { apply fold_valid; [reflexivity|]. intros [j v] Hin. apply filter_In in Hin as [Hin _]. cbn [fst snd].
      destruct (He i j v Hi Hin) as [Hj ->]. split; [apply (vr_A _ _ _ _ _ D); auto|apply Vf, Hj]. }
    cbn [fops sc_add sc_mul sc_sub sc_div sc_one].
    apply f_add_valid.
    - apply f_div_valid; [apply f_mul_valid; [exact Vw|apply f_sub_valid; [apply (vr_h _ _ _ _ _ D), Hi|exact Vo]]|].
      apply (vr_A _ _ _ _ _ D); auto.
    - apply f_mul_valid; [apply f_sub_valid; [reflexivity|exact Vw]|apply Vf, Hi].
  Qed.


  Lemma v_seidel_valid w s s' : f_valid w -> valid_state n s ->
    (do x <- forward_sweep fops dbg stray a None (fst s) b w; Ok (x, snd s)) = Ok s' -> valid_state n s'.
  Proof using D.
    intros Vw (f & Hx & Vf) E. destruct vr_rows as (rs & d & Hro & Hso & Hd & He).
    destruct (seidel_sweep_ok fops dbg stray n a b rs d h (fst s) f w Hro Hx) as (x' & z & Es & Hx' & Hz).
    rewrite Es in E. cbn [bind] in E. injection E as <-. exists z. split; [exact Hx'|].
    intro i. induction i as [i IH] using lt_wf_ind. intro Hi. rewrite Hz by exact Hi.
    apply v_swept_valid; auto. intros j Hj. destruct (Nat.ltb_spec j i); [apply IH; auto|apply Vf, Hj].
  Qed.

  Lemma v_jacobi_valid s s' : valid_state n s -> length (snd s) = n -> jacobi_step fops dbg stray a b s = Ok s' ->
    valid_state n s' /\ length (snd s') = n.
  Proof using D.
    intros (f & Hx & Vf) Hw E. destruct vr_rows as (rs & d & Hro & Hso & Hd & He).
    destruct (jacobi_sweep_ok fops dbg stray n a b rs d h (fst s) (snd s) f (sc_one fops) Hro Hx Hw) as (x' & Es & Hx').
    unfold jacobi_step in E. rewrite Es in E. cbn [bind] in E. injection E as <-. split; [|apply Hx].
    eexists. split; [exact Hx'|]. intros i Hi. apply v_swept_valid; auto. reflexivity.
  Qed.

  Lemma v_times_inv {T} (P : T -> Prop) (step : T -> res T) k s s' : (forall s s', P s -> step s = Ok s' -> P s') ->
    P s -> times step k s = Ok s' -> P s'.
  Proof using.
    clear. intro H. revert s'; induction k as [|k IH]; intros s' Hs E; cbn [times] in E.
    - injection E as <-. exact Hs.
    - destruct (times step k s) as [t| | |] eqn:Et; cbn [bind] in E; try discriminate. apply (H t s'); auto.
  Qed.

  Lemma v_run_valid lim s step x' cd k y w' : run fops M dbg stray a b lim s step x' cd -> valid_state n s ->
    times step k s = Ok (y, w') -> exists f, is_vec n y f /\ valid_vec n f.
  Proof using D.
    intros H Hs Et. destruct H as [fuel w x x' v cd H|fuel x x' cd H|fuel rho x x' cd H].
    - apply (v_times_inv (fun s => valid_state n s /\ length (snd s) = n)) in Et; [apply Et|..].
      + intros s s' [H1 H2] E. apply (v_jacobi_valid s); auto.
      + split; [exact Hs|]. cbn [snd]. rewrite vresize_length'. apply (vr_square _ _ _ _ _ D).
    - apply (v_times_inv (valid_state n)) in Et; [apply Et| |exact Hs]. intros s s' H1 E. apply (v_seidel_valid (sc_one fops) s); auto. reflexivity.
    - apply (v_times_inv (valid_state n)) in Et; [apply Et| |exact Hs]. intros s s' H1 E. apply (v_seidel_valid (sor_factor fops) s); auto. reflexivity.
  Qed.

  (** What the two reported numbers say, beyond C88. *)
  Lemma v_residual_more x f l2 linf : is_vec n x f -> valid_vec n f -> (0 < n)%nat -> (Z.of_nat n < 2 ^ 64)%Z ->
    compute_residual fops dbg stray a x b = Ok (l2, linf) -> f_finite l2 = true ->
    finite_vec n f /\ f_valid l2 /\ 0 <= f_real l2 /\ f_valid linf /\ f_finite linf = true /\ 0 <= f_real linf.
  Proof using D.
    intros Hx Vf Hn HN E Fl. destruct vr_rows as (rs & d & Hro & Hso & Hd & He).
    destruct (vr_square _ _ _ _ _ D) as (Hw & Hr & Hc & HA).
    rewrite (residual_ok fops dbg stray n a b rs h x f (ro_repr _ _ _ _ _ _ _ _ Hro) Hso (ro_len _ _ _ _ _ _ _ _ Hro)
      (vr_rhs _ _ _ _ _ D) Hx Hc) in E by lia. injection E as <- <-.
    set (qq := fun i => row_square fops (nth i rs []) (h i) f) in *.
    assert (Vr : forall i, (i < n)%nat -> f_valid (full_sum fops (nth i rs []) f (sc_zero fops))).
    { intros i Hi. apply fold_valid; [reflexivity|]. intros [j v] Hin. destruct (He i j v Hi Hin) as [Hj ->]. cbn [fst snd].
      split; [apply (vr_A _ _ _ _ _ D); auto|apply Vf, Hj]. }
    assert (Hsq : forall i, (i < n)%nat -> f_valid (qq i) /\ (f_finite (qq i) = true ->
      f_finite (full_sum fops (nth i rs []) f (sc_zero fops)) = true /\ 0 <= f_real (qq i))).
    { intros i Hi. unfold qq, row_square. cbn [fops sc_mul sc_sub].
      destruct (square_error (full_sum fops (nth i rs []) f (sc_zero fops)) (h i)) as [V1 V2];
        [apply Vr, Hi|apply (vr_h _ _ _ _ _ D), Hi|]. split; [exact V1|]. intro F. destruct (V2 F) as (F1 & _ & P & _). auto. }
    cbn [fops sc_sqrt sc_div sc_zero sc_add sc_of_Z] in *.
    assert (Vs : f_valid (fsum n qq)) by (apply fsum_valid; intros i Hi; apply Hsq, Hi).
    destruct (f_of_Z_finite (Z.of_nat n)) as [Vn Fn]; [lia|].
    assert (Vd : f_valid (SFdiv 53 1024 (fsum n qq) (f_of_Z (Z.of_nat n)))) by (apply f_div_valid; auto).
    destruct (f_sqrt_error _ Vd Fl) as (Fd & Pd & d2 & Hd2 & E2).
    assert (P2 := keep_sign _ d2 (sqrt_pos (f_real (SFdiv 53 1024 (fsum n qq) (f_of_Z (Z.of_nat n))))) Hd2). rewrite <- E2 in P2.
    destruct (f_div_back _ _ Vs Vn Fn Fd) as (Fs & _).
    destruct (fsum_error n qq) as [Fq _]; [intros i Hi; apply Hsq, Hi|exact Fs|].
    destruct (fold_max_ok n qq) as (Vm & Fm & Pm & _).
    { intros i Hi. split; [apply Hsq, Hi|]. split; [apply Fq, Hi|apply (proj2 (Hsq i Hi)), Fq, Hi]. }
    pose proof (f_sqrt_finite _ Vm Fm Pm) as Fx. destruct (f_sqrt_error _ Vm Fx) as (_ & _ & d1 & Hd1 & E1).
    assert (P1 := keep_sign _ d1 (sqrt_pos (f_real (fold_max fops n qq))) Hd1). rewrite <- E1 in P1.
    split; [|split; [apply f_sqrt_valid, Vd|split; [exact P2|split; [apply f_sqrt_valid, Vm|split; [exact Fx|]]]]].
    - intros i Hi. split; [apply Vf, Hi|]. destruct (proj2 (Hsq i Hi) (Fq i Hi)) as [Fr _].
      pose proof ((vr_stored _ _ _ _ _ D) i Hi) as Hst. apply (srepr_stored _ _ _ _ _ (ro_repr _ _ _ _ _ _ _ _ Hro)) in Hst.
      apply fold_finite in Fr as [_ Fr]; [exact (Fr _ Hst)|reflexivity|].
      intros [j v] Hin. destruct (He i j v Hi Hin) as [Hj ->]. cbn [fst snd].
      split; [apply (vr_A _ _ _ _ _ D); auto|apply Vf, Hj].
    - exact P1.
  Qed.

  (** The error of what a solver returns. *)
  Lemma run_certifies lim s step x' cd H xs : run fops M dbg stray a b lim s step x' cd -> valid_state n s ->
    left_inverse n H (fun i j => f_real (A i j)) -> (forall i, (i < n)%nat -> rsum n (fun j => f_real (A i j) * xs j) = f_real (h i)) ->
    (0 < n)%nat -> (Z.of_nat n < 2 ^ 64)%Z -> (min_iterations lim <= M)%nat -> (max_iteration lim < M)%nat ->
    (1 <= cd_iteration cd)%nat -> f_finite (cd_residual cd) = true ->
    exists f, is_vec n x' f /\ finite_vec n f /\ forall k, (k < n)%nat -> Rabs (f_real (f k) - xs k) <=
      rsum n (fun i => Rabs (H k i) * ((1 + f_u) ^ 4 * (f_real (cd_residual_max cd) + f_theta) + inner_bound n (A i) f)).
  Proof using D.
    intros R Hs HI Hx Hn HN H1 H2 Hk Fr. pose proof R as H'. apply run_loop in H' as (fuel & w' & H').
    apply loop_bound in H' as (k & Hkb & Ek & (Ht & _ & Hd) & _); auto. rewrite Ek in Hk.
    destruct Hd as (_ & _ & Hp); [lia|].
    destruct Hp as ([x1 w1] & [r rm] & [r1 rm1] & E1 & E2 & E3 & N0 & N1 & N2 & N3 & N4 & N5); [lia|]. cbn [fst snd] in *.
    destruct (v_run_valid lim s step x' cd k x' w' R Hs Ht) as (f & Hf & Vf). exists f. split; [exact Hf|].
    rewrite N0 in Fr. rewrite N3. split; [apply (v_residual_more x' f r rm); auto|].
    apply (residual_certifies dbg stray n a A b h x' f r rm); auto; apply D.
  Qed.
End Rows.
