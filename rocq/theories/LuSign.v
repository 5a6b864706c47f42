(** Signs of the factors and of the solutions of the direct solver, on doubles. *)
From Coq Require Import ZArith Reals Lra Lia List SpecFloat Psatz.
From Flocq Require Import Core BinarySingleNaN.
From Verif Require Import Base ListFacts DenseModel DenseFacts ScalarModel GeometryReal LuModel LuFacts LuReal
  FloatFacts FloatError IterFloat LuFloat PropFloatLemmas FloatUnit FloatSweep IterFacts OrderFacts LuSuccess LuDominant
  PropDominantLemmas.
Import ListNotations.
Local Open Scope R_scope.

Local Notation rnd := (round radix2 (FLT_exp (-1074) 53) ZnearestE).

(* ------------------------------------------------------------------ any scalars *)
Section Between.
  Context {S : Type}.
  Variables (O : sops S) (dbg pivot : bool).
  Variables (T : S -> S -> S -> Prop) (Neg Pos : S -> Prop).
  Hypothesis TS : forall x z y x' z' y', T x z y -> T x' z' y' -> T (sc_sub O x y') (sc_sub O z z') (sc_sub O y x').
  Hypothesis TN : forall a x z y, Neg a -> T x z y -> T (sc_mul O a y) (sc_mul O a z) (sc_mul O a x).
  Hypothesis TD : forall d x z y, Pos d -> T x z y -> T (sc_div O x d) (sc_div O z d) (sc_div O y d).

  Lemma rdiff_between n e1 e2 e3 (a f1 f2 f3 : nat -> S) : T e1 e2 e3 -> (forall i, (i < n)%nat -> Neg (a i)) ->
    (forall i, (i < n)%nat -> T (f1 i) (f2 i) (f3 i)) ->
    T (rdiff O e1 n (fun i => sc_mul O (a i) (f1 i))) (rdiff O e2 n (fun i => sc_mul O (a i) (f2 i)))
      (rdiff O e3 n (fun i => sc_mul O (a i) (f3 i))).
  Proof using TS TN.
    induction n as [|n IH]; intros He Ha Hf; cbn [rdiff]; [exact He|].
    apply TS; [apply IH; auto|]. apply TN; auto.
  Qed.

  (** Three solutions with the same factors. *)
  Lemma solve_between n st g s x1 x2 x3 b1 b2 b3 B1 B2 B3 : lu_factorised st = true -> is_mat n n (lu_matrix st) g ->
    (pivot = true -> is_vec n (lu_pivots st) s) -> (pivot = false -> forall k, s k = k) ->
    (forall k, (k < n)%nat -> (s k < n)%nat) ->
    (forall i j, (i < n)%nat -> (j < n)%nat -> i <> j -> Neg (g i j)) -> (forall i, (i < n)%nat -> Pos (g i i)) ->
    is_vec n (other_of x1 b1) B1 -> is_vec n (other_of x2 b2) B2 -> is_vec n (other_of x3 b3) B3 ->
    (b1 = None -> pivot = false) -> (b2 = None -> pivot = false) -> (b3 = None -> pivot = false) ->
    (forall i, (i < n)%nat -> T (B1 i) (B2 i) (B3 i)) ->
    exists d x1' x2' x3' z1 z2 z3, lu_solve O dbg pivot st x1 b1 = Ok (x1', d) /\
      lu_solve O dbg pivot st x2 b2 = Ok (x2', d) /\ lu_solve O dbg pivot st x3 b3 = Ok (x3', d) /\
      cd_converged d = true /\ is_vec n x1' z1 /\ is_vec n x2' z2 /\ is_vec n x3' z3 /\
      (forall i, (i < n)%nat -> T (z1 i) (z2 i) (z3 i)).
  Proof using TS TN TD.
    intros Hf Hm Hp Hid Hs HN HP V1 V2 V3 N1 N2 N3 HB.
    destruct (solve_ok O dbg pivot n st g s x1 b1 B1 Hf Hm Hp Hid Hs V1 N1) as (x1' & y1 & z1 & E1 & W1 & Y1 & Z1).
    destruct (solve_ok O dbg pivot n st g s x2 b2 B2 Hf Hm Hp Hid Hs V2 N2) as (x2' & y2 & z2 & E2 & W2 & Y2 & Z2).
    destruct (solve_ok O dbg pivot n st g s x3 b3 B3 Hf Hm Hp Hid Hs V3 N3) as (x3' & y3 & z3 & E3 & W3 & Y3 & Z3).
    eexists. exists x1', x2', x3', z1, z2, z3. split; [exact E1|]. split; [exact E2|]. split; [exact E3|].
    split; [reflexivity|]. split; [exact W1|]. split; [exact W2|]. split; [exact W3|].
    assert (HY : forall i, (i < n)%nat -> T (y1 i) (y2 i) (y3 i)).
    { intro i. induction i as [i IH] using lt_wf_ind. intro Hi. rewrite Y1, Y2, Y3 by exact Hi.
      apply rdiff_between; [apply HB, Hs, Hi| |].
      - intros j Hj. apply HN; lia.
      - intros j Hj. apply IH; lia. }
    assert (G : forall c i, (n - i <= c)%nat -> (i < n)%nat -> T (z1 i) (z2 i) (z3 i)).
    { induction c as [|c IH]; intros i Hc Hi; [lia|]. rewrite Z1, Z2, Z3 by exact Hi. apply TD; [apply HP, Hi|].
      apply (rdiff_between _ _ _ _ (fun k => g i (i + 1 + k)%nat) (fun k => z1 (i + 1 + k)%nat)
        (fun k => z2 (i + 1 + k)%nat) (fun k => z3 (i + 1 + k)%nat)); [apply HY, Hi| |].
      - intros j Hj. apply HN; lia.
      - intros j Hj. apply IH; lia. }
    intros i Hi. apply (G (n - i)%nat); auto.
  Qed.
End Between.

(* ------------------------------------------------------------------ rounding *)
Lemma rnd_one : rnd 1 = 1.
Proof. rewrite <- one_real. apply rnd_real. reflexivity. Qed.

Lemma rnd_zero : rnd 0 = 0.
Proof. apply round_0. apply valid_rnd_N. Qed.

Lemma rnd_clamp x c : f_valid c -> Rabs x <= Rabs (f_real c) -> Rabs (rnd x) <= Rabs (f_real c).
Proof.
  intros V H. assert (E : rnd (Rabs (f_real c)) = Rabs (f_real c)).
  { unfold Rabs. destruct (Rcase_abs (f_real c)); [|apply rnd_real, V].
    rewrite round_NE_opp, rnd_real by auto. reflexivity. }
  assert (E' : rnd (- Rabs (f_real c)) = - Rabs (f_real c)) by (rewrite round_NE_opp, E; reflexivity).
  apply Rabs_le. apply Rabs_le_inv in H. rewrite <- E' at 1. rewrite <- E. split; apply rnd_mono; lra.
Qed.

Lemma limit_one : 1 <= f_limit.
Proof. unfold f_limit. apply pow_R1_Rle. lra. Qed.

Definition fin (x : f64) : Prop := f_valid x /\ f_finite x = true.

(** The operations of the elimination on small numbers. *)
Lemma div_clamp x p : fin x -> fin p -> 0 < f_real p -> Rabs (f_real x) <= f_real p ->
  fin (SFdiv 53 1024 x p) /\ Rabs (f_real (SFdiv 53 1024 x p)) <= 1 /\
  f_real (SFdiv 53 1024 x p) = rnd (f_real x / f_real p).
Proof.
  intros [Vx Fx] [Vp Fp] Hp H.
  assert (B : Rabs (f_real x / f_real p) <= 1).
  { unfold Rdiv. rewrite Rabs_mult, (Rabs_pos_eq (/ f_real p)) by (apply Rlt_le, Rinv_0_lt_compat, Hp).
    apply (Rmult_le_reg_r (f_real p)); [exact Hp|]. rewrite Rmult_assoc, Rinv_l by lra. lra. }
  assert (F : f_finite (SFdiv 53 1024 x p) = true) by (apply f_div_finite; auto; [lra|]; pose proof limit_one; lra).
  split; [split; [apply f_div_valid; auto|exact F]|].
  destruct (f_div_round x p Vx Vp Fp F) as (_ & _ & E). split; [|exact E].
  rewrite E, <- Rabs_R1, <- one_real. apply rnd_clamp; [reflexivity|]. rewrite one_real, Rabs_R1. exact B.
Qed.

Lemma div_zero x p : fin x -> fin p -> f_real p <> 0 -> f_real x = 0 ->
  fin (SFdiv 53 1024 x p) /\ f_real (SFdiv 53 1024 x p) = 0.
Proof.
  intros [Vx Fx] [Vp Fp] Hp H.
  assert (Z : f_real x / f_real p = 0) by (rewrite H; unfold Rdiv; ring).
  assert (F : f_finite (SFdiv 53 1024 x p) = true).
  { apply f_div_finite; auto. rewrite Z, Rabs_R0. pose proof limit_one; lra. }
  split; [split; [apply f_div_valid; auto|exact F]|].
  destruct (f_div_round x p Vx Vp Fp F) as (_ & _ & E). rewrite E, Z. apply rnd_zero.
Qed.

Lemma mul_clamp q c : fin q -> fin c -> Rabs (f_real q) <= 1 -> Rabs (f_real c) <= f_limit ->
  fin (SFmul 53 1024 q c) /\ Rabs (f_real (SFmul 53 1024 q c)) <= Rabs (f_real c).
Proof.
  intros [Vq Fq] [Vc Fc] Hq Hc.
  assert (B : Rabs (f_real q * f_real c) <= Rabs (f_real c)).
  { rewrite Rabs_mult. rewrite <- (Rmult_1_l (Rabs (f_real c))) at 2. apply Rmult_le_compat_r; [apply Rabs_pos|exact Hq]. }
  assert (F : f_finite (SFmul 53 1024 q c) = true) by (apply f_mul_finite; auto; lra).
  split; [split; [apply f_mul_valid; auto|exact F]|].
  destruct (f_mul_round q c Vq Vc F) as (_ & _ & E). rewrite E. apply rnd_clamp; auto.
Qed.

Lemma mul_zero q c : fin q -> fin c -> f_real q = 0 \/ f_real c = 0 ->
  fin (SFmul 53 1024 q c) /\ f_real (SFmul 53 1024 q c) = 0.
Proof.
  intros [Vq Fq] [Vc Fc] H. assert (Z : f_real q * f_real c = 0) by (destruct H as [-> | ->]; ring).
  assert (F : f_finite (SFmul 53 1024 q c) = true).
  { apply f_mul_finite; auto. rewrite Z, Rabs_R0. pose proof limit_one; lra. }
  split; [split; [apply f_mul_valid; auto|exact F]|].
  destruct (f_mul_round q c Vq Vc F) as (_ & _ & E). rewrite E, Z. apply rnd_zero.
Qed.

Lemma sub_zero x p : fin x -> fin p -> Rabs (f_real x) <= f_limit -> f_real p = 0 ->
  fin (SFsub 53 1024 x p) /\ f_real (SFsub 53 1024 x p) = f_real x.
Proof.
  intros [Vx Fx] [Vp Fp] H Z.
  assert (F : f_finite (SFsub 53 1024 x p) = true) by (apply f_sub_finite; auto; rewrite Z, Rminus_0_r; exact H).
  split; [split; [apply f_sub_valid; auto|exact F]|].
  destruct (f_sub_round x p Vx Vp F) as (_ & _ & E). rewrite E, Z, Rminus_0_r. apply rnd_real, Vx.
Qed.

Lemma sub_clamp x p : fin x -> fin p -> Rabs (f_real x - f_real p) <= f_limit ->
  fin (SFsub 53 1024 x p) /\ f_real (SFsub 53 1024 x p) = rnd (f_real x - f_real p) /\
  Rabs (f_real (SFsub 53 1024 x p)) <= (1 + f_u) * (Rabs (f_real x) + Rabs (f_real p)).
Proof.
  intros [Vx Fx] [Vp Fp] H.
  assert (F : f_finite (SFsub 53 1024 x p) = true) by (apply f_sub_finite; auto).
  split; [split; [apply f_sub_valid; auto|exact F]|].
  split; [apply f_sub_round; auto|]. destruct (f_sub_error x p Vx Vp F) as (d & Hd & ->).
  rewrite Rabs_mult, Rmult_comm. pose proof u_pos. apply Rmult_le_compat; try apply Rabs_pos.
  - apply Rle_trans with (1 := Rabs_triang _ _). rewrite Rabs_R1. lra.
  - unfold Rminus. apply Rle_trans with (1 := Rabs_triang _ _). rewrite Rabs_Ropp. lra.
Qed.

(* ------------------------------------------------------------------ signs of the factors *)
Lemma rdiff_down e n f : f_valid e -> (forall i, (i < n)%nat -> f_valid (f i)) ->
  (forall i, (i < n)%nat -> f_finite (f i) = true -> 0 <= f_real (f i)) -> f_finite (rdiff fops e n f) = true ->
  f_real (rdiff fops e n f) <= f_real e.
Proof.
  intros Ve. induction n as [|n IH]; intros Vf Hf F; cbn [rdiff] in *; [lra|]. cbn [fops sc_sub] in F |- *. fold fops in F |- *.
  assert (V : f_valid (rdiff fops e n f)) by (apply rdiff_valid; auto).
  destruct (f_sub_round _ _ V (Vf n ltac:(lia)) F) as (F1 & F2 & ->).
  apply Rle_trans with (f_real (rdiff fops e n f)); [|apply IH; auto].
  rewrite <- (rnd_real _ V) at 2. apply rnd_mono. specialize (Hf n ltac:(lia) F2). lra.
Qed.

Section Signs.
  Variables (n : nat) (A g : nat -> nat -> f64) (s : nat -> nat).
  Hypothesis HA : forall i j, (i < n)%nat -> (j < n)%nat -> f_valid (A i j).
  Hypothesis HN : forall i j, (i < n)%nat -> (j < n)%nat -> i <> j -> f_real (A i j) <= 0.
  Hypothesis Hg : dool fops n A n s g.
  Hypothesis Hs : forall k, s k = k.
  Hypothesis Hf : forall i j, (i < n)%nat -> (j < n)%nat -> f_finite (g i j) = true.
  Hypothesis HP : forall i, (i < n)%nat -> 0 < f_real (g i i).

  Lemma product_nonneg p q : f_valid p -> f_valid q -> f_real p <= 0 -> f_real q <= 0 ->
    f_finite (SFmul 53 1024 p q) = true -> 0 <= f_real (SFmul 53 1024 p q).
  Proof using.
    intros Vp Vq Hp Hq F. destruct (f_mul_round p q Vp Vq F) as (_ & _ & ->). rewrite <- rnd_zero. apply rnd_mono. nra.
  Qed.

  Lemma factor_signs a b : (a < n)%nat -> (b < n)%nat -> a <> b -> f_real (g a b) <= 0.
  Proof using HA HN Hg Hs Hf HP.
    assert (V : forall a b, (a < n)%nat -> (b < n)%nat -> f_valid (g a b)) by (apply (entry_valid n A g s HA Hg)).
    assert (G : forall k a b, (a + b < k)%nat -> (a < n)%nat -> (b < n)%nat -> a <> b -> f_real (g a b) <= 0).
    { induction k as [|k IH]; intros a0 b0 Hk Ha Hb Hne; [lia|]. pose proof (Hf a0 b0 Ha Hb) as F.
      destruct (Nat.lt_ge_cases a0 b0) as [L|L].
      - rewrite (entry_above n A g s Hg) in F |- * by lia. rewrite Hs in F |- *.
        apply Rle_trans with (f_real (A a0 b0)); [|apply HN; auto].
        apply rdiff_down; auto.
        + intros i Hi. apply f_mul_valid; apply V; lia.
        + intros i Hi Fi. apply product_nonneg; auto; try (apply V; lia); apply IH; lia.
      - rewrite (entry_below n A g s Hg) in F |- * by lia. rewrite Hs in F |- *.
        set (v := rdiff fops (A a0 b0) b0 (fun m => SFmul 53 1024 (g a0 m) (g m b0))) in *.
        assert (Vv : f_valid v) by (apply rdiff_valid; auto; intros i Hi; apply f_mul_valid; apply V; lia).
        destruct (f_div_round v (g b0 b0) Vv (V b0 b0 Hb Hb) (Hf b0 b0 Hb Hb) F) as (Fv & _ & ->).
        assert (Hv : f_real v <= 0).
        { apply Rle_trans with (f_real (A a0 b0)); [|apply HN; auto]. apply rdiff_down; auto.
          - intros i Hi. apply f_mul_valid; apply V; lia.
          - intros i Hi Fi. apply product_nonneg; auto; try (apply V; lia); apply IH; lia. }
        rewrite <- rnd_zero. apply rnd_mono. pose proof (Rinv_0_lt_compat _ (HP b0 Hb)). unfold Rdiv. nra. }
    intros Ha Hb. apply (G (S (a + b))); auto.
  Qed.

  (** Nothing above or on the diagonal rises. *)
  Lemma factor_falls a b : (a <= b)%nat -> (b < n)%nat -> f_real (g a b) <= f_real (A a b).
  Proof using HA HN Hg Hs Hf HP.
    intros Hab Hb. assert (V : forall a b, (a < n)%nat -> (b < n)%nat -> f_valid (g a b)) by (apply (entry_valid n A g s HA Hg)).
    pose proof (Hf a b ltac:(lia) Hb) as F. rewrite (entry_above n A g s Hg) in F |- * by lia. rewrite Hs in F |- *.
    apply rdiff_down; auto.
    - apply HA; lia.
    - intros i Hi. apply f_mul_valid; apply V; lia.
    - intros i Hi Fi. apply product_nonneg; auto; try (apply V; lia); apply factor_signs; lia.
  Qed.
End Signs.

(* ------------------------------------------------------------------ dominated rows *)
(** The pivots of dominated rows keep the sign of the diagonal. *)
Section Pivots.
  Variables (n : nat) (w : R) (A : nat -> nat -> f64) (m T : R).
  Hypothesis Hw : 0 < w.
  Hypothesis HT0 : 0 <= T.
  Hypothesis Hgam : f_gamma (4 * n) <= 1.
  Hypothesis Hmu : 0 < m - f_gamma (4 * n) * T.
  Hypothesis Hratio : (1 + f_u) ^ (4 * n) * T <= (m - f_gamma (4 * n) * T) * f_limit.
  Hypothesis Hlim : 8 * T <= f_limit.
  Hypothesis Hlimw : 8 * T <= w * f_limit.

  Lemma pivots_next k g : (k < n)%nat -> dominant_state n w A m T k g -> (forall i, (i < n)%nat -> 0 < f_real (g i i)) ->
    forall i, (i < n)%nat -> 0 < f_real (f_eliminated g k i i).
  Proof using Hw HT0 Hgam Hmu Hratio Hlim Hlimw.
    intros Hk Hst HP i Hi. destruct (Nat.le_gt_cases i k) as [L|L]; [rewrite f_eliminated_above by auto; auto|].
    pose proof (dominant_next n w Hw A m T HT0 Hgam Hmu Hratio Hlim Hlimw k g Hk Hst) as Hst'.
    destruct Hst as (Hf & HR & _).
    destruct (pow_level n m T HT0 k ltac:(lia)) as [P1 P2]. pose proof (Tn_le n T HT0 Hgam) as P3.
    set (mk := m - f_gamma (4 * k) * T) in *. set (Tk := (1 + f_u) ^ (4 * k) * T) in *.
    assert (L0 : 0 <= f_limit) by (unfold f_limit; apply pow_le; lra).
    assert (Q1 : 0 < mk) by lra.
    assert (Q2 : Tk <= mk * f_limit).
    { apply Rle_trans with ((m - f_gamma (4 * n) * T) * f_limit); [lra|]. apply Rmult_le_compat_r; lra. }
    assert (Q3 : 4 * Tk <= f_limit) by lra. assert (Q4 : 4 * Tk <= w * f_limit) by lra.
    destruct (step_column n w Hw g k i mk Tk Hf ltac:(lia) (HR k ltac:(lia)) (HR i ltac:(lia)) Q1 Q2 Q3 Q4 i ltac:(lia)) as (_ & _ & E).
    destruct Hst' as (_ & HR' & _). destruct (HR' i ltac:(lia)) as [R1 _].
    destruct (pow_level n m T HT0 (k + 1) ltac:(lia)) as [_ P4].
    pose proof (weighted_nonneg n w Hw (k + 1) i (mag (f_eliminated g k) i) ltac:(intro; apply Rabs_pos)) as W.
    (* the exact value is positive and the error smaller than it *)
    destruct (step_facts n w Hw g k i mk Tk Hf ltac:(lia) (HR k ltac:(lia)) (HR i ltac:(lia)) Q1 Q2)
      as (Hp & Hp0 & Hl0 & Hl & Hbp & Hlb & Hx & Hb & HpT & HxT & Ha0 & Hb0 & Hlim').
    destruct (HR i ltac:(lia)) as [Ri1 _]. rewrite (weighted_head n w k i) in Ri1 by lia.
    pose proof (weighted_nonneg n w Hw (k + 1) i (mag g i) ltac:(intro; apply Rabs_pos)) as W2.
    pose proof (elim_err_sum n w Hw g k i mk Tk Hf ltac:(lia) (HR k ltac:(lia)) (HR i ltac:(lia)) Q1 Q2) as HE.
    rewrite (weighted_all n w (k + 1) i) in HE by lia.
    pose proof (weighted_nonneg n w Hw (k + 1) i (elim_err g k i) ltac:(intro; apply elim_err_nonneg)) as W3.
    rewrite (weighted_all n w (k + 1) i) in Hlb by lia.
    pose proof (weighted_nonneg n w Hw (k + 1) i (mag g k) ltac:(intro; apply Rabs_pos)) as W4.
    assert (Z : 0 <= Rabs (f_real (g i k) / f_real (g k k)) * weighted n w (k + 1) i (mag g k)) by (apply Rmult_le_pos; auto).
    rewrite Rmult_plus_distr_l in Hlb.
    assert (G4 : mk - f_gamma 4 * Tk = m - f_gamma (4 * (k + 1)) * T).
    { unfold mk, Tk. replace (4 * (k + 1))%nat with (4 * k + 4)%nat by lia. rewrite gamma_add. unfold f_gamma. ring. }
    assert (D : mag g i i = f_real (g i i)) by (unfold mag; apply Rabs_pos_eq, Rlt_le, HP, Hi).
    assert (B : Rabs (f_real (g i k) / f_real (g k k) * f_real (g k i)) <= mag g i k).
    { rewrite Rabs_mult. fold (mag g k i). lra. }
    apply Rabs_le_inv in B. apply Rabs_le_inv in E. lra.
  Qed.
End Pivots.

(* ------------------------------------------------------------------ tridiagonal matrices *)
Definition near_diagonal (i j : nat) : Prop := (j = i + 1 \/ i = j + 1)%nat.
Definition far_diagonal (i j : nat) : Prop := (i + 1 < j \/ j + 1 < i)%nat.

Section Tridiagonal.
  Variables (n : nat) (M D : R).
  Hypothesis HM : 0 < M.
  Hypothesis HD : 2 * D <= f_limit.

  (** After [k] rounds. *)
  Definition tri_state (k : nat) (g : nat -> nat -> f64) : Prop :=
    (forall i j, (i < n)%nat -> (j < n)%nat -> fin (g i j)) /\
    (forall i j, (i < n)%nat -> (j < n)%nat -> far_diagonal i j -> f_real (g i j) = 0) /\
    (forall i, (i < n)%nat -> (i <= k)%nat -> M <= f_real (g i i) <= 2 * D) /\
    (forall i, (i < n)%nat -> (k < i)%nat -> 2 * M <= f_real (g i i) <= D) /\
    (forall i, (i + 1 < n)%nat -> Rabs (f_real (g i (i + 1)%nat)) <= M) /\
    (forall i, (i + 1 < n)%nat -> (i < k)%nat -> Rabs (f_real (g (i + 1)%nat i)) <= 1) /\
    (forall i, (i + 1 < n)%nat -> (k <= i)%nat -> Rabs (f_real (g (i + 1)%nat i)) <= M).

  Lemma tri_start (A : nat -> nat -> f64) : (forall i j, (i < n)%nat -> (j < n)%nat -> fin (A i j)) ->
    (forall i j, (i < n)%nat -> (j < n)%nat -> far_diagonal i j -> f_real (A i j) = 0) ->
    (forall i j, (i < n)%nat -> (j < n)%nat -> near_diagonal i j -> Rabs (f_real (A i j)) <= M) ->
    (forall i, (i < n)%nat -> 2 * M <= f_real (A i i) <= D) -> tri_state 0 A.
  Proof using HM.
    intros HF HZ HB HG. split; [exact HF|]. split; [exact HZ|]. split; [intros i Hi _; specialize (HG i Hi); lra|].
    split; [intros i Hi _; apply HG, Hi|]. split; [intros i Hi; apply HB; [lia|lia|left; auto]|].
    split; [intros; lia|]. intros i Hi _. apply HB; [lia|lia|right; auto].
  Qed.

  Lemma tri_next k g : (k < n)%nat -> (exists c, f_valid c /\ f_real c = M) -> tri_state k g -> tri_state (k + 1) (f_eliminated g k).
  Proof using HM HD.
    intros Hk (cM & VM & EM) (HF & HZ & HP & HR & HU & HL & HK).
    destruct (HP k Hk (le_n k)) as [P1 P2]. pose proof limit_one as LO.
    assert (Zq : forall i, (k + 1 < i < n)%nat -> fin (f_eliminated g k i k) /\ f_real (f_eliminated g k i k) = 0).
    { intros i Hi. rewrite f_eliminated_quotient by lia. apply div_zero; auto; try (apply HF; lia); try lra.
      apply HZ; try lia. right; lia. }
    assert (Nq : (k + 1 < n)%nat -> fin (f_eliminated g k (k + 1)%nat k) /\ Rabs (f_real (f_eliminated g k (k + 1)%nat k)) <= 1).
    { intro Hi. rewrite f_eliminated_quotient by lia.
      destruct (div_clamp (g (k + 1)%nat k) (g k k)) as (F & B & _); try (apply HF; lia); try lra; auto.
      specialize (HK k Hi (le_n k)). lra. }
    (* the entries right of column k in the rows below k: unchanged but for the next pivot *)
    assert (Rest : forall i j, (k < i < n)%nat -> (k < j < n)%nat -> (i <> k + 1 \/ j <> k + 1)%nat ->
      fin (f_eliminated g k i j) /\ f_real (f_eliminated g k i j) = f_real (g i j)).
    { intros i j Hi Hj Hne. rewrite f_eliminated_rest by lia. rewrite <- f_eliminated_quotient by lia.
      assert (Small : Rabs (f_real (g i j)) <= f_limit).
      { destruct (Nat.eq_dec i j) as [->|Nij].
        - destruct (HR j ltac:(lia) ltac:(lia)) as [R1 R2]. rewrite Rabs_pos_eq by lra. lra.
        - destruct (Nat.eq_dec j (i + 1)) as [->|N1]; [specialize (HU i ltac:(lia)); lra|].
          destruct (Nat.eq_dec i (j + 1)) as [->|N2]; [specialize (HK j ltac:(lia) ltac:(lia)); lra|].
          rewrite HZ by (try lia; unfold far_diagonal; lia). rewrite Rabs_R0. lra. }
      assert (Zp : fin (SFmul 53 1024 (f_eliminated g k i k) (g k j)) /\ f_real (SFmul 53 1024 (f_eliminated g k i k) (g k j)) = 0).
      { destruct (Nat.eq_dec i (k + 1)) as [->|Ni].
        - apply mul_zero; [apply Nq; lia|apply HF; lia|right]. apply HZ; try lia. left; lia.
        - destruct (Zq i ltac:(lia)) as [F Z]. apply mul_zero; [exact F|apply HF; lia|left; exact Z]. }
      apply sub_zero; [apply HF; lia|apply Zp|exact Small|apply Zp]. }
    assert (Piv : (k + 1 < n)%nat -> fin (f_eliminated g k (k + 1)%nat (k + 1)%nat) /\
      M <= f_real (f_eliminated g k (k + 1)%nat (k + 1)%nat) <= 2 * D).
    { intro Hi. rewrite f_eliminated_rest by lia. rewrite <- f_eliminated_quotient by lia. destruct (Nq Hi) as [Fq Bq].
      assert (Fu : fin (g k (k + 1)%nat)) by (apply HF; lia). specialize (HU k Hi).
      destruct (mul_clamp _ _ Fq Fu Bq ltac:(lra)) as [Fp Bp].
      set (p := SFmul 53 1024 (f_eliminated g k (k + 1)%nat k) (g k (k + 1)%nat)) in *.
      destruct (HR (k + 1)%nat Hi ltac:(lia)) as [R1 R2]. assert (Fd : fin (g (k + 1)%nat (k + 1)%nat)) by (apply HF; lia).
      assert (Bp' : Rabs (f_real p) <= M) by lra. apply Rabs_le_inv in Bp'.
      destruct (sub_clamp _ _ Fd Fp) as (F & E & B); [apply Rabs_le; lra|]. split; [exact F|]. split.
      - rewrite E. rewrite <- EM at 1. rewrite <- (rnd_real cM VM), EM. apply rnd_mono. lra.
      - apply Rle_trans with (1 := Rle_abs _), Rle_trans with (1 := B).
        rewrite (Rabs_pos_eq (f_real (g (k + 1)%nat (k + 1)%nat))) by lra.
        assert (Rabs (f_real p) <= M) by (apply Rabs_le; lra). pose proof u_pos. pose proof u_tiny.
        apply Rle_trans with ((1 + f_u) * (D + M)); [apply Rmult_le_compat_l; lra|]. nra. }
    split; [|split; [|split; [|split; [|split; [|split]]]]].
    - intros i j Hi Hj. destruct (Nat.le_gt_cases i k) as [L|L]; [rewrite f_eliminated_above by auto; auto|].
      destruct (lt_eq_lt_dec j k) as [[J|J]|J]; [rewrite f_eliminated_left by auto; auto| |].
      + subst j. destruct (Nat.eq_dec i (k + 1)) as [->|Ni]; [apply Nq; lia|apply Zq; lia].
      + destruct (Nat.eq_dec i (k + 1)) as [->|Ni]; [destruct (Nat.eq_dec j (k + 1)) as [->|Nj]; [apply Piv; lia|]|]; apply Rest; lia.
    - intros i j Hi Hj Hfar. destruct (Nat.le_gt_cases i k) as [L|L]; [rewrite f_eliminated_above by auto; auto|].
      destruct (lt_eq_lt_dec j k) as [[J|J]|J]; [rewrite f_eliminated_left by auto; auto| |].
      + subst j. apply Zq. unfold far_diagonal in Hfar. lia.
      + destruct (Rest i j ltac:(lia) ltac:(lia)) as [_ ->]; [unfold far_diagonal in Hfar; lia|]. apply HZ; auto.
    - intros i Hi L. destruct (Nat.le_gt_cases i k) as [L'|L']; [rewrite f_eliminated_above by auto; auto|].
      replace i with (k + 1)%nat in * by lia. apply Piv, Hi.
    - intros i Hi L. destruct (Rest i i ltac:(lia) ltac:(lia)) as [_ ->]; [lia|]. apply HR; lia.
    - intros i Hi. destruct (Nat.le_gt_cases i k) as [L'|L']; [rewrite f_eliminated_above by auto; auto|].
      destruct (Rest i (i + 1)%nat ltac:(lia) ltac:(lia)) as [_ ->]; [lia|]. apply HU; lia.
    - intros i Hi L. destruct (Nat.eq_dec i k) as [->|Ni]; [apply Nq, Hi|]. rewrite f_eliminated_left by lia. apply HL; lia.
    - intros i Hi L. destruct (Rest (i + 1)%nat i ltac:(lia) ltac:(lia)) as [_ ->]; [lia|]. apply HK; lia.
  Qed.

  Lemma tri_factorise dbg st a (A : nat -> nat -> f64) : is_mat n n a A -> (exists c, f_valid c /\ f_real c = M) ->
    f_valid (lu_tolerance st) -> f_finite (lu_tolerance st) = true -> f_real (lu_tolerance st) <= M -> tri_state 0 A ->
    exists st' g, factorise fops dbg false st a = Ok (st', true) /\ is_mat n n (lu_matrix st') g /\ tri_state n g.
  Proof using HM HD.
    intros Ha Hc Vt Ft Ht H0.
    destruct (factorise_succeeds fops dbg false n st a A tri_state Ha) as (st' & g & E & Hg & Hs & _).
    - discriminate.
    - exact H0.
    - intros i g Hi Hs. split.
      + destruct Hs as (HF & _ & HP & _). destruct (HF i i Hi Hi) as [V F]. destruct (HP i Hi (le_n i)) as [P _].
        destruct (abs_real _ V F) as (Va & Fa & Ea). cbn [fops sc_lt sc_abs].
        destruct (SFltb (SFabs (g i i)) (lu_tolerance st)) eqn:El; [exfalso|reflexivity].
        apply (f_lt _ _ Va Vt Fa Ft) in El. rewrite Ea, Rabs_pos_eq in El by lra. lra.
      + exact (tri_next i g Hi Hc Hs).
    - exists st', g. auto.
  Qed.
End Tridiagonal.

(* ------------------------------------------------------------------ the substitutions of tridiagonal factors *)
Lemma rdiff_zeros e n f : fin e -> Rabs (f_real e) <= f_limit -> (forall i, (i < n)%nat -> fin (f i) /\ f_real (f i) = 0) ->
  fin (rdiff fops e n f) /\ f_real (rdiff fops e n f) = f_real e.
Proof.
  intros Fe He. induction n as [|n IH]; intro Hf; cbn [rdiff]; [auto|]. cbn [fops sc_sub]. fold fops.
  destruct IH as [F E]; [intros; apply Hf; lia|]. destruct (Hf n ltac:(lia)) as [F0 E0].
  destruct (sub_zero _ _ F F0) as [F1 E1]; [rewrite E; exact He|exact E0|]. split; [exact F1|]. rewrite E1. exact E.
Qed.

(** One product counts: the last one, or the first one. *)
Lemma rdiff_last e n f : fin e -> Rabs (f_real e) <= f_limit -> (forall i, (i < n)%nat -> fin (f i) /\ f_real (f i) = 0) ->
  fin (f n) -> Rabs (f_real e) + Rabs (f_real (f n)) <= f_limit ->
  fin (rdiff fops e (S n) f) /\ Rabs (f_real (rdiff fops e (S n) f)) <= (1 + f_u) * (Rabs (f_real e) + Rabs (f_real (f n))).
Proof.
  intros Fe He Hf Fn Hn. destruct (rdiff_zeros e n f Fe He Hf) as [F E]. cbn [rdiff]. cbn [fops sc_sub]. fold fops.
  destruct (sub_clamp _ _ F Fn) as (F1 & _ & B).
  - rewrite E. unfold Rminus. apply Rle_trans with (1 := Rabs_triang _ _). rewrite Rabs_Ropp. exact Hn.
  - split; [exact F1|]. rewrite E in B. exact B.
Qed.

Lemma rdiff_first e n f : fin e -> fin (f 0%nat) -> (1 + f_u) * (Rabs (f_real e) + Rabs (f_real (f 0%nat))) <= f_limit ->
  (forall i, (0 < i < S n)%nat -> fin (f i) /\ f_real (f i) = 0) ->
  fin (rdiff fops e (S n) f) /\
  Rabs (f_real (rdiff fops e (S n) f)) <= (1 + f_u) * (Rabs (f_real e) + Rabs (f_real (f 0%nat))).
Proof.
  intros Fe F0 Hl. induction n as [|n IH]; intro Hf.
  - cbn [rdiff fops sc_sub]. destruct (sub_clamp _ _ Fe F0) as (F1 & _ & B); [|auto].
    unfold Rminus. apply Rle_trans with (1 := Rabs_triang _ _). rewrite Rabs_Ropp. pose proof u_pos.
    pose proof (Rabs_pos (f_real e)). pose proof (Rabs_pos (f_real (f 0%nat))). nra.
  - destruct IH as [F B]; [intros; apply Hf; lia|]. destruct (Hf (S n) ltac:(lia)) as [Fn En].
    change (rdiff fops e (S (S n)) f) with (SFsub 53 1024 (rdiff fops e (S n) f) (f (S n))).
    destruct (sub_zero _ _ F Fn) as [F1 E1]; [lra|exact En|]. split; [exact F1|]. rewrite E1. exact B.
Qed.

Section TriSolve.
  Variables (n : nat) (D beta : R) (g : nat -> nat -> f64) (B y z : nat -> f64).
  Hypothesis Hg : tri_state n 1 D n g.
  Hypothesis HB : forall i, (i < n)%nat -> fin (B i) /\ Rabs (f_real (B i)) <= beta.
  Hypothesis Hlim : (1 + f_u) ^ (2 * n) * (INR n * INR n) * beta <= f_limit.
  Hypothesis Hy : forall i, (i < n)%nat -> y i = rdiff fops (B i) i (fun j => SFmul 53 1024 (g i j) (y j)).
  Hypothesis Hz : forall i, (i < n)%nat ->
    z i = SFdiv 53 1024 (rdiff fops (y i) (n - (i + 1)) (fun k => SFmul 53 1024 (g i (i + 1 + k)%nat) (z (i + 1 + k)%nat))) (g i i).

  Lemma level_le p q : (p <= n)%nat -> (q <= n)%nat -> 0 <= beta -> (1 + f_u) ^ (p + q) * (INR p * INR q) * beta <= f_limit.
  Proof using Hlim.
    intros Hp Hq Hb. apply Rle_trans with (2 := Hlim). pose proof u_pos. apply Rmult_le_compat_r; [exact Hb|].
    apply Rmult_le_compat; [apply pow_le; lra|apply Rmult_le_pos; apply pos_INR|apply Rle_pow; [lra|lia]|].
    apply Rmult_le_compat; try apply pos_INR; apply le_INR; auto.
  Qed.

  Lemma beta_nonneg : (0 < n)%nat -> 0 <= beta.
  Proof using HB. intro H. destruct (HB 0%nat H) as [_ P]. pose proof (Rabs_pos (f_real (B 0%nat))). lra. Qed.

  Lemma tri_forward i : (i < n)%nat -> fin (y i) /\ Rabs (f_real (y i)) <= (1 + f_u) ^ i * INR (i + 1) * beta.
  Proof using Hg HB Hlim Hy.
    destruct Hg as (HF & HZ & _ & _ & _ & HL & _). pose proof u_pos as Hu.
    induction i as [i IH] using lt_wf_ind. intro Hi. pose proof (beta_nonneg ltac:(lia)) as Hb. destruct (HB i Hi) as [FB BB].
    rewrite Hy by exact Hi. destruct i as [|i].
    - cbn [rdiff pow]. split; [exact FB|]. change (INR (0 + 1)) with 1. lra.
    - destruct (IH i ltac:(lia) ltac:(lia)) as [Fi Bi].
      assert (L1 : (1 + f_u) ^ (S i) * INR (S i + 1) * beta <= f_limit).
      { pose proof (level_le (S i + 1) 1 ltac:(lia) ltac:(lia) Hb) as L. apply Rle_trans with (2 := L). apply Rmult_le_compat_r; [exact Hb|].
        change (INR 1) with 1. rewrite Rmult_1_r. apply Rmult_le_compat_r; [apply pos_INR|]. apply Rle_pow; [lra|lia]. }
      assert (P1 : 1 <= (1 + f_u) ^ i) by (apply pow_R1_Rle; lra). pose proof (pos_INR i) as Pi.
      assert (Ei : INR (i + 1) = INR i + 1) by (rewrite plus_INR; reflexivity).
      assert (Es : INR (S i + 1) = INR i + 2) by (rewrite plus_INR, S_INR; change (INR 1) with 1; lra).
      assert (Yl : Rabs (f_real (y i)) + beta <= (1 + f_u) ^ i * INR (S i + 1) * beta).
      { apply Rle_trans with ((1 + f_u) ^ i * INR (i + 1) * beta + (1 + f_u) ^ i * beta); [|rewrite Ei, Es; right; ring].
        apply Rplus_le_compat; [exact Bi|]. rewrite <- (Rmult_1_l beta) at 1. apply Rmult_le_compat_r; lra. }
      assert (Sx : 0 <= (1 + f_u) ^ i * INR (S i + 1) * beta) by (pose proof (Rabs_pos (f_real (y i))); lra).
      assert (El : (1 + f_u) ^ S i * INR (S i + 1) * beta = (1 + f_u) * ((1 + f_u) ^ i * INR (S i + 1) * beta)) by (cbn [pow]; ring).
      assert (Hs : (1 + f_u) ^ i * INR (S i + 1) * beta <= f_limit) by nra.
      pose proof (Rabs_pos (f_real (y i))) as Yp. assert (Fl : fin (g (S i) i)) by (apply HF; lia).
      assert (Bl : Rabs (f_real (g (S i) i)) <= 1) by (replace (S i) with (i + 1)%nat by lia; apply HL; lia).
      destruct (mul_clamp _ _ Fl Fi Bl ltac:(lra)) as [Fp Bp].
      destruct (rdiff_last (B (S i)) i (fun j => SFmul 53 1024 (g (S i) j) (y j)) FB ltac:(lra)) as [F R].
      + intros j Hj. apply mul_zero; [apply HF; lia|apply IH; lia|left]. apply HZ; try lia. right; lia.
      + exact Fp.
      + lra.
      + split; [exact F|]. apply Rle_trans with (1 := R). rewrite El. apply Rmult_le_compat_l; lra.
  Qed.

  Lemma tri_backward i : (i < n)%nat -> fin (z i) /\
    Rabs (f_real (z i)) <= (1 + f_u) ^ (n + (n - i)) * (INR n * INR (n - i)) * beta.
  Proof using Hg HB Hlim Hy Hz.
    destruct Hg as (HF & HZ & HP & _ & HU & _). pose proof u_pos as Hu.
    assert (G : forall c i, (n - i <= c)%nat -> (i < n)%nat -> fin (z i) /\
      Rabs (f_real (z i)) <= (1 + f_u) ^ (n + (n - i)) * (INR n * INR (n - i)) * beta).
    { induction c as [|c IH]; intros k Hc Hk; [lia|]. pose proof (beta_nonneg ltac:(lia)) as Hb.
      destruct (tri_forward k Hk) as [Fy By].
      set (q := (n - (k + 1))%nat). set (Y := (1 + f_u) ^ (n + q) * INR n * beta).
      assert (HY : Rabs (f_real (y k)) <= Y).
      { apply Rle_trans with (1 := By). apply Rmult_le_compat_r; [exact Hb|].
        apply Rmult_le_compat; [apply pow_le; lra|apply pos_INR|apply Rle_pow; [lra|lia]|apply le_INR; lia]. }
      assert (HY0 : 0 <= Y) by (pose proof (Rabs_pos (f_real (y k))); lra).
      assert (Eq : (n - k = S q)%nat) by (unfold q; lia).
      assert (Er : INR (n - k) = INR q + 1) by (rewrite Eq, S_INR; ring).
      pose proof (level_le n (n - k) ltac:(lia) ltac:(lia) Hb) as Lk. rewrite Er in Lk.
      assert (Ek : (1 + f_u) ^ (n + (n - k)) = (1 + f_u) * (1 + f_u) ^ (n + q)).
      { rewrite Eq, Nat.add_succ_r. reflexivity. }
      rewrite Ek in Lk. rewrite Er, Ek.
      replace ((1 + f_u) * (1 + f_u) ^ (n + q) * (INR n * (INR q + 1)) * beta) with ((1 + f_u) * (Y + Y * INR q)) in * by (unfold Y; ring).
      assert (Yq : 0 <= Y * INR q) by (apply Rmult_le_pos; [exact HY0|apply pos_INR]).
      assert (V : fin (rdiff fops (y k) q (fun t => SFmul 53 1024 (g k (k + 1 + t)%nat) (z (k + 1 + t)%nat))) /\
        Rabs (f_real (rdiff fops (y k) q (fun t => SFmul 53 1024 (g k (k + 1 + t)%nat) (z (k + 1 + t)%nat)))) <= (1 + f_u) * (Y + Y * INR q)).
      { destruct q as [|q'] eqn:Eq'.
        - cbn [rdiff]. split; [exact Fy|]. nra.
        - set (fz := fun t => SFmul 53 1024 (g k (k + 1 + t)%nat) (z (k + 1 + t)%nat)).
          destruct (IH (k + 1)%nat ltac:(lia) ltac:(lia)) as [Fz Bz]. replace (n - (k + 1))%nat with (S q') in Bz by lia.
          assert (Bz' : Rabs (f_real (z (k + 1)%nat)) <= Y * INR (S q')).
          { apply Rle_trans with (1 := Bz). right. unfold Y. ring. }
          assert (F0 : fin (fz 0%nat) /\ Rabs (f_real (fz 0%nat)) <= Y * INR (S q')).
          { unfold fz. replace (k + 1 + 0)%nat with (k + 1)%nat by lia.
            destruct (mul_clamp (g k (k + 1)%nat) (z (k + 1)%nat)) as [F1 B1]; [apply HF; lia|exact Fz|apply HU; lia|nra|].
            split; [exact F1|lra]. }
          destruct F0 as [F0 B0].
          destruct (rdiff_first (y k) q' fz Fy F0) as [F1 B1].
          + apply Rle_trans with (2 := Lk). apply Rmult_le_compat_l; lra.
          + intros t Ht. unfold fz. apply mul_zero; [apply HF; lia|apply IH; lia|left]. apply HZ; try lia. left; lia.
          + split; [exact F1|]. apply Rle_trans with (1 := B1). apply Rmult_le_compat_l; lra. }
      destruct V as [FV BV]. rewrite Hz by exact Hk. fold q.
      set (v := rdiff fops (y k) q (fun t => SFmul 53 1024 (g k (k + 1 + t)%nat) (z (k + 1 + t)%nat))) in *.
      destruct (HP k Hk ltac:(lia)) as [P1 P2]. destruct (HF k k Hk Hk) as [Vg Fg]. destruct FV as [Vv Fv].
      assert (Bd : Rabs (f_real v / f_real (g k k)) <= Rabs (f_real v)).
      { unfold Rdiv. rewrite Rabs_mult, (Rabs_pos_eq (/ f_real (g k k))) by (apply Rlt_le, Rinv_0_lt_compat; lra).
        rewrite <- (Rmult_1_r (Rabs (f_real v))) at 2. apply Rmult_le_compat_l; [apply Rabs_pos|].
        rewrite <- Rinv_1. apply Rinv_le_contravar; lra. }
      assert (Fd : f_finite (SFdiv 53 1024 v (g k k)) = true) by (apply f_div_finite; auto; lra).
      split; [split; [apply f_div_valid; auto|exact Fd]|].
      destruct (f_div_round v (g k k) Vv Vg Fg Fd) as (_ & _ & ->).
      apply Rle_trans with (2 := BV). apply rnd_clamp; auto. }
    intro Hi. apply (G (n - i)%nat); auto.
  Qed.
End TriSolve.
