(** Sweeps carry three vectors lying one between the others to three such vectors. *)
From Coq Require Import ZArith Reals Lra Lia List SpecFloat Psatz.
From Flocq Require Import Core BinarySingleNaN.
From Verif Require Import Base ListFacts DenseModel DenseFacts ScalarModel GeometryReal SparseModel SparseSpec
  SparseFacts SparseSeq SparseMul IterModel IterFacts IterLoop FloatFacts PropFloatLemmas FloatUnit FloatSweep.
Import ListNotations.
Local Open Scope R_scope.

Local Notation rnd := (round radix2 (FLT_exp (-1074) 53) ZnearestE).
Local Notation B64 := (binary_float 53 1024).

(* ------------------------------------------------------------------ any scalars *)
Section Between.
  Context {S : Type}.
  Variables (O : sops S) (dbg : bool) (stray : option nat).
  Variables (T : S -> S -> S -> Prop) (Neg Pos : S -> Prop) (w : S).
  Hypothesis T0 : T (sc_zero O) (sc_zero O) (sc_zero O).
  Hypothesis TA : forall x z y x' z' y', T x z y -> T x' z' y' -> T (sc_add O x x') (sc_add O z z') (sc_add O y y').
  Hypothesis TS : forall x z y x' z' y', T x z y -> T x' z' y' -> T (sc_sub O x y') (sc_sub O z z') (sc_sub O y x').
  Hypothesis TN : forall a x z y, Neg a -> T x z y -> T (sc_mul O a y) (sc_mul O a z) (sc_mul O a x).
  Hypothesis TW : forall x z y, T x z y -> T (sc_mul O w x) (sc_mul O w z) (sc_mul O w y).
  Hypothesis TV : forall x z y, T x z y -> T (sc_mul O (sc_sub O (sc_one O) w) x) (sc_mul O (sc_sub O (sc_one O) w) z)
    (sc_mul O (sc_sub O (sc_one O) w) y).
  Hypothesis TD : forall d x z y, Pos d -> T x z y -> T (sc_div O x d) (sc_div O z d) (sc_div O y d).

  Lemma off_between n i (es : list (nat * S)) f g k s t u : (forall e, In e es -> fst e <> i -> Neg (snd e)) ->
    (forall e, In e es -> (fst e < n)%nat) -> (forall j, (j < n)%nat -> T (f j) (g j) (k j)) -> T u t s ->
    T (off_sum O i es k u) (off_sum O i es g t) (off_sum O i es f s).
  Proof using TA TN.
    intros HN Hn Hf. revert s t u; induction es as [|e es IH]; intros s t u H; [exact H|].
    unfold off_sum. cbn [fold_left]. apply IH.
    - intros e' He. apply HN. right; auto.
    - intros e' He. apply Hn. right; auto.
    - destruct (Nat.eqb_spec (fst e) i); [exact H|]. apply TA; [exact H|].
      apply TN; [apply HN; [left|]; auto|apply Hf, Hn; left; auto].
  Qed.

  Lemma swept_between n rs d h1 h2 h3 i f g k : (forall e, In e (nth i rs []) -> fst e <> i -> Neg (snd e)) ->
    (forall e, In e (nth i rs []) -> (fst e < n)%nat) -> Pos (d i) -> (i < n)%nat ->
    T (h1 i) (h2 i) (h3 i) -> (forall j, (j < n)%nat -> T (f j) (g j) (k j)) ->
    T (swept O rs d h1 w i f) (swept O rs d h2 w i g) (swept O rs d h3 w i k).
  Proof using T0 TA TS TN TW TV TD.
    intros HN Hn Hd Hi Hh Hf. unfold swept, new_value. apply TA; [|apply TV, Hf, Hi].
    apply TD; [exact Hd|]. apply TW, TS; [exact Hh|]. apply (off_between n); auto.
  Qed.

  Definition between (x z y : list S) : Prop := forall i, (i < length x)%nat ->
    T (nth i x (sc_zero O)) (nth i z (sc_zero O)) (nth i y (sc_zero O)).

  Lemma vec_nth n x f i : is_vec n x f -> (i < n)%nat -> nth i x (sc_zero O) = f i.
  Proof using. intros [_ H] Hi. apply nth_error_nth, H, Hi. Qed.

  Definition shaped n a (b : list S) : Prop := square_system n a b /\
    (forall i j v, stored a i j v -> i <> j -> Neg v) /\ (forall i v, stored a i i v -> Pos v).

  (** The three systems have the same rows. *)
  Lemma three_rows n a b1 b2 b3 : shaped n a b1 -> length b2 = n -> length b3 = n ->
    exists rs d, rows_of dbg stray n a b1 rs d (fun i => nth i b1 (sc_zero O)) /\
      rows_of dbg stray n a b2 rs d (fun i => nth i b2 (sc_zero O)) /\
      rows_of dbg stray n a b3 rs d (fun i => nth i b3 (sc_zero O)) /\
      forall i, (i < n)%nat -> (forall e, In e (nth i rs []) -> fst e <> i -> Neg (snd e)) /\
        (forall e, In e (nth i rs []) -> (fst e < n)%nat) /\ Pos (d i).
  Proof using.
    intros (H & HN & HP) L2 L3. destruct (system_rows O dbg stray n a b1 H) as (rs & d & R & _ & Hd).
    exists rs, d. split; [exact R|]. destruct R as [R1 R2 R3 R4 R5 R6].
    split; [|split].
    - constructor; auto. rewrite <- L2. apply is_vec_self.
    - constructor; auto. rewrite <- L3. apply is_vec_self.
    - intros i Hi. split; [|split].
      + intros [j v] He Hj. apply (HN i j); [|cbn in Hj; auto]. apply (srepr_stored _ _ _ _ _ R1), He.
      + intros e He. apply (R4 i); [exact Hi|]. apply in_map, He.
      + apply (HP i), Hd, Hi.
  Qed.

  Section Three.
    Variables (n : nat) (a : smat S) (b1 b2 b3 : list S).
    Hypothesis Ha : shaped n a b1.
    Hypothesis L2 : length b2 = n.
    Hypothesis L3 : length b3 = n.
    Hypothesis Hb : between b1 b2 b3.

    Lemma between_b i : (i < n)%nat -> T (nth i b1 (sc_zero O)) (nth i b2 (sc_zero O)) (nth i b3 (sc_zero O)).
    Proof using Ha Hb. intro Hi. apply Hb. destruct Ha as ((_ & _ & _ & -> & _) & _). exact Hi. Qed.

    (** A sweep into other vectors. *)
    Lemma apart_between x z y u v t : length x = n -> length z = n -> length y = n -> between x z y ->
      length u = n -> length v = n -> length t = n ->
      exists x' z' y', forward_sweep O dbg stray a (Some x) u b1 w = Ok x' /\
        forward_sweep O dbg stray a (Some z) v b2 w = Ok z' /\ forward_sweep O dbg stray a (Some y) t b3 w = Ok y' /\
        length x' = n /\ length z' = n /\ length y' = n /\ between x' z' y'.
    Proof using T0 TA TS TN TW TV TD Ha L2 L3 Hb.
      intros Lx Lz Ly H Lu Lv Lt. destruct (three_rows n a b1 b2 b3 Ha L2 L3) as (rs & d & R1 & R2 & R3 & HR).
      assert (Vx := is_vec_self x (sc_zero O)). assert (Vz := is_vec_self z (sc_zero O)).
      assert (Vy := is_vec_self y (sc_zero O)). rewrite Lx in Vx. rewrite Lz in Vz. rewrite Ly in Vy.
      destruct (jacobi_sweep_ok O dbg stray n a b1 rs d _ x u _ w R1 Vx Lu) as (x' & E1 & V1).
      destruct (jacobi_sweep_ok O dbg stray n a b2 rs d _ z v _ w R2 Vz Lv) as (z' & E2 & V2).
      destruct (jacobi_sweep_ok O dbg stray n a b3 rs d _ y t _ w R3 Vy Lt) as (y' & E3 & V3).
      exists x', z', y'. do 3 (split; [assumption|]). split; [apply V1|]. split; [apply V2|]. split; [apply V3|].
      intros i Hi. rewrite (proj1 V1) in Hi.
      rewrite (vec_nth _ _ _ i V1 Hi), (vec_nth _ _ _ i V2 Hi), (vec_nth _ _ _ i V3 Hi).
      destruct (HR i Hi) as (H1 & H2 & H3). apply (swept_between n); auto; [apply between_b, Hi|].
      intros j Hj. apply H. rewrite Lx. exact Hj.
    Qed.

    (** A sweep in place. *)
    Lemma place_between x z y : length x = n -> length z = n -> length y = n -> between x z y ->
      exists x' z' y', forward_sweep O dbg stray a None x b1 w = Ok x' /\
        forward_sweep O dbg stray a None z b2 w = Ok z' /\ forward_sweep O dbg stray a None y b3 w = Ok y' /\
        length x' = n /\ length z' = n /\ length y' = n /\ between x' z' y'.
    Proof using T0 TA TS TN TW TV TD Ha L2 L3 Hb.
      intros Lx Lz Ly H. destruct (three_rows n a b1 b2 b3 Ha L2 L3) as (rs & d & R1 & R2 & R3 & HR).
      assert (Vx := is_vec_self x (sc_zero O)). assert (Vz := is_vec_self z (sc_zero O)).
      assert (Vy := is_vec_self y (sc_zero O)). rewrite Lx in Vx. rewrite Lz in Vz. rewrite Ly in Vy.
      destruct (seidel_sweep_ok O dbg stray n a b1 rs d _ x _ w R1 Vx) as (x' & f & E1 & V1 & F1).
      destruct (seidel_sweep_ok O dbg stray n a b2 rs d _ z _ w R2 Vz) as (z' & g & E2 & V2 & F2).
      destruct (seidel_sweep_ok O dbg stray n a b3 rs d _ y _ w R3 Vy) as (y' & k & E3 & V3 & F3).
      exists x', z', y'. do 3 (split; [assumption|]). split; [apply V1|]. split; [apply V2|]. split; [apply V3|].
      intros i Hi. rewrite (proj1 V1) in Hi.
      rewrite (vec_nth _ _ _ i V1 Hi), (vec_nth _ _ _ i V2 Hi), (vec_nth _ _ _ i V3 Hi). revert Hi.
      induction i as [i IH] using lt_wf_ind. intro Hi. rewrite F1, F2, F3 by exact Hi.
      destruct (HR i Hi) as (H1 & H2 & H3). apply (swept_between n); auto; [apply between_b, Hi|].
      intros j Hj. destruct (Nat.ltb_spec j i); [apply IH; auto|]. apply H. rewrite Lx. exact Hj.
    Qed.

    (** The same, descending. *)
    Lemma apart_back_between x z y u v t : length x = n -> length z = n -> length y = n -> between x z y ->
      length u = n -> length v = n -> length t = n ->
      exists x' z' y', backward_sweep O dbg stray a (Some x) u b1 w = Ok x' /\
        backward_sweep O dbg stray a (Some z) v b2 w = Ok z' /\ backward_sweep O dbg stray a (Some y) t b3 w = Ok y' /\
        length x' = n /\ length z' = n /\ length y' = n /\ between x' z' y'.
    Proof using T0 TA TS TN TW TV TD Ha L2 L3 Hb.
      intros Lx Lz Ly H Lu Lv Lt. destruct (three_rows n a b1 b2 b3 Ha L2 L3) as (rs & d & R1 & R2 & R3 & HR).
      assert (Vx := is_vec_self x (sc_zero O)). assert (Vz := is_vec_self z (sc_zero O)).
      assert (Vy := is_vec_self y (sc_zero O)). rewrite Lx in Vx. rewrite Lz in Vz. rewrite Ly in Vy.
      destruct (jacobi_back_ok O dbg stray n a b1 rs d _ x u _ w R1 Vx Lu) as (x' & E1 & V1).
      destruct (jacobi_back_ok O dbg stray n a b2 rs d _ z v _ w R2 Vz Lv) as (z' & E2 & V2).
      destruct (jacobi_back_ok O dbg stray n a b3 rs d _ y t _ w R3 Vy Lt) as (y' & E3 & V3).
      exists x', z', y'. do 3 (split; [assumption|]). split; [apply V1|]. split; [apply V2|]. split; [apply V3|].
      intros i Hi. rewrite (proj1 V1) in Hi.
      rewrite (vec_nth _ _ _ i V1 Hi), (vec_nth _ _ _ i V2 Hi), (vec_nth _ _ _ i V3 Hi).
      destruct (HR i Hi) as (H1 & H2 & H3). apply (swept_between n); auto; [apply between_b, Hi|].
      intros j Hj. apply H. rewrite Lx. exact Hj.
    Qed.

    Lemma place_back_between x z y : length x = n -> length z = n -> length y = n -> between x z y ->
      exists x' z' y', backward_sweep O dbg stray a None x b1 w = Ok x' /\
        backward_sweep O dbg stray a None z b2 w = Ok z' /\ backward_sweep O dbg stray a None y b3 w = Ok y' /\
        length x' = n /\ length z' = n /\ length y' = n /\ between x' z' y'.
    Proof using T0 TA TS TN TW TV TD Ha L2 L3 Hb.
      intros Lx Lz Ly H. destruct (three_rows n a b1 b2 b3 Ha L2 L3) as (rs & d & R1 & R2 & R3 & HR).
      assert (Vx := is_vec_self x (sc_zero O)). assert (Vz := is_vec_self z (sc_zero O)).
      assert (Vy := is_vec_self y (sc_zero O)). rewrite Lx in Vx. rewrite Lz in Vz. rewrite Ly in Vy.
      destruct (seidel_back_ok O dbg stray n a b1 rs d _ x _ w R1 Vx) as (x' & f & E1 & V1 & F1).
      destruct (seidel_back_ok O dbg stray n a b2 rs d _ z _ w R2 Vz) as (z' & g & E2 & V2 & F2).
      destruct (seidel_back_ok O dbg stray n a b3 rs d _ y _ w R3 Vy) as (y' & k & E3 & V3 & F3).
      exists x', z', y'. do 3 (split; [assumption|]). split; [apply V1|]. split; [apply V2|]. split; [apply V3|].
      intros i Hi. rewrite (proj1 V1) in Hi.
      rewrite (vec_nth _ _ _ i V1 Hi), (vec_nth _ _ _ i V2 Hi), (vec_nth _ _ _ i V3 Hi). revert Hi.
      remember (n - i)%nat as m eqn:Em. revert i Em.
      induction m as [m IH] using lt_wf_ind. intros i Em Hi. rewrite F1, F2, F3 by exact Hi.
      destruct (HR i Hi) as (H1 & H2 & H3). apply (swept_between n); auto; [apply between_b, Hi|].
      intros j Hj. destruct (Nat.ltb_spec i j); [apply (IH (n - j)%nat); lia|]. apply H. rewrite Lx. exact Hj.
    Qed.
  End Three.
End Between.

(* ------------------------------------------------------------------ doubles *)
(** Where the outer two are finite, the inner one is finite and lies between them. *)
Definition bracket (x z y : f64) : Prop := f_valid x /\ f_valid z /\ f_valid y /\
  (f_finite x = true -> f_finite y = true -> f_finite z = true /\ f_real x <= f_real z <= f_real y).

Lemma real_below x : f_valid x -> Rabs (f_real x) < bpow radix2 1024.
Proof. intro H. destruct (valid_SF2B x H) as (a & _ & <- & _). apply abs_B2R_lt_emax. Qed.

Lemma rnd_mono x y : x <= y -> rnd x <= rnd y.
Proof. intro H. apply round_le; [apply FLT_exp_valid; reflexivity|apply valid_rnd_N|exact H]. Qed.

Lemma inside_below (p q : f64) z : f_valid p -> f_valid q -> f_real p <= rnd z <= f_real q ->
  Rlt_bool (Rabs (round radix2 (SpecFloat.fexp 53 1024) (round_mode mode_NE) z)) (bpow radix2 1024) = true.
Proof.
  intros Hp Hq [H1 H2]. apply real_below, Rabs_def2 in Hp. apply real_below, Rabs_def2 in Hq.
  apply Rlt_bool_true. change (Rabs (rnd z) < bpow radix2 1024). apply Rabs_def1; lra.
Qed.

Lemma bracket_add x z y x' z' y' : bracket x z y -> bracket x' z' y' ->
  bracket (SFadd 53 1024 x x') (SFadd 53 1024 z z') (SFadd 53 1024 y y').
Proof.
  intros (Vx & Vz & Vy & H) (Vx' & Vz' & Vy' & H').
  split; [apply f_add_valid; auto|]. split; [apply f_add_valid; auto|]. split; [apply f_add_valid; auto|]. intros Fx Fy.
  pose proof (f_add_valid x x' Vx Vx') as W1. pose proof (f_add_valid y y' Vy Vy') as W2.
  destruct (f_add_round x x' Vx Vx' Fx) as (F1 & F1' & E1), (f_add_round y y' Vy Vy' Fy) as (F2 & F2' & E2).
  destruct (H F1 F2) as (Fz & Hz), (H' F1' F2') as (Fz' & Hz').
  assert (B : f_real (SFadd 53 1024 x x') <= rnd (f_real z + f_real z') <= f_real (SFadd 53 1024 y y')).
  { rewrite E1, E2. split; apply rnd_mono; lra. }
  assert (F : f_finite (SFadd 53 1024 z z') = true).
  { apply (inside_below _ _ _ W1 W2) in B. clear - Vz Vz' Fz Fz' B.
    destruct (valid_SF2B z Vz) as (a & <- & Ea & Ga), (valid_SF2B z' Vz') as (b & <- & Eb & Gb).
    rewrite add_equiv, B2SF_finite. rewrite <- Ga in Fz. rewrite <- Gb in Fz'. rewrite <- Ea, <- Eb in B.
    pose proof (Bplus_correct 53 1024 Hprec Hmax mode_NE a b Fz Fz') as C. rewrite B in C. apply C. }
  split; [exact F|]. destruct (f_add_round z z' Vz Vz' F) as (_ & _ & ->). exact B.
Qed.

Lemma bracket_sub x z y x' z' y' : bracket x z y -> bracket x' z' y' ->
  bracket (SFsub 53 1024 x y') (SFsub 53 1024 z z') (SFsub 53 1024 y x').
Proof.
  intros (Vx & Vz & Vy & H) (Vx' & Vz' & Vy' & H').
  split; [apply f_sub_valid; auto|]. split; [apply f_sub_valid; auto|]. split; [apply f_sub_valid; auto|]. intros Fx Fy.
  pose proof (f_sub_valid x y' Vx Vy') as W1. pose proof (f_sub_valid y x' Vy Vx') as W2.
  destruct (f_sub_round x y' Vx Vy' Fx) as (F1 & F1' & E1), (f_sub_round y x' Vy Vx' Fy) as (F2 & F2' & E2).
  destruct (H F1 F2) as (Fz & Hz), (H' F2' F1') as (Fz' & Hz').
  assert (B : f_real (SFsub 53 1024 x y') <= rnd (f_real z - f_real z') <= f_real (SFsub 53 1024 y x')).
  { rewrite E1, E2. split; apply rnd_mono; lra. }
  assert (F : f_finite (SFsub 53 1024 z z') = true).
  { apply (inside_below _ _ _ W1 W2) in B. clear - Vz Vz' Fz Fz' B.
    destruct (valid_SF2B z Vz) as (a & <- & Ea & Ga), (valid_SF2B z' Vz') as (b & <- & Eb & Gb).
    rewrite sub_equiv, B2SF_finite. rewrite <- Ga in Fz. rewrite <- Gb in Fz'. rewrite <- Ea, <- Eb in B.
    pose proof (Bminus_correct 53 1024 Hprec Hmax mode_NE a b Fz Fz') as C. rewrite B in C. apply C. }
  split; [exact F|]. destruct (f_sub_round z z' Vz Vz' F) as (_ & _ & ->). exact B.
Qed.

Lemma mul_inside a z p q : f_valid a -> f_valid z -> f_finite a = true -> f_finite z = true -> f_valid p -> f_valid q ->
  f_real p <= rnd (f_real a * f_real z) <= f_real q -> f_finite (SFmul 53 1024 a z) = true.
Proof.
  intros Va Vz Fa Fz Vp Vq B. apply (inside_below _ _ _ Vp Vq) in B.
  destruct (valid_SF2B z Vz) as (z' & <- & Ez & Gz), (valid_SF2B a Va) as (a' & <- & Ea & Ga).
  rewrite mul_equiv, B2SF_finite. rewrite <- Ga in Fa. rewrite <- Gz in Fz. rewrite <- Ea, <- Ez in B.
  pose proof (Bmult_correct 53 1024 Hprec Hmax mode_NE a' z') as C. rewrite B in C. destruct C as (_ & -> & _).
  rewrite Fa, Fz. reflexivity.
Qed.

(** Factors of a sign. *)
Definition nonneg (a : f64) : Prop := f_valid a /\ f_finite a = true /\ 0 <= f_real a.
Definition nonpos (a : f64) : Prop := f_valid a /\ f_finite a = true /\ f_real a <= 0.
Definition positive (a : f64) : Prop := f_valid a /\ f_finite a = true /\ 0 < f_real a.

Lemma bracket_mul a x z y : nonneg a -> bracket x z y ->
  bracket (SFmul 53 1024 a x) (SFmul 53 1024 a z) (SFmul 53 1024 a y).
Proof.
  intros (Va & Fa & Ha) (Vx & Vz & Vy & H).
  split; [apply f_mul_valid; auto|]. split; [apply f_mul_valid; auto|]. split; [apply f_mul_valid; auto|]. intros Fx Fy.
  destruct (f_mul_round a x Va Vx Fx) as (_ & F1 & E1), (f_mul_round a y Va Vy Fy) as (_ & F2 & E2).
  destruct (H F1 F2) as (Fz & Hz).
  assert (B : f_real (SFmul 53 1024 a x) <= rnd (f_real a * f_real z) <= f_real (SFmul 53 1024 a y)).
  { rewrite E1, E2. split; apply rnd_mono, Rmult_le_compat_l; lra. }
  assert (F : f_finite (SFmul 53 1024 a z) = true).
  { apply (mul_inside a z (SFmul 53 1024 a x) (SFmul 53 1024 a y)); auto; apply f_mul_valid; auto. }
  split; [exact F|]. destruct (f_mul_round a z Va Vz F) as (_ & _ & ->). exact B.
Qed.

Lemma bracket_mul_neg a x z y : nonpos a -> bracket x z y ->
  bracket (SFmul 53 1024 a y) (SFmul 53 1024 a z) (SFmul 53 1024 a x).
Proof.
  intros (Va & Fa & Ha) (Vx & Vz & Vy & H).
  split; [apply f_mul_valid; auto|]. split; [apply f_mul_valid; auto|]. split; [apply f_mul_valid; auto|]. intros Fy Fx.
  destruct (f_mul_round a x Va Vx Fx) as (_ & F1 & E1), (f_mul_round a y Va Vy Fy) as (_ & F2 & E2).
  destruct (H F1 F2) as (Fz & Hz).
  assert (B : f_real (SFmul 53 1024 a y) <= rnd (f_real a * f_real z) <= f_real (SFmul 53 1024 a x)).
  { rewrite E1, E2. split; apply rnd_mono; nra. }
  assert (F : f_finite (SFmul 53 1024 a z) = true).
  { apply (mul_inside a z (SFmul 53 1024 a y) (SFmul 53 1024 a x)); auto; apply f_mul_valid; auto. }
  split; [exact F|]. destruct (f_mul_round a z Va Vz F) as (_ & _ & ->). exact B.
Qed.

Lemma bracket_div d x z y : positive d -> bracket x z y ->
  bracket (SFdiv 53 1024 x d) (SFdiv 53 1024 z d) (SFdiv 53 1024 y d).
Proof.
  intros (Vd & Fd & Hd) (Vx & Vz & Vy & H).
  split; [apply f_div_valid; auto|]. split; [apply f_div_valid; auto|]. split; [apply f_div_valid; auto|]. intros Fx Fy.
  pose proof (f_div_valid x d Vx Vd) as W1. pose proof (f_div_valid y d Vy Vd) as W2.
  destruct (f_div_round x d Vx Vd Fd Fx) as (F1 & _ & E1), (f_div_round y d Vy Vd Fd Fy) as (F2 & _ & E2).
  destruct (H F1 F2) as (Fz & Hz). pose proof (Rinv_0_lt_compat _ Hd) as Hi.
  assert (B : f_real (SFdiv 53 1024 x d) <= rnd (f_real z / f_real d) <= f_real (SFdiv 53 1024 y d)).
  { rewrite E1, E2. split; apply rnd_mono, Rmult_le_compat_r; lra. }
  assert (F : f_finite (SFdiv 53 1024 z d) = true).
  { apply (inside_below _ _ _ W1 W2) in B. clear - Vz Vd Fz Hd B.
    destruct (valid_SF2B z Vz) as (z' & <- & Ez & Gz), (valid_SF2B d Vd) as (d' & <- & Ed & Gd).
    rewrite div_equiv, B2SF_finite. rewrite <- Gz in Fz. rewrite <- Ed, <- Ez in B.
    assert (Hn : B2R d' <> 0) by (rewrite Ed; lra).
    pose proof (Bdiv_correct 53 1024 Hprec Hmax mode_NE z' d' Hn) as C. rewrite B in C. destruct C as (_ & -> & _). exact Fz. }
  split; [exact F|]. destruct (f_div_round z d Vz Vd Fd F) as (_ & _ & ->). exact B.
Qed.

(** A factor between 0 and 1. *)
Definition weight (w : f64) : Prop := f_valid w /\ f_finite w = true /\ 0 <= f_real w <= 1.

Lemma weight_nonneg w : weight w -> nonneg w.
Proof. intros (V & F & H). split; [exact V|]. split; [exact F|lra]. Qed.

Lemma weight_rest w : weight w -> nonneg (SFsub 53 1024 (f_of_Z 1) w).
Proof.
  intros (V & F & H). assert (V1 : f_valid (f_of_Z 1)) by reflexivity.
  assert (F1 : f_finite (f_of_Z 1) = true) by reflexivity.
  assert (G : f_finite (SFsub 53 1024 (f_of_Z 1) w) = true).
  { apply f_sub_finite; auto. rewrite one_real, Rabs_pos_eq by lra. pose proof (pow_R1_Rle 2 1023). unfold f_limit. lra. }
  split; [apply f_sub_valid; auto|]. split; [exact G|]. destruct (f_sub_round _ _ V1 V G) as (_ & _ & ->).
  rewrite one_real, <- (round_0 radix2 (FLT_exp (-1074) 53) ZnearestE). apply rnd_mono. lra.
Qed.

Lemma bracket_refl x : f_valid x -> bracket x x x.
Proof. intro V. do 3 (split; [exact V|]). intros F _. split; [exact F|lra]. Qed.
