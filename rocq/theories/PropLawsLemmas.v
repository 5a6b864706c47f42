(** Lemmas of C129: the laws of the arithmetic on dense vectors and matrices. *)
From Coq Require Import ZArith Reals Lra Lia List SpecFloat Ring_theory Ring.
From Flocq Require Import Core BinarySingleNaN Mult_error.
From Verif Require Import Base ListFacts DenseModel DenseFacts DenseOps PropDenseLemmas SparseMul SparseAlgebra ScalarModel FloatFacts
  ScalarFacts PropGeoFloatLemmas PropIntLemmas.
Import ListNotations.

(** Two computations end normally with the same result. *)
Definition same {A} (x y : res A) : Prop := exists u, x = Ok u /\ y = Ok u.

Lemma is_mat_eq {V} r c (m o : list (list V)) f g : is_mat r c m f -> is_mat r c o g ->
  (forall i j, (i < r -> j < c -> f i j = g i j)%nat) -> m = o.
Proof.
  intros [L H] [L' H'] E. apply nth_error_ext. intro i. destruct (le_lt_dec r i) as [Hi|Hi].
  - rewrite (proj2 (nth_error_None m i)), (proj2 (nth_error_None o i)) by lia. reflexivity.
  - destruct (H i Hi) as (a & -> & Ha). destruct (H' i Hi) as (b & -> & Hb). f_equal.
    apply (is_vec_eq c _ _ _ _ Ha Hb). auto.
Qed.

Lemma gives_bind {V} (x : res (list V)) n h (k : list V -> res (list V)) n' h' :
  gives x n h -> (forall u, is_vec n u h -> gives (k u) n' h') -> gives (do u <- x; k u) n' h'.
Proof. intros (u & -> & Hu) H. exact (H u Hu). Qed.

Lemma mgives_gives {V} (x : res (list (list V))) r c h (k : list (list V) -> res (list V)) n' h' :
  mgives x r c h -> (forall u, is_mat r c u h -> gives (k u) n' h') -> gives (do u <- x; k u) n' h'.
Proof. intros (u & -> & Hu) H. exact (H u Hu). Qed.

Lemma mgives_bind {V} (x : res (list (list V))) r c h (k : list (list V) -> res (list (list V))) r' c' h' :
  mgives x r c h -> (forall u, is_mat r c u h -> mgives (k u) r' c' h') -> mgives (do u <- x; k u) r' c' h'.
Proof. intros (u & -> & Hu) H. exact (H u Hu). Qed.

Lemma gives_same {V} (x y : res (list V)) n f g : gives x n f -> gives y n g ->
  (forall i, (i < n)%nat -> f i = g i) -> same x y.
Proof.
  intros (u & -> & Hu) (w & -> & Hw) E. exists u. split; [reflexivity|]. f_equal. symmetry.
  exact (is_vec_eq n _ _ _ _ Hu Hw E).
Qed.

Lemma mgives_same {V} (x y : res (list (list V))) r c f g : mgives x r c f -> mgives y r c g ->
  (forall i j, (i < r -> j < c -> f i j = g i j)%nat) -> same x y.
Proof.
  intros (u & -> & Hu) (w & -> & Hw) E. exists u. split; [reflexivity|]. f_equal. symmetry.
  exact (is_mat_eq r c _ _ _ _ Hu Hw E).
Qed.

Lemma asum_is_big {V} (z : V) a n f : asum z a n f = big_sum z a n f.
Proof. induction n as [|n IH]; cbn [asum big_sum]; congruence. Qed.

Section Steps.
  Context {V : Type}.
  Variables (vzero : V) (vadd vmul : V -> V -> V) (dbg : bool) (junk : nat -> V).
  Notation times := (m_times vzero vadd vmul dbg (0, 0) (0, 0)).
  Notation plus := (m_plus vzero vadd dbg (0, 0) (0, 0)).
  Notation act := (m_vec vzero vadd vmul dbg junk 0 0).
  Notation vplus := (v_plus vzero vadd dbg junk 0 0).
  Notation sum := (asum vzero vadd).

  Lemma do_times r k c A a B b : is_mat r k A a -> (r = 0 -> k = 0)%nat -> is_mat k c B b -> (k = 0 -> c = 0)%nat ->
    mgives (times A B) r c (fun i j => sum k (fun l => vmul (a i l) (b l j))).
  Proof.
    intros HA H0 HB H1. apply (m_times_ok vzero vadd vmul dbg (0, 0) (0, 0) r k c A a B b HA H0 HB H1); left; reflexivity.
  Qed.

  Lemma do_plus r c A a B b : is_mat r c A a -> is_mat r c B b -> mgives (plus A B) r c (fun i j => vadd (a i j) (b i j)).
  Proof.
    intros HA HB. destruct (matrix_elementwise vzero vadd vadd vadd vadd dbg (0, 0) (0, 0) r c A a B b vzero HA HB)
      as (_ & _ & _ & _ & H & _); [left; reflexivity..|exact H].
  Qed.

  Lemma do_scale r c A a s : is_mat r c A a -> mgives (m_times_scalar vmul s A) r c (fun i j => vmul (a i j) s).
  Proof. intros HA. exact (m_scale_ext vmul r c A a s HA). Qed.

  Lemma do_vplus n x f y g : is_vec n x f -> is_vec n y g -> gives (vplus x y) n (fun i => vadd (f i) (g i)).
  Proof. intros Hx Hy. apply (v_op_ok vzero vadd dbg junk 0 0 n x f y g Hx Hy); left; reflexivity. Qed.

  Lemma do_vscale n x f s : is_vec n x f -> gives (v_times vmul s x) n (fun i => vmul (f i) s).
  Proof. intros Hx. exact (v_scale_ext vmul n x f s Hx). Qed.

  Lemma do_act n A a x f : is_mat n n A a -> is_vec n x f -> gives (act A x) n (fun i => sum n (fun j => vmul (a i j) (f j))).
  Proof.
    intros HA Hx. apply (mat_vec_square vzero vadd vmul dbg junk 0 0 n n A a x f HA); auto. left; reflexivity.
  Qed.
End Steps.

Section Exact.
  Context {V : Type}.
  Variables (vzero vone : V) (vadd vmul : V -> V -> V) (dbg : bool) (junk : nat -> V).
  Hypothesis SR : semi_ring_theory vzero vone vadd vmul eq.
  Add Ring laws : SR.
  Notation times := (m_times vzero vadd vmul dbg (0, 0) (0, 0)).
  Notation plus := (m_plus vzero vadd dbg (0, 0) (0, 0)).
  Notation act := (m_vec vzero vadd vmul dbg junk 0 0).
  Notation vplus := (v_plus vzero vadd dbg junk 0 0).
  Notation scale := (m_times_scalar vmul).
  Notation vscale := (v_times vmul).
  Notation vdot := (dot vzero vadd vmul dbg).
  Notation sum := (asum vzero vadd).
  Notation bsum := (big_sum vzero vadd).

  Lemma sums_nested r k a b c : sum r (fun l => vmul (sum k (fun q => vmul (a q) (b q l))) (c l)) =
    sum k (fun q => vmul (a q) (sum r (fun l => vmul (b q l) (c l)))).
  Proof using SR.
    rewrite !asum_is_big.
    rewrite (sum_ext vzero vadd r _ (fun l => bsum k (fun q => vmul (vmul (a q) (b q l)) (c l)))).
    2:{ intros l _. rewrite asum_is_big. apply (sum_right _ _ _ _ SR). }
    rewrite (sum_swap _ _ _ _ SR). apply sum_ext. intros q _. rewrite asum_is_big.
    rewrite (sum_left _ _ _ _ SR). apply sum_ext. intros l _. ring.
  Qed.

  Lemma sums_add n f g : sum n (fun i => vadd (f i) (g i)) = vadd (sum n f) (sum n g).
  Proof using SR. rewrite !asum_is_big. apply (sum_plus _ _ _ _ SR). Qed.

  Lemma sums_scale n f s : vmul (sum n f) s = sum n (fun i => vmul (f i) s).
  Proof using SR. rewrite !asum_is_big. apply (sum_right _ _ _ _ SR). Qed.

  Lemma law_product r k l c A a B b C g : is_mat r k A a -> is_mat k l B b -> is_mat l c C g ->
    (r = 0 -> k = 0)%nat -> (k = 0 -> l = 0)%nat -> (l = 0 -> c = 0)%nat ->
    same (do p <- times A B; times p C) (do q <- times B C; times A q).
  Proof using SR.
    intros HA HB HC H0 H1 H2. eapply mgives_same.
    - eapply mgives_bind; [exact (do_times vzero vadd vmul dbg r k l A a B b HA H0 HB H1)|]. intros p Hp.
      apply (do_times vzero vadd vmul dbg r l c p _ C g Hp); auto.
    - eapply mgives_bind; [exact (do_times vzero vadd vmul dbg k l c B b C g HB H1 HC H2)|]. intros q Hq.
      apply (do_times vzero vadd vmul dbg r k c A a q _ HA H0 Hq). auto.
    - intros i j _ _. cbv beta. apply (sums_nested l k (a i) b (fun q => g q j)).
  Qed.

  Lemma law_act n A a B b x f : is_mat n n A a -> is_mat n n B b -> is_vec n x f ->
    same (do p <- times A B; act p x) (do y <- act B x; act A y).
  Proof using SR.
    intros HA HB Hx. eapply gives_same.
    - eapply mgives_gives; [apply (do_times vzero vadd vmul dbg n n n A a B b); auto|]. intros p Hp.
      apply (do_act vzero vadd vmul dbg junk n p _ x f Hp Hx).
    - eapply gives_bind; [exact (do_act vzero vadd vmul dbg junk n B b x f HB Hx)|]. intros y Hy.
      apply (do_act vzero vadd vmul dbg junk n A a y _ HA Hy).
    - intros i _. cbv beta. apply (sums_nested n n (a i) b f).
  Qed.

  Lemma law_left r k c A a B b C g : is_mat r k A a -> is_mat k c B b -> is_mat k c C g ->
    (r = 0 -> k = 0)%nat -> (k = 0 -> c = 0)%nat ->
    same (do s <- plus B C; times A s) (do p <- times A B; do q <- times A C; plus p q).
  Proof using SR.
    intros HA HB HC H0 H1. eapply mgives_same.
    - eapply mgives_bind; [exact (do_plus vzero vadd dbg k c B b C g HB HC)|]. intros s Hs.
      apply (do_times vzero vadd vmul dbg r k c A a s _ HA H0 Hs H1).
    - eapply mgives_bind; [exact (do_times vzero vadd vmul dbg r k c A a B b HA H0 HB H1)|]. intros p Hp.
      eapply mgives_bind; [exact (do_times vzero vadd vmul dbg r k c A a C g HA H0 HC H1)|]. intros q Hq.
      apply (do_plus vzero vadd dbg r c p _ q _ Hp Hq).
    - intros i j _ _. cbv beta. rewrite <- sums_add. apply asum_ext. intros l _. ring.
  Qed.

  Lemma law_right r k c A a B b C g : is_mat r k A a -> is_mat r k B b -> is_mat k c C g ->
    (r = 0 -> k = 0)%nat -> (k = 0 -> c = 0)%nat ->
    same (do s <- plus A B; times s C) (do p <- times A C; do q <- times B C; plus p q).
  Proof using SR.
    intros HA HB HC H0 H1. eapply mgives_same.
    - eapply mgives_bind; [exact (do_plus vzero vadd dbg r k A a B b HA HB)|]. intros s Hs.
      apply (do_times vzero vadd vmul dbg r k c s _ C g Hs H0 HC H1).
    - eapply mgives_bind; [exact (do_times vzero vadd vmul dbg r k c A a C g HA H0 HC H1)|]. intros p Hp.
      eapply mgives_bind; [exact (do_times vzero vadd vmul dbg r k c B b C g HB H0 HC H1)|]. intros q Hq.
      apply (do_plus vzero vadd dbg r c p _ q _ Hp Hq).
    - intros i j _ _. cbv beta. rewrite <- sums_add. apply asum_ext. intros l _. ring.
  Qed.

  Lemma law_scale r k c A a B b s : is_mat r k A a -> is_mat k c B b ->
    (r = 0 -> k = 0)%nat -> (k = 0 -> c = 0)%nat ->
    same (do p <- times A B; scale s p) (do q <- scale s A; times q B) /\
    same (do p <- times A B; scale s p) (do q <- scale s B; times A q).
  Proof using SR.
    intros HA HB H0 H1.
    assert (L : mgives (do p <- times A B; scale s p) r c (fun i j => vmul (sum k (fun l => vmul (a i l) (b l j))) s)).
    { eapply mgives_bind; [exact (do_times vzero vadd vmul dbg r k c A a B b HA H0 HB H1)|]. intros p Hp.
      apply (do_scale vmul r c p _ s Hp). }
    split; eapply mgives_same; try exact L.
    - eapply mgives_bind; [exact (do_scale vmul r k A a s HA)|]. intros q Hq.
      apply (do_times vzero vadd vmul dbg r k c q _ B b Hq H0 HB H1).
    - intros i j _ _. cbv beta. rewrite sums_scale. apply asum_ext. intros l _. ring.
    - eapply mgives_bind; [exact (do_scale vmul k c B b s HB)|]. intros q Hq.
      apply (do_times vzero vadd vmul dbg r k c A a q _ HA H0 Hq H1).
    - intros i j _ _. cbv beta. rewrite sums_scale. apply asum_ext. intros l _. ring.
  Qed.

  Lemma law_linear n A a B b x f y g s : is_mat n n A a -> is_mat n n B b -> is_vec n x f -> is_vec n y g ->
    same (do z <- vplus x y; act A z) (do p <- act A x; do q <- act A y; vplus p q) /\
    same (do z <- vscale s x; act A z) (do p <- act A x; vscale s p) /\
    same (do C <- plus A B; act C x) (do p <- act A x; do q <- act B x; vplus p q) /\
    same (do C <- scale s A; act C x) (do p <- act A x; vscale s p).
  Proof using SR.
    intros HA HB Hx Hy. pose proof (do_act vzero vadd vmul dbg junk n A a x f HA Hx) as GA. split; [|split; [|split]]; eapply gives_same.
    - eapply gives_bind; [exact (do_vplus vzero vadd dbg junk n x f y g Hx Hy)|]. intros z Hz.
      apply (do_act vzero vadd vmul dbg junk n A a z _ HA Hz).
    - eapply gives_bind; [exact GA|]. intros p Hp.
      eapply gives_bind; [exact (do_act vzero vadd vmul dbg junk n A a y g HA Hy)|]. intros q Hq.
      apply (do_vplus vzero vadd dbg junk n p _ q _ Hp Hq).
    - intros i _. cbv beta. rewrite <- sums_add. apply asum_ext. intros l _. ring.
    - eapply gives_bind; [exact (do_vscale vmul n x f s Hx)|]. intros z Hz.
      apply (do_act vzero vadd vmul dbg junk n A a z _ HA Hz).
    - eapply gives_bind; [exact GA|]. intros p Hp. apply (do_vscale vmul n p _ s Hp).
    - intros i _. cbv beta. rewrite sums_scale. apply asum_ext. intros l _. ring.
    - eapply mgives_gives; [exact (do_plus vzero vadd dbg n n A a B b HA HB)|]. intros C HC.
      apply (do_act vzero vadd vmul dbg junk n C _ x f HC Hx).
    - eapply gives_bind; [exact GA|]. intros p Hp.
      eapply gives_bind; [exact (do_act vzero vadd vmul dbg junk n B b x f HB Hx)|]. intros q Hq.
      apply (do_vplus vzero vadd dbg junk n p _ q _ Hp Hq).
    - intros i _. cbv beta. rewrite <- sums_add. apply asum_ext. intros l _. ring.
    - eapply mgives_gives; [exact (do_scale vmul n n A a s HA)|]. intros C HC.
      apply (do_act vzero vadd vmul dbg junk n C _ x f HC Hx).
    - eapply gives_bind; [exact GA|]. intros p Hp. apply (do_vscale vmul n p _ s Hp).
    - intros i _. cbv beta. rewrite sums_scale. apply asum_ext. intros l _. ring.
  Qed.

  Lemma law_dot n x f y g z h s : is_vec n x f -> is_vec n y g -> is_vec n z h ->
    same (vdot x y) (vdot y x) /\
    same (do w <- vplus x y; vdot w z) (do p <- vdot x z; do q <- vdot y z; Ok (vadd p q)) /\
    same (do w <- vscale s x; vdot w z) (do p <- vdot x z; Ok (vmul s p)).
  Proof using SR.
    intros Hx Hy Hz. rewrite (dot_ok vzero vadd vmul dbg n x f z h Hx Hz), (dot_ok vzero vadd vmul dbg n y g z h Hy Hz),
      (dot_ok vzero vadd vmul dbg n x f y g Hx Hy), (dot_ok vzero vadd vmul dbg n y g x f Hy Hx).
    destruct (do_vplus vzero vadd dbg junk n x f y g Hx Hy) as (w & -> & Hw).
    destruct (do_vscale vmul n x f s Hx) as (u & -> & Hu). cbn [bind].
    rewrite (dot_ok vzero vadd vmul dbg n w _ z h Hw Hz), (dot_ok vzero vadd vmul dbg n u _ z h Hu Hz).
    split; [|split]; eexists; (split; [reflexivity|]); f_equal.
    - apply asum_ext. intros i _. ring.
    - rewrite <- sums_add. apply asum_ext. intros i _. ring.
    - rewrite (SRmul_comm SR), sums_scale. apply asum_ext. intros i _. ring.
  Qed.

  (** A product transposed: the elements exchanged, the factors exchanged. *)
  Lemma law_commuted r k c A a B b A' B' X Y : is_mat r k A a -> is_mat k c B b ->
    is_mat k r A' (fun i j => a j i) -> is_mat c k B' (fun i j => b j i) ->
    (r = 0 <-> k = 0)%nat -> (k = 0 <-> c = 0)%nat ->
    times A B = Ok X -> times B' A' = Ok Y -> exists h, is_mat r c X h /\ is_mat c r Y (fun i j => h j i).
  Proof using SR.
    intros HA HB HA' HB' H0 H1 EX EY.
    destruct (do_times vzero vadd vmul dbg r k c A a B b HA (proj1 H0) HB (proj1 H1)) as (X' & EX' & HX).
    destruct (do_times vzero vadd vmul dbg c k r B' _ A' _ HB' (proj2 H1) HA' (proj2 H0)) as (Y' & EY' & HY).
    assert (X' = X) by congruence. assert (Y' = Y) by congruence. subst X' Y'.
    eexists. split; [exact HX|]. apply (is_mat_ext _ _ _ _ _ HY). intros i j _ _. cbv beta. apply asum_ext. intros l _. ring.
  Qed.
End Exact.

(* ------------------------------------------------------------------ doubles *)
Local Open Scope R_scope.
Local Notation rnd := (round radix2 (FLT_exp (-1074) 53) ZnearestE).
Local Notation B64 := (binary_float 53 1024).
Local Notation add := (SFadd 53 1024).
Local Notation sub := (SFsub 53 1024).
Local Notation mul := (SFmul 53 1024).
Local Notation div := (SFdiv 53 1024).

(** Floating-point numbers with the same nonzero value are the same. *)
Lemma real_same a b : f_valid a -> f_valid b -> f_finite a = true -> f_finite b = true -> f_real a <> 0 -> f_real a = f_real b -> a = b.
Proof.
  intros Va Vb Fa Fb Hn E. destruct (valid_SF2B a Va) as (x & <- & Rx & Fx). destruct (valid_SF2B b Vb) as (y & <- & Ry & Fy).
  f_equal. rewrite !B2SF_real in *.
  apply B2R_inj; [| |exact E].
  - destruct x; cbn in *; try discriminate; try reflexivity. lra.
  - destruct y; cbn in *; try discriminate; try reflexivity. rewrite E in Hn. lra.
Qed.

Lemma real_zero a : f_finite a = true -> f_real a = 0 -> exists s, a = S754_zero s.
Proof.
  destruct a as [s|s| |s m e]; try discriminate; intros _ E; [exists s; reflexivity|].
  exfalso. cbn [f_real] in E. pose proof (powerRZ_lt 2 e ltac:(lra)) as P.
  assert (0 < IZR (Zpos m)) by (apply IZR_lt; lia). destruct s; nra.
Qed.

(** A product or a quotient whose exact value is a floating-point number below the largest is exact. *)
Lemma mul_exact a b : f_valid a -> f_valid b -> f_finite a = true -> f_finite b = true ->
  generic_format radix2 (FLT_exp (-1074) 53) (f_real a * f_real b) -> Rabs (f_real a * f_real b) < bpow radix2 1024 ->
  f_finite (mul a b) = true /\ f_real (mul a b) = f_real a * f_real b.
Proof.
  intros Va Vb Fa Fb G L. destruct (valid_SF2B a Va) as (x & <- & Rx & Fx). destruct (valid_SF2B b Vb) as (y & <- & Ry & Fy).
  rewrite mul_equiv, B2SF_finite. rewrite !B2SF_real in *.
  pose proof (Bmult_correct 53 1024 Hprec Hmax mode_NE x y) as H.
  change (round radix2 (SpecFloat.fexp 53 1024) (round_mode mode_NE)) with rnd in H.
  rewrite (round_generic radix2 _ ZnearestE _ G) in H. rewrite (Rlt_bool_true _ _ L) in H. destruct H as (E & F & _).
  rewrite E, F, Fx, Fy, Fa, Fb. auto.
Qed.

Lemma div_exact a b : f_valid a -> f_valid b -> f_finite a = true -> f_finite b = true -> f_real b <> 0 ->
  generic_format radix2 (FLT_exp (-1074) 53) (f_real a / f_real b) -> Rabs (f_real a / f_real b) < bpow radix2 1024 ->
  f_finite (div a b) = true /\ f_real (div a b) = f_real a / f_real b.
Proof.
  intros Va Vb Fa Fb Hn G L. destruct (valid_SF2B a Va) as (x & <- & Rx & Fx). destruct (valid_SF2B b Vb) as (y & <- & Ry & Fy).
  rewrite div_equiv, B2SF_finite. rewrite !B2SF_real in *.
  pose proof (Bdiv_correct 53 1024 Hprec Hmax mode_NE x y Hn) as H.
  change (round radix2 (SpecFloat.fexp 53 1024) (round_mode mode_NE)) with rnd in H.
  rewrite (round_generic radix2 _ ZnearestE _ G) in H. rewrite (Rlt_bool_true _ _ L) in H. destruct H as (E & F & _).
  rewrite E, F, Fx, Fa. auto.
Qed.

Lemma valid_format a : f_valid a -> generic_format radix2 (FLT_exp (-1074) 53) (f_real a) /\ Rabs (f_real a) < bpow radix2 1024.
Proof.
  intro Va. destruct (valid_SF2B a Va) as (x & <- & <- & Fx). split; [apply B2R_format|apply abs_B2R_lt_emax].
Qed.

(** [p] is the power of two 2^k. *)
Definition power_of_two (p : f64) (k : Z) : Prop := f_valid p /\ f_finite p = true /\ f_real p = powerRZ 2 k.

(** [a] can be scaled by 2^k: the product is zero or a normal number. *)
Definition scalable (a : f64) (k : Z) : Prop := f_valid a /\ f_finite a = true /\
  (f_real a = 0 \/ / 2 ^ 1022 <= Rabs (f_real a) * powerRZ 2 k < 2 ^ 1024).

Lemma power_positive p k : power_of_two p k -> exists m e, p = S754_finite false m e.
Proof.
  intros (V & F & E). pose proof (powerRZ_lt 2 k ltac:(lra)) as P. destruct p as [s|s| |s m e]; try discriminate; cbn [f_real] in E; try lra.
  destruct s; [|eauto]. pose proof (powerRZ_lt 2 e ltac:(lra)). assert (0 < IZR (Zpos m)) by (apply IZR_lt; lia). nra.
Qed.

Lemma scale_exact p k a : power_of_two p k -> scalable a k ->
  f_valid (mul a p) /\ f_finite (mul a p) = true /\ f_real (mul a p) = f_real a * powerRZ 2 k /\ div (mul a p) p = a.
Proof.
  intros Hp (Va & Fa & Ha). destruct (power_positive p k Hp) as (m & e & Ep). destruct Hp as (Vp & Fp & Rp).
  pose proof (powerRZ_lt 2 k ltac:(lra)) as P.
  destruct Ha as [Z|[L U]].
  - destruct (real_zero a Fa Z) as [s ->]. subst p. rewrite Z. cbn [SFmul SFdiv f_finite f_real].
    rewrite !Bool.xorb_false_r. split; [exact Va|]. split; [reflexivity|]. split; [ring|]. reflexivity.
  - assert (Hn : f_real a <> 0).
    { intro Z. rewrite Z, Rabs_R0, Rmult_0_l in L. pose proof (Rinv_0_lt_compat (2 ^ 1022) ltac:(apply pow_lt; lra)). lra. }
    assert (EL : / 2 ^ 1022 = bpow radix2 (-1022)) by (symmetry; exact (bpow_inv 1022)).
    assert (EU : 2 ^ 1024 = bpow radix2 1024) by (rewrite bpow_powerRZ; exact (pow_powerRZ 2 1024)).
    assert (EP : powerRZ 2 k = bpow radix2 k) by (rewrite bpow_powerRZ; reflexivity).
    rewrite EL, EU in *. rewrite EP in *.
    assert (EA : Rabs (f_real a) * bpow radix2 k = Rabs (f_real a * bpow radix2 k)).
    { rewrite Rabs_mult, (Rabs_pos_eq (bpow _ _)); [reflexivity|apply bpow_ge_0]. }
    assert (G : generic_format radix2 (FLT_exp (-1074) 53) (f_real a * bpow radix2 k)).
    { apply mult_bpow_exact_FLT; [apply valid_format; exact Va|].
      assert (-1021 <= mag radix2 (f_real a * bpow radix2 k))%Z.
      { apply mag_ge_bpow. change (-1021 - 1)%Z with (-1022)%Z. rewrite <- EA. exact L. }
      rewrite (mag_mult_bpow radix2 _ _ Hn) in H. lia. }
    destruct (mul_exact a p Va Vp Fa Fp) as [F E]; [rewrite Rp; exact G|rewrite Rp, <- EA; exact U|].
    rewrite Rp in E. assert (VM : f_valid (mul a p)) by (apply f_mul_valid; auto).
    split; [exact VM|]. split; [exact F|]. split; [exact E|].
    assert (Q : f_real (mul a p) / f_real p = f_real a) by (rewrite E, Rp; field; lra).
    destruct (valid_format a Va) as [Ga La].
    destruct (div_exact (mul a p) p VM Vp F Fp) as [FD ED]; [rewrite Rp; lra|rewrite Q; exact Ga|rewrite Q; exact La|].
    apply real_same; auto; [apply f_div_valid; auto|rewrite ED, Q; exact Hn|rewrite ED; exact Q].
Qed.

Lemma one_power : power_of_two (f_of_Z 1) 0.
Proof.
  split; [vm_compute; reflexivity|]. split; [vm_compute; reflexivity|]. cbn [powerRZ].
  destruct (of_Z_exact 1) as (b & -> & Fb & Rb & _); [lia|]. rewrite B2SF_real. exact Rb.
Qed.

Lemma mul_unit a : f_valid a -> mul a (f_of_Z 1) = a /\ div a (f_of_Z 1) = a.
Proof.
  intro Va. destruct one_power as (V1 & F1 & R1). cbn [powerRZ] in R1.
  destruct (f_finite a) eqn:Fa.
  - destruct (Req_dec (f_real a) 0) as [Z|Hn].
    + destruct (real_zero a Fa Z) as [s ->]. destruct (power_positive _ _ one_power) as (m & e & ->).
      cbn [SFmul SFdiv]. rewrite !Bool.xorb_false_r. auto.
    + destruct (valid_format a Va) as [Ga La].
      assert (E1 : f_real a * f_real (f_of_Z 1) = f_real a) by (rewrite R1; ring).
      assert (E2 : f_real a / f_real (f_of_Z 1) = f_real a) by (rewrite R1; field).
      destruct (mul_exact a (f_of_Z 1) Va V1 Fa F1) as [F E]; [rewrite E1; auto..|].
      destruct (div_exact a (f_of_Z 1) Va V1 Fa F1) as [F' E']; [rewrite R1; lra|rewrite E2; auto..|].
      rewrite E1 in E. rewrite E2 in E'.
      split; apply real_same; auto; try (rewrite ?E, ?E'; exact Hn); [apply f_mul_valid|apply f_div_valid]; auto.
  - destruct (power_positive _ _ one_power) as (m & e & ->).
    destruct a as [s|s| |s m' e']; try discriminate; cbn [SFmul SFdiv]; rewrite ?Bool.xorb_false_r; auto.
Qed.

Lemma sub_self a : f_finite a = true -> sub a a = S754_zero false.
Proof.
  destruct a as [s|s| |s m e]; try discriminate; intros _; cbn [SFsub].
  - destruct s; reflexivity.
  - rewrite Z.sub_diag. reflexivity.
Qed.

(* ------------------------------------------------------------------ vectors and matrices of doubles *)
Lemma double_commutes dbg junk n v f w g : is_vec n v f -> is_vec n w g ->
  same (v_plus (S754_zero false) add dbg junk 0 0 v w) (v_plus (S754_zero false) add dbg junk 0 0 w v) /\
  same (dot (S754_zero false) add mul dbg v w) (dot (S754_zero false) add mul dbg w v).
Proof.
  intros Hv Hw. split.
  - eapply gives_same; [exact (do_vplus _ add dbg junk n v f w g Hv Hw)|exact (do_vplus _ add dbg junk n w g v f Hw Hv)|].
    intros i _. apply add_comm.
  - rewrite (dot_ok _ add mul dbg n v f w g Hv Hw), (dot_ok _ add mul dbg n w g v f Hw Hv). eexists. split; [reflexivity|].
    f_equal. apply asum_ext. intros i _. apply mul_comm_float.
Qed.

Lemma double_matrix_commutes dbg r c m f o g : is_mat r c m f -> is_mat r c o g ->
  same (m_plus (S754_zero false) add dbg (0, 0)%nat (0, 0)%nat m o) (m_plus (S754_zero false) add dbg (0, 0)%nat (0, 0)%nat o m).
Proof.
  intros Hm Ho. eapply mgives_same; [exact (do_plus _ add dbg r c m f o g Hm Ho)|exact (do_plus _ add dbg r c o g m f Ho Hm)|].
  intros i j _ _. apply add_comm.
Qed.

Lemma double_unit v : Forall f_valid v -> v_times mul (f_of_Z 1) v = Ok v /\ v_over div v (f_of_Z 1) = Ok v.
Proof.
  intro Hv. pose proof (is_vec_list (S754_zero false) v) as H.
  assert (Hi : forall i, (i < length v)%nat -> f_valid (nth i v (S754_zero false))).
  { intros i Hi. rewrite Forall_forall in Hv. apply Hv, nth_In, Hi. }
  split.
  - destruct (v_scale_ext mul _ v _ (f_of_Z 1) H) as (u & E & Hu). unfold v_times, v_mul_assign. rewrite E. f_equal.
    apply (is_vec_eq _ _ _ _ _ Hu H). intros i L. apply mul_unit. auto.
  - destruct (v_scale_ext div _ v _ (f_of_Z 1) H) as (u & E & Hu). unfold v_over, v_div_assign. rewrite E. f_equal.
    apply (is_vec_eq _ _ _ _ _ Hu H). intros i L. apply mul_unit. auto.
Qed.

Lemma double_scaled p k v : power_of_two p k -> Forall (fun a => scalable a k) v ->
  exists w, v_times mul p v = Ok w /\ v_over div w p = Ok v /\
    Forall2 (fun a b => f_finite b = true /\ f_real b = f_real a * powerRZ 2 k) v w.
Proof.
  intros Hp Hv. pose proof (is_vec_list (S754_zero false) v) as H.
  assert (Hi : forall i, (i < length v)%nat -> scalable (nth i v (S754_zero false)) k).
  { intros i Hi. rewrite Forall_forall in Hv. apply Hv, nth_In, Hi. }
  destruct (v_scale_ext mul _ v _ p H) as (w & E & Hw). exists w. split; [exact E|]. split.
  - destruct (v_scale_ext div _ w _ p Hw) as (u & E' & Hu). unfold v_over, v_div_assign. rewrite E'. f_equal.
    apply (is_vec_eq _ _ _ _ _ Hu H). intros i L. apply (scale_exact p k); auto.
  - clear E. destruct Hw as [Lw Hw]. rewrite Forall_forall in Hv.
    assert (X : forall i a b, nth_error v i = Some a -> nth_error w i = Some b -> f_finite b = true /\ f_real b = f_real a * powerRZ 2 k).
    { intros i a b Ea Eb. assert (L : (i < length v)%nat) by (apply nth_error_Some; congruence). rewrite (Hw i L) in Eb.
      rewrite (nth_error_nth _ _ _ Ea) in Eb. injection Eb as <-. apply nth_error_In in Ea.
      destruct (scale_exact p k a Hp (Hv a Ea)) as (_ & F & R & _). auto. }
    clear Hw Hi H Hv. revert w Lw X. induction v as [|a v IH]; intros [|b w] Lw X; try discriminate; [constructor|].
    constructor; [exact (X 0%nat a b eq_refl eq_refl)|]. apply IH; [cbn in Lw; lia|]. intros i. exact (X (S i)).
Qed.

Lemma double_cancel dbg junk v : Forall (fun a => f_finite a = true) v ->
  v_minus (S754_zero false) sub dbg junk 0 0 v v = Ok (repeat (S754_zero false) (length v)).
Proof.
  intros Hv. pose proof (is_vec_list (S754_zero false) v) as H.
  destruct (v_op_ok (S754_zero false) sub dbg junk 0 0 _ v _ v _ H H) as (u & E & Hu); [left; reflexivity..|].
  unfold v_minus. rewrite E. f_equal. rewrite Forall_forall in Hv. apply nth_error_ext_len.
  - rewrite (proj1 Hu), repeat_length. reflexivity.
  - intros i Hi. rewrite (proj1 Hu) in Hi. rewrite (proj2 Hu i Hi). rewrite nth_error_repeat by exact Hi. f_equal.
    apply sub_self, Hv, nth_In, Hi.
Qed.

(* ------------------------------------------------------------------ examples *)
Lemma three_scalable : scalable (f_of_Z 3) 0.
Proof.
  split; [vm_compute; reflexivity|]. split; [vm_compute; reflexivity|]. right. cbn [powerRZ].
  destruct (of_Z_exact 3) as (b & -> & Fb & Rb & _); [lia|]. rewrite B2SF_real, Rb, Rmult_1_r.
  rewrite Rabs_pos_eq by lra. split.
  - apply Rle_trans with 1; [|lra]. rewrite <- Rinv_1. apply Rinv_le_contravar; [lra|]. apply pow_R1_Rle. lra.
  - apply Rlt_le_trans with (2 ^ 2); [lra|]. apply Rle_pow; [lra|lia].
Qed.

Lemma double_examples :
  Forall f_valid [S754_zero true; S754_infinity true; S754_nan; f_of_Z 3] /\
  power_of_two (f_of_Z 1) 0 /\ Forall (fun a => scalable a 0) [f_of_Z 3; S754_zero true] /\
  v_minus (S754_zero false) (SFsub 53 1024) true (fun _ => S754_nan) 0 0 [f_of_Z 3; S754_zero true] [f_of_Z 3; S754_zero true] =
    Ok [S754_zero false; S754_zero false] /\
  v_minus (S754_zero false) (SFsub 53 1024) true (fun _ => S754_nan) 0 0 [S754_infinity true] [S754_infinity true] = Ok [S754_nan].
Proof.
  split; [repeat constructor|]. split; [exact one_power|]. split.
  - constructor; [exact three_scalable|]. constructor; [|constructor]. split; [reflexivity|]. split; [reflexivity|]. left. reflexivity.
  - split; vm_compute; reflexivity.
Qed.

Lemma order_matters :
  let plus := v_plus (S754_zero false) (SFadd 53 1024) true (fun _ => S754_nan) 0 0 in
  let x := [f_of_Z (2 ^ 53)] in let y := [f_of_Z 1] in
  (do p <- plus x y; plus p y) = Ok [f_of_Z (2 ^ 53)] /\
  (do q <- plus y y; plus x q) = Ok [f_of_Z (2 ^ 53 + 2)] /\ f_of_Z (2 ^ 53) <> f_of_Z (2 ^ 53 + 2).
Proof. split; [vm_compute; reflexivity|]. split; [vm_compute; reflexivity|]. vm_compute. discriminate. Qed.

Lemma tenths : exists w,
  v_times (SFmul 53 1024) (SFdiv 53 1024 (f_of_Z 1) (f_of_Z 10)) [f_of_Z 3] = Ok w /\ v_over (SFdiv 53 1024) [f_of_Z 3] (f_of_Z 10) <> Ok w.
Proof. eexists. split; [vm_compute; reflexivity|]. vm_compute. discriminate. Qed.
