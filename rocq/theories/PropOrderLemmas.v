(** Lemmas behind C121. *)
From Coq Require Import ZArith Reals Lra Lia List SpecFloat Psatz.
From Flocq Require Import Core BinarySingleNaN.
From Verif Require Import Base ListFacts DenseModel DenseFacts ScalarModel GeometryReal SparseModel SparseSpec
  SparseFacts SparseSeq SparseMul LuReal IterModel IterFacts IterLoop IterField IterReal FloatFacts PropFloatLemmas FloatUnit
  FloatSweep PropIterLemmas OrderFacts.
Import ListNotations.
Local Open Scope R_scope.

(* ------------------------------------------------------------------ the words of the statements *)
(** One step of Gauss-Seidel or of Jacobi. *)
Definition step_of {S} (O : sops S) (seidel : bool) dbg stray (a : smat S) (b : list S) :
    list S * list S -> res (list S * list S) :=
  if seidel then gauss_seidel_step O dbg stray a b else jacobi_step O dbg stray a b.

(** One sweep, ascending or descending, into another vector or in place. *)
Definition sweep_of (back apart : bool) dbg stray (a : smat f64) (x u b : list f64) (w : f64) : res (list f64) :=
  (if back then backward_sweep fops else forward_sweep fops) dbg stray a
    (if apart then Some x else None) (if apart then u else x) b w.

(** The element [i]. *)
Definition at_ (x : list f64) (i : nat) : f64 := nth i x (S754_zero false).

Definition valid_vec n (x : list f64) : Prop := length x = n /\ forall i, (i < n)%nat -> f_valid (at_ x i).
Definition fin_vec n (x : list f64) : Prop :=
  length x = n /\ forall i, (i < n)%nat -> f_valid (at_ x i) /\ f_finite (at_ x i) = true.
Definition le_vec n (x y : list f64) : Prop := forall i, (i < n)%nat -> f_real (at_ x i) <= f_real (at_ y i).

(** Where [x] and [y] are finite, [z] is finite and lies between them. *)
Definition inside n (x z y : list f64) : Prop := forall i, (i < n)%nat ->
  f_finite (at_ x i) = true -> f_finite (at_ y i) = true ->
  f_finite (at_ z i) = true /\ f_real (at_ x i) <= f_real (at_ z i) <= f_real (at_ y i).

(** Finite entries, positive on the diagonal and not positive beside it. *)
Definition signs (a : smat f64) : Prop := forall i j v, stored a i j v ->
  f_valid v /\ f_finite v = true /\ (i = j -> 0 < f_real v) /\ (i <> j -> f_real v <= 0).

(* ------------------------------------------------------------------ any scalars *)
Section Steps.
  Context {S : Type}.
  Variables (O : sops S) (dbg : bool) (stray : option nat).
  Variables (T : S -> S -> S -> Prop) (Neg Pos : S -> Prop).
  Hypothesis T0 : T (sc_zero O) (sc_zero O) (sc_zero O).
  Hypothesis TA : forall x z y x' z' y', T x z y -> T x' z' y' -> T (sc_add O x x') (sc_add O z z') (sc_add O y y').
  Hypothesis TS : forall x z y x' z' y', T x z y -> T x' z' y' -> T (sc_sub O x y') (sc_sub O z z') (sc_sub O y x').
  Hypothesis TN : forall a x z y, Neg a -> T x z y -> T (sc_mul O a y) (sc_mul O a z) (sc_mul O a x).
  Hypothesis TW : forall x z y, T x z y -> T (sc_mul O (sc_one O) x) (sc_mul O (sc_one O) z) (sc_mul O (sc_one O) y).
  Hypothesis TV : forall x z y, T x z y -> T (sc_mul O (sc_sub O (sc_one O) (sc_one O)) x)
    (sc_mul O (sc_sub O (sc_one O) (sc_one O)) z) (sc_mul O (sc_sub O (sc_one O) (sc_one O)) y).
  Hypothesis TD : forall d x z y, Pos d -> T x z y -> T (sc_div O x d) (sc_div O z d) (sc_div O y d).

  Lemma steps_between seidel n a b1 b2 b3 x z y u v t k : shaped Neg Pos n a b1 -> length b2 = n -> length b3 = n ->
    between O T b1 b2 b3 -> length x = n -> length z = n -> length y = n -> between O T x z y ->
    (seidel = false -> length u = n /\ length v = n /\ length t = n) ->
    exists x' z' y' u' v' t', times (step_of O seidel dbg stray a b1) k (x, u) = Ok (x', u') /\
      times (step_of O seidel dbg stray a b2) k (z, v) = Ok (z', v') /\
      times (step_of O seidel dbg stray a b3) k (y, t) = Ok (y', t') /\
      length x' = n /\ length z' = n /\ length y' = n /\
      (seidel = false -> length u' = n /\ length v' = n /\ length t' = n) /\ between O T x' z' y'.
  Proof using T0 TA TS TN TW TV TD.
    intros Ha L2 L3 Hb Lx Lz Ly H Lw. induction k as [|k IH]; cbn [times].
    - exists x, z, y, u, v, t. repeat (split; [reflexivity|]). auto.
    - destruct IH as (x1 & z1 & y1 & u1 & v1 & t1 & -> & -> & -> & Lx1 & Lz1 & Ly1 & Lw1 & H1). cbn [bind].
      unfold step_of, gauss_seidel_step, jacobi_step. destruct seidel; cbn [fst snd].
      + destruct (place_between O dbg stray T Neg Pos (sc_one O) T0 TA TS TN TW TV TD n a b1 b2 b3 Ha L2 L3 Hb
          x1 z1 y1 Lx1 Lz1 Ly1 H1) as (x2 & z2 & y2 & -> & -> & -> & Lx2 & Lz2 & Ly2 & H2).
        exists x2, z2, y2, u1, v1, t1. cbn [bind]. repeat (split; [reflexivity|]). repeat (split; [assumption|]). exact H2.
      + destruct (Lw1 eq_refl) as (Lu & Lv & Lt).
        destruct (apart_between O dbg stray T Neg Pos (sc_one O) T0 TA TS TN TW TV TD n a b1 b2 b3 Ha L2 L3 Hb
          x1 z1 y1 u1 v1 t1 Lx1 Lz1 Ly1 H1 Lu Lv Lt) as (x2 & z2 & y2 & -> & -> & -> & Lx2 & Lz2 & Ly2 & H2).
        exists x2, z2, y2, x1, z1, y1. cbn [bind]. repeat (split; [reflexivity|]). repeat (split; [assumption|]).
        split; [intros _; auto|exact H2].
  Qed.
End Steps.

Lemma times_first {T} (step : T -> res T) k s : times step (S k) s = do s1 <- step s; times step k s1.
Proof.
  induction k as [|k IH].
  - cbn [times bind]. destruct (step s); reflexivity.
  - change (times step (S (S k)) s) with (do s1 <- times step (S k) s; step s1). rewrite IH.
    destruct (step s); reflexivity.
Qed.

(* ------------------------------------------------------------------ doubles *)
Lemma signs_shaped n a b : square_system n a b -> signs a -> shaped nonpos positive n a b.
Proof.
  intros H Hs. split; [exact H|]. split.
  - intros i j v Hv Hij. destruct (Hs i j v Hv) as (V & F & _ & N). split; [exact V|]. split; [exact F|auto].
  - intros i v Hv. destruct (Hs i i v Hv) as (V & F & P & _). split; [exact V|]. split; [exact F|auto].
Qed.

Lemma inside_between n x z y : valid_vec n x -> valid_vec n z -> valid_vec n y -> inside n x z y -> between fops bracket x z y.
Proof.
  intros [Lx Vx] [_ Vz] [_ Vy] H i Hi. rewrite Lx in Hi. split; [apply Vx, Hi|]. split; [apply Vz, Hi|].
  split; [apply Vy, Hi|]. apply H, Hi.
Qed.

Lemma between_inside n x z y : length x = n -> length z = n -> length y = n -> between fops bracket x z y ->
  valid_vec n x /\ valid_vec n z /\ valid_vec n y /\ inside n x z y.
Proof.
  intros Lx Lz Ly H.
  assert (G : forall i, (i < n)%nat -> bracket (at_ x i) (at_ z i) (at_ y i)) by (intros i Hi; apply H; rewrite Lx; exact Hi).
  split; [split; [exact Lx|]; intros i Hi; apply (G i Hi)|]. split; [split; [exact Lz|]; intros i Hi; apply (G i Hi)|].
  split; [split; [exact Ly|]; intros i Hi; apply (G i Hi)|]. intros i Hi. apply (G i Hi).
Qed.

Lemma weight_one : weight (f_of_Z 1).
Proof. split; [reflexivity|]. split; [reflexivity|]. rewrite one_real. lra. Qed.

Lemma zero_bracket : bracket (S754_zero false) (S754_zero false) (S754_zero false).
Proof. apply bracket_refl. reflexivity. Qed.

Lemma sweep_inside back apart dbg stray n a b1 b2 b3 x z y u v t w : square_system n a b1 -> signs a -> weight w ->
  valid_vec n b1 -> valid_vec n b2 -> valid_vec n b3 -> inside n b1 b2 b3 ->
  valid_vec n x -> valid_vec n z -> valid_vec n y -> inside n x z y ->
  length u = n -> length v = n -> length t = n ->
  exists x' z' y', sweep_of back apart dbg stray a x u b1 w = Ok x' /\ sweep_of back apart dbg stray a z v b2 w = Ok z' /\
    sweep_of back apart dbg stray a y t b3 w = Ok y' /\
    valid_vec n x' /\ valid_vec n z' /\ valid_vec n y' /\ inside n x' z' y'.
Proof.
  intros Ha Hs Hw B1 B2 B3 Hb Vx Vz Vy H Lu Lv Lt. pose proof (signs_shaped n a b1 Ha Hs) as Hsh.
  pose proof (inside_between n _ _ _ B1 B2 B3 Hb) as Tb. pose proof (inside_between n _ _ _ Vx Vz Vy H) as Tx.
  assert (TW : forall x z y, bracket x z y -> bracket (sc_mul fops w x) (sc_mul fops w z) (sc_mul fops w y))
    by (intros; apply bracket_mul; [apply weight_nonneg|]; auto).
  assert (TV : forall x z y, bracket x z y -> bracket (sc_mul fops (sc_sub fops (sc_one fops) w) x)
    (sc_mul fops (sc_sub fops (sc_one fops) w) z) (sc_mul fops (sc_sub fops (sc_one fops) w) y))
    by (intros; apply bracket_mul; [apply weight_rest|]; auto).
  unfold sweep_of. destruct Vx as [Lx _], Vz as [Lz _], Vy as [Ly _], B1 as [L1 _], B2 as [L2 _], B3 as [L3 _].
  destruct back, apart.
  - destruct (apart_back_between fops dbg stray bracket nonpos positive w zero_bracket bracket_add bracket_sub
      bracket_mul_neg TW TV bracket_div n a b1 b2 b3 Hsh L2 L3 Tb x z y u v t Lx Lz Ly Tx Lu Lv Lt)
      as (x' & z' & y' & E1 & E2 & E3 & Lx' & Lz' & Ly' & R).
    exists x', z', y'. repeat (split; [assumption|]). apply between_inside; auto.
  - destruct (place_back_between fops dbg stray bracket nonpos positive w zero_bracket bracket_add bracket_sub
      bracket_mul_neg TW TV bracket_div n a b1 b2 b3 Hsh L2 L3 Tb x z y Lx Lz Ly Tx)
      as (x' & z' & y' & E1 & E2 & E3 & Lx' & Lz' & Ly' & R).
    exists x', z', y'. repeat (split; [assumption|]). apply between_inside; auto.
  - destruct (apart_between fops dbg stray bracket nonpos positive w zero_bracket bracket_add bracket_sub
      bracket_mul_neg TW TV bracket_div n a b1 b2 b3 Hsh L2 L3 Tb x z y u v t Lx Lz Ly Tx Lu Lv Lt)
      as (x' & z' & y' & E1 & E2 & E3 & Lx' & Lz' & Ly' & R).
    exists x', z', y'. repeat (split; [assumption|]). apply between_inside; auto.
  - destruct (place_between fops dbg stray bracket nonpos positive w zero_bracket bracket_add bracket_sub
      bracket_mul_neg TW TV bracket_div n a b1 b2 b3 Hsh L2 L3 Tb x z y Lx Lz Ly Tx)
      as (x' & z' & y' & E1 & E2 & E3 & Lx' & Lz' & Ly' & R).
    exists x', z', y'. repeat (split; [assumption|]). apply between_inside; auto.
Qed.

Lemma steps_inside seidel dbg stray n a b1 b2 b3 x z y u v t k : square_system n a b1 -> signs a ->
  valid_vec n b1 -> valid_vec n b2 -> valid_vec n b3 -> inside n b1 b2 b3 ->
  valid_vec n x -> valid_vec n z -> valid_vec n y -> inside n x z y ->
  (seidel = false -> length u = n /\ length v = n /\ length t = n) ->
  exists x' z' y' u' v' t', times (step_of fops seidel dbg stray a b1) k (x, u) = Ok (x', u') /\
    times (step_of fops seidel dbg stray a b2) k (z, v) = Ok (z', v') /\
    times (step_of fops seidel dbg stray a b3) k (y, t) = Ok (y', t') /\
    valid_vec n x' /\ valid_vec n z' /\ valid_vec n y' /\ inside n x' z' y'.
Proof.
  intros Ha Hs B1 B2 B3 Hb Vx Vz Vy H Lw. pose proof (signs_shaped n a b1 Ha Hs) as Hsh.
  pose proof (inside_between n _ _ _ B1 B2 B3 Hb) as Tb. pose proof (inside_between n _ _ _ Vx Vz Vy H) as Tx.
  destruct Vx as [Lx _], Vz as [Lz _], Vy as [Ly _], B1 as [L1 _], B2 as [L2 _], B3 as [L3 _].
  destruct (steps_between fops dbg stray bracket nonpos positive zero_bracket bracket_add bracket_sub
      bracket_mul_neg (fun x z y => bracket_mul _ x z y (weight_nonneg _ weight_one))
      (fun x z y => bracket_mul _ x z y (weight_rest _ weight_one)) bracket_div seidel n a b1 b2 b3 x z y u v t k
      Hsh L2 L3 Tb Lx Lz Ly Tx Lw) as (x' & z' & y' & u' & v' & t' & E1 & E2 & E3 & Lx' & Lz' & Ly' & _ & R).
  exists x', z', y', u', v', t'. repeat (split; [assumption|]). apply between_inside; auto.
Qed.

(* ------------------------------------------------------------------ signs of the iterates *)
(** The first is not positive and the third not negative, where they are finite. *)
Definition apart_zero (x z y : f64) : Prop := (f_valid x /\ (f_finite x = true -> f_real x <= 0)) /\
  (f_valid y /\ (f_finite y = true -> 0 <= f_real y)).

Lemma rnd_nonneg x : 0 <= x -> 0 <= round radix2 (FLT_exp (-1074) 53) ZnearestE x.
Proof. intro H. rewrite <- (round_0 radix2 (FLT_exp (-1074) 53) ZnearestE). apply rnd_mono, H. Qed.
Lemma rnd_nonpos x : x <= 0 -> round radix2 (FLT_exp (-1074) 53) ZnearestE x <= 0.
Proof. intro H. rewrite <- (round_0 radix2 (FLT_exp (-1074) 53) ZnearestE). apply rnd_mono, H. Qed.

Lemma az_add x z y x' z' y' : apart_zero x z y -> apart_zero x' z' y' ->
  apart_zero (SFadd 53 1024 x x') (SFadd 53 1024 z z') (SFadd 53 1024 y y').
Proof.
  intros ((V & H) & W & G) ((V' & H') & W' & G'). split; (split; [apply f_add_valid; auto|]); intro F.
  - destruct (f_add_round _ _ V V' F) as (F1 & F2 & ->). apply rnd_nonpos. specialize (H F1). specialize (H' F2). lra.
  - destruct (f_add_round _ _ W W' F) as (F1 & F2 & ->). apply rnd_nonneg. specialize (G F1). specialize (G' F2). lra.
Qed.

Lemma az_sub x z y x' z' y' : apart_zero x z y -> apart_zero x' z' y' ->
  apart_zero (SFsub 53 1024 x y') (SFsub 53 1024 z z') (SFsub 53 1024 y x').
Proof.
  intros ((V & H) & W & G) ((V' & H') & W' & G'). split; (split; [apply f_sub_valid; auto|]); intro F.
  - destruct (f_sub_round _ _ V W' F) as (F1 & F2 & ->). apply rnd_nonpos. specialize (H F1). specialize (G' F2). lra.
  - destruct (f_sub_round _ _ W V' F) as (F1 & F2 & ->). apply rnd_nonneg. specialize (G F1). specialize (H' F2). lra.
Qed.

Lemma az_neg a x z y : nonpos a -> apart_zero x z y ->
  apart_zero (SFmul 53 1024 a y) (SFmul 53 1024 a z) (SFmul 53 1024 a x).
Proof.
  intros (Va & Fa & Ha) ((V & H) & W & G). split; (split; [apply f_mul_valid; auto|]); intro F.
  - destruct (f_mul_round _ _ Va W F) as (_ & F2 & ->). apply rnd_nonpos. specialize (G F2). nra.
  - destruct (f_mul_round _ _ Va V F) as (_ & F2 & ->). apply rnd_nonneg. specialize (H F2). nra.
Qed.

Lemma az_mul a x z y : nonneg a -> apart_zero x z y ->
  apart_zero (SFmul 53 1024 a x) (SFmul 53 1024 a z) (SFmul 53 1024 a y).
Proof.
  intros (Va & Fa & Ha) ((V & H) & W & G). split; (split; [apply f_mul_valid; auto|]); intro F.
  - destruct (f_mul_round _ _ Va V F) as (_ & F2 & ->). apply rnd_nonpos. specialize (H F2). nra.
  - destruct (f_mul_round _ _ Va W F) as (_ & F2 & ->). apply rnd_nonneg. specialize (G F2). nra.
Qed.

Lemma az_div d x z y : positive d -> apart_zero x z y ->
  apart_zero (SFdiv 53 1024 x d) (SFdiv 53 1024 z d) (SFdiv 53 1024 y d).
Proof.
  intros (Vd & Fd & Hd) ((V & H) & W & G). pose proof (Rinv_0_lt_compat _ Hd) as Hi.
  split; (split; [apply f_div_valid; auto|]); intro F.
  - destruct (f_div_round _ _ V Vd Fd F) as (F1 & _ & ->). apply rnd_nonpos. specialize (H F1). unfold Rdiv. nra.
  - destruct (f_div_round _ _ W Vd Fd F) as (F1 & _ & ->). apply rnd_nonneg. specialize (G F1). unfold Rdiv. nra.
Qed.

Lemma az_zero z : apart_zero (S754_zero false) z (S754_zero false).
Proof. split; (split; [reflexivity|]); intros _; cbn [f_real]; lra. Qed.

Definition not_negative n (x : list f64) : Prop := forall i, (i < n)%nat -> f_finite (at_ x i) = true -> 0 <= f_real (at_ x i).
Definition not_positive n (x : list f64) : Prop := forall i, (i < n)%nat -> f_finite (at_ x i) = true -> f_real (at_ x i) <= 0.

Lemma at_zeros n i : at_ (repeat (S754_zero false) n) i = S754_zero false.
Proof. unfold at_. apply nth_repeat. Qed.

Lemma steps_sign seidel dbg stray n a b x u k : square_system n a b -> signs a -> valid_vec n b -> valid_vec n x ->
  (seidel = false -> length u = n) ->
  exists x' u', times (step_of fops seidel dbg stray a b) k (x, u) = Ok (x', u') /\ valid_vec n x' /\
    (not_negative n b -> not_negative n x -> not_negative n x') /\
    (not_positive n b -> not_positive n x -> not_positive n x').
Proof.
  intros Ha Hs Vb Vx Lu. pose proof (signs_shaped n a b Ha Hs) as Hsh. set (o := repeat (S754_zero false) n).
  assert (Lo : length o = n) by apply repeat_length.
  assert (Vo : valid_vec n o) by (split; [exact Lo|]; intros i _; unfold o; rewrite at_zeros; reflexivity).
  destruct (steps_inside seidel dbg stray n a b b b x x x u u u k) as (x' & z & y & u' & v & t & E & _ & _ & V & _);
    auto; try (intros i Hi F _; split; [exact F|lra]).
  exists x', u'. split; [exact E|]. split; [exact V|].
  assert (K : forall b1 b3 x1 x3, length b1 = n -> length b3 = n -> length x1 = n -> length x3 = n ->
    shaped nonpos positive n a b1 ->
    (forall i, (i < n)%nat -> apart_zero (at_ b1 i) (at_ b1 i) (at_ b3 i)) ->
    (forall i, (i < n)%nat -> apart_zero (at_ x1 i) (at_ x1 i) (at_ x3 i)) ->
    exists y1 y3 u1 u3, times (step_of fops seidel dbg stray a b1) k (x1, u) = Ok (y1, u1) /\
      times (step_of fops seidel dbg stray a b3) k (x3, u) = Ok (y3, u3) /\
      not_positive n y1 /\ not_negative n y3).
  { intros b1 b3 x1 x3 L1 L3 M1 M3 Hb1 Hb Hx.
    destruct (steps_between fops dbg stray apart_zero nonpos positive (az_zero _) az_add az_sub az_neg
      (fun x z y => az_mul _ x z y (weight_nonneg _ weight_one)) (fun x z y => az_mul _ x z y (weight_rest _ weight_one))
      az_div seidel n a b1 b1 b3 x1 x1 x3 u u u k Hb1 L1 L3) as (y1 & y2 & y3 & u1 & u2 & u3 & E1 & _ & E3 & P1 & _ & P3 & _ & R); auto.
    - intros i Hi. apply Hb. rewrite <- L1. exact Hi.
    - intros i Hi. apply Hx. rewrite <- M1. exact Hi.
    - exists y1, y3, u1, u3. split; [exact E1|]. split; [exact E3|].
      rewrite <- P1. split; intros i Hi; apply (R i Hi). }
  destruct Vb as [Lb Vb], Vx as [Lx Vx]. split; intros Nb Nx.
  - destruct (K o b o x) as (y1 & y3 & u1 & u3 & _ & E3 & _ & N); auto.
    + destruct Hsh as ((W1 & W2 & W3 & _ & W5) & W). split; [|exact W]. repeat (split; [assumption|]). exact W5.
    + intros i Hi. unfold o. rewrite at_zeros. split; [exact (proj1 (az_zero (S754_zero false)))|]. split; [apply Vb, Hi|apply Nb, Hi].
    + intros i Hi. unfold o. rewrite at_zeros. split; [exact (proj1 (az_zero (S754_zero false)))|]. split; [apply Vx, Hi|apply Nx, Hi].
    + rewrite E in E3. injection E3 as <- <-. exact N.
  - destruct (K b o x o) as (y1 & y3 & u1 & u3 & E3 & _ & N & _); auto.
    + intros i Hi. unfold o. rewrite at_zeros. split; [split; [apply Vb, Hi|apply Nb, Hi]|exact (proj2 (az_zero (S754_zero false)))].
    + intros i Hi. unfold o. rewrite at_zeros. split; [split; [apply Vx, Hi|apply Nx, Hi]|exact (proj2 (az_zero (S754_zero false)))].
    + rewrite E in E3. injection E3 as <- <-. exact N.
Qed.

(* ------------------------------------------------------------------ rising and falling, enclosure *)
Lemma fin_valid n x : fin_vec n x -> valid_vec n x.
Proof. intros [L H]. split; [exact L|]. intros i Hi. apply (H i Hi). Qed.

Lemma inside_self n x : inside n x x x.
Proof. intros i Hi F _. split; [exact F|lra]. Qed.

Lemma inside_le n x z y : fin_vec n z -> le_vec n x z -> le_vec n z y -> inside n x z y.
Proof. intros Fz H1 H2 i Hi _ _. split; [apply Fz, Hi|]. split; [apply H1, Hi|apply H2, Hi]. Qed.

Lemma inside_fin n x z y : fin_vec n x -> fin_vec n y -> valid_vec n z -> inside n x z y ->
  fin_vec n z /\ le_vec n x z /\ le_vec n z y.
Proof.
  intros [Lx Fx] [Ly Fy] [Lz Vz] H.
  assert (G : forall i, (i < n)%nat -> f_finite (at_ z i) = true /\ f_real (at_ x i) <= f_real (at_ z i) <= f_real (at_ y i))
    by (intros i Hi; apply H; [exact Hi|apply Fx, Hi|apply Fy, Hi]).
  split; [split; [exact Lz|]; intros i Hi; split; [apply Vz, Hi|apply G, Hi]|]. split; intros i Hi; apply (G i Hi).
Qed.

Section Enclosure.
  Variables (seidel dbg : bool) (stray : option nat) (n : nat) (a : smat f64) (b : list f64).
  Hypothesis Ha : square_system n a b.
  Hypothesis Hs : signs a.
  Hypothesis Vb : valid_vec n b.
  Notation step := (step_of fops seidel dbg stray a b).

  Lemma step_work x u x1 u1 : length x = n -> step (x, u) = Ok (x1, u1) -> (seidel = false -> length u1 = n).
  Proof using.
    intros Lx E ->. unfold step_of, jacobi_step in E. cbn [fst snd] in E.
    destruct (forward_sweep _ _ _ _ _ _ _ _); cbn [bind] in E; try discriminate. injection E as <- <-. exact Lx.
  Qed.

  (** Two runs from ordered vectors. *)
  Lemma run_three x z y u v t k : valid_vec n x -> valid_vec n z -> valid_vec n y -> inside n x z y ->
    (seidel = false -> length u = n /\ length v = n /\ length t = n) ->
    exists x' z' y' u' v' t', times step k (x, u) = Ok (x', u') /\ times step k (z, v) = Ok (z', v') /\
      times step k (y, t) = Ok (y', t') /\ valid_vec n x' /\ valid_vec n z' /\ valid_vec n y' /\ inside n x' z' y'.
  Proof using Ha Hs Vb. intros. apply steps_inside; auto. apply inside_self. Qed.

  Lemma rising x u x1 u1 k : valid_vec n x -> valid_vec n x1 -> (seidel = false -> length u = n) ->
    step (x, u) = Ok (x1, u1) ->
    (forall i, (i < n)%nat -> f_finite (at_ x i) = true -> f_finite (at_ x1 i) = true -> f_real (at_ x i) <= f_real (at_ x1 i)) ->
    exists y z v w, times step k (x, u) = Ok (y, v) /\ times step (S k) (x, u) = Ok (z, w) /\ valid_vec n y /\ valid_vec n z /\
      forall i, (i < n)%nat -> f_finite (at_ y i) = true -> f_finite (at_ z i) = true -> f_real (at_ y i) <= f_real (at_ z i).
  Proof using Ha Hs Vb.
    intros Vx V1 Lu E H. pose proof (step_work x u x1 u1 (proj1 Vx) E) as L1.
    destruct (run_three x x1 x1 u u1 u1 k) as (y & z & z' & v & w & w' & E1 & E2 & E3 & Vy & Vz & _ & R); auto.
    - intros i Hi F F1. split; [exact F1|]. split; [apply H; auto|lra].
    - rewrite E2 in E3. injection E3 as <- <-. exists y, z, v, w. split; [exact E1|].
      split; [rewrite times_first, E; cbn [bind]; exact E2|]. split; [exact Vy|]. split; [exact Vz|].
      intros i Hi F F1. apply (R i Hi); auto.
  Qed.

  Lemma falling x u x1 u1 k : valid_vec n x -> valid_vec n x1 -> (seidel = false -> length u = n) ->
    step (x, u) = Ok (x1, u1) ->
    (forall i, (i < n)%nat -> f_finite (at_ x i) = true -> f_finite (at_ x1 i) = true -> f_real (at_ x1 i) <= f_real (at_ x i)) ->
    exists y z v w, times step k (x, u) = Ok (y, v) /\ times step (S k) (x, u) = Ok (z, w) /\ valid_vec n y /\ valid_vec n z /\
      forall i, (i < n)%nat -> f_finite (at_ y i) = true -> f_finite (at_ z i) = true -> f_real (at_ z i) <= f_real (at_ y i).
  Proof using Ha Hs Vb.
    intros Vx V1 Lu E H. pose proof (step_work x u x1 u1 (proj1 Vx) E) as L1.
    destruct (run_three x1 x1 x u1 u1 u k) as (z & z' & y & w & w' & v & E2 & E3 & E1 & Vz & _ & Vy & R); auto.
    - intros i Hi F F1. split; [exact F|]. split; [lra|apply H; auto].
    - rewrite E2 in E3. injection E3 as <- <-. exists y, z, v, w. split; [exact E1|].
      split; [rewrite times_first, E; cbn [bind]; exact E2|]. split; [exact Vy|]. split; [exact Vz|].
      intros i Hi F F1. apply (R i Hi); auto.
  Qed.

  (** Below [x], which a step raises, and [y], which a step lowers. *)
  Variables (x u x1 u1 y t y1 t1 : list f64).
  Hypothesis Fx : fin_vec n x.
  Hypothesis Fy : fin_vec n y.
  Hypothesis Hxy : le_vec n x y.
  Hypothesis Lw : seidel = false -> length u = n /\ length t = n.
  Hypothesis Ex : step (x, u) = Ok (x1, u1).
  Hypothesis Ey : step (y, t) = Ok (y1, t1).
  Hypothesis F1 : fin_vec n x1.
  Hypothesis F2 : fin_vec n y1.
  Hypothesis Hx : le_vec n x x1.
  Hypothesis Hy : le_vec n y1 y.

  Lemma step_trapped z v : fin_vec n z -> le_vec n x z -> le_vec n z y -> (seidel = false -> length v = n) ->
    exists z1 v1, step (z, v) = Ok (z1, v1) /\ fin_vec n z1 /\ le_vec n x z1 /\ le_vec n z1 y /\
      (seidel = false -> length v1 = n).
  Proof using Ha Hs Vb Fx Fy Lw Ex Ey F1 F2 Hx Hy.
    intros Fz H1 H2 Lv. destruct (run_three x z y u v t 1) as (x' & z' & y' & u' & v' & t' & E1 & E2 & E3 & Vx & Vz & Vy & R);
      auto using fin_valid, inside_le.
    { intro E. destruct (Lw E). auto. }
    cbn [times bind] in E1, E2, E3. rewrite Ex in E1. rewrite Ey in E3. injection E1 as <- <-. injection E3 as <- <-.
    destruct (inside_fin n _ _ _ F1 F2 Vz R) as (Fz' & G1 & G2).
    exists z', v'. split; [exact E2|]. split; [exact Fz'|].
    split; [intros i Hi; specialize (Hx i Hi); specialize (G1 i Hi); lra|].
    split; [intros i Hi; specialize (Hy i Hi); specialize (G2 i Hi); lra|]. apply (step_work z v z' v' (proj1 Fz) E2).
  Qed.

  Lemma trapped z v k : fin_vec n z -> le_vec n x z -> le_vec n z y -> (seidel = false -> length v = n) ->
    exists z' v', times step k (z, v) = Ok (z', v') /\ fin_vec n z' /\ le_vec n x z' /\ le_vec n z' y /\
      (seidel = false -> length v' = n).
  Proof using Ha Hs Vb Fx Fy Lw Ex Ey F1 F2 Hx Hy.
    intros Fz H1 H2 Lv. induction k as [|k IH]; cbn [times].
    - exists z, v. auto.
    - destruct IH as (z' & v' & -> & Fz' & G1 & G2 & Lv'). cbn [bind]. apply step_trapped; auto.
  Qed.

  Lemma enclosed z v k : fin_vec n z -> le_vec n x z -> le_vec n z y -> (seidel = false -> length v = n) ->
    exists x' z' y' x'' y'' u' v' t' u'' t'', times step k (x, u) = Ok (x', u') /\ times step k (z, v) = Ok (z', v') /\
      times step k (y, t) = Ok (y', t') /\ times step (S k) (x, u) = Ok (x'', u'') /\ times step (S k) (y, t) = Ok (y'', t'') /\
      fin_vec n x' /\ fin_vec n z' /\ fin_vec n y' /\ fin_vec n x'' /\ fin_vec n y'' /\
      le_vec n x x' /\ le_vec n x' x'' /\ le_vec n x' z' /\ le_vec n z' y' /\ le_vec n y'' y' /\ le_vec n y' y.
  Proof using Ha Hs Vb Fx Fy Hxy Lw Ex Ey F1 F2 Hx Hy.
    intros Fz H1 H2 Lv.
    assert (Rx : le_vec n x x) by (intros i _; lra). assert (Ry : le_vec n y y) by (intros i _; lra).
    destruct (trapped x u k) as (x' & u' & E1 & Fx' & A1 & A2 & _); auto; [intro E; apply (Lw E)|].
    destruct (trapped y t k) as (y' & t' & E2 & Fy' & B1 & B2 & _); auto; [intro E; apply (Lw E)|].
    destruct (trapped x u (S k)) as (x'' & u'' & E3 & Fx'' & _); auto; [intro E; apply (Lw E)|].
    destruct (trapped y t (S k)) as (y'' & t'' & E4 & Fy'' & _); auto; [intro E; apply (Lw E)|].
    destruct (run_three x z y u v t k) as (xa & z' & ya & ua & v' & ta & Q1 & Q2 & Q3 & _ & Vz & _ & R);
      auto using fin_valid, inside_le.
    { intro E. destruct (Lw E). auto. }
    rewrite E1 in Q1. rewrite E2 in Q3. injection Q1 as <- <-. injection Q3 as <- <-.
    destruct (inside_fin n _ _ _ Fx' Fy' Vz R) as (Fz' & C1 & C2).
    destruct (rising x u x1 u1 k) as (p & q & pu & qu & P1 & P2 & _ & _ & P3); auto using fin_valid; [intro E; apply (Lw E)|].
    rewrite E1 in P1. rewrite E3 in P2. injection P1 as <- <-. injection P2 as <- <-.
    destruct (falling y t y1 t1 k) as (p & q & pu & qu & P1 & P2 & _ & _ & P4); auto using fin_valid; [intro E; apply (Lw E)|].
    rewrite E2 in P1. rewrite E4 in P2. injection P1 as <- <-. injection P2 as <- <-.
    exists x', z', y', x'', y'', u', v', t', u'', t''. repeat (split; [assumption|]).
    split; [intros i Hi; apply P3; [exact Hi|apply Fx', Hi|apply Fx'', Hi]|]. split; [exact C1|]. split; [exact C2|].
    split; [intros i Hi; apply P4; [exact Hi|apply Fy', Hi|apply Fy'', Hi]|]. exact B2.
  Qed.
End Enclosure.

(* ------------------------------------------------------------------ settling *)
(** The multiple of the smallest positive double. *)
Definition grid (x : f64) : Z :=
  match x with S754_finite s m e => (if s then Z.neg m else Z.pos m) * 2 ^ (e + 1074) | _ => 0 end%Z.

Lemma grid_real x : f_valid x -> f_real x * bpow radix2 1074 = IZR (grid x).
Proof.
  destruct x as [s|s| |s m e]; try (intros _; cbn [f_real grid]; ring). intro V.
  assert (He : (0 <= e + 1074)%Z).
  { unfold f_valid, valid_binary, bounded in V. apply andb_prop in V as [V _].
    unfold canonical_mantissa, SpecFloat.fexp, SpecFloat.emin in V. apply Zeq_bool_eq in V. lia. }
  rewrite f_real_SF2R. cbn [SF2R grid]. unfold F2R. cbn [Fnum Fexp].
  rewrite mult_IZR, Rmult_assoc, <- bpow_plus, <- (IZR_Zpower radix2 (e + 1074) He). destruct s; reflexivity.
Qed.

Lemma grid_le x y : f_valid x -> f_valid y -> f_real x <= f_real y -> (grid x <= grid y)%Z.
Proof.
  intros Vx Vy H. apply le_IZR. rewrite <- !grid_real by auto. apply Rmult_le_compat_r; [apply bpow_ge_0|exact H].
Qed.

Lemma grid_eq x y : f_valid x -> f_valid y -> grid x = grid y -> f_real x = f_real y.
Proof.
  intros Vx Vy H. apply (f_equal IZR) in H. rewrite <- !grid_real in H by auto.
  apply Rmult_eq_reg_r in H; [exact H|]. apply Rgt_not_eq, bpow_gt_0.
Qed.

Fixpoint gsum (n : nat) (x : list f64) : Z :=
  match n with O => 0%Z | S n => (gsum n x + grid (at_ x n))%Z end.

Lemma gsum_le m n x y : (m <= n)%nat -> fin_vec n x -> fin_vec n y -> le_vec n x y -> (gsum m x <= gsum m y)%Z.
Proof.
  intros Hm Fx Fy H. induction m as [|m IH]; cbn [gsum]; [lia|]. specialize (IH ltac:(lia)).
  pose proof (grid_le (at_ x m) (at_ y m) (proj1 (proj2 Fx m Hm)) (proj1 (proj2 Fy m Hm)) (H m Hm)). lia.
Qed.

(** The same numbers; the sign of a zero may differ. *)
Definition same_vec n (x y : list f64) : Prop := forall i, (i < n)%nat -> f_real (at_ x i) = f_real (at_ y i).

Lemma gsum_same m n x y : (m <= n)%nat -> fin_vec n x -> fin_vec n y -> le_vec n x y -> (gsum m y <= gsum m x)%Z ->
  same_vec m x y.
Proof.
  intros Hm Fx Fy H. induction m as [|m IH]; intro G; [intros i Hi; lia|]. cbn [gsum] in G.
  pose proof (proj1 (proj2 Fx m Hm)) as Vx. pose proof (proj1 (proj2 Fy m Hm)) as Vy.
  pose proof (grid_le _ _ Vx Vy (H m Hm)) as G1. pose proof (gsum_le m n x y ltac:(lia) Fx Fy H) as G2.
  intros i Hi. destruct (Nat.eq_dec i m) as [->|].
  - apply grid_eq; auto. lia.
  - apply IH; lia.
Qed.

Lemma rises_settle n (s : nat -> list f64) hi : (forall k, fin_vec n (s k)) -> fin_vec n hi ->
  (forall k, le_vec n (s k) hi) -> (forall k, le_vec n (s k) (s (S k))) -> exists K, same_vec n (s K) (s (S K)).
Proof.
  intros F Fh Hh Hr.
  assert (G : forall D k, (gsum n hi - gsum n (s k) <= Z.of_nat D)%Z -> exists K, same_vec n (s K) (s (S K))).
  { induction D as [|D IH]; intros k Hk.
    - exists k. apply (gsum_same n n); auto.
      pose proof (gsum_le n n _ _ (le_n n) (F (S k)) Fh (Hh (S k))). lia.
    - destruct (Z_le_gt_dec (gsum n (s (S k))) (gsum n (s k))) as [L|L].
      + exists k. apply (gsum_same n n); auto.
      + apply (IH (S k)). lia. }
  apply (G (Z.to_nat (gsum n hi - gsum n (s 0%nat))) 0%nat). lia.
Qed.

Lemma falls_settle n (s : nat -> list f64) lo : (forall k, fin_vec n (s k)) -> fin_vec n lo ->
  (forall k, le_vec n lo (s k)) -> (forall k, le_vec n (s (S k)) (s k)) -> exists K, same_vec n (s K) (s (S K)).
Proof.
  intros F Fl Hl Hr.
  assert (G : forall D k, (gsum n (s k) - gsum n lo <= Z.of_nat D)%Z -> exists K, same_vec n (s K) (s (S K))).
  { assert (Q : forall k, (gsum n (s k) <= gsum n (s (S k)))%Z -> same_vec n (s k) (s (S k))).
    { intros k L i Hi. symmetry. apply (gsum_same n n (s (S k)) (s k)); auto. }
    induction D as [|D IH]; intros k Hk.
    - exists k. apply Q. pose proof (gsum_le n n _ _ (le_n n) Fl (F (S k)) (Hl (S k))). lia.
    - destruct (Z_le_gt_dec (gsum n (s k)) (gsum n (s (S k)))) as [L|L].
      + exists k. apply Q, L.
      + apply (IH (S k)). lia. }
  apply (G (Z.to_nat (gsum n (s 0%nat) - gsum n lo)) 0%nat). lia.
Qed.

Section Settle.
  Variables (seidel dbg : bool) (stray : option nat) (n : nat) (a : smat f64) (b : list f64).
  Hypothesis Ha : square_system n a b.
  Hypothesis Hs : signs a.
  Hypothesis Vb : valid_vec n b.
  Notation step := (step_of fops seidel dbg stray a b).
  Variables (x u x1 u1 y t y1 t1 : list f64).
  Hypothesis Fx : fin_vec n x.
  Hypothesis Fy : fin_vec n y.
  Hypothesis Hxy : le_vec n x y.
  Hypothesis Lw : seidel = false -> length u = n /\ length t = n.
  Hypothesis Ex : step (x, u) = Ok (x1, u1).
  Hypothesis Ey : step (y, t) = Ok (y1, t1).
  Hypothesis F1 : fin_vec n x1.
  Hypothesis F2 : fin_vec n y1.
  Hypothesis Hx : le_vec n x x1.
  Hypothesis Hy : le_vec n y1 y.

  (** The iterates of a run between the two. *)
  Definition iterate (z v : list f64) (k : nat) : list f64 :=
    match times step k (z, v) with Ok p => fst p | _ => [] end.

  Lemma same_step z v z' v' p pu q qu : fin_vec n z -> fin_vec n z' -> (seidel = false -> length v = n /\ length v' = n) ->
    same_vec n z z' -> step (z, v) = Ok (p, pu) -> step (z', v') = Ok (q, qu) -> fin_vec n p -> fin_vec n q -> same_vec n p q.
  Proof using Ha Hs Vb.
    intros Fz Fz' Lv H E E' Fp Fq.
    destruct (run_three seidel dbg stray n a b Ha Hs Vb z z' z v v' v 1) as (r1 & r2 & r3 & s1 & s2 & s3 & E1 & E2 & E3 & _ & _ & _ & R);
      auto using fin_valid.
    - intros i Hi _ _. split; [apply Fz', Hi|]. rewrite (H i Hi). lra.
    - intro Es. destruct (Lv Es). auto.
    - cbn [times bind] in E1, E2, E3. rewrite E in E1, E3. rewrite E' in E2. injection E1 as <- <-. injection E2 as <- <-.
      injection E3 as <- <-. intros i Hi. destruct (R i Hi) as (_ & R1); [apply Fp, Hi|apply Fp, Hi|lra].
  Qed.

  Lemma iterate_ok z v : fin_vec n z -> le_vec n x z -> le_vec n z y -> (seidel = false -> length v = n) ->
    forall k, exists w, times step k (z, v) = Ok (iterate z v k, w) /\ fin_vec n (iterate z v k) /\
      le_vec n x (iterate z v k) /\ le_vec n (iterate z v k) y /\ (seidel = false -> length w = n).
  Proof using Ha Hs Vb Fx Fy Lw Ex Ey F1 F2 Hx Hy.
    intros Fz H1 H2 Lv k.
    destruct (trapped seidel dbg stray n a b Ha Hs Vb x u x1 u1 y t y1 t1 Fx Fy Lw Ex Ey F1 F2 Hx Hy z v k)
      as (z' & v' & E & R); auto. unfold iterate. rewrite E. exists v'. split; [reflexivity|exact R].
  Qed.

  Lemma iterate_same z v K : fin_vec n z -> le_vec n x z -> le_vec n z y -> (seidel = false -> length v = n) ->
    same_vec n (iterate z v K) (iterate z v (S K)) -> forall k, (K <= k)%nat -> same_vec n (iterate z v k) (iterate z v K).
  Proof using Ha Hs Vb Fx Fy Lw Ex Ey F1 F2 Hx Hy.
    intros Fz H1 H2 Lv H. pose proof (iterate_ok z v Fz H1 H2 Lv) as It.
    assert (G : forall j, same_vec n (iterate z v (j + K)) (iterate z v (S (j + K)))).
    { induction j as [|j IH]; [exact H|]. change (S j + K)%nat with (S (j + K)). set (m := (j + K)%nat) in *.
      destruct (It m) as (w0 & E0 & G0 & _ & _ & L0), (It (S m)) as (w1 & E1 & G1 & _ & _ & L1),
        (It (S (S m))) as (w2 & E2 & G2 & _).
      apply (same_step (iterate z v m) w0 (iterate z v (S m)) w1 (iterate z v (S m)) w1 (iterate z v (S (S m))) w2); auto.
      - change (times step (S m) (z, v)) with (do s <- times step m (z, v); step s) in E1. rewrite E0 in E1. exact E1.
      - change (times step (S (S m)) (z, v)) with (do s <- times step (S m) (z, v); step s) in E2. rewrite E1 in E2. exact E2. }
    intros k Hk. replace k with (k - K + K)%nat by lia. induction (k - K)%nat as [|j IH]; [intros i _; reflexivity|].
    intros i Hi. rewrite <- (IH i Hi). symmetry. apply (G j i Hi).
  Qed.

  Lemma settle : exists K, forall k, (K <= k)%nat -> exists x' xK y' yK u' uK t' tK,
    times step k (x, u) = Ok (x', u') /\ times step K (x, u) = Ok (xK, uK) /\ same_vec n x' xK /\ fin_vec n xK /\
    times step k (y, t) = Ok (y', t') /\ times step K (y, t) = Ok (yK, tK) /\ same_vec n y' yK /\ fin_vec n yK.
  Proof using Ha Hs Vb Fx Fy Hxy Lw Ex Ey F1 F2 Hx Hy.
    assert (Rx : le_vec n x x) by (intros i _; lra). assert (Ry : le_vec n y y) by (intros i _; lra).
    pose proof (iterate_ok x u Fx Rx Hxy (fun E => proj1 (Lw E))) as Ix.
    pose proof (iterate_ok y t Fy Hxy Ry (fun E => proj2 (Lw E))) as Iy.
    assert (En : forall k, le_vec n (iterate x u k) (iterate x u (S k)) /\ le_vec n (iterate y t (S k)) (iterate y t k)).
    { intro k. destruct (enclosed seidel dbg stray n a b Ha Hs Vb x u x1 u1 y t y1 t1 Fx Fy Hxy Lw Ex Ey F1 F2 Hx Hy x u k
        Fx Rx Hxy (fun E => proj1 (Lw E)))
        as (x' & z' & y' & x'' & y'' & u' & v' & t' & u'' & t'' & E1 & _ & E2 & E3 & E4 & _ & _ & _ & _ & _ & _ & R1 & _ & _ & R2 & _).
      unfold iterate. rewrite E1, E2, E3, E4. auto. }
    destruct (rises_settle n (iterate x u) y) as (K1 & S1); auto.
    { intro k. destruct (Ix k) as (w & _ & G & _). exact G. }
    { intro k. destruct (Ix k) as (w & _ & _ & _ & G & _). exact G. }
    { intro k. apply En. }
    destruct (falls_settle n (iterate y t) x) as (K2 & S2); auto.
    { intro k. destruct (Iy k) as (w & _ & G & _). exact G. }
    { intro k. destruct (Iy k) as (w & _ & _ & G & _). exact G. }
    { intro k. apply En. }
    pose proof (iterate_same x u K1 Fx Rx Hxy (fun E => proj1 (Lw E)) S1) as T1.
    pose proof (iterate_same y t K2 Fy Hxy Ry (fun E => proj2 (Lw E)) S2) as T2.
    exists (Nat.max K1 K2). intros k Hk.
    destruct (Ix k) as (w1 & A1 & _), (Ix (Nat.max K1 K2)) as (w2 & A2 & A3 & _), (Iy k) as (w3 & A4 & _),
      (Iy (Nat.max K1 K2)) as (w4 & A5 & A6 & _).
    exists (iterate x u k), (iterate x u (Nat.max K1 K2)), (iterate y t k), (iterate y t (Nat.max K1 K2)), w1, w2, w3, w4.
    split; [exact A1|]. split; [exact A2|]. split; [intros i Hi; rewrite (T1 k), (T1 (Nat.max K1 K2)); auto; lia|].
    split; [exact A3|]. split; [exact A4|]. split; [exact A5|].
    split; [intros i Hi; rewrite (T2 k), (T2 (Nat.max K1 K2)); auto; lia|exact A6].
  Qed.

  (** The vector returned by solve_system. *)
  Definition solve_of M fuel lim w (z : list f64) : res (list f64) :=
    if seidel then do r <- gauss_seidel_solve fops M dbg stray fuel lim a z b; Ok (fst r)
    else do r <- jacobi_solve fops M dbg stray fuel lim w a z b; Ok (fst (fst r)).

  Lemma solved_inside M fuel lim w z z' : fin_vec n z -> le_vec n x z -> le_vec n z y ->
    solve_of M fuel lim w z = Ok z' -> fin_vec n z' /\ le_vec n x z' /\ le_vec n z' y.
  Proof using Ha Hs Vb Fx Fy Lw Ex Ey F1 F2 Hx Hy.
    intros Fz H1 H2 E.
    assert (G : exists k v v', times step k (z, v) = Ok (z', v') /\ (seidel = false -> length v = n)).
    { unfold solve_of in E. unfold step_of. destruct seidel.
      - destruct (gauss_seidel_solve _ _ _ _ _ _ _ _ _) as [[r c]| | |] eqn:Q; cbn [bind] in E; try discriminate.
        injection E as <-. apply gauss_seidel_Ok in Q as (v & Q). apply loop_result in Q as (k & (Ht & _) & _).
        exists k, [], v. split; [exact Ht|discriminate].
      - destruct (jacobi_solve _ _ _ _ _ _ _ _ _ _) as [[[r v] c]| | |] eqn:Q; cbn [bind] in E; try discriminate.
        injection E as <-. unfold jacobi_solve in Q. apply loop_result in Q as (k & (Ht & _) & _).
        exists k, (vresize w (s_rows a) (sc_zero fops)), v. split; [exact Ht|].
        intros _. rewrite vresize_length'. apply Ha. }
    destruct G as (k & v & v' & Ek & Lv).
    destruct (trapped seidel dbg stray n a b Ha Hs Vb x u x1 u1 y t y1 t1 Fx Fy Lw Ex Ey F1 F2 Hx Hy z v k)
      as (p & q & Ep & Fp & G1 & G2 & _); auto.
    rewrite Ek in Ep. injection Ep as <- <-. auto.
  Qed.

  Lemma solve_inside M fuel lim w z : fin_vec n z -> le_vec n x z -> le_vec n z y ->
    (dbg = true -> n <> 0%nat) -> (min_iterations lim <= M)%nat -> (max_iteration lim < M)%nat -> (sweep_bound lim < fuel)%nat ->
    exists z', solve_of M fuel lim w z = Ok z' /\ fin_vec n z' /\ le_vec n x z' /\ le_vec n z' y.
  Proof using Ha Hs Vb Fx Fy Lw Ex Ey F1 F2 Hx Hy.
    intros Fz H1 H2 Hn M1 M2 Hf.
    assert (G : exists z', solve_of M fuel lim w z = Ok z').
    { destruct (square_solve fops M dbg stray n lim a z b w fuel Ha (proj1 Fz) Hn M1 M2 Hf)
        as ((xj & wj & cj & Ej & _) & (xg & cg & Eg & _) & _).
      unfold solve_of. destruct seidel; [rewrite Eg|rewrite Ej]; cbn [bind]; eauto. }
    destruct G as (z' & E). exists z'. split; [exact E|]. apply (solved_inside M fuel lim w z); auto.
  Qed.
End Settle.

(* ------------------------------------------------------------------ exact arithmetic *)
Section Exact.
  Variables (seidel dbg : bool) (stray : option nat) (n : nat) (a : smat R) (A : nat -> nat -> R) (b : list R).
  Variables (xs : list R).
  Hypothesis Ha : sparse_square 0 n a A.
  Hypothesis Lb : length b = n.
  Hypothesis Hp : forall i, (i < n)%nat -> 0 < A i i.
  Hypothesis Hn : forall i j, (i < n)%nat -> (j < n)%nat -> i <> j -> A i j <= 0.
  Hypothesis Lx : length xs = n.
  Hypothesis Hsol : forall i, (i < n)%nat -> rsum n (fun j => A i j * nth j xs 0) = nth i b 0.

  Lemma solution_steps u k : (seidel = false -> length u = n) ->
    exists u', times (step_of rops seidel dbg stray a b) k (xs, u) = Ok (xs, u').
  Proof using Ha Lb Hp Lx Hsol.
    assert (Vb : is_vec n b (fun i => nth i b 0)) by (rewrite <- Lb; apply is_vec_self).
    assert (Vx : is_vec n xs (fun i => nth i xs 0)) by (rewrite <- Lx; apply is_vec_self).
    assert (Hd : forall i, (i < n)%nat -> A i i <> 0) by (intros i Hi; specialize (Hp i Hi); lra).
    assert (H1 : 1 <> 0) by lra.
    intro Lu. enough (G : exists u', times (step_of rops seidel dbg stray a b) k (xs, u) = Ok (xs, u') /\ (seidel = false -> length u' = n))
      by (destruct G as (u' & G & _); eauto).
    induction k as [|k IH]; cbn [times]; [eauto|]. destruct IH as (u' & -> & L'). cbn [bind].
    unfold step_of, gauss_seidel_step, jacobi_step. destruct seidel; cbn [fst snd].
    - rewrite (proj2 (seidel_fixed rops Ropp Rinv dbg stray R_field n a A b _ xs _ (sc_one rops) Ha Vb Vx Hd H1) Hsol). cbn [bind]. eauto.
    - rewrite (proj2 (jacobi_fixed rops Ropp Rinv dbg stray R_field n a A b _ xs u' _ (sc_one rops) Ha Vb Vx (L' eq_refl) Hd H1) Hsol).
      cbn [bind]. eauto.
  Qed.

  Lemma exact_enclosure x u y t k : length x = n -> length y = n -> (seidel = false -> length u = n /\ length t = n) ->
    (forall i, (i < n)%nat -> nth i x 0 <= nth i xs 0 <= nth i y 0) ->
    exists x' y' u' t', times (step_of rops seidel dbg stray a b) k (x, u) = Ok (x', u') /\
      times (step_of rops seidel dbg stray a b) k (y, t) = Ok (y', t') /\ length x' = n /\ length y' = n /\
      forall i, (i < n)%nat -> nth i x' 0 <= nth i xs 0 <= nth i y' 0.
  Proof using Ha Lb Hp Hn Lx Hsol.
    intros L1 L2 Lw H. destruct Ha as (Hw & Hr & Hc & HA).
    assert (Hst : forall i, (i < n)%nat -> stored a i i (A i i)).
    { intros i Hi. destruct (stored_dec a i i Hw) as [(v & Hv)|N].
      - rewrite (proj1 (HA i i) v Hv). exact Hv.
      - specialize (Hp i Hi). rewrite (proj2 (HA i i) N) in Hp. lra. }
    assert (Hsh : shaped (fun v => v <= 0) (fun v => 0 < v) n a b).
    { split; [repeat (split; [assumption|]); eauto|]. split.
      - intros i j v Hv Hij. destruct (stored_bounds a i j v Hw Hv) as [B1 B2].
        rewrite <- (proj1 (HA i j) v Hv). apply Hn; lia.
      - intros i v Hv. destruct (stored_bounds a i i v Hw Hv) as [B1 B2].
        rewrite <- (proj1 (HA i i) v Hv). apply Hp. lia. }
    destruct (steps_between rops dbg stray (fun p q r => p <= q <= r) (fun v => v <= 0) (fun v => 0 < v)) with
      (seidel := seidel) (n := n) (a := a) (b1 := b) (b2 := b) (b3 := b) (x := x) (z := xs) (y := y) (u := u) (v := u) (t := t)
      (k := k) as (x' & z' & y' & u' & v' & t' & E1 & E2 & E3 & Lx' & _ & Ly' & _ & R); auto;
      try (cbn [rops sc_zero sc_one sc_add sc_sub sc_mul sc_div]; intros; try split; nra).
    - cbn [rops sc_div]. intros d p q r Hd Hpq. pose proof (Rinv_0_lt_compat _ Hd). unfold Rdiv. split; nra.
    - intros i Hi. apply H. lia.
    - intro E. destruct (Lw E). auto.
    - destruct (solution_steps u k) as (v & Ev); [intro E; apply (Lw E)|]. rewrite Ev in E2. injection E2 as <- <-.
      exists x', y', u', t'. repeat (split; [assumption|]). intros i Hi. apply R. lia.
  Qed.
End Exact.

(* ------------------------------------------------------------------ Gauss-Seidel inside the runs of Jacobi *)
Lemma place_inside dbg stray n a b x u x1 z y t y1 : square_system n a b -> signs a -> valid_vec n b ->
  fin_vec n x -> fin_vec n z -> fin_vec n y -> le_vec n x z -> le_vec n z y -> length u = n -> length t = n ->
  forward_sweep fops dbg stray a (Some x) u b (sc_one fops) = Ok x1 ->
  forward_sweep fops dbg stray a (Some y) t b (sc_one fops) = Ok y1 ->
  fin_vec n x1 -> fin_vec n y1 -> le_vec n x x1 -> le_vec n y1 y ->
  exists z1, forward_sweep fops dbg stray a None z b (sc_one fops) = Ok z1 /\ fin_vec n z1 /\ le_vec n x1 z1 /\ le_vec n z1 y1.
Proof.
  intros Ha Hs Vb Fx Fz Fy H1 H2 Lu Lt Ex Ey Fx1 Fy1 Hx Hy. pose proof (signs_shaped n a b Ha Hs) as Hsh. destruct Vb as [Lb Vb].
  destruct (three_rows fops dbg stray nonpos positive n a b b b Hsh Lb Lb) as (rs & d & R1 & _ & _ & HR).
  pose proof (is_vec_self x (sc_zero fops)) as Vx. rewrite (proj1 Fx) in Vx.
  pose proof (is_vec_self y (sc_zero fops)) as Vy. rewrite (proj1 Fy) in Vy.
  pose proof (is_vec_self z (sc_zero fops)) as Vz. rewrite (proj1 Fz) in Vz.
  destruct (jacobi_sweep_ok fops dbg stray n a b rs d _ x u _ (sc_one fops) R1 Vx Lu) as (x' & E1 & V1).
  destruct (jacobi_sweep_ok fops dbg stray n a b rs d _ y t _ (sc_one fops) R1 Vy Lt) as (y' & E3 & V3).
  destruct (seidel_sweep_ok fops dbg stray n a b rs d _ z _ (sc_one fops) R1 Vz) as (z' & g & E2 & V2 & F2).
  rewrite Ex in E1. injection E1 as <-. rewrite Ey in E3. injection E3 as <-. exists z'. split; [exact E2|].
  assert (B : forall i, (i < n)%nat -> bracket (at_ x1 i) (g i) (at_ y1 i)).
  { induction i as [i IH] using lt_wf_ind. intro Hi. unfold at_.
    change (S754_zero false) with (sc_zero fops). rewrite (vec_nth fops _ _ _ i V1 Hi), (vec_nth fops _ _ _ i V3 Hi), (F2 i Hi).
    destruct (HR i Hi) as (P1 & P2 & P3).
    apply (swept_between fops bracket nonpos positive (sc_one fops) zero_bracket bracket_add bracket_sub bracket_mul_neg
      (fun x z y => bracket_mul _ x z y (weight_nonneg _ weight_one)) (fun x z y => bracket_mul _ x z y (weight_rest _ weight_one))
      bracket_div n); auto.
    - apply bracket_refl. apply Vb, Hi.
    - intros j Hj. destruct (Nat.ltb_spec j i) as [L|L].
      + destruct (IH j L Hj) as (W1 & W2 & W3 & W). destruct (W (proj2 (proj2 Fx1 j Hj)) (proj2 (proj2 Fy1 j Hj))) as (Fg & G).
        specialize (Hx j Hj). specialize (Hy j Hj). split; [apply Fx, Hj|]. split; [exact W2|]. split; [apply Fy, Hj|].
        intros _ _. split; [exact Fg|]. unfold at_ in Hx, Hy, G. cbn [sc_zero fops]. lra.
      + split; [apply Fx, Hj|]. split; [apply Fz, Hj|]. split; [apply Fy, Hj|]. intros _ _. split; [apply Fz, Hj|].
        split; [apply H1, Hj|apply H2, Hj]. }
  assert (G : forall i, (i < n)%nat -> at_ z' i = g i).
  { intros i Hi. apply (vec_nth fops _ _ _ i V2 Hi). }
  split; [split; [apply V2|]|split]; intros i Hi; destruct (B i Hi) as (W1 & W2 & W3 & W);
    destruct (W (proj2 (proj2 Fx1 i Hi)) (proj2 (proj2 Fy1 i Hi))) as (Fg & L); rewrite G by exact Hi; auto; apply L.
Qed.

Lemma seidel_in_jacobi dbg stray n a b : square_system n a b -> signs a -> valid_vec n b ->
  forall x u x1 u1 y t y1 t1, fin_vec n x -> fin_vec n y -> length u = n -> length t = n ->
    jacobi_step fops dbg stray a b (x, u) = Ok (x1, u1) -> jacobi_step fops dbg stray a b (y, t) = Ok (y1, t1) ->
    fin_vec n x1 -> fin_vec n y1 -> le_vec n x x1 -> le_vec n y1 y ->
  forall z v k, fin_vec n z -> le_vec n x z -> le_vec n z y ->
    exists x' z' y' u' t', times (jacobi_step fops dbg stray a b) k (x, u) = Ok (x', u') /\
      times (gauss_seidel_step fops dbg stray a b) k (z, v) = Ok (z', v) /\
      times (jacobi_step fops dbg stray a b) k (y, t) = Ok (y', t') /\
      fin_vec n x' /\ fin_vec n z' /\ fin_vec n y' /\ le_vec n x' z' /\ le_vec n z' y'.
Proof.
  intros Ha Hs Vb x u x1 u1 y t y1 t1 Fx Fy Lu Lt Ex Ey Fx1 Fy1 Hx Hy z v k Fz H1 H2.
  assert (Hxy : le_vec n x y) by (intros i Hi; specialize (H1 i Hi); specialize (H2 i Hi); lra).
  pose proof (fun k => enclosed false dbg stray n a b Ha Hs Vb x u x1 u1 y t y1 t1 Fx Fy Hxy (fun _ => conj Lu Lt) Ex Ey Fx1 Fy1 Hx Hy
    x u k Fx (fun i _ => Rle_refl _) Hxy (fun _ => Lu)) as E.
  unfold step_of in E.
  assert (L : forall k x u x' u', length x = n -> length u = n -> (forall j, (j <= k)%nat -> exists p q, times (jacobi_step fops dbg stray a b) j (x, u) = Ok (p, q) /\ length p = n) ->
    times (jacobi_step fops dbg stray a b) k (x, u) = Ok (x', u') -> length u' = n).
  { intros k' p q p' q' Lp Lq Hj E'. destruct k' as [|k']; cbn [times] in E'; [injection E' as <- <-; exact Lq|].
    destruct (Hj k' ltac:(lia)) as (p1 & q1 & E1 & L1). rewrite E1 in E'. cbn [bind] in E'. unfold jacobi_step in E'. cbn [fst snd] in E'.
    destruct (forward_sweep _ _ _ _ _ _ _ _); cbn [bind] in E'; try discriminate. injection E' as <- <-. exact L1. }
  induction k as [|k IH].
  - exists x, z, y, u, t. cbn [times]. repeat (split; [reflexivity|]). auto.
  - destruct IH as (x' & z' & y' & u' & t' & E1 & E2 & E3 & Fx' & Fz' & Fy' & G1 & G2).
    destruct (E k) as (xa & za & ya & xb & yb & ua & va & ta & ub & tb & A1 & _ & A3 & A4 & A5 & _ & _ & _ & B4 & B5 & _ & C2 & _ & _ & C5 & _).
    rewrite E1 in A1. injection A1 as <- <-. rewrite E3 in A3. injection A3 as <- <-.
    assert (Lu' : length u' = n).
    { apply (L k x u x' u' (proj1 Fx) Lu); [|exact E1]. intros j _. destruct (E j) as (p & _ & _ & _ & _ & q & _ & _ & _ & _ & A & _ & _ & _ & _ & B & _).
      exists p, q. split; [exact A|apply B]. }
    assert (Lt' : length t' = n).
    { apply (L k y t y' t' (proj1 Fy) Lt); [|exact E3]. intros j _. destruct (E j) as (_ & _ & p & _ & _ & _ & _ & q & _ & _ & _ & _ & A & _ & _ & _ & _ & B & _).
      exists p, q. split; [exact A|apply B]. }
    exists xb. cbn [times] in A4, A5. cbn [times]. rewrite E1 in A4. rewrite E3 in A5. cbn [bind] in A4, A5. rewrite E1, E2, E3. cbn [bind].
    rewrite A4, A5. unfold jacobi_step in A4, A5. cbn [fst snd] in A4, A5.
    destruct (forward_sweep fops dbg stray a (Some x') u' b (sc_one fops)) eqn:S1; cbn [bind] in A4; try discriminate. injection A4 as -> <-.
    destruct (forward_sweep fops dbg stray a (Some y') t' b (sc_one fops)) eqn:S2; cbn [bind] in A5; try discriminate. injection A5 as -> <-.
    destruct (place_inside dbg stray n a b x' u' xb z' y' t' yb) as (z1 & S3 & Fz1 & D1 & D2); auto.
    exists z1, yb, x', y'. unfold gauss_seidel_step. cbn [fst snd]. rewrite S3. cbn [bind]. repeat (split; [reflexivity|]).
    repeat (split; [assumption|]). exact D2.
Qed.

(* ------------------------------------------------------------------ a concrete system *)
Definition lap : smat f64 := two (fz 2) (fz (-1)) (fz (-1)) (fz 2).
Definition lap_b : list f64 := [fz 1; fz 1].
Definition lap_lo : list f64 := [fz 0; fz 0].
Definition lap_hi : list f64 := [fz 2; fz 2].

Lemma grid_le_real x y : f_valid x -> f_valid y -> (grid x <= grid y)%Z -> f_real x <= f_real y.
Proof.
  intros Vx Vy H. apply IZR_le in H. rewrite <- !grid_real in H by auto.
  apply Rmult_le_reg_r in H; [exact H|apply bpow_gt_0].
Qed.

Definition fin_check (x : list f64) : bool := forallb (fun v => valid_binary 53 1024 v && f_finite v) x.
Fixpoint le_check (x y : list f64) : bool :=
  match x, y with
  | v :: x, w :: y => (grid v <=? grid w)%Z && le_check x y
  | [], [] => true
  | _, _ => false
  end.

Lemma fin_check_ok x : fin_check x = true -> fin_vec (length x) x.
Proof.
  intro H. split; [reflexivity|]. intros i Hi. unfold fin_check in H. rewrite forallb_forall in H.
  specialize (H (at_ x i) (nth_In _ _ Hi)). apply andb_prop in H as [H1 H2]. split; [exact H1|exact H2].
Qed.

Lemma le_check_ok x y : fin_check x = true -> fin_check y = true -> le_check x y = true -> le_vec (length x) x y.
Proof.
  revert y; induction x as [|v x IH]; intros [|w y]; cbn [le_check length]; try discriminate; [intros _ _ _ i Hi; lia|].
  intros Fx Fy H. apply andb_prop in H as [H1 H2]. unfold fin_check in Fx, Fy. cbn [forallb] in Fx, Fy.
  apply andb_prop in Fx as [Fv Fx], Fy as [Fw Fy]. apply andb_prop in Fv as [Fv _], Fw as [Fw _].
  intros [|i] Hi; [apply grid_le_real; [exact Fv|exact Fw|apply Z.leb_le, H1]|].
  apply (IH y Fx Fy H2 i). lia.
Qed.

Lemma two_stored {S} (p q r s : S) i j v : stored (two p q r s) i j v ->
  (i = 0 /\ j = 0 /\ v = p \/ i = 0 /\ j = 1 /\ v = q \/ i = 1 /\ j = 0 /\ v = r \/ i = 1 /\ j = 1 /\ v = s)%nat.
Proof.
  destruct (two_repr p q r s) as [H _]. intro Hv. apply (srepr_stored _ _ _ _ _ H) in Hv.
  destruct i as [|[|i]]; cbn in Hv; [| |destruct i; contradiction]; destruct Hv as [E|[E|[]]]; injection E as <- <-; auto 6.
Qed.

Lemma lap_signs : signs lap.
Proof.
  assert (P2 : 0 < f_real (fz 2)).
  { apply Rlt_le_trans with (f_real (fz 1)); [unfold fz; rewrite one_real; lra|apply grid_le_real; [reflexivity..|vm_compute; discriminate]]. }
  assert (N1 : f_real (fz (-1)) <= 0).
  { change 0 with (f_real (fz 0)). apply grid_le_real; [reflexivity..|vm_compute; discriminate]. }
  intros i j v Hv. apply two_stored in Hv.
  destruct Hv as [(-> & -> & ->)|[(-> & -> & ->)|[(-> & -> & ->)|(-> & -> & ->)]]]; (split; [reflexivity|]);
    (split; [reflexivity|]); split; intro; try (exfalso; congruence); assumption.
Qed.
