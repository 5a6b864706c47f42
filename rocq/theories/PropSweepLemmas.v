(** Lemmas behind C92. *)
From Coq Require Import ZArith Reals Lra Lia List SpecFloat Psatz.
From Verif Require Import Base ListFacts DenseModel DenseFacts ScalarModel GeometryReal SparseModel SparseSpec SparseFacts LuModel
  LuReal IterModel IterFacts IterLoop IterField IterReal FloatFacts FloatError IterFloat PropFloatLemmas FloatUnit
  PropIterLemmas LuSuccess FloatSweep.
Import ListNotations.
Local Open Scope R_scope.

Lemma sweeps_float dbg stray n a A b h q lo xs X x f E0 k : dominant_doubles n a A b h q lo xs X ->
  is_vec n x f -> finite_vec n f -> 0 <= E0 -> within n f xs (f_floor n q X lo + E0) ->
  no_overflow n A lo X (f_floor n q X lo + E0) ->
  (forall w, length w = n -> exists x' w' f', times (jacobi_step fops dbg stray a b) k (x, w) = Ok (x', w') /\
     is_vec n x' f' /\ finite_vec n f' /\ within n f' xs (f_floor n q X lo + f_rate n q ^ k * E0)) /\
  (exists x' f', times (gauss_seidel_step fops dbg stray a b) k (x, []) = Ok (x', []) /\
     is_vec n x' f' /\ finite_vec n f' /\ within n f' xs (f_floor n q X lo + f_rate n q ^ k * E0)).
Proof.
  intros D Hx Hf HE He Ho. assert (L0 : f_floor n q X lo + E0 = level n q lo X E0 0) by (unfold level; cbn [pow]; ring).
  rewrite L0 in He, Ho. split.
  - intros w Hw. destruct (jacobi_float_times dbg stray n a A b h q lo xs X D x f w E0 k) as (x' & w' & f' & H1 & H2 & _ & H3); auto.
    exists x', w', f'. auto.
  - destruct (seidel_float_times dbg stray n a A b h q lo xs X D x f [] E0 k) as (x' & f' & H1 & H2 & H3); auto.
    exists x', f'. auto.
Qed.

Lemma solves_float M dbg stray n a A b h q lo xs X x f E0 lim fuel : dominant_doubles n a A b h q lo xs X ->
  is_vec n x f -> finite_vec n f -> 0 <= E0 -> within n f xs (f_floor n q X lo + E0) ->
  no_overflow n A lo X (f_floor n q X lo + E0) -> (dbg = true -> n <> 0%nat) ->
  (min_iterations lim <= M)%nat -> (max_iteration lim < M)%nat ->
  (Nat.max (min_iterations lim) (max_iteration lim + 1) < fuel)%nat ->
  (forall w, exists x' w' cd f', jacobi_solve fops M dbg stray fuel lim w a x b = Ok (x', w', cd) /\
     is_vec n x' f' /\ finite_vec n f' /\ within n f' xs (f_floor n q X lo + f_rate n q ^ cd_iteration cd * E0)) /\
  (exists x' cd f', gauss_seidel_solve fops M dbg stray fuel lim a x b = Ok (x', cd) /\
     is_vec n x' f' /\ finite_vec n f' /\ within n f' xs (f_floor n q X lo + f_rate n q ^ cd_iteration cd * E0)).
Proof.
  intros D Hx Hf HE He Ho Hn Hmin Hmax Hfuel.
  assert (Hsq : square_system n a b).
  { destruct (doubles_rows dbg stray n a A b h q lo xs X D) as (rs & d & Hro & Hso & Hd).
    destruct (dd_square _ _ _ _ _ _ _ _ _ D) as (Hw & Hr & Hc & HA). destruct (dd_lo _ _ _ _ _ _ _ _ _ D) as [Hl Hlo].
    split; [exact Hw|]. split; [exact Hr|]. split; [exact Hc|]. split; [apply (dd_rhs _ _ _ _ _ _ _ _ _ D)|].
    intros i Hi. exists (A i i). destruct (SparseMul.stored_dec a i i Hw) as [(v & Hv)|Hno].
    - rewrite (proj1 (HA i i) v Hv). exact Hv.
    - specialize (Hlo i Hi). rewrite (proj2 (HA i i) Hno) in Hlo. cbn [f_real] in Hlo. rewrite Rabs_R0 in Hlo. lra. }
  assert (S1 := fun w => square_solve fops M dbg stray n lim a x b w fuel Hsq (proj1 Hx) Hn Hmin Hmax Hfuel).
  assert (HT := fun k => sweeps_float dbg stray n a A b h q lo xs X x f E0 k D Hx Hf HE He Ho).
  split.
  - intro w. destruct (S1 w) as ((x' & w' & cd & E & _) & _). exists x', w', cd.
    pose proof E as H. apply loop_bound in H as (k & _ & Ek & (Ht & _) & _); auto. rewrite Ek.
    destruct (HT k) as [HJ _]. destruct (HJ (vresize w (s_rows a) (sc_zero fops))) as (y & v & f' & E' & R).
    { rewrite vresize_length'. apply Hsq. }
    rewrite E' in Ht. injection Ht as <- <-. exists f'. split; [exact E|exact R].
  - destruct (S1 []) as (_ & (x' & cd & E & _) & _). exists x', cd.
    pose proof E as H. apply gauss_seidel_Ok in H as (w & H). apply loop_bound in H as (k & _ & Ek & (Ht & _) & _); auto.
    rewrite Ek. destruct (HT k) as [_ (y & f' & E' & R)]. rewrite E' in Ht. injection Ht as <- _. exists f'. auto.
Qed.

(** A bound of the solution. *)
Lemma largest n (x : nat -> R) : (0 < n)%nat -> exists m, (m < n)%nat /\ forall i, (i < n)%nat -> Rabs (x i) <= Rabs (x m).
Proof.
  induction n as [|n IH]; intro Hn; [lia|]. destruct n as [|n].
  - exists 0%nat. split; [lia|]. intros i Hi. replace i with 0%nat by lia. lra.
  - destruct IH as (m & Hm & H); [lia|]. destruct (Rle_dec (Rabs (x (S n))) (Rabs (x m))) as [L|L].
    + exists m. split; [lia|]. intros i Hi. destruct (Nat.eq_dec i (S n)) as [->|]; [exact L|apply H; lia].
    + exists (S n). split; [lia|]. intros i Hi. destruct (Nat.eq_dec i (S n)) as [->|]; [lra|].
      specialize (H i ltac:(lia)). lra.
Qed.

Lemma solution_bound n (A : nat -> nat -> R) h q lo B xs : 0 <= q < 1 -> 0 < lo -> 0 <= B ->
  (forall i, (i < n)%nat -> lo <= Rabs (A i i)) ->
  (forall i, (i < n)%nat -> rsum n (fun j => if (j =? i)%nat then 0 else Rabs (A i j)) <= q * Rabs (A i i)) ->
  (forall i, (i < n)%nat -> Rabs (h i) <= B) ->
  (forall i, (i < n)%nat -> rsum n (fun j => A i j * xs j) = h i) ->
  forall i, (i < n)%nat -> Rabs (xs i) <= B / (lo * (1 - q)).
Proof.
  intros Hq Hl HB Hlo Hdom Hh Hs i Hi. destruct (largest n xs ltac:(lia)) as (m & Hm & Hmax).
  apply Rle_trans with (1 := Hmax i Hi). set (X := Rabs (xs m)) in *.
  assert (X0 : 0 <= X) by apply Rabs_pos.
  set (os := rsum n (fun j => if (j =? m)%nat then 0 else A m j * xs j)).
  assert (E : A m m * xs m = h m - os).
  { rewrite <- (Hs m Hm). rewrite (rsum_out n m) by auto. unfold os. ring. }
  assert (Hos : Rabs os <= q * Rabs (A m m) * X).
  { apply Rle_trans with (1 := rsum_abs _ _). apply Rle_trans with (X * rsum n (fun j => if (j =? m)%nat then 0 else Rabs (A m j))).
    - rewrite <- rsum_scale. apply rsum_le. intros j Hj. destruct (j =? m)%nat; [rewrite Rabs_R0; lra|].
      rewrite Rabs_mult, Rmult_comm. apply Rmult_le_compat_r; [apply Rabs_pos|apply Hmax, Hj].
    - rewrite Rmult_comm. apply Rmult_le_compat_r; [exact X0|apply Hdom, Hm]. }
  assert (H1 : Rabs (A m m) * X <= B + q * Rabs (A m m) * X).
  { unfold X at 1. rewrite <- Rabs_mult, E. apply Rle_trans with (1 := Rabs_triang _ _). rewrite Rabs_Ropp.
    specialize (Hh m Hm). lra. }
  assert (H2 : lo * ((1 - q) * X) <= Rabs (A m m) * ((1 - q) * X)).
  { apply Rmult_le_compat_r; [apply Rmult_le_pos; lra|apply Hlo, Hm]. }
  assert (P : 0 < lo * (1 - q)) by (apply Rmult_lt_0_compat; lra).
  apply (Rmult_le_reg_r (lo * (1 - q))); [exact P|]. unfold Rdiv. rewrite Rmult_assoc, Rinv_l, Rmult_1_r by lra. lra.
Qed.

Lemma zeros_float dbg stray n a A b h q lo B :
  sparse_square (S754_zero false) n a A -> is_vec n b h ->
  (forall i j, (i < n)%nat -> (j < n)%nat -> f_valid (A i j) /\ f_finite (A i j) = true) -> finite_vec n h ->
  0 <= q -> f_rate n q < 1 -> 0 < lo -> (forall i, (i < n)%nat -> lo <= Rabs (f_real (A i i))) ->
  (forall i, (i < n)%nat -> rsum n (fun j => if (j =? i)%nat then 0 else Rabs (f_real (A i j))) <= q * Rabs (f_real (A i i))) ->
  0 <= B -> (forall i, (i < n)%nat -> Rabs (f_real (h i)) <= B) ->
  let X := B / (lo * (1 - q)) in no_overflow n A lo X (f_floor n q X lo + X) ->
  exists xs, (forall i, (i < n)%nat -> rsum n (fun j => f_real (A i j) * xs j) = f_real (h i)) /\
    (forall ys, (forall i, (i < n)%nat -> rsum n (fun j => f_real (A i j) * ys j) = f_real (h i)) ->
       forall i, (i < n)%nat -> ys i = xs i) /\
    forall k, let e := f_floor n q X lo + f_rate n q ^ k * X in
      (exists x' w' f', times (jacobi_step fops dbg stray a b) k (repeat (S754_zero false) n, repeat (S754_zero false) n) = Ok (x', w') /\
         is_vec n x' f' /\ finite_vec n f' /\ within n f' xs e) /\
      (exists x' f', times (gauss_seidel_step fops dbg stray a b) k (repeat (S754_zero false) n, []) = Ok (x', []) /\
         is_vec n x' f' /\ finite_vec n f' /\ within n f' xs e).
Proof.
  intros Hsq Hb HA Hh Hq Hr Hl Hlo Hdom HB HhB X Ho.
  assert (Hq1 : q < 1).
  { pose proof u_pos. assert (1 <= (1 + f_u) ^ (n + 3)) by (apply pow_R1_Rle; lra). unfold f_rate in Hr.
    assert (q * 1 <= q * (1 + f_u) ^ (n + 3)) by (apply Rmult_le_compat_l; auto). lra. }
  assert (Hd : dominance n (fun i j => f_real (A i j)) q).
  { split; [lra|]. intros i Hi. split; [|apply Hdom, Hi]. specialize (Hlo i Hi). intro H0. rewrite H0, Rabs_R0 in Hlo. lra. }
  destruct (solution_exists n (fun i j => f_real (A i j)) (fun i => f_real (h i)) q Hd) as (xs & Hs). exists xs.
  split; [exact Hs|].
  assert (HX := solution_bound n (fun i j => f_real (A i j)) (fun i => f_real (h i)) q lo B).
  assert (P : 0 < lo * (1 - q)) by (apply Rmult_lt_0_compat; lra).
  specialize (HX xs (conj Hq Hq1) Hl HB Hlo Hdom HhB Hs). fold X in HX.
  assert (X0 : 0 <= X) by (apply Rmult_le_pos; [exact HB|apply Rlt_le, Rinv_0_lt_compat, P]).
  split.
  - intros ys Hy i Hi.
    assert (H : Rabs ((fun j => ys j - xs j) i) <= 0 / (lo * (1 - q))).
    { apply (solution_bound n (fun i j => f_real (A i j)) (fun _ => 0) q lo 0 (fun j => ys j - xs j)); auto; try lra.
      - intros j _. rewrite Rabs_R0. lra.
      - intros j Hj. rewrite (asum_ext _ _ n _ (fun k => f_real (A j k) * ys k - f_real (A j k) * xs k)) by (intros; ring).
        rewrite rsum_minus, (Hy j Hj), (Hs j Hj). ring. }
    unfold Rdiv in H. rewrite Rmult_0_l in H. cbv beta in H. apply Rabs_le_between in H. lra.
  - intro k. cbv zeta.
    assert (D : dominant_doubles n a A b h q lo xs X).
    { split; auto. }
    assert (Hz : is_vec n (repeat (S754_zero false) n) (fun _ => S754_zero false)).
    { split; [apply repeat_length|]. intros i Hi. apply nth_error_repeat, Hi. }
    assert (He : within n (fun _ => S754_zero false) xs (f_floor n q X lo + X)).
    { intros i Hi. cbn [f_real]. rewrite Rminus_0_l, Rabs_Ropp.
      pose proof (floor_nonneg n a A b h q lo xs X D) as F0.
      pose proof (proj2 (dd_X _ _ _ _ _ _ _ _ _ D) i Hi). lra. }
    destruct (sweeps_float dbg stray n a A b h q lo xs X _ _ X k D Hz) as [HJ HG]; auto.
    { intros i Hi. split; reflexivity. }
    split; [|exact HG]. apply HJ. apply repeat_length.
Qed.

(* ------------------------------------------------------------------ the example *)
Definition ex_A (i j : nat) : f64 := lookup (S754_zero false) (nth i (two_rows (fz 2) (fz 1) (fz 1) (fz 2)) []) j.
Definition ex_h (i : nat) : f64 := nth i ex_b (fz 0).

Lemma fz1 : f_real (fz 1) = 1.
Proof. exact one_real. Qed.

Lemma fz2 : f_real (fz 2) = 2.
Proof. unfold fz. vm_compute (f_of_Z 2). cbn [f_real]. change (-51)%Z with (- Z.of_nat 51)%Z. rewrite powerRZ_neg', <- pow_powerRZ. field_simplify; [|lra..]; lra. Qed.

Lemma ex_dominant : sparse_square (S754_zero false) 2 ex_sys ex_A /\ is_vec 2 ex_b ex_h /\
  (forall i j, (i < 2)%nat -> (j < 2)%nat -> f_valid (ex_A i j) /\ f_finite (ex_A i j) = true) /\ finite_vec 2 ex_h /\
  f_rate 2 (1 / 2) < 1 /\ (forall i, (i < 2)%nat -> 2 <= Rabs (f_real (ex_A i i))) /\
  (forall i, (i < 2)%nat -> rsum 2 (fun j => if (j =? i)%nat then 0 else Rabs (f_real (ex_A i j))) <= 1 / 2 * Rabs (f_real (ex_A i i))) /\
  (forall i, (i < 2)%nat -> Rabs (f_real (ex_h i)) <= 1) /\
  let X := 1 / (2 * (1 - 1 / 2)) in no_overflow 2 ex_A 2 X (f_floor 2 (1 / 2) X 2 + X).
Proof.
  assert (E : forall i j, (i < 2)%nat -> (j < 2)%nat -> ex_A i j = if (i =? j)%nat then fz 2 else fz 1).
  { intros [|[|i]] [|[|j]] Hi Hj; try lia; reflexivity. }
  pose proof u_tiny as Hu. pose proof u_pos as Hu0. pose proof eta_pos as He0.
  assert (He : f_eta <= 1).
  { unfold f_eta. rewrite <- Rinv_1. apply Rinv_le_contravar; [lra|]. apply pow_R1_Rle. lra. }
  assert (P5 : 1 <= (1 + f_u) ^ 5 <= 11 / 10).
  { split; [apply pow_R1_Rle; lra|]. apply Rle_trans with ((1001 / 1000) ^ 5); [apply pow_incr; lra|lra]. }
  assert (P4 : 1 <= (1 + f_u) ^ 4 <= 11 / 10).
  { split; [apply pow_R1_Rle; lra|]. apply Rle_trans with ((1001 / 1000) ^ 4); [apply pow_incr; lra|lra]. }
  assert (P2 : 1 <= (1 + f_u) ^ 2 <= 11 / 10).
  { split; [apply pow_R1_Rle; lra|]. apply Rle_trans with ((1001 / 1000) ^ 2); [apply pow_incr; lra|lra]. }
  split; [apply two_square|]. split; [apply is_vec_self|]. split; [|split; [|split; [|split; [|split; [|split]]]]].
  - intros i j Hi Hj. rewrite E by auto. destruct (i =? j)%nat; split; reflexivity.
  - intros [|[|i]] Hi; try lia; split; reflexivity.
  - unfold f_rate. change (2 + 3)%nat with 5%nat. lra.
  - intros i Hi. rewrite E, Nat.eqb_refl, fz2, Rabs_pos_eq by (auto; lra). lra.
  - intros i Hi. rewrite E, Nat.eqb_refl, fz2, (Rabs_pos_eq 2) by (auto; lra).
    destruct i as [|[|i]]; try lia; cbn [asum Nat.eqb]; rewrite E by lia; cbn [Nat.eqb]; rewrite fz1, Rabs_R1; lra.
  - intros i Hi. destruct i as [|[|i]]; try lia; cbn [ex_h ex_b nth]; rewrite fz1, Rabs_R1; lra.
  - intro X. assert (EX : X = 1) by (unfold X; field). rewrite EX. intros i Hi.
    rewrite E, Nat.eqb_refl, fz2, (Rabs_pos_eq 2) by (auto; lra).
    assert (L7 : 2 ^ 7 <= f_limit) by (unfold f_limit; apply Rle_pow; [lra|apply Nat.leb_le; reflexivity]).
    change (INR 2) with (1 + 1). unfold f_floor, f_step, f_rate, f_gamma. change (2 + 3)%nat with 5%nat. change (2 + 2)%nat with 4%nat.
    change (INR 2) with (1 + 1).
    set (p := (1 + f_u) ^ 5) in *. set (r := (1 + f_u) ^ 4) in *. set (t := (1 + f_u) ^ 2) in *.
    assert (S1 : (p - 1) * 1 + f_eta * (1 + (1 + 1) * r / 2) <= 3).
    { assert (f_eta * (1 + (1 + 1) * r / 2) <= 1 * (1 + (1 + 1) * r / 2)) by (apply Rmult_le_compat_r; lra). lra. }
    assert (S0 : 0 <= (p - 1) * 1 + f_eta * (1 + (1 + 1) * r / 2)).
    { assert (0 <= f_eta * (1 + (1 + 1) * r / 2)) by (apply Rmult_le_pos; lra). lra. }
    set (s := (p - 1) * 1 + f_eta * (1 + (1 + 1) * r / 2)) in *.
    assert (S2 : s / (1 - 1 / 2 * p) <= 9).
    { apply (Rmult_le_reg_r (1 - 1 / 2 * p)); [lra|]. unfold Rdiv at 1. rewrite Rmult_assoc, Rinv_l, Rmult_1_r by lra. lra. }
    assert (S3 : (1 + 1) * t * f_eta / 2 <= 2).
    { replace ((1 + 1) * t * f_eta / 2) with (t * f_eta) by field. apply Rle_trans with (t * 1); [apply Rmult_le_compat_l; lra|lra]. }
    lra.
Qed.

(** The distances come arbitrarily close to the floor. *)
Lemma floor_limit n q X lo E0 eps : 0 <= q -> f_rate n q < 1 -> 0 <= E0 -> 0 < eps ->
  exists N, forall k, (N <= k)%nat -> f_floor n q X lo + f_rate n q ^ k * E0 <= f_floor n q X lo + eps.
Proof.
  intros Hq Hr HE He. pose proof u_pos.
  assert (R0 : 0 <= f_rate n q) by (apply Rmult_le_pos; [exact Hq|apply pow_le; lra]).
  destruct (pow_lt_1_zero (f_rate n q) ltac:(rewrite Rabs_pos_eq; auto) (eps / (E0 + 1))) as (N & HN).
  { apply Rmult_lt_0_compat; [exact He|apply Rinv_0_lt_compat; lra]. }
  exists N. intros k Hk. specialize (HN k ltac:(lia)). assert (P : 0 <= f_rate n q ^ k) by (apply pow_le, R0).
  rewrite Rabs_pos_eq in HN by exact P.
  assert (H1 : f_rate n q ^ k * E0 <= eps / (E0 + 1) * (E0 + 1)) by (apply Rmult_le_compat; lra).
  unfold Rdiv in H1. rewrite Rmult_assoc, Rinv_l, Rmult_1_r in H1 by lra. lra.
Qed.

Lemma ex_solution : let X := 1 / (2 * (1 - 1 / 2)) in
  dominant_doubles 2 ex_sys ex_A ex_b ex_h (1 / 2) 2 (fun _ => 1 / 3) X /\
  finite_vec 2 (fun _ => S754_zero false) /\ within 2 (fun _ => S754_zero false) (fun _ => 1 / 3) (f_floor 2 (1 / 2) X 2 + X) /\
  no_overflow 2 ex_A 2 X (f_floor 2 (1 / 2) X 2 + X).
Proof.
  intro X. assert (EX : X = 1) by (unfold X; field).
  destruct ex_dominant as (H1 & H2 & H3 & H4 & H5 & H6 & H7 & H8 & H9). fold X in H9.
  assert (D : dominant_doubles 2 ex_sys ex_A ex_b ex_h (1 / 2) 2 (fun _ => 1 / 3) X).
  { split; auto; try lra.
    - split; [lra|exact H6].
    - intros [|[|i]] Hi; try lia; cbn [asum ex_h ex_b nth];
        rewrite ?(eq_refl : ex_A 0 0 = fz 2), ?(eq_refl : ex_A 1 1 = fz 2), ?(eq_refl : ex_A 0 1 = fz 1),
          ?(eq_refl : ex_A 1 0 = fz 1), fz1, fz2; lra.
    - rewrite EX. split; [lra|]. intros i _. rewrite Rabs_pos_eq; lra. }
  split; [exact D|]. split; [intros i _; split; reflexivity|]. split; [|exact H9].
  intros i Hi. cbn [f_real]. rewrite Rminus_0_l, Rabs_Ropp, Rabs_pos_eq by lra.
  pose proof (floor_nonneg _ _ _ _ _ _ _ _ _ D). lra.
Qed.

Lemma sweeps_reach_floor dbg stray n a A b h q lo xs X x f E0 eps : dominant_doubles n a A b h q lo xs X ->
  is_vec n x f -> finite_vec n f -> 0 <= E0 -> within n f xs (f_floor n q X lo + E0) ->
  no_overflow n A lo X (f_floor n q X lo + E0) -> 0 < eps ->
  exists N, forall k, (N <= k)%nat ->
  (forall w, length w = n -> exists x' w' f', times (jacobi_step fops dbg stray a b) k (x, w) = Ok (x', w') /\
     is_vec n x' f' /\ within n f' xs (f_floor n q X lo + eps)) /\
  (exists x' f', times (gauss_seidel_step fops dbg stray a b) k (x, []) = Ok (x', []) /\
     is_vec n x' f' /\ within n f' xs (f_floor n q X lo + eps)).
Proof.
  intros D Hx Hf HE He Ho Hp. destruct (dd_rate _ _ _ _ _ _ _ _ _ D) as [Hq Hr].
  destruct (floor_limit n q X lo E0 eps Hq Hr HE Hp) as (N & HN). exists N. intros k Hk. specialize (HN k Hk).
  assert (W : forall g, within n g xs (f_floor n q X lo + f_rate n q ^ k * E0) -> within n g xs (f_floor n q X lo + eps)).
  { intros g Hg i Hi. apply Rle_trans with (1 := Hg i Hi), HN. }
  destruct (sweeps_float dbg stray n a A b h q lo xs X x f E0 k D Hx Hf HE He Ho) as [HJ (y & g & E1 & E2 & _ & E3)].
  split.
  - intros w Hw. destruct (HJ w Hw) as (y' & w' & g' & F1 & F2 & _ & F3). exists y', w', g'. auto.
  - exists y, g. auto.
Qed.
