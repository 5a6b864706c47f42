(** Lemmas behind C138. *)
From Coq Require Import ZArith Reals Lra Lia List SpecFloat Psatz.
From Verif Require Import Base ListFacts DenseModel DenseFacts ScalarModel GeometryReal SparseModel SparseSpec SparseFacts LuModel
  LuReal IterModel IterFacts IterLoop IterField IterReal FloatFacts FloatError IterFloat PropFloatLemmas FloatUnit
  PropIterLemmas LuSuccess FloatSweep PropSweepLemmas FloatStop FloatStops PropStopLemmas FloatSor.
Import ListNotations.
Local Open Scope R_scope.

Lemma sor_times dbg stray n a A b h q lo xs X x f E0 k : dominant_doubles n a A b h q lo xs X -> s_rate n q < 1 ->
  is_vec n x f -> finite_vec n f -> 0 <= E0 -> within n f xs (s_floor n q X lo + E0) ->
  s_no_overflow n A lo X (s_floor n q X lo + E0) ->
  exists x' f', times (sor_step fops dbg stray a b) k (x, []) = Ok (x', []) /\
     is_vec n x' f' /\ finite_vec n f' /\ within n f' xs (s_floor n q X lo + s_rate n q ^ k * E0).
Proof.
  intros D Hs Hx Hf HE He Ho. assert (L0 : s_floor n q X lo + E0 = s_level n q lo X E0 0) by (unfold s_level; cbn [pow]; ring).
  rewrite L0 in He, Ho.
  exact (sor_float_times dbg stray n a A b h q lo xs X D Hs x f [] E0 k Hx Hf HE He Ho).
Qed.

Lemma doubles_system n a A b h q lo xs X : dominant_doubles n a A b h q lo xs X -> square_system n a b.
Proof.
  intro D. destruct (dd_square _ _ _ _ _ _ _ _ _ D) as (Hw & Hr & Hc & HA). destruct (dd_lo _ _ _ _ _ _ _ _ _ D) as [Hl Hlo].
  split; [exact Hw|]. split; [exact Hr|]. split; [exact Hc|]. split; [apply (dd_rhs _ _ _ _ _ _ _ _ _ D)|].
  intros i Hi. exists (A i i). destruct (SparseMul.stored_dec a i i Hw) as [(v & Hv)|Hno].
  - rewrite (proj1 (HA i i) v Hv). exact Hv.
  - specialize (Hlo i Hi). rewrite (proj2 (HA i i) Hno) in Hlo. cbn [f_real] in Hlo. rewrite Rabs_R0 in Hlo. lra.
Qed.

Lemma sor_solves M dbg stray n a A b h q lo xs X x f E0 lim rho fuel : dominant_doubles n a A b h q lo xs X -> s_rate n q < 1 ->
  is_vec n x f -> finite_vec n f -> 0 <= E0 -> within n f xs (s_floor n q X lo + E0) ->
  s_no_overflow n A lo X (s_floor n q X lo + E0) -> (dbg = true -> n <> 0%nat) ->
  (min_iterations lim <= M)%nat -> (max_iteration lim < M)%nat ->
  (Nat.max (min_iterations lim) (max_iteration lim + 1) < fuel)%nat ->
  exists x' cd f', sor_solve fops M dbg stray fuel lim rho a x b = Ok (x', cd) /\
     is_vec n x' f' /\ finite_vec n f' /\ within n f' xs (s_floor n q X lo + s_rate n q ^ cd_iteration cd * E0).
Proof.
  intros D Hs Hx Hf HE He Ho Hn Hmin Hmax Hfuel.
  destruct (square_solve fops M dbg stray n lim a x b [] fuel (doubles_system _ _ _ _ _ _ _ _ _ D) (proj1 Hx) Hn Hmin Hmax Hfuel)
    as (_ & _ & S3). destruct (S3 rho) as (x' & cd & E & _). exists x', cd.
  pose proof E as H. apply sor_Ok in H as (w & H). apply loop_bound in H as (k & _ & Ek & (Ht & _) & _); auto.
  rewrite Ek. destruct (sor_times dbg stray n a A b h q lo xs X x f E0 k D Hs Hx Hf HE He Ho) as (y & f' & E' & R).
  rewrite E' in Ht. injection Ht as <- _. exists f'. auto.
Qed.

Lemma rate_below n q : 0 <= q -> s_rate n q < 1 -> f_rate n q < 1 /\ 3 * q < 1.
Proof.
  intros Hq Hs. unfold s_rate in Hs. unfold f_rate. pose proof u_pos as Hu.
  assert (P1 : 1 <= (1 + f_u) ^ (n + 5)) by (apply pow_R1_Rle; lra).
  assert (P3 : (1 + f_u) ^ (n + 3) <= (1 + f_u) ^ (n + 5)) by (apply Rle_pow; [lra|lia]).
  assert (H3 : 3 * q < 1).
  { assert ((1 + 3 * q) / 2 * 1 <= (1 + 3 * q) / 2 * (1 + f_u) ^ (n + 5)) by (apply Rmult_le_compat_l; lra). lra. }
  split; [|exact H3].
  assert (q * (1 + f_u) ^ (n + 3) <= q * (1 + f_u) ^ (n + 5)) by (apply Rmult_le_compat_l; auto).
  assert (q * (1 + f_u) ^ (n + 5) <= (1 + 3 * q) / 2 * (1 + f_u) ^ (n + 5)) by (apply Rmult_le_compat_r; lra). lra.
Qed.

Lemma sor_zeros dbg stray n a A b h q lo B :
  sparse_square (S754_zero false) n a A -> is_vec n b h ->
  (forall i j, (i < n)%nat -> (j < n)%nat -> f_valid (A i j) /\ f_finite (A i j) = true) -> finite_vec n h ->
  0 <= q -> s_rate n q < 1 -> 0 < lo -> (forall i, (i < n)%nat -> lo <= Rabs (f_real (A i i))) ->
  (forall i, (i < n)%nat -> rsum n (fun j => if (j =? i)%nat then 0 else Rabs (f_real (A i j))) <= q * Rabs (f_real (A i i))) ->
  0 <= B -> (forall i, (i < n)%nat -> Rabs (f_real (h i)) <= B) ->
  let X := B / (lo * (1 - q)) in s_no_overflow n A lo X (s_floor n q X lo + X) ->
  exists xs, (forall i, (i < n)%nat -> rsum n (fun j => f_real (A i j) * xs j) = f_real (h i)) /\
    (forall ys, (forall i, (i < n)%nat -> rsum n (fun j => f_real (A i j) * ys j) = f_real (h i)) ->
       forall i, (i < n)%nat -> ys i = xs i) /\
    forall k, exists x' f', times (sor_step fops dbg stray a b) k (repeat (S754_zero false) n, []) = Ok (x', []) /\
      is_vec n x' f' /\ finite_vec n f' /\ within n f' xs (s_floor n q X lo + s_rate n q ^ k * X).
Proof.
  intros Hsq Hb HA Hh Hq Hr Hl Hlo Hdom HB HhB X Ho.
  destruct (rate_below n q Hq Hr) as [Hfr H3]. assert (Hq1 : q < 1) by lra.
  assert (Hd : dominance n (fun i j => f_real (A i j)) q).
  { split; [lra|]. intros i Hi. split; [|apply Hdom, Hi]. specialize (Hlo i Hi). intro H0. rewrite H0, Rabs_R0 in Hlo. lra. }
  destruct (solution_exists n (fun i j => f_real (A i j)) (fun i => f_real (h i)) q Hd) as (xs & Hs). exists xs.
  split; [exact Hs|].
  assert (HX := solution_bound n (fun i j => f_real (A i j)) (fun i => f_real (h i)) q lo B).
  assert (P : 0 < lo * (1 - q)) by (apply Rmult_lt_0_compat; lra).
  specialize (HX xs (conj Hq Hq1) Hl HB Hlo Hdom HhB Hs). fold X in HX.
  assert (X0 : 0 <= X) by (apply Rmult_le_pos; [exact HB|apply Rlt_le, Rinv_0_lt_compat, P]).
  split.
  - intros ys Hy i Hi.
    assert (H : Rabs ((fun j => ys j - xs j) i) <= 0 / (lo * (1 - q))).
    { apply (solution_bound n (fun i j => f_real (A i j)) (fun _ => 0) q lo 0 (fun j => ys j - xs j)); auto; try lra.
      - intros j _. rewrite Rabs_R0. lra.
      - intros j Hj. rewrite (asum_ext _ _ n _ (fun k => f_real (A j k) * ys k - f_real (A j k) * xs k)) by (intros; ring).
        rewrite rsum_minus, (Hy j Hj), (Hs j Hj). ring. }
    unfold Rdiv in H. rewrite Rmult_0_l in H. cbv beta in H. apply Rabs_le_between in H. lra.
  - intro k. assert (D : dominant_doubles n a A b h q lo xs X) by (split; auto).
    assert (Hz : is_vec n (repeat (S754_zero false) n) (fun _ => S754_zero false)).
    { split; [apply repeat_length|]. intros i Hi. apply nth_error_repeat, Hi. }
    assert (He : within n (fun _ => S754_zero false) xs (s_floor n q X lo + X)).
    { intros i Hi. cbn [f_real]. rewrite Rminus_0_l, Rabs_Ropp.
      pose proof (s_floor_nonneg n a A b h q lo xs X D Hr) as F0.
      pose proof (proj2 (dd_X _ _ _ _ _ _ _ _ _ D) i Hi). lra. }
    apply (sor_times dbg stray n a A b h q lo xs X _ _ X k D Hr Hz); auto.
    intros i Hi. split; reflexivity.
Qed.

Lemma sor_reaches dbg stray n a A b h q lo xs X x f E0 eps : dominant_doubles n a A b h q lo xs X -> s_rate n q < 1 ->
  is_vec n x f -> finite_vec n f -> 0 <= E0 -> within n f xs (s_floor n q X lo + E0) ->
  s_no_overflow n A lo X (s_floor n q X lo + E0) -> 0 < eps ->
  exists N, forall k, (N <= k)%nat ->
  exists x' f', times (sor_step fops dbg stray a b) k (x, []) = Ok (x', []) /\
     is_vec n x' f' /\ within n f' xs (s_floor n q X lo + eps).
Proof.
  intros D Hs Hx Hf HE He Ho Hp. pose proof (s_rate_nonneg n a A b h q lo xs X D) as R0.
  destruct (pow_lt_1_zero (s_rate n q) ltac:(rewrite Rabs_pos_eq; auto) (eps / (E0 + 1))) as (N & HN).
  { apply Rmult_lt_0_compat; [exact Hp|apply Rinv_0_lt_compat; lra]. }
  exists N. intros k Hk. specialize (HN k ltac:(lia)). assert (P : 0 <= s_rate n q ^ k) by (apply pow_le, R0).
  rewrite Rabs_pos_eq in HN by exact P.
  assert (H1 : s_rate n q ^ k * E0 <= eps / (E0 + 1) * (E0 + 1)) by (apply Rmult_le_compat; lra).
  unfold Rdiv in H1. rewrite Rmult_assoc, Rinv_l, Rmult_1_r in H1 by lra.
  destruct (sor_times dbg stray n a A b h q lo xs X x f E0 k D Hs Hx Hf HE He Ho) as (y & g & E1 & E2 & _ & E3).
  exists y, g. split; [exact E1|]. split; [exact E2|]. intros i Hi. specialize (E3 i Hi). lra.
Qed.

(* ------------------------------------------------------------------ the example *)
(** The system 4 x + y = 5, x + 4 y = 5 with the solution (1, 1). *)
Definition sx_sys : smat f64 := two (fz 4) (fz 1) (fz 1) (fz 4).
Definition sx_A (i j : nat) : f64 := lookup (S754_zero false) (nth i (two_rows (fz 4) (fz 1) (fz 1) (fz 4)) []) j.
Definition sx_b : list f64 := [fz 5; fz 5].
Definition sx_h (i : nat) : f64 := nth i sx_b (fz 0).

Lemma fz4 : f_real (fz 4) = 4.
Proof. unfold fz. vm_compute (f_of_Z 4). cbn [f_real]. change (-50)%Z with (- Z.of_nat 50)%Z. rewrite powerRZ_neg', <- pow_powerRZ. field_simplify; [|lra..]; lra. Qed.

Lemma fz5 : f_real (fz 5) = 5.
Proof. unfold fz. vm_compute (f_of_Z 5). cbn [f_real]. change (-50)%Z with (- Z.of_nat 50)%Z. rewrite powerRZ_neg', <- pow_powerRZ. field_simplify; [|lra..]; lra. Qed.

Lemma sx_dominant : sparse_square (S754_zero false) 2 sx_sys sx_A /\ is_vec 2 sx_b sx_h /\
  (forall i j, (i < 2)%nat -> (j < 2)%nat -> f_valid (sx_A i j) /\ f_finite (sx_A i j) = true) /\ finite_vec 2 sx_h /\
  s_rate 2 (1 / 4) < 1 /\ (forall i, (i < 2)%nat -> 4 <= Rabs (f_real (sx_A i i))) /\
  (forall i, (i < 2)%nat -> rsum 2 (fun j => if (j =? i)%nat then 0 else Rabs (f_real (sx_A i j))) <= 1 / 4 * Rabs (f_real (sx_A i i))) /\
  (forall i, (i < 2)%nat -> Rabs (f_real (sx_h i)) <= 5) /\
  let X := 5 / (4 * (1 - 1 / 4)) in s_no_overflow 2 sx_A 4 X (s_floor 2 (1 / 4) X 4 + X).
Proof.
  assert (E : forall i j, (i < 2)%nat -> (j < 2)%nat -> sx_A i j = if (i =? j)%nat then fz 4 else fz 1).
  { intros [|[|i]] [|[|j]] Hi Hj; try lia; reflexivity. }
  pose proof u_tiny as Hu. pose proof u_pos as Hu0. pose proof eta_pos as He0. pose proof eta_one as He.
  assert (P7 : 1 <= (1 + f_u) ^ 7 <= 11 / 10).
  { split; [apply pow_R1_Rle; lra|]. apply Rle_trans with ((1001 / 1000) ^ 7); [apply pow_incr; lra|lra]. }
  assert (P6 : 1 <= (1 + f_u) ^ 6 <= 11 / 10).
  { split; [apply pow_R1_Rle; lra|]. apply Rle_trans with ((1001 / 1000) ^ 6); [apply pow_incr; lra|lra]. }
  assert (P2 : 1 <= (1 + f_u) ^ 2 <= 11 / 10).
  { split; [apply pow_R1_Rle; lra|]. apply Rle_trans with ((1001 / 1000) ^ 2); [apply pow_incr; lra|lra]. }
  split; [apply two_square|]. split; [apply is_vec_self|]. split; [|split; [|split; [|split; [|split; [|split]]]]].
  - intros i j Hi Hj. rewrite E by auto. destruct (i =? j)%nat; split; reflexivity.
  - intros [|[|i]] Hi; try lia; split; reflexivity.
  - unfold s_rate. change (2 + 5)%nat with 7%nat. lra.
  - intros i Hi. rewrite E, Nat.eqb_refl, fz4, Rabs_pos_eq by (auto; lra). lra.
  - intros i Hi. rewrite E, Nat.eqb_refl, fz4, (Rabs_pos_eq 4) by (auto; lra).
    destruct i as [|[|i]]; try lia; cbn [asum Nat.eqb]; rewrite E by lia; cbn [Nat.eqb]; rewrite fz1, Rabs_R1; lra.
  - intros i Hi. destruct i as [|[|i]]; try lia; cbn [sx_h sx_b nth]; rewrite fz5, Rabs_pos_eq; lra.
  - intro X. assert (EX : X = 5 / 3) by (unfold X; field). rewrite EX. intros i Hi.
    rewrite E, Nat.eqb_refl, fz4, (Rabs_pos_eq 4) by (auto; lra).
    assert (L9 : 2 ^ 14 <= f_limit) by (unfold f_limit; apply Rle_pow; [lra|apply Nat.leb_le; reflexivity]).
    change (INR 2) with (1 + 1). unfold s_floor, s_step, s_rate, f_gamma. change (2 + 5)%nat with 7%nat. change (2 + 4)%nat with 6%nat.
    change (INR 2) with (1 + 1).
    set (p := (1 + f_u) ^ 7) in *. set (r := (1 + f_u) ^ 6) in *. set (t := (1 + f_u) ^ 2) in *. clearbody p r t.
    set (s := 2 * (p - 1) * (5 / 3) + f_eta * (3 + (3 + 2 * (1 + 1) * r) / 4)).
    assert (S1 : s <= 7).
    { unfold s. assert (f_eta * (3 + (3 + 2 * (1 + 1) * r) / 4) <= 1 * (3 + (3 + 2 * (1 + 1) * r) / 4)) by (apply Rmult_le_compat_r; lra). lra. }
    assert (S2 : s / (1 - (1 + 3 * (1 / 4)) / 2 * p) <= 300).
    { apply (Rmult_le_reg_r (1 - (1 + 3 * (1 / 4)) / 2 * p)); [lra|]. unfold Rdiv at 1. rewrite Rmult_assoc, Rinv_l, Rmult_1_r by lra. lra. }
    assert (S3 : (1 + 1) * t * f_eta / 4 <= 2).
    { replace ((1 + 1) * t * f_eta / 4) with (/ 2 * (t * f_eta)) by field. assert (t * f_eta <= t * 1) by (apply Rmult_le_compat_l; lra). lra. }
    lra.
Qed.

Lemma sx_solution : let X := 5 / (4 * (1 - 1 / 4)) in
  dominant_doubles 2 sx_sys sx_A sx_b sx_h (1 / 4) 4 (fun _ => 1) X /\
  finite_vec 2 (fun _ => S754_zero false) /\ within 2 (fun _ => S754_zero false) (fun _ => 1) (s_floor 2 (1 / 4) X 4 + X) /\
  s_no_overflow 2 sx_A 4 X (s_floor 2 (1 / 4) X 4 + X).
Proof.
  intro X. assert (EX : X = 5 / 3) by (unfold X; field).
  destruct sx_dominant as (H1 & H2 & H3 & H4 & H5 & H6 & H7 & H8 & H9). fold X in H9.
  destruct (rate_below 2 (1 / 4) ltac:(lra) H5) as [H5' _].
  assert (D : dominant_doubles 2 sx_sys sx_A sx_b sx_h (1 / 4) 4 (fun _ => 1) X).
  { split; auto; try lra.
    - split; [lra|exact H6].
    - intros [|[|i]] Hi; try lia; cbn [asum sx_h sx_b nth];
        rewrite ?(eq_refl : sx_A 0 0 = fz 4), ?(eq_refl : sx_A 1 1 = fz 4), ?(eq_refl : sx_A 0 1 = fz 1),
          ?(eq_refl : sx_A 1 0 = fz 1), fz1, fz4, fz5; lra.
    - rewrite EX. split; [lra|]. intros i _. rewrite Rabs_pos_eq; lra. }
  split; [exact D|]. split; [intros i _; split; reflexivity|]. split; [|exact H9].
  intros i Hi. cbn [f_real]. rewrite Rminus_0_l, Rabs_Ropp, Rabs_pos_eq by lra.
  pose proof (s_floor_nonneg _ _ _ _ _ _ _ _ _ D H5). lra.
Qed.

(** The system 2 x + y = 3 s, - x + 2 y = s, s = 2^1000, with the solution (s, s) is dominant with the factor 1/2. *)
Definition grow_sys : smat f64 := two (fz 2) (fz 1) (fz (-1)) (fz 2).

Definition grow_b : list f64 := [S754_finite false (3 * 2 ^ 51) 949; S754_finite false (2 ^ 52) 948].

Lemma grow_start dbg stray : times (sor_step fops dbg stray grow_sys grow_b) 60 ([fz 0; fz 0], []) =
  Ok ([S754_infinity true; S754_infinity true], []).
Proof. destruct dbg, stray; vm_compute; reflexivity. Qed.

Lemma grow_on dbg stray g : sor_step fops dbg stray grow_sys grow_b ([S754_infinity g; S754_infinity g], []) =
  Ok ([S754_infinity (negb g); S754_infinity (negb g)], []).
Proof. destruct dbg, stray, g; vm_compute; reflexivity. Qed.

Lemma grow_ever dbg stray k : (60 <= k)%nat ->
  exists g, times (sor_step fops dbg stray grow_sys grow_b) k ([fz 0; fz 0], []) =
    Ok ([S754_infinity g; S754_infinity g], []).
Proof.
  intro H. replace k with (k - 60 + 60)%nat by lia. generalize (k - 60)%nat as j. clear H k.
  induction j as [|j (g & IH)].
  - exists true. exact (grow_start dbg stray).
  - exists (negb g). cbn [times Nat.add]. rewrite IH. cbn [bind]. apply grow_on.
Qed.

Lemma grow_dominant : let A := fun i j => lookup (S754_zero false) (nth i (two_rows (fz 2) (fz 1) (fz (-1)) (fz 2)) []) j in
  sparse_square (S754_zero false) 2 grow_sys A /\
  (forall i, (i < 2)%nat -> rsum 2 (fun j => if (j =? i)%nat then 0 else Rabs (f_real (A i j))) <= 1 / 2 * Rabs (f_real (A i i))) /\
  (forall i, (i < 2)%nat -> rsum 2 (fun j => f_real (A i j) * 2 ^ 1000) = f_real (nth i grow_b (fz 0))).
Proof.
  assert (F1 : f_real (nth 0 grow_b (fz 0)) = 3 * 2 ^ 1000).
  { cbn [grow_b nth f_real]. change 949%Z with (Z.of_nat 949). rewrite <- pow_powerRZ.
    replace 1000%nat with (51 + 949)%nat by reflexivity. rewrite (pow_add 2 51 949). generalize (2 ^ 949). intro t.
    change (3 * 2 ^ 51)%positive with 6755399441055744%positive. lra. }
  assert (F2 : f_real (nth 1 grow_b (fz 0)) = 2 ^ 1000).
  { cbn [grow_b nth f_real]. change 948%Z with (Z.of_nat 948). rewrite <- pow_powerRZ.
    replace 1000%nat with (52 + 948)%nat by reflexivity. rewrite (pow_add 2 52 948). generalize (2 ^ 948). intro t.
    change (2 ^ 52)%positive with 4503599627370496%positive. lra. }
  assert (Fm : f_real (fz (-1)) = -1).
  { unfold fz. vm_compute (f_of_Z (-1)). cbn [f_real]. change (-52)%Z with (- Z.of_nat 52)%Z. rewrite powerRZ_neg', <- pow_powerRZ. field_simplify; [|lra..]; lra. }
  generalize dependent (2 ^ 1000). intros t F1 F2. intro A. split; [apply two_square|]. split; intros [|[|i]] Hi; try lia.
  - unfold A. cbn -[IZR Rabs Rplus Rmult Ropp Rinv Rdiv Rminus f_real fz]. rewrite fz1, fz2, Rabs_R1, (Rabs_pos_eq 2); lra.
  - unfold A. cbn -[IZR Rabs Rplus Rmult Ropp Rinv Rdiv Rminus f_real fz]. rewrite Fm, fz2, (Rabs_left (-1)), (Rabs_pos_eq 2); lra.
  - rewrite F1. unfold A. cbn -[IZR Rabs Rplus Rmult Ropp Rinv Rdiv Rminus f_real fz]. rewrite fz1, fz2. lra.
  - rewrite F2. unfold A. cbn -[IZR Rabs Rplus Rmult Ropp Rinv Rdiv Rminus f_real fz]. rewrite Fm, fz2. lra.
Qed.

(* ------------------------------------------------------------------ stopping by the tolerance *)
Lemma s_floor_limit n a A b h q lo xs X E0 eps : dominant_doubles n a A b h q lo xs X -> s_rate n q < 1 -> 0 <= E0 -> 0 < eps ->
  exists N, forall k, (N <= k)%nat -> s_rate n q ^ k * E0 <= eps.
Proof.
  intros D Hs HE Hp. pose proof (s_rate_nonneg n a A b h q lo xs X D) as R0.
  destruct (pow_lt_1_zero (s_rate n q) ltac:(rewrite Rabs_pos_eq; auto) (eps / (E0 + 1))) as (N & HN).
  { apply Rmult_lt_0_compat; [exact Hp|apply Rinv_0_lt_compat; lra]. }
  exists N. intros k Hk. specialize (HN k ltac:(lia)). assert (P : 0 <= s_rate n q ^ k) by (apply pow_le, R0).
  rewrite Rabs_pos_eq in HN by exact P.
  assert (H1 : s_rate n q ^ k * E0 <= eps / (E0 + 1) * (E0 + 1)) by (apply Rmult_le_compat; lra).
  unfold Rdiv in H1. rewrite Rmult_assoc, Rinv_l, Rmult_1_r in H1 by lra. exact H1.
Qed.

Lemma sor_stop M dbg stray n a A b h q lo xs X dmax x f E0 k lim rho fuel : dominant_doubles n a A b h q lo xs X -> s_rate n q < 1 ->
  (forall i, (i < n)%nat -> Rabs (f_real (A i i)) <= dmax) -> (0 < n)%nat -> (Z.of_nat n < 2 ^ 64)%Z ->
  is_vec n x f -> finite_vec n f -> 0 <= E0 -> within n f xs (s_floor n q X lo + E0) -> s_no_overflow n A lo X (s_floor n q X lo + E0) ->
  (min_iterations lim <= k)%nat -> (1 <= k <= M)%nat -> (max_iteration lim < M)%nat ->
  (Nat.max (min_iterations lim) (max_iteration lim + 1) < fuel)%nat ->
  f_valid (tolerance lim) -> f_finite (tolerance lim) = true -> 0 <= f_real (tolerance lim) -> 10 * f_real (tolerance lim) + 1 <= f_limit / 2 ->
  let E := s_floor n q X lo + s_rate n q ^ k * E0 in let T := f_resid n q dmax X E in
  room n ((1 + q) * dmax * (X + E) + T) T ->
  forall x1 w1 r1 rm1, sor_step fops dbg stray a b (x, []) = Ok (x1, w1) ->
     compute_residual fops dbg stray a x1 b = Ok (r1, rm1) -> f_finite r1 = true -> 0 < f_real r1 -> 0 < f_real rm1 ->
     meets n (f_real (tolerance lim)) (f_real r1) (f_real rm1) T ->
     exists x' cd f', sor_solve fops M dbg stray fuel lim rho a x b = Ok (x', cd) /\ (cd_iteration cd <= k)%nat /\
       is_vec n x' f' /\ finite_vec n f' /\ within n f' xs (s_floor n q X lo + s_rate n q ^ cd_iteration cd * E0).
Proof.
  intros D Hs Hd Hn HN Hx Hf HE He Ho Hmin Hk Hmax Hfuel Vt Ft Pt Lt E T HR x1 w1 r1 rm1 Es Er F1 P1 PM1 Hm.
  assert (Hvs : valid_state n (x, [])).
  { exists f. split; [exact Hx|]. intros i Hi. apply Hf, Hi. }
  assert (E00 : 0 <= E).
  { pose proof (s_floor_nonneg n a A b h q lo xs X D Hs). pose proof (s_rate_nonneg n a A b h q lo xs X D).
    unfold E. assert (0 <= s_rate n q ^ k * E0) by (apply Rmult_le_pos; [apply pow_le; assumption|exact HE]). lra. }
  destruct (sor_times dbg stray n a A b h q lo xs X x f E0 k D Hs Hx Hf HE He Ho) as (xk & fk & K1 & K2 & K3 & K4).
  destruct (sor_solves M dbg stray n a A b h q lo xs X x f E0 lim rho fuel D Hs Hx Hf HE He Ho) as (x' & cd & f' & R1 & R2); auto; try lia.
  exists x', cd, f'. split; [exact R1|]. split; [|exact R2].
  apply (stop_at M dbg stray n a A b h q lo xs X dmax D Hd Hn HN lim (x, []) (sor_step fops dbg stray a b)
    x' cd k xk [] fk E x1 w1 r1 rm1); auto; try lia.
  apply (run_sor fops M dbg stray a b lim fuel rho x x' cd R1).
Qed.

Lemma sor_eventually M dbg stray n a A b h q lo xs X dmax x f E0 tol : dominant_doubles n a A b h q lo xs X -> s_rate n q < 1 ->
  (forall i, (i < n)%nat -> Rabs (f_real (A i i)) <= dmax) -> (0 < n)%nat -> (Z.of_nat n < 2 ^ 64)%Z ->
  is_vec n x f -> finite_vec n f -> 0 <= E0 -> within n f xs (s_floor n q X lo + E0) -> s_no_overflow n A lo X (s_floor n q X lo + E0) ->
  f_valid tol -> f_finite tol = true -> 0 <= f_real tol -> 10 * f_real tol + 1 <= f_limit / 2 ->
  (let E := s_floor n q X lo + E0 in let T := f_resid n q dmax X E in room n ((1 + q) * dmax * (X + E) + T) T) ->
  forall x1 w1 r1 rm1, sor_step fops dbg stray a b (x, []) = Ok (x1, w1) ->
     compute_residual fops dbg stray a x1 b = Ok (r1, rm1) -> f_finite r1 = true -> 0 < f_real r1 -> 0 < f_real rm1 ->
     meets_floor n (f_real tol) (f_real r1) (f_real rm1) (f_resid n q dmax X (s_floor n q X lo)) ->
     exists K, forall lim rho fuel, tolerance lim = tol -> (min_iterations lim <= M)%nat -> (max_iteration lim < M)%nat ->
       (Nat.max (min_iterations lim) (max_iteration lim + 1) < fuel)%nat ->
       exists x' cd, sor_solve fops M dbg stray fuel lim rho a x b = Ok (x', cd) /\
         (cd_iteration cd <= Nat.max K (min_iterations lim))%nat.
Proof.
  intros D Hr Hd Hn HN Hx Hf HE He Ho Vt Ft Pt Lt HR x1 w1 r1 rm1 Es Er F1 P1 PM1 Hm.
  destruct (meets_slack n (f_real tol) _ _ _ P1 PM1 Hm) as (t & Ht & Hs).
  pose proof (s_rate_nonneg n a A b h q lo xs X D) as R0. pose proof (s_floor_nonneg n a A b h q lo xs X D Hr) as F0.
  destruct (dd_X _ _ _ _ _ _ _ _ _ D) as [X0 _]. destruct (dd_rate _ _ _ _ _ _ _ _ _ D) as [Hq _].
  assert (Dm : 0 <= dmax) by (apply Rle_trans with (2 := Hd 0%nat Hn), Rabs_pos). pose proof (gamma_nonneg (n + 1)) as G0.
  assert (S0 : 0 <= (1 + f_gamma (n + 1)) * ((1 + q) * dmax)) by (apply Rmult_le_pos; [lra|apply Rmult_le_pos; lra]).
  set (S1 := (1 + f_gamma (n + 1)) * ((1 + q) * dmax)) in *. pose proof u_pos as Hu. pose proof eta_pos as Heta.
  destruct (s_floor_limit n a A b h q lo xs X E0 (t / (S1 + 1)) D Hr HE) as (K & HK); [apply Rdiv_lt_0_compat; lra|].
  exists (Nat.max 1 K). intros lim rho fuel Etol H1 H2 Hfuel.
  destruct (sor_solves M dbg stray n a A b h q lo xs X x f E0 lim rho fuel D Hr Hx Hf HE He Ho) as (x' & cd & f' & R1 & _); auto; try lia.
  assert (HM : (cd_iteration cd <= M)%nat).
  { pose proof (run_bound fops M dbg stray a b lim _ _ x' cd (run_sor fops M dbg stray a b lim fuel rho x x' cd R1) H1 H2) as [H3 _].
    unfold sweep_bound in H3. lia. }
  exists x', cd. split; [exact R1|]. set (k := Nat.max (Nat.max 1 K) (min_iterations lim)).
  destruct (Nat.le_gt_cases k M) as [L|L]; [|lia]. specialize (HK k ltac:(lia)).
  set (E := s_floor n q X lo + s_rate n q ^ k * E0).
  assert (PE : 0 <= s_rate n q ^ k * E0) by (apply Rmult_le_pos; [apply pow_le, R0|exact HE]).
  assert (PE1 : s_rate n q ^ k * E0 <= E0).
  { rewrite <- (Rmult_1_l E0) at 2. apply Rmult_le_compat_r; [exact HE|]. rewrite <- (pow1 k). apply pow_incr. lra. }
  assert (G1 : meets n (f_real tol) (f_real r1) (f_real rm1) (f_resid n q dmax X E)).
  { apply Hs. unfold E. rewrite resid_shift. fold S1. apply Rplus_le_compat_l.
    apply Rle_trans with (S1 * (t / (S1 + 1))); [apply Rmult_le_compat_l; lra|].
    apply Rle_trans with ((S1 + 1) * (t / (S1 + 1))); [apply Rmult_le_compat_r; [apply Rlt_le, Rdiv_lt_0_compat; lra|lra]|right; field; lra]. }
  assert (G2 : room n ((1 + q) * dmax * (X + E) + f_resid n q dmax X E) (f_resid n q dmax X E)).
  { assert (EL : E <= s_floor n q X lo + E0) by (unfold E; lra).
    assert (TL : f_resid n q dmax X E <= f_resid n q dmax X (s_floor n q X lo + E0)).
    { replace (s_floor n q X lo + E0) with (E + (s_floor n q X lo + E0 - E)) by ring. rewrite resid_shift. fold S1.
      assert (0 <= S1 * (s_floor n q X lo + E0 - E)) by (apply Rmult_le_pos; lra). lra. }
    cbv zeta in HR. assert (Q0 : 0 <= (1 + q) * dmax) by (apply Rmult_le_pos; lra).
    apply (room_le n _ _ _ _) with (3 := HR).
    + apply Rplus_le_compat; [|exact TL]. apply Rmult_le_compat_l; lra.
    + split; [|exact TL]. unfold f_resid. assert (0 <= (1 + q) * dmax * E) by (apply Rmult_le_pos; unfold E; lra).
      assert (0 <= f_gamma (n + 1) * ((1 + q) * dmax * (X + E))) by (apply Rmult_le_pos; [exact G0|apply Rmult_le_pos; unfold E; lra]).
      assert (0 <= INR n * (1 + f_u) ^ n * f_eta) by (apply Rmult_le_pos; [apply Rmult_le_pos; [apply pos_INR|apply pow_le; lra]|lra]). lra. }
  destruct (sor_stop M dbg stray n a A b h q lo xs X dmax x f E0 k lim rho fuel D Hr Hd Hn HN Hx Hf HE He Ho) with
    (x1 := x1) (w1 := w1) (r1 := r1) (rm1 := rm1) as (y & c & f'' & R2 & R3 & _); rewrite ?Etol; auto; try lia.
  rewrite R1 in R2. injection R2 as _ <-. exact R3.
Qed.

(** The run of the example with the tolerance 1/2. *)
Lemma sx_run : exists x' cd,
  sor_solve fops 100 true None 60 (mkLimits 0 50 f_half) (fz 1) sx_sys [S754_zero false; S754_zero false] sx_b = Ok (x', cd) /\
  cd_iteration cd = 2%nat.
Proof. eexists. eexists. split; [vm_compute; reflexivity|]. vm_compute; reflexivity. Qed.

Lemma sx_first : exists x1 w1 r1 rm1,
  sor_step fops true None sx_sys sx_b ([S754_zero false; S754_zero false], []) = Ok (x1, w1) /\
  compute_residual fops true None sx_sys x1 sx_b = Ok (r1, rm1) /\ f_finite r1 = true /\ 5 / 2 <= f_real r1 /\ 5 / 2 <= f_real rm1.
Proof.
  eexists. eexists. eexists. eexists. split; [vm_compute; reflexivity|]. split; [vm_compute; reflexivity|]. split; [reflexivity|].
  cbn [f_real]. change (-51)%Z with (- Z.of_nat 51)%Z. rewrite powerRZ_neg', <- pow_powerRZ. lra.
Qed.

Lemma sx_floor : 0 <= s_floor 2 (1 / 4) 1 4 <= 1 / 1000 /\ s_rate 2 (1 / 4) <= 876 / 1000 /\ 0 <= s_rate 2 (1 / 4).
Proof.
  destruct small_units as (U & E & _). pose proof u_pos as Hu. pose proof eta_pos as He.
  assert (P7 : 1 <= (1 + f_u) ^ 7 <= 1 + 1 / 100000).
  { split; [apply pow_R1_Rle; lra|]. apply Rle_trans with ((1 + / 1024 / 1024) ^ 7); [apply pow_incr; lra|lra]. }
  assert (P6 : 1 <= (1 + f_u) ^ 6 <= 11 / 10).
  { split; [apply pow_R1_Rle; lra|]. apply Rle_trans with ((1 + / 1024 / 1024) ^ 6); [apply pow_incr; lra|lra]. }
  unfold s_floor, s_step, s_rate, f_gamma. change (2 + 5)%nat with 7%nat. change (2 + 4)%nat with 6%nat. change (INR 2) with (1 + 1).
  set (p := (1 + f_u) ^ 7) in *. set (r := (1 + f_u) ^ 6) in *. clearbody p r.
  set (s := 2 * (p - 1) * 1 + f_eta * (3 + (3 + 2 * (1 + 1) * r) / 4)).
  assert (S1 : s <= 1 / 20000).
  { unfold s. assert (f_eta * (3 + (3 + 2 * (1 + 1) * r) / 4) <= / 1024 / 1024 * (3 + (3 + 2 * (1 + 1) * r) / 4)) by (apply Rmult_le_compat_r; lra). lra. }
  assert (S0 : 0 <= s).
  { unfold s. assert (0 <= f_eta * (3 + (3 + 2 * (1 + 1) * r) / 4)) by (apply Rmult_le_pos; lra). lra. }
  split; [|lra]. split.
  - apply Rmult_le_pos; [exact S0|]. apply Rlt_le, Rinv_0_lt_compat. lra.
  - apply (Rmult_le_reg_r (1 - (1 + 3 * (1 / 4)) / 2 * p)); [lra|]. unfold Rdiv at 1. rewrite Rmult_assoc, Rinv_l, Rmult_1_r by lra. lra.
Qed.

Lemma sx_resid E : 0 <= E <= 2 -> 5 * E <= f_resid 2 (1 / 4) 4 1 E <= 5 * E + 1 / 1000.
Proof.
  intro HE. destruct small_units as (U & H & _). pose proof u_pos as Hu. pose proof eta_pos as He.
  assert (P3 : 1 <= (1 + f_u) ^ 3 <= 1 + 1 / 20000).
  { split; [apply pow_R1_Rle; lra|]. apply Rle_trans with ((1 + / 1024 / 1024) ^ 3); [apply pow_incr; lra|lra]. }
  assert (P2 : 1 <= (1 + f_u) ^ 2 <= 11 / 10).
  { split; [apply pow_R1_Rle; lra|]. apply Rle_trans with ((1 + / 1024 / 1024) ^ 2); [apply pow_incr; lra|lra]. }
  unfold f_resid, f_gamma. change (2 + 1)%nat with 3%nat. change (INR 2) with (1 + 1). set (p := (1 + f_u) ^ 3) in *. set (r := (1 + f_u) ^ 2) in *.
  assert (A1 : 0 <= (p - 1) * ((1 + 1 / 4) * 4 * (1 + E)) <= 1 / 20000 * 15).
  { split; [apply Rmult_le_pos; lra|]. apply Rmult_le_compat; lra. }
  assert (A2 : 0 <= (1 + 1) * r * f_eta <= (1 + 1) * (11 / 10) * (/ 1024 / 1024)).
  { split; [apply Rmult_le_pos; lra|]. apply Rmult_le_compat; lra. }
  lra.
Qed.

Lemma sx_room E : 0 <= E <= 2 -> let T := f_resid 2 (1 / 4) 4 1 E in room 2 ((1 + 1 / 4) * 4 * (1 + E) + T) T.
Proof.
  intros HE T. destruct (sx_resid E HE) as [T0 T1]. fold T in T0, T1. destruct small_units as (U & H & _). pose proof u_pos as Hu. pose proof eta_pos as He.
  assert (L : 2 ^ 12 <= f_limit) by (unfold f_limit; apply Rle_pow; [lra|apply Nat.leb_le; reflexivity]).
  assert (P5 : 1 <= (1 + f_u) ^ 5 <= 11 / 10).
  { split; [apply pow_R1_Rle; lra|]. apply Rle_trans with ((1 + / 1024 / 1024) ^ 5); [apply pow_incr; lra|lra]. }
  assert (P2 : 1 <= (1 + f_u) ^ 2 <= 11 / 10).
  { split; [apply pow_R1_Rle; lra|]. apply Rle_trans with ((1 + / 1024 / 1024) ^ 2); [apply pow_incr; lra|lra]. }
  split; [lra|]. change (INR 2) with (1 + 1).
  assert (A1 : 0 <= (1 + f_u) ^ 5 * T ^ 2 + f_eta <= 11 / 10 * 11 ^ 2 + 1).
  { assert (0 <= T ^ 2 <= 11 ^ 2) by (split; [apply pow2_ge_0|apply pow_incr; lra]).
    assert (0 <= (1 + f_u) ^ 5 * T ^ 2 <= 11 / 10 * 11 ^ 2) by (split; [apply Rmult_le_pos; lra|apply Rmult_le_compat; lra]). lra. }
  apply Rle_trans with (2 * (1 + 1) * (11 / 10) * (11 / 10 * 11 ^ 2 + 1)); [|lra]. apply Rmult_le_compat; lra.
Qed.

Lemma sx_stops : let E := s_floor 2 (1 / 4) 1 4 + s_rate 2 (1 / 4) ^ 24 * 1 in let T := f_resid 2 (1 / 4) 4 1 E in
  dominant_doubles 2 sx_sys sx_A sx_b sx_h (1 / 4) 4 (fun _ => 1) 1 /\ s_rate 2 (1 / 4) < 1 /\
  (forall i, (i < 2)%nat -> Rabs (f_real (sx_A i i)) <= 4) /\
  within 2 (fun _ => S754_zero false) (fun _ => 1) (s_floor 2 (1 / 4) 1 4 + 1) /\
  s_no_overflow 2 sx_A 4 1 (s_floor 2 (1 / 4) 1 4 + 1) /\
  room 2 ((1 + 1 / 4) * 4 * (1 + E) + T) T /\
  (forall r rm, 5 / 2 <= r -> 5 / 2 <= rm -> meets 2 (f_real f_half) r rm T /\
     meets_floor 2 (f_real f_half) r rm (f_resid 2 (1 / 4) 4 1 (s_floor 2 (1 / 4) 1 4))) /\
  (let E := s_floor 2 (1 / 4) 1 4 + 1 in let T := f_resid 2 (1 / 4) 4 1 E in room 2 ((1 + 1 / 4) * 4 * (1 + E) + T) T) /\
  10 * f_real f_half + 1 <= f_limit / 2.
Proof.
  intros E T. destruct sx_dominant as (H1 & H2 & H3 & H4 & H5 & H6 & H7 & H8 & _).
  destruct (rate_below 2 (1 / 4) ltac:(lra) H5) as [H5' _].
  assert (EA : forall i, (i < 2)%nat -> f_real (sx_A i i) = 4).
  { intros [|[|i]] Hi; try lia; rewrite ?(eq_refl : sx_A 0 0 = fz 4), ?(eq_refl : sx_A 1 1 = fz 4); exact fz4. }
  assert (D : dominant_doubles 2 sx_sys sx_A sx_b sx_h (1 / 4) 4 (fun _ => 1) 1).
  { split; auto; try lra.
    - split; [lra|exact H6].
    - intros [|[|i]] Hi; try lia; cbn [asum sx_h sx_b nth];
        rewrite ?(eq_refl : sx_A 0 0 = fz 4), ?(eq_refl : sx_A 1 1 = fz 4), ?(eq_refl : sx_A 0 1 = fz 1),
          ?(eq_refl : sx_A 1 0 = fz 1), fz1, fz4, fz5; lra.
    - split; [lra|]. intros i _. rewrite Rabs_pos_eq; lra. }
  split; [exact D|]. split; [exact H5|].
  destruct sx_floor as ((F0 & F1) & R1 & R0). unfold T, E. clear T E. set (fl := s_floor 2 (1 / 4) 1 4) in *. set (ra := s_rate 2 (1 / 4)) in *.
  assert (R4 : 0 <= ra ^ 24 <= (876 / 1000) ^ 24) by (split; [apply pow_le; lra|apply pow_incr; lra]).
  assert (R5 : (876 / 1000) ^ 24 <= 45 / 1000) by lra.
  clear -R4 R5 F0 F1 EA.
  set (E := fl + ra ^ 24 * 1). assert (HE : 0 <= E <= 50 / 1000) by (unfold E; lra).
  destruct small_units as (U & H & Th). pose proof u_pos as Hu. pose proof eta_pos as He. pose proof theta_pos as Ht0.
  assert (L : 2 ^ 12 <= f_limit) by (unfold f_limit; apply Rle_pow; [lra|apply Nat.leb_le; reflexivity]).
  assert (P : forall T r rm, 0 <= T <= 3 / 10 -> 5 / 2 <= r -> 5 / 2 <= rm -> meets_floor 2 (f_real f_half) r rm T).
  { intros T r rm HT Hr Hrm. unfold meets_floor. rewrite half_real. change (2 + 11)%nat with 13%nat.
    assert (P13 : 1 <= (1 + f_u) ^ 13 <= 101 / 100).
    { split; [apply pow_R1_Rle; lra|]. apply Rle_trans with ((1 + / 1024 / 1024) ^ 13); [apply pow_incr; lra|lra]. }
    assert (P5 : 1 <= (1 + f_u) ^ 5 <= 101 / 100).
    { split; [apply pow_R1_Rle; lra|]. apply Rle_trans with ((1 + / 1024 / 1024) ^ 5); [apply pow_incr; lra|lra]. }
    set (p := (1 + f_u) ^ 13) in *. set (c := (1 + f_u) ^ 5) in *.
    assert (I1 : 0 < / r <= 2 / 5) by (split; [apply Rinv_0_lt_compat; lra|replace (2 / 5) with (/ (5 / 2)) by field; apply Rinv_le_contravar; lra]).
    assert (I2 : 0 < / rm <= 2 / 5) by (split; [apply Rinv_0_lt_compat; lra|replace (2 / 5) with (/ (5 / 2)) by field; apply Rinv_le_contravar; lra]).
    assert (J1 : 0 <= (T + 2 * f_theta) / r <= 4 / 10 * (2 / 5)) by (split; [apply Rmult_le_pos; lra|apply Rmult_le_compat; lra]).
    assert (J2 : 0 <= (T + f_theta) / rm <= 4 / 10 * (2 / 5)) by (split; [apply Rmult_le_pos; lra|apply Rmult_le_compat; lra]).
    assert (p * ((T + 2 * f_theta) / r) <= 101 / 100 * (4 / 10 * (2 / 5))) by (apply Rmult_le_compat; lra).
    assert (c * ((T + f_theta) / rm) <= 101 / 100 * (4 / 10 * (2 / 5))) by (apply Rmult_le_compat; lra).
    lra. }
  destruct (sx_resid E) as [T0 T1]; [lra|]. destruct (sx_resid fl) as [T2 T3]; [lra|].
  split; [|split; [|split; [|split; [|split; [|split]]]]].
  - intros i Hi. rewrite (EA i Hi), Rabs_pos_eq; lra.
  - intros i Hi. cbn [f_real]. rewrite Rminus_0_l, Rabs_Ropp, Rabs_pos_eq; lra.
  - intros i Hi. rewrite (EA i Hi), (Rabs_pos_eq 4) by lra. change (INR 2) with (1 + 1).
    assert (P2 : 1 <= (1 + f_u) ^ 2 <= 11 / 10).
    { split; [apply pow_R1_Rle; lra|]. apply Rle_trans with ((1 + / 1024 / 1024) ^ 2); [apply pow_incr; lra|lra]. }
    assert (S3 : (1 + 1) * (1 + f_u) ^ 2 * f_eta / 4 <= 2).
    { replace ((1 + 1) * (1 + f_u) ^ 2 * f_eta / 4) with (/ 2 * ((1 + f_u) ^ 2 * f_eta)) by field.
      assert ((1 + f_u) ^ 2 * f_eta <= (1 + f_u) ^ 2 * 1) by (apply Rmult_le_compat_l; lra). lra. }
    lra.
  - apply sx_room. lra.
  - intros r rm Hr Hrm. split; [|apply P; lra]. destruct (P (f_resid 2 (1 / 4) 4 1 E) r rm) as [Q1 Q2]; try lra. split; lra.
  - apply sx_room. lra.
  - rewrite half_real. lra.
Qed.
