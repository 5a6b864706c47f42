(** Properties C49 (positive part) and C86 - C88: rounding errors in doubles. [f_real x] is the value of the double [x]; [f_valid x] says
    that [x] is one (53 bits, least exponent -1074) and [f_finite x] that it is no infinity and no NaN;
    [f_u] = 2^-53, [f_eta] = 2^-1075, [f_theta] = 2^-537 and [f_gamma n] = (1 + f_u)^n - 1.
    [inner_bound n x y] = f_gamma (n + 1) * sum |x_i y_i| + n (1 + f_u)^n f_eta. *)
From Coq Require Import ZArith Reals Lra Lia SpecFloat.
From Verif Require Import Base DenseModel DenseFacts PropDenseLemmas ScalarModel GeometryReal SparseModel SparseSpec SparseMul
  LuModel LuFacts IterModel IterFacts IterField PropIterLemmas FloatFacts FloatError LuFloat IterFloat PropFloatLemmas
  PropGeometryLemmas FloatUnit.
Local Open Scope nat_scope.

(** ** C86 *)

(** The operations of the model are the correctly rounded ones, within the usual bounds. *)
Theorem C86_operations : forall x y, f_valid x -> f_valid y ->
  (f_finite (SFadd 53 1024 x y) = true -> f_finite x = true /\ f_finite y = true /\
     (Rabs (f_real (SFadd 53 1024 x y) - (f_real x + f_real y)) <= f_u * Rabs (f_real x + f_real y))%R) /\
  (f_finite (SFsub 53 1024 x y) = true -> f_finite x = true /\ f_finite y = true /\
     (Rabs (f_real (SFsub 53 1024 x y) - (f_real x - f_real y)) <= f_u * Rabs (f_real x - f_real y) + f_eta)%R) /\
  (f_finite (SFmul 53 1024 x y) = true -> f_finite x = true /\ f_finite y = true /\
     (Rabs (f_real (SFmul 53 1024 x y) - f_real x * f_real y) <= f_u * Rabs (f_real x * f_real y) + f_eta)%R) /\
  (f_finite y = true -> f_finite (SFdiv 53 1024 x y) = true -> f_finite x = true /\ f_real y <> 0%R /\
     (Rabs (f_real (SFdiv 53 1024 x y) - f_real x / f_real y) <= f_u * Rabs (f_real x / f_real y) + f_eta)%R) /\
  (f_finite (SFsqrt 53 1024 x) = true -> f_finite x = true /\ (0 <= f_real x)%R /\
     (Rabs (f_real (SFsqrt 53 1024 x) - sqrt (f_real x)) <= f_u * sqrt (f_real x))%R).
Proof. exact operations_error. Qed.
Print Assumptions C86_operations.

Theorem C86_dot : forall dbg n v w f g, is_vec n v f -> is_vec n w g ->
  (forall i, i < n -> f_valid (f i)) -> (forall i, i < n -> f_valid (g i)) ->
  exists d, dot (sc_zero fops) (sc_add fops) (sc_mul fops) dbg v w = Ok d /\ f_valid d /\ (f_finite d = true ->
    (forall i, i < n -> f_finite (f i) = true /\ f_finite (g i) = true) /\
    (Rabs (f_real d - rsum n (fun i => f_real (f i) * f_real (g i))) <= inner_bound n f g)%R).
Proof. exact dot_error. Qed.
Print Assumptions C86_dot.

(** The result is finite when the exact sum of the absolute values is at most 2^1023 with the bound added. *)
Theorem C86_dot_finite : forall dbg n v w f g, is_vec n v f -> is_vec n w g ->
  (forall i, i < n -> f_valid (f i) /\ f_finite (f i) = true) ->
  (forall i, i < n -> f_valid (g i) /\ f_finite (g i) = true) ->
  (rsum n (fun i => Rabs (f_real (f i) * f_real (g i))) + inner_bound n f g <= 2 ^ 1023)%R ->
  exists d, dot (sc_zero fops) (sc_add fops) (sc_mul fops) dbg v w = Ok d /\ f_finite d = true.
Proof. exact dot_finite. Qed.
Print Assumptions C86_dot_finite.

(** Matrix * vector, where it is defined (C45). *)
Theorem C86_mat_vec : forall dbg junk r n R C m g v f, is_mat R C m g -> (R = 0 -> C = 0) -> is_vec C v f ->
  r = 0 \/ r = R -> vtyped n v -> R = C \/ (dbg = false /\ 0 < r) ->
  (forall i j, i < R -> j < C -> f_valid (g i j)) -> (forall j, j < C -> f_valid (f j)) ->
  exists u h, m_vec (sc_zero fops) (sc_add fops) (sc_mul fops) dbg junk r n m v = Ok u /\ is_vec R u h /\
    forall i, i < R -> f_valid (h i) /\ (f_finite (h i) = true ->
      (forall j, j < C -> f_finite (g i j) = true /\ f_finite (f j) = true) /\
      (Rabs (f_real (h i) - rsum C (fun j => f_real (g i j) * f_real (f j))) <= inner_bound C (g i) f)%R).
Proof. exact mat_vec_error. Qed.
Print Assumptions C86_mat_vec.

Theorem C86_sparse_mat_vec : forall dbg stray (m : smat f64) A x f, swf m -> represents (S754_zero false) m A ->
  is_vec (csize m) x f ->
  (forall i j, i < s_rows m -> j < csize m -> f_valid (A i j)) -> (forall j, j < csize m -> f_valid (f j)) ->
  exists y h, s_mat_vec (sc_zero fops) (sc_add fops) (sc_mul fops) dbg stray m x = Ok y /\ is_vec (s_rows m) y h /\
    forall i, i < s_rows m -> f_valid (h i) /\ (f_finite (h i) = true ->
      (Rabs (f_real (h i) - rsum (csize m) (fun j => f_real (A i j) * f_real (f j))) <= inner_bound (csize m) (A i) f)%R).
Proof. exact sparse_mat_vec_error. Qed.
Print Assumptions C86_sparse_mat_vec.

Theorem C86_gamma : forall n, (INR n * f_u < 1)%R -> (f_gamma n <= INR n * f_u / (1 - INR n * f_u))%R.
Proof. exact gamma_bound. Qed.
Print Assumptions C86_gamma.

(** 0.1 * 1 + 0.2 * 1 + 0.3 * 1 is the double next to 0.6; 1 * 3 + 2 * 4 cannot overflow. *)
Example C86_hypotheses :
  let tenth k := SFdiv 53 1024 (fz k) (fz 10) in
  let f i := nth i [tenth 1; tenth 2; tenth 3]%Z (fz 0) in let g i := nth i [fz 1; fz 1; fz 1] (fz 0) in
  is_vec 3 [tenth 1; tenth 2; tenth 3]%Z f /\ is_vec 3 [fz 1; fz 1; fz 1] g /\
  (forall i, i < 3 -> f_valid (f i) /\ f_valid (g i)) /\
  dot (sc_zero fops) (sc_add fops) (sc_mul fops) true [tenth 1; tenth 2; tenth 3]%Z [fz 1; fz 1; fz 1] =
    Ok (S754_finite false 5404319552844596 (-53)) /\
  tenth 6%Z = S754_finite false 5404319552844595 (-53) /\
  (INR 3 * f_u < 1)%R /\
  (let x i := nth i [fz 1; fz 2] (fz 0) in let y i := nth i [fz 3; fz 4] (fz 0) in
   rsum 2 (fun i => Rabs (f_real (x i) * f_real (y i))) + inner_bound 2 x y <= 2 ^ 1023)%R /\
  (exists m A x, @swf f64 m /\ represents (S754_zero false) m A /\ is_vec (csize m) x (fun i => nth i x (fz 0)) /\
   (forall i j, i < s_rows m -> j < csize m -> f_valid (A i j)) /\
   s_mat_vec (sc_zero fops) (sc_add fops) (sc_mul fops) true None m x = Ok [tenth 4; tenth 4]%Z).
Proof.
  intros tenth f g. split; [apply is_vec_self|]. split; [apply is_vec_self|]. split.
  - intros [|[|[|i]]] Hi; [..|lia]; split; vm_compute; reflexivity.
  - split; [vm_compute; reflexivity|]. split; [vm_compute; reflexivity|]. split; [pose proof u_small; cbn; lra|]. split.
    + intros x y. unfold inner_bound, f_gamma. cbn [asum].
      assert (B : forall z, (1 <= z < 5)%Z -> (Rabs (f_real (fz z)) <= 25 / 4)%R).
      { intros z Hz. unfold fz. destruct (f_of_Z_near z) as (d & Hd & E); [lia|]. rewrite E, Rabs_mult.
        assert (Rabs (1 + d) <= 5 / 4)%R.
        { apply Rle_trans with (1 := Rabs_triang _ _). rewrite Rabs_R1. pose proof u_small. lra. }
        assert (Rabs (IZR z) <= 5)%R by (rewrite <- abs_IZR; apply IZR_le; lia).
        pose proof (Rabs_pos (IZR z)). pose proof (Rabs_pos (1 + d)).
        apply Rle_trans with (5 * (5 / 4))%R; [apply Rmult_le_compat; auto|lra]. }
      assert (P : forall i, i < 2 -> (0 <= Rabs (f_real (x i) * f_real (y i)) <= 25 / 4 * (25 / 4))%R).
      { intros i Hi. split; [apply Rabs_pos|]. rewrite Rabs_mult.
        apply Rmult_le_compat; try apply Rabs_pos; destruct i as [|[|i]]; try lia; apply B; lia. }
      pose proof (P 0 ltac:(lia)) as P0. pose proof (P 1 ltac:(lia)) as P1.
      set (a := Rabs (f_real (x 0) * f_real (y 0))) in *. set (b := Rabs (f_real (x 1) * f_real (y 1))) in *.
      pose proof u_pos. pose proof u_small. pose proof eta_pos.
      assert (He : (f_eta <= 1)%R).
      { unfold f_eta. rewrite <- Rinv_1. apply Rinv_le_contravar; [lra|]. apply pow_R1_Rle. lra. }
      assert (H3 : ((1 + f_u) ^ (2 + 1) - 1 <= 1)%R).
      { assert ((1 + f_u) ^ 3 <= (5 / 4) ^ 3)%R by (apply pow_incr; lra). change (2 + 1) with 3. lra. }
      assert (H2 : ((1 + f_u) ^ 2 <= 2)%R).
      { assert ((1 + f_u) ^ 2 <= (5 / 4) ^ 2)%R by (apply pow_incr; lra). lra. }
      assert (H4 : (((1 + f_u) ^ (2 + 1) - 1) * (0 + a + b) <= 1 * (0 + a + b))%R) by (apply Rmult_le_compat_r; lra).
      assert (H5 : ((1 + f_u) ^ 2 * f_eta <= 2 * 1)%R) by (apply Rmult_le_compat; try apply pow_le; lra).
      assert (H6 : (2 ^ 8 <= 2 ^ 1023)%R) by (apply Rle_pow; [lra|apply Nat.leb_le; reflexivity]).
      change (INR 2) with (1 + 1)%R. lra.
    + exists (two (tenth 1) (tenth 1) (tenth 1) (tenth 1))%Z, (fun i j => lookup (S754_zero false) (nth i (two_rows (tenth 1) (tenth 1) (tenth 1) (tenth 1))%Z []) j).
      exists [fz 2; fz 2]. destruct (two_square (S754_zero false) (tenth 1%Z) (tenth 1%Z) (tenth 1%Z) (tenth 1%Z)) as (Hw & _ & _ & HA).
      split; [exact Hw|]. split; [exact HA|]. split; [apply is_vec_self|]. split.
      * intros [|[|i]] [|[|j]] Hi Hj; cbn in Hi, Hj; try lia; vm_compute; reflexivity.
      * vm_compute. reflexivity.
Qed.

(** ** C87
    The factors are read off the matrix the solver keeps: [f_lower g] has a unit diagonal, [f_upper g] is the rest.
    [s] is the order of the rows, the pivots or the identity. *)

Theorem C87_factors : forall dbg pivot n st a A st', is_mat n n a A ->
  (forall i j, i < n -> j < n -> f_valid (A i j)) ->
  factorise fops dbg pivot st a = Ok (st', true) ->
  exists s g, is_mat n n (lu_matrix st') g /\ (pivot = true -> is_vec n (lu_pivots st') s) /\
    (pivot = false -> forall k, s k = k) /\ rows_permuted n s /\
    ((forall i j, i < n -> j < n -> f_finite (g i j) = true) ->
     forall i j, i < n -> j < n ->
       (Rabs (f_real (A (s i) j) - rsum n (fun k => f_lower g i k * f_upper g k j)) <=
         f_gamma n * rsum n (fun k => Rabs (f_lower g i k * f_upper g k j)) +
         (1 + f_u) ^ n * f_eta * (INR n + Rabs (f_real (g j j))))%R).
Proof. exact factorise_error. Qed.
Print Assumptions C87_factors.

Theorem C87_residual : forall dbg pivot n st a A st' x b B, is_mat n n a A ->
  (forall i j, i < n -> j < n -> f_valid (A i j)) ->
  factorise fops dbg pivot st a = Ok (st', true) ->
  is_vec n (other_of x b) B -> (b = None -> pivot = false) -> (forall i, i < n -> f_valid (B i)) ->
  exists s g x' d z, is_mat n n (lu_matrix st') g /\ (pivot = true -> is_vec n (lu_pivots st') s) /\
    (pivot = false -> forall k, s k = k) /\ rows_permuted n s /\
    lu_solve fops dbg pivot st' x b = Ok (x', d) /\ is_vec n x' z /\
    ((forall i j, i < n -> j < n -> f_finite (g i j) = true) -> (forall i, i < n -> f_finite (z i) = true) ->
     forall i, i < n ->
       (Rabs (f_real (B (s i)) - rsum n (fun j => f_real (A (s i) j) * f_real (z j))) <=
         f_gamma (3 * n) * rsum n (fun k => rsum n (fun j => Rabs (f_lower g i k) * Rabs (f_upper g k j) * Rabs (f_real (z j)))) +
         (1 + f_u) ^ (2 * n) * f_eta *
           (INR n + rsum n (fun k => (INR n + Rabs (f_real (g k k))) * (Rabs (f_lower g i k) + Rabs (f_real (z k))))))%R).
Proof. exact direct_solve_error. Qed.
Print Assumptions C87_residual.

Example C87_hypotheses : exists st' x' d,
  let a := [[fz 0; fz 2; fz 1]; [fz 1; fz 1; fz 0]; [fz 3; fz 7; fz 10]] in
  is_mat 3 3 a (fun i j => nth j (nth i a []) (fz 0)) /\
  (forall i j, i < 3 -> j < 3 -> f_valid (nth j (nth i a []) (fz 0))) /\
  factorise fops true true (lu_default fops) a = Ok (st', true) /\ lu_pivots st' = [2; 0; 1] /\
  (forall r, In r (lu_matrix st') -> forall v, In v r -> f_finite v = true) /\
  lu_solve fops true true st' [] (Some [fz 1; fz 1; fz 1]) = Ok (x', d) /\
  (forall v, In v x' -> f_finite v = true) /\ map f_finite x' = [true; true; true].
Proof.
  do 3 eexists. split; [|split; [|split; [vm_compute; reflexivity|]]].
  - split; [reflexivity|]. intros i Hi. destruct i as [|[|[|i]]]; [| | |lia];
      (eexists; split; [reflexivity|]; split; [reflexivity|]; intros j Hj; destruct j as [|[|[|j]]]; [reflexivity..|lia]).
  - intros [|[|[|i]]] [|[|[|j]]] Hi Hj; try lia; vm_compute; reflexivity.
  - split; [reflexivity|]. split; [|split; [vm_compute; reflexivity|split; [|reflexivity]]].
    + intros r Hr v Hv. cbn [lu_matrix In] in Hr. decompose [or] Hr; subst; cbn [In] in Hv; decompose [or] Hv; subst; try contradiction; reflexivity.
    + intros v Hv. cbn [In] in Hv. decompose [or] Hv; subst; try contradiction; reflexivity.
Qed.

(** ** C88
    [p] is the residual with the rounded products; the reported numbers are its norms up to small factors. *)

Theorem C88_residual : forall dbg stray n a A b h x f, sparse_square (S754_zero false) n a A -> is_vec n b h ->
  is_vec n x f -> 0 < n -> (Z.of_nat n < 2 ^ 64)%Z ->
  (forall i j, i < n -> j < n -> f_valid (A i j)) -> (forall i, i < n -> f_valid (h i)) -> (forall j, j < n -> f_valid (f j)) ->
  exists l2 linf, compute_residual fops dbg stray a x b = Ok (l2, linf) /\ (f_finite l2 = true ->
    exists p : nat -> R,
      (forall i, i < n ->
         (Rabs (p i - (f_real (h i) - rsum n (fun j => f_real (A i j) * f_real (f j)))) <= inner_bound n (A i) f)%R) /\
      (forall i, i < n -> (Rabs (p i) <= (1 + f_u) ^ 4 * (f_real linf + f_theta))%R) /\
      (exists i, i < n /\ (f_real linf <= (1 + f_u) ^ 4 * (Rabs (p i) + f_theta))%R) /\
      (rsum n (fun i => p i ^ 2) / INR n <= (1 + f_u) ^ (n + 10) * (f_real l2 ^ 2 + 2 * f_eta))%R /\
      (f_real l2 ^ 2 <= (1 + f_u) ^ (n + 10) * (rsum n (fun i => p i ^ 2) / INR n + 2 * f_eta))%R).
Proof. exact residual_error. Qed.
Print Assumptions C88_residual.

Example C88_hypotheses :
  let tenth := SFdiv 53 1024 (fz 1) (fz 10) in
  let A i j := lookup (S754_zero false) (nth i (two_rows (fz 4) tenth (fz 2) (fz 5)) []) j in
  sparse_square (S754_zero false) 2 (two (fz 4) tenth (fz 2) (fz 5)) A /\
  (forall i j, i < 2 -> j < 2 -> f_valid (A i j)) /\
  is_vec 2 [tenth; fz 1] (fun i => nth i [tenth; fz 1] (fz 0)) /\ (forall i, i < 2 -> f_valid (nth i [tenth; fz 1] (fz 0))) /\
  exists l2 linf, compute_residual fops true None (two (fz 4) tenth (fz 2) (fz 5)) [fz 1; tenth] [tenth; fz 1] = Ok (l2, linf) /\
    f_finite l2 = true /\ SFltb (S754_zero false) l2 = true.
Proof.
  intros tenth A. split; [apply two_square|]. split; [|split; [apply is_vec_self|split]].
  - intros [|[|i]] [|[|j]] Hi Hj; try lia; vm_compute; reflexivity.
  - intros [|[|i]] Hi; try lia; vm_compute; reflexivity.
  - do 2 eexists. split; [vm_compute; reflexivity|]. split; reflexivity.
Qed.

(** ** C49
    Full statement: unit(v) in double precision is not the zero vector when v is finite with a non-zero
    component; refuted in PropGeometry.v by squares that underflow or overflow. What holds: when the sum of the
    squares is between 2^-1000 and 2^1000 the result is the unit vector up to rounding. *)

Theorem C49_unit_partial : forall n v f, is_vec n v f -> (forall i, i < n -> f_valid (f i) /\ f_finite (f i) = true) ->
  (INR n * f_u <= / 4)%R -> let X := rsum n (fun i => f_real (f i) ^ 2)%R in (/ 2 ^ 1000 <= X <= 2 ^ 1000)%R ->
  exists w g, f_unit v = Ok w /\ is_vec n w g /\
    (forall i, i < n -> f_finite (g i) = true /\
       (Rabs (f_real (g i) - f_real (f i) / sqrt X) <= f_gamma (n + 6) * Rabs (f_real (f i) / sqrt X) + f_eta)%R) /\
    (Rabs (rsum n (fun i => f_real (g i) ^ 2) - 1) <= f_gamma (2 * (n + 6)) + 5 * INR n * f_eta)%R.
Proof. exact unit_length. Qed.
Print Assumptions C49_unit_partial.

Example C49_unit_hypotheses : let f i := nth i [fz 1; fz 2] (fz 0) in
  is_vec 2 [fz 1; fz 2] f /\ (forall i, i < 2 -> f_valid (f i) /\ f_finite (f i) = true) /\ (INR 2 * f_u <= / 4)%R /\
  (/ 2 ^ 1000 <= rsum 2 (fun i => f_real (f i) ^ 2) <= 2 ^ 1000)%R.
Proof.
  intro f. split; [apply is_vec_self|]. split; [intros [|[|i]] Hi; [..|lia]; split; vm_compute; reflexivity|].
  pose proof u_tiny. split; [change (INR 2) with (1 + 1)%R; lra|].
  assert (B : forall z, (1 <= z < 3)%Z -> (1 / 2 <= f_real (fz z) <= 5 / 2)%R).
  { intros z Hz. unfold fz. destruct (f_of_Z_near z) as (d & Hd & E); [lia|]. rewrite E. apply Rabs_le_between in Hd.
    assert (1 <= IZR z <= 2)%R by (split; apply IZR_le; lia). pose proof u_pos.
    split; [apply Rle_trans with (1 * (1 / 2))%R; [lra|]|apply Rle_trans with (2 * (5 / 4))%R; [|lra]]; apply Rmult_le_compat; lra. }
  assert (P : forall i, i < 2 -> (1 / 4 <= f_real (f i) ^ 2 <= 25 / 4)%R).
  { intros i Hi. assert (1 / 2 <= f_real (f i) <= 5 / 2)%R by (destruct i as [|[|i]]; try lia; apply B; lia).
    replace (1 / 4)%R with ((1 / 2) ^ 2)%R by field. replace (25 / 4)%R with ((5 / 2) ^ 2)%R by field.
    split; apply pow_incr; lra. }
  cbn [asum]. pose proof (P 0 ltac:(lia)). pose proof (P 1 ltac:(lia)).
  assert (2 ^ 4 <= 2 ^ 1000)%R by (apply Rle_pow; [lra|apply Nat.leb_le; reflexivity]).
  assert (/ 2 ^ 1000 <= / 2 ^ 4)%R by (apply Rinv_le_contravar; [lra|exact H2]).
  split; lra.
Qed.
