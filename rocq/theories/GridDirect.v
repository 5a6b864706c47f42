(** The direct solver in double precision on the square grid. *)
From Coq Require Import ZArith Reals Lra Lia List SpecFloat Psatz.
From Verif Require Import Base ListFacts DenseModel DenseFacts ScalarModel GeometryReal GraphModel GraphSpec GraphGen SparseModel SparseSpec
  SparseSeq LuModel LuFacts LuReal FloatFacts FloatError IterFloat LuFloat PropFloatLemmas FloatUnit FloatSweep IterField IterReal PropIterLemmas
  LuSuccess PropDenseBuildLemmas PropRelaxLemmas PropChainLemmas ScaledSymmetric FloatGrid GridSetup PropGridLemmas GridWhole PropDominantLemmas LuScaled
  LuScaledSolve ScaledSolved PropDefiniteLemmas PropSuccessLemmas.
Import ListNotations.

(** What one row of the dense matrix is given: test_solver.cpp 86-109. *)
Definition dense_row (n i : nat) (a : list (list f64)) : res (list (list f64)) :=
  do a <- (if i + n <? n * n then mset a i (i + n) (fz (-1)) else Ok a);
  do a <- (if i mod n =? 0 then Ok a else mset a i (i - 1) (fz (-1)));
  do a <- mset a i i (fz 4);
  do a <- (if (i + 1) mod n =? 0 then Ok a else mset a i (i + 1) (fz (-1)));
  (if n <=? i then mset a i (i - n) (fz (-1)) else Ok a).

(** SetUp(n), the dense matrix: test_solver.cpp 74-110. [a] is what the member held before. *)
Definition dense_setup (n : nat) (a : list (list f64)) : res (list (list f64)) :=
  do a <- FOR (n * n) (fun i a => FOR (n * n) (fun j a => mset a i j (fz 0)) a) (m_resize (fz 0) a (n * n) (n * n));
  FOR (n * n) (dense_row n) a.

Section Filling.
  Variable n : nat.
  Hypothesis Hn : 2 <= n.
  Let N := n * n.

  Lemma cond_set (c : bool) (a : list (list f64)) g i j x : is_mat N N a g -> i < N -> (c = true -> j < N) ->
    exists a', (if c then mset a i j x else Ok a) = Ok a' /\ is_mat N N a' (fun r s => if c && ((r =? i) && (s =? j)) then x else g r s).
  Proof using.
    intros Ha Hi Hj. destruct c; cbn [andb]; [exact (is_mat_set N N a g i j x Ha Hi (Hj eq_refl))|]. exists a. split; [reflexivity|exact Ha].
  Qed.

  Lemma dense_row_ok i (a : list (list f64)) g : i < N -> is_mat N N a g -> (forall j, j < N -> g i j = fz 0) ->
    exists a', dense_row n i a = Ok a' /\ is_mat N N a' (fun r s => if r =? i then setup_entry n i s else g r s).
  Proof using Hn.
    intros Hi Ha Hg. unfold dense_row. fold N.
    destruct (cond_set (i + n <? N) a g i (i + n) (fz (-1)) Ha Hi) as (a1 & E1 & H1); [intro E; apply Nat.ltb_lt in E; exact E|].
    rewrite E1. cbn [bind].
    destruct (cond_set (negb (i mod n =? 0)) a1 _ i (i - 1) (fz (-1)) H1 Hi) as (a2 & E2 & H2); [intros _; lia|].
    replace (if i mod n =? 0 then Ok a1 else mset a1 i (i - 1) (fz (-1))) with (Ok a2) by (rewrite <- E2; destruct (i mod n =? 0); reflexivity).
    cbn [bind].
    destruct (is_mat_set N N a2 _ i i (fz 4) H2 Hi Hi) as (a3 & E3 & H3). rewrite E3. cbn [bind].
    destruct (cond_set (negb ((i + 1) mod n =? 0)) a3 _ i (i + 1) (fz (-1)) H3 Hi) as (a4 & E4 & H4).
    { intro E. apply Bool.negb_true_iff, Nat.eqb_neq in E. apply (next_in_row n Hn i Hi E). }
    replace (if (i + 1) mod n =? 0 then Ok a3 else mset a3 i (i + 1) (fz (-1))) with (Ok a4) by (rewrite <- E4; destruct ((i + 1) mod n =? 0); reflexivity).
    cbn [bind].
    destruct (cond_set (n <=? i) a4 _ i (i - n) (fz (-1)) H4 Hi) as (a5 & E5 & H5); [intros _; lia|].
    exists a5. split; [exact E5|]. apply (is_mat_ext _ _ _ _ _ H5). intros r s Hr Hs. cbn beta.
    destruct (Nat.eqb_spec r i) as [->|Hne]; cbn [andb]; [|rewrite !Bool.andb_false_r; reflexivity].
    assert (Z0 : i = 0 -> i mod n =? 0 = true) by (intros ->; rewrite Nat.mod_0_l by lia; reflexivity).
    unfold setup_entry, touches. fold N. rewrite Hg by auto. change (fz 0) with (S754_zero false : f64).
    destruct (Nat.eqb_spec s i) as [Ea|Ea]; [rewrite Ea, Nat.eqb_refl; destruct (Nat.eqb_spec i (i - n)), (Nat.leb_spec n i); try lia;
      destruct (Nat.eqb_spec i (i + 1)); try lia; cbn [andb]; rewrite ?Bool.andb_false_r; reflexivity|].
    destruct (Nat.eqb_spec i s); [lia|].
    destruct (Nat.leb_spec n i) as [L1|L1], (Nat.eqb_spec s (i - n)) as [L2|L2], (Nat.eqb_spec i (s + n)) as [L3|L3]; try lia; cbn [andb];
      rewrite ?Bool.orb_true_r, ?Bool.orb_false_r; try reflexivity;
    (destruct (Nat.eqb_spec s (i + 1)) as [M1|M1]; rewrite ?Bool.andb_true_r, ?Bool.andb_false_r; cbn [andb];
      [destruct ((i + 1) mod n =? 0); cbn [negb]; rewrite ?Bool.orb_true_r, ?Bool.orb_false_r; try reflexivity;
       destruct (Nat.eqb_spec i (s + 1)); try lia; destruct (Nat.eqb_spec s (i - 1)); try lia; rewrite ?Bool.andb_false_r; cbn [andb orb];
       destruct (Nat.eqb_spec s (i + n)); try lia; rewrite ?Bool.andb_false_r; cbn [andb orb]; reflexivity
      |rewrite ?Bool.orb_false_r;
       destruct (Nat.eqb_spec i (s + 1)) as [M2|M2], (Nat.eqb_spec s (i - 1)) as [M3|M3]; try lia; rewrite ?Bool.andb_true_r, ?Bool.andb_false_r; cbn [andb];
       [destruct (i mod n =? 0); cbn [negb orb]; rewrite ?Bool.orb_true_r, ?Bool.orb_false_r; try reflexivity;
        destruct (Nat.eqb_spec s (i + n)); try lia; rewrite ?Bool.andb_false_r; reflexivity
       |rewrite ?Bool.orb_false_r; rewrite (Bool.andb_comm (s =? i + n)); reflexivity]]).
  Qed.

  Lemma dense_setup_ok a0 r c g0 : is_mat r c a0 g0 -> exists a, dense_setup n a0 = Ok a /\ is_mat N N a (setup_matrix n).
  Proof using Hn.
    intro H0. unfold dense_setup. fold N.
    pose proof (matrix_resize (fz 0) a0 g0 r c N N H0) as R. set (a1 := m_resize (fz 0) a0 N N) in *.
    destruct (FOR_inv (fun i a => exists g, is_mat N N a g /\ forall r s, r < i -> s < N -> g r s = fz 0) N
      (fun i a => FOR N (fun j a => mset a i j (fz 0)) a) a1) as (a2 & E2 & g2 & H2 & Z2).
    { eexists. split; [exact R|]. intros; lia. }
    { intros i a Hi (g & Hg & Zg).
      destruct (FOR_inv (fun j a => exists g, is_mat N N a g /\ (forall r s, r < i -> s < N -> g r s = fz 0) /\ forall s, s < j -> g i s = fz 0) N
        (fun j a => mset a i j (fz 0)) a) as (a' & E & g' & Hg' & Zg' & Zr).
      - exists g. split; [exact Hg|]. split; [exact Zg|]. intros; lia.
      - intros j b Hj (gb & Hb & Zb & Zs). destruct (is_mat_set N N b gb i j (fz 0) Hb Hi Hj) as (b' & Eb & Hb'). exists b'. split; [exact Eb|].
        eexists. split; [exact Hb'|]. split.
        + intros r' s Hr Hs. cbn beta. destruct (_ && _); [reflexivity|apply Zb; auto].
        + intros s Hs. cbn beta. rewrite Nat.eqb_refl. cbn [andb]. destruct (Nat.eqb_spec s j); [reflexivity|apply Zs; lia].
      - exists a'. split; [exact E|]. exists g'. split; [exact Hg'|]. intros r' s Hr Hs.
        destruct (Nat.eq_dec r' i) as [->|]; [apply Zr; exact Hs|apply Zg'; auto; lia]. }
    rewrite E2. cbn [bind].
    destruct (FOR_inv (fun i a => is_mat N N a (fun r s => if r <? i then setup_entry n r s else fz 0)) N (dense_row n) a2) as (a3 & E3 & H3).
    - apply (is_mat_ext _ _ _ _ _ H2). intros r' s Hr Hs. apply Z2; auto.
    - intros i a Hi Ha. destruct (dense_row_ok i a _ Hi Ha) as (a' & E & Ha').
      { intros j Hj. rewrite Nat.ltb_irrefl. reflexivity. }
      exists a'. split; [exact E|]. apply (is_mat_ext _ _ _ _ _ Ha'). intros r' s Hr Hs. cbn beta.
      destruct (Nat.eqb_spec r' i) as [->|]; [|].
      + destruct (Nat.ltb_spec i (i + 1)); [reflexivity|lia].
      + destruct (Nat.ltb_spec r' i), (Nat.ltb_spec r' (i + 1)); try lia; reflexivity.
    - exists a3. split; [exact E3|]. apply (is_mat_ext _ _ _ _ _ H3). intros r' s Hr Hs. unfold setup_matrix. fold N.
      apply Nat.ltb_lt in Hr as Hr', Hs as Hs'. rewrite Hr', Hs'. reflexivity.
  Qed.
End Filling.

Local Open Scope R_scope.

(** A row of the grid, the columns counted by the parabola. *)
Lemma hump_row dbg n g A i : (2 <= n)%nat -> create_graph_structured dbg false n = Ok g -> stencil g 4 A -> (i < n * n)%nat ->
  let v j := hump (INR n) (INR (j / n)) in
  rsum (n * n) (fun j => if (j =? i)%nat then 0 else v j * Rabs (A i j)) <= 4 * v i - 2.
Proof.
  intros Hn Hg HA Hi v. assert (Hy : (i / n < n)%nat) by (apply Nat.div_lt_upper_bound; lia). set (y := (i / n)%nat) in *.
  pose proof (grid_row_sum dbg n g A (fun y _ => hump (INR n) y) i Hn Hg HA Hi) as G. cbv zeta in G. fold y in G.
  assert (P1 : 0 <= hump (INR n) (INR y)) by (apply hump_nonneg; lia).
  assert (P2 : 0 <= hump (INR n) (INR y - 1)).
  { destruct y as [|t]; [unfold hump; cbn [INR]; lra|]. rewrite S_INR. replace (INR t + 1 - 1) with (INR t) by ring. apply hump_nonneg. lia. }
  assert (P3 : 0 <= hump (INR n) (INR y + 1)).
  { replace (INR y + 1) with (INR (y + 1)) by (rewrite plus_INR; reflexivity). apply hump_nonneg. lia. }
  specialize (G P1 P1 P2 P3). pose proof (hump_step (INR n) (INR y)) as S.
  rewrite (asum_ext _ _ (n * n) _ (fun j => if (j =? i)%nat then 0 else Rabs (A i j) * hump (INR n) (INR (j / n)))).
  - unfold v. fold y. lra.
  - intros j Hj. unfold v. destruct (j =? i)%nat; [reflexivity|ring].
Qed.

Lemma u_small : f_u <= / 1000000000000000.
Proof.
  unfold f_u. apply Rinv_le_contravar; [lra|]. rewrite pow_IZR. apply IZR_le. vm_compute. discriminate.
Qed.

Lemma gamma_near k : INR k * f_u <= / 1000 -> f_gamma k <= 1002 / 1000 * (INR k * f_u).
Proof.
  intro H. pose proof u_pos as Hu. pose proof (gamma_bound k ltac:(lra)) as G. apply Rle_trans with (1 := G).
  set (t := INR k * f_u) in *. assert (0 <= t) by (apply Rmult_le_pos; [apply pos_INR|lra]).
  apply (Rmult_le_reg_r (1 - t)); [lra|]. unfold Rdiv at 1. rewrite Rmult_assoc, Rinv_l by lra. nra.
Qed.

Lemma limit_big k : (k <= 1023)%nat -> 2 ^ k <= f_limit.
Proof. intro H. unfold f_limit. apply Rle_pow; [lra|exact H]. Qed.

(** The sizes. *)
Section Sizes.
  Variables (n : nat) (H tol : R).
  Hypothesis Hn : (2 <= n <= 1000)%nat.
  Hypothesis HH : / 2 ^ 900 <= H <= 2 ^ 900.
  Hypothesis Ht : 0 <= tol.
  Hypothesis Htm : (INR n + 1) ^ 2 * tol <= 2.
  Let N := (n * n)%nat.
  Let m := INR n + 1.
  Let K := m ^ 2 / 4.
  Let T := 2 * m ^ 2.

  Lemma n_range : 2 <= INR n <= 1000.
  Proof using Hn.
    split; [apply (le_INR 2); lia|]. replace 1000 with (INR 1000) by (rewrite INR_IZR_INZ; reflexivity). apply le_INR. lia.
  Qed.

  Lemma m2_range : 9 <= m ^ 2 <= 1002001.
  Proof using Hn. pose proof n_range. unfold m. cbn [pow]. nra. Qed.

  Lemma N_real : INR N = INR n * INR n.
  Proof using. apply mult_INR. Qed.

  Lemma N_range : 4 <= INR N <= 1000000.
  Proof using Hn. rewrite N_real. pose proof n_range. nra. Qed.

  Lemma H_pos : 0 < H.
  Proof using HH. destruct HH as [L _]. apply Rlt_le_trans with (2 := L). apply Rinv_0_lt_compat, pow_lt. lra. Qed.

  Lemma K_H : K * H <= f_limit.
  Proof using Hn HH.
    pose proof m2_range. pose proof H_pos. destruct HH as [_ U]. apply Rle_trans with (2 ^ 20 * 2 ^ 900).
    - apply Rmult_le_compat; [unfold K; lra|lra| |exact U]. unfold K. rewrite pow_IZR. change (2 ^ Z.of_nat 20)%Z with 1048576%Z. lra.
    - rewrite <- pow_add. apply limit_big. apply Nat.leb_le. reflexivity.
  Qed.

  Lemma T_limit : 8 * T <= f_limit /\ 8 * T * H <= f_limit.
  Proof using Hn HH.
    pose proof m2_range. pose proof H_pos. destruct HH as [_ U].
    assert (T8 : 8 * T <= 2 ^ 24) by (unfold T; rewrite pow_IZR; change (2 ^ Z.of_nat 24)%Z with 16777216%Z; lra).
    split; [apply Rle_trans with (1 := T8), limit_big, Nat.leb_le; reflexivity|].
    apply Rle_trans with (2 ^ 24 * 2 ^ 900).
    - apply Rmult_le_compat; try lra. unfold T. lra.
    - rewrite <- pow_add. apply limit_big. apply Nat.leb_le. reflexivity.
  Qed.

  Lemma floor_small : INR N * (K + / H) / 2 ^ 969 <= 1.
  Proof using Hn HH.
    pose proof m2_range. pose proof N_range. pose proof H_pos. destruct HH as [L _].
    assert (I : / H <= 2 ^ 900).
    { rewrite <- (Rinv_inv (2 ^ 900)). apply Rinv_le_contravar; [apply Rinv_0_lt_compat, pow_lt; lra|exact L]. }
    assert (P : 0 < 2 ^ 969) by (apply pow_lt; lra).
    apply (Rmult_le_reg_r (2 ^ 969)); [exact P|]. unfold Rdiv. rewrite Rmult_assoc, Rinv_l, Rmult_1_r, Rmult_1_l by (apply Rgt_not_eq, P).
    replace 969%nat with (20 + (900 + 49))%nat by reflexivity. rewrite (pow_add 2 20).
    assert (I0 : 0 < / H) by (apply Rinv_0_lt_compat; lra).
    apply Rmult_le_compat; try lra.
    - unfold K. lra.
    - rewrite pow_add. assert (Q : 1 <= 2 ^ 900) by (apply pow_R1_Rle; lra).
      assert (Q2 : 1048576 <= 2 ^ 49) by (rewrite pow_IZR; apply IZR_le; vm_compute; discriminate).
      assert (KK : K <= 1048575) by (unfold K; lra).
      apply Rle_trans with (2 ^ 900 * 1048576); [|apply Rmult_le_compat_l; lra].
      clear - I KK Q. assert (K <= 1048575 * 2 ^ 900) by lra. lra.
  Qed.

  Lemma slack : K * tol + f_gamma (5 * N + 4) * T <= 1.
  Proof using Hn Ht Htm.
    pose proof m2_range as M2. pose proof N_range as NR. pose proof u_pos as Hu. pose proof u_small as Us.
    assert (E : INR (5 * N + 4) = 5 * INR N + 4) by (rewrite plus_INR, mult_INR; cbn [INR]; lra).
    assert (B : INR (5 * N + 4) * f_u <= 5000004 * / 1000000000000000) by (apply Rmult_le_compat; lra).
    pose proof (gamma_near (5 * N + 4) ltac:(lra)) as G.
    assert (G2 : f_gamma (5 * N + 4) <= / 100000000) by lra.
    assert (GT : f_gamma (5 * N + 4) * T <= / 100000000 * (2 * 1002001)).
    { apply Rmult_le_compat; try (unfold T; lra). apply gamma_nonneg. }
    assert (KT : K * tol <= 1 / 2) by (unfold K; fold m in Htm; lra). lra.
  Qed.

  Lemma error_size w : 0 <= w <= K -> w * (14 * INR N * f_gamma (3 * N) * T * H / 1) <= 22 * INR n ^ 4 * m ^ 4 * f_u * H.
  Proof using Hn HH.
    intro Hw. pose proof m2_range as M2. pose proof N_range as NR. pose proof u_pos as Hu. pose proof u_small as Us. pose proof H_pos as HP.
    assert (E : INR (3 * N) = 3 * INR N) by (rewrite mult_INR; cbn [INR]; lra).
    assert (B : INR (3 * N) * f_u <= 3000000 * / 1000000000000000) by (apply Rmult_le_compat; lra).
    pose proof (gamma_near (3 * N) ltac:(lra)) as G. rewrite E in G.
    assert (G0 : 0 <= f_gamma (3 * N)) by apply gamma_nonneg.
    assert (S : 14 * INR N * f_gamma (3 * N) * T * H / 1 <= 14 * INR N * (1002 / 1000 * (3 * INR N * f_u)) * T * H).
    { unfold Rdiv at 1. rewrite Rinv_1, Rmult_1_r. apply Rmult_le_compat_r; [lra|]. apply Rmult_le_compat_r; [unfold T; lra|].
      apply Rmult_le_compat_l; lra. }
    assert (S0 : 0 <= 14 * INR N * f_gamma (3 * N) * T * H / 1).
    { unfold Rdiv. rewrite Rinv_1, Rmult_1_r. assert (0 <= T) by (unfold T; lra).
      apply Rmult_le_pos; [|lra]. apply Rmult_le_pos; [|auto]. apply Rmult_le_pos; [lra|auto]. }
    apply Rle_trans with (K * (14 * INR N * (1002 / 1000 * (3 * INR N * f_u)) * T * H)).
    - apply Rmult_le_compat; lra.
    - rewrite N_real. unfold K, T.
      replace (m ^ 2 / 4 * (14 * (INR n * INR n) * (1002 / 1000 * (3 * (INR n * INR n) * f_u)) * (2 * m ^ 2) * H))
        with (21042 / 1000 * (INR n ^ 4 * m ^ 4 * f_u * H)) by (cbn [pow]; field).
      replace (22 * INR n ^ 4 * m ^ 4 * f_u * H) with (22 * (INR n ^ 4 * m ^ 4 * f_u * H)) by ring.
      pose proof n_range as NN. assert (0 <= INR n ^ 4) by (apply pow_le; lra). assert (0 <= m ^ 4) by (apply pow_le; unfold m; lra).
      apply Rmult_le_compat_r; [|lra]. apply Rmult_le_pos; [|lra]. apply Rmult_le_pos; [|lra]. apply Rmult_le_pos; auto.
  Qed.
End Sizes.

(** The dense matrix of the test filled, then factorised and solved with. *)
Lemma grid_direct dbg n r c a0 g0 : (2 <= n <= 1000)%nat -> is_mat r c a0 g0 -> let N := (n * n)%nat in let m := INR n + 1 in
  exists a, dense_setup n a0 = Ok a /\
  forall st x b h H, is_vec N (other_of x b) h -> finite_vec N h -> / 2 ^ 900 <= H <= 2 ^ 900 ->
    (forall i, (i < N)%nat -> Rabs (f_real (h i)) <= H) ->
    f_valid (lu_tolerance st) -> f_finite (lu_tolerance st) = true -> 0 <= f_real (lu_tolerance st) -> m ^ 2 * f_real (lu_tolerance st) <= 2 ->
  exists st' x' d z xs, factorise fops dbg false st a = Ok (st', true) /\
    lu_solve fops dbg false st' x b = Ok (x', d) /\ cd_converged d = true /\ is_vec N x' z /\ finite_vec N z /\
    poisson n xs (fun i => f_real (h i)) /\ (forall ys, poisson n ys (fun i => f_real (h i)) -> forall i, (i < N)%nat -> ys i = xs i) /\
    within N z xs (22 * INR n ^ 4 * m ^ 4 * f_u * H).
Proof.
  intros Hn H0 N m. assert (H2 : (2 <= n)%nat) by lia. destruct (dense_setup_ok n H2 a0 r c g0 H0) as (a & Ea & Ha). exists a. split; [exact Ea|].
  fold N in Ha. intros st x b h H Hb Hh HH Hhb Vt Ft Ht Htm.
  destruct (grid_spec dbg false n ltac:(lia)) as (g & Hg & _). pose proof (setup_stencil dbg n g H2 Hg) as Hs.
  destruct (grid_size dbg n g _ H2 Hg Hs) as (_ & _ & Hd).
  pose proof (H_pos H HH) as HP. pose proof (m2_range n Hn) as M2. fold m in M2.
  set (v := fun j => hump (INR n) (INR (j / n))).
  assert (Hy : forall i, (i < N)%nat -> (i / n < n)%nat) by (intros; apply Nat.div_lt_upper_bound; unfold N in *; lia).
  assert (Hv : forall j, (j < N)%nat -> 1 <= v j <= m ^ 2 / 4).
  { intros j Hj. split; [apply hump_pos; auto|]. pose proof (hump_bound (INR n) (INR (j / n))) as B. unfold v. fold m in B. lra. }
  assert (Hbh : forall i, (i < N)%nat -> 0 <= Rabs (f_real (h i)) / H <= 1).
  { intros i Hi. specialize (Hhb i Hi). pose proof (Rabs_pos (f_real (h i))). split; [apply Rmult_le_pos; [auto|apply Rlt_le, Rinv_0_lt_compat, HP]|].
    apply (Rmult_le_reg_r H); [exact HP|]. unfold Rdiv. rewrite Rmult_assoc, Rinv_l by lra. lra. }
  assert (Hrow : forall i, (i < N)%nat -> rsum N (fun j => if (j =? i)%nat then 0 else v j * Rabs (f_real (setup_matrix n i j))) <= 4 * v i - 2).
  { intros i Hi. exact (hump_row dbg n g _ i H2 Hg Hs Hi). }
  assert (Hd4 : forall i, (i < N)%nat -> Rabs (f_real (setup_matrix n i i)) = 4) by (intros i Hi; rewrite Hd by auto; apply Rabs_pos_eq; lra).
  destruct (T_limit n H Hn HH) as [T1 T2]. fold m in T1, T2.
  destruct (scaled_solved dbg N st a (setup_matrix n) x b h 1 H (2 * m ^ 2) (m ^ 2 / 4) v) as (st' & x' & d & z & xs & E1 & E2 & E3 & E4 & E5 & E6 & E7 & E8 & E9);
    auto.
  - intros; apply setup_finite.
  - apply Rle_trans with (2 := proj1 HH). apply Rinv_le_contravar; [apply pow_lt; lra|]. apply Rle_pow; [lra|]. apply Nat.leb_le. reflexivity.
  - exact (K_H n H Hn HH).
  - intros i Hi. unfold scaled_margin. rewrite Hd4 by auto. specialize (Hrow i Hi). specialize (Hbh i Hi). lra.
  - intros i Hi. unfold scaled_size. specialize (Hrow i Hi). specialize (Hbh i Hi). specialize (Hv i Hi).
    pose proof (sum_split rops Ropp Rinv R_field N i (fun j => v j * Rabs (f_real (setup_matrix n i j))) Hi) as S. cbn [rops sc_add sc_zero] in S. rewrite S, Hd4 by auto.
    pose proof (floor_small n H Hn HH) as F. fold N m in F. lra.
  - exact (slack n (f_real (lu_tolerance st)) Hn Ht Htm).
  - exists st', x', d, z, xs. do 5 (split; [assumption|]). split; [apply setup_poisson; auto|]. split.
    + intros ys Hys i Hi. apply E8; [|exact Hi]. apply setup_poisson; auto.
    + intros i Hi. eapply Rle_trans; [apply E9, Hi|]. destruct (Hv i Hi). apply (error_size n H Hn HH). fold m. lra.
Qed.

Lemma test_direct : is_vec 100 (other_of [] (Some (repeat (fz 1) 100))) (fun _ => fz 1) /\ finite_vec 100 (fun _ => fz 1) /\
  / 2 ^ 900 <= 1 <= 2 ^ 900 /\ (forall i, (i < 100)%nat -> Rabs (f_real (fz 1)) <= 1) /\
  (INR 10 + 1) ^ 2 * f_real (lu_tolerance (lu_default fops)) <= 2.
Proof.
  split; [split; [reflexivity|intros i Hi; apply nth_error_repeat, Hi]|]. split; [intros i _; split; vm_compute; reflexivity|].
  assert (P : 1 <= 2 ^ 900) by (apply pow_R1_Rle; lra). split; [split; [|exact P]; apply Rle_trans with (/ 1); [apply Rinv_le_contravar; lra|lra]|].
  split; [intros i _; rewrite (proj1 (proj2 fz_real)), Rabs_R1; lra|]. destruct default_tolerance_f as (_ & _ & ->).
  assert (Q : / 2 ^ 46 <= / 128) by (apply Rinv_le_contravar; [lra|]; rewrite pow_IZR; apply IZR_le; vm_compute; discriminate).
  cbn [INR]. lra.
Qed.

Lemma dense_filled dbg n g r c a0 g0 : (2 <= n)%nat -> create_graph_structured dbg false n = Ok g -> is_mat r c a0 g0 ->
  exists a A, dense_setup n a0 = Ok a /\ is_mat (n * n) (n * n) a A /\
    stencil g 4 (fun i j => f_real (A i j)) /\ (forall i j, f_valid (A i j) /\ f_finite (A i j) = true) /\
    forall u h, (forall i, (i < n * n)%nat -> rsum (n * n) (fun j => f_real (A i j) * u j) = h i) <-> poisson n u h.
Proof.
  intros Hn Hg H0. destruct (dense_setup_ok n Hn a0 r c g0 H0) as (a & Ea & Ha). exists a, (setup_matrix n). split; [exact Ea|]. split; [exact Ha|].
  split; [apply (setup_stencil dbg); auto|]. split; [apply setup_finite|]. intros u h. apply setup_poisson, Hn.
Qed.

(** Three unknowns on a line: the row in the middle has no margin of its own. *)
Definition line_f : list (list f64) := [[fz 2; fz (-1); fz 0]; [fz (-1); fz 2; fz (-1)]; [fz 0; fz (-1); fz 2]].
Definition line_A (i j : nat) : f64 := nth j (nth i line_f []) (fz 0).
Definition line_b : list f64 := [fz 1; fz 1; fz 1].
Definition line_wt (i : nat) : R := nth i [3; 4; 3] 0.

Lemma line_hypotheses : is_mat 3 3 line_f line_A /\ is_vec 3 (other_of [] (Some line_b)) (fun _ => fz 1) /\
  (forall i j, (i < 3)%nat -> (j < 3)%nat -> f_valid (line_A i j) /\ f_finite (line_A i j) = true) /\ finite_vec 3 (fun _ => fz 1) /\
  (forall j, (j < 3)%nat -> 1 <= line_wt j <= 4) /\ / 2 ^ 1022 <= 1 /\ 4 * 1 <= f_limit /\
  (forall i, (i < 3)%nat -> 1 <= scaled_margin 3 line_wt line_A (fun _ => fz 1) 1 i) /\
  (forall i, (i < 3)%nat -> scaled_size 3 line_wt line_A (fun _ => fz 1) 1 i + INR 3 * (4 + / 1) / 2 ^ 969 <= 18) /\
  4 * f_real (lu_tolerance (lu_default fops)) + f_gamma (5 * 3 + 4) * 18 <= 1 /\ 8 * 18 <= f_limit /\ 8 * 18 * 1 <= f_limit /\
  margin 3 line_A (fun _ => fz 0) 1 1 = 0.
Proof.
  destruct fz_real as (E0 & E1 & E2 & _). pose proof fzm1 as Em.
  assert (L9 : 2 ^ 9 <= f_limit) by (apply limit_big; apply Nat.leb_le; reflexivity).
  split; [|split; [|split; [|split; [|split; [|split; [|split; [|split; [|split; [|split; [|split; [|split]]]]]]]]]]].
  - split; [reflexivity|]. intros [|[|[|i]]] Hi; try lia; eexists; (split; [reflexivity|]); apply is_vec_self.
  - split; [reflexivity|]. intros [|[|[|i]]] Hi; try lia; reflexivity.
  - intros [|[|[|i]]] [|[|[|j]]] Hi Hj; try lia; split; reflexivity.
  - intros i Hi. split; reflexivity.
  - intros [|[|[|i]]] Hi; try lia; cbn; lra.
  - apply Rle_trans with (/ 1); [|lra]. apply Rinv_le_contravar; [lra|apply pow_R1_Rle; lra].
  - lra.
  - intros [|[|[|i]]] Hi; try lia; unfold scaled_margin, line_wt, line_A, line_f; cbn [asum nth Nat.eqb rops sc_add sc_zero];
      rewrite ?E0, ?E1, ?E2, ?Em, ?Rabs_R0, ?Rabs_R1, ?(Rabs_pos_eq 2), ?(Rabs_left (-1)) by lra; lra.
  - assert (Ht : INR 3 * (4 + / 1) / 2 ^ 969 <= 1).
    { change (INR 3) with (1 + 1 + 1). assert (H : / 2 ^ 969 <= / 2 ^ 4).
      { apply Rinv_le_contravar; [lra|]. apply Rle_pow; [lra|apply Nat.leb_le; reflexivity]. }
      apply Rle_trans with ((1 + 1 + 1) * (4 + / 1) * / 2 ^ 4); [apply Rmult_le_compat_l; lra|lra]. }
    intros [|[|[|i]]] Hi; try lia; unfold scaled_size, line_wt, line_A, line_f; cbn [asum nth rops sc_add sc_zero];
      rewrite ?E0, ?E1, ?E2, ?Em, ?Rabs_R0, ?Rabs_R1, ?(Rabs_pos_eq 2), ?(Rabs_left (-1)) by lra; lra.
  - destruct default_tolerance_f as (_ & _ & ->). assert (/ 2 ^ 46 <= / 2 ^ 4) by (apply Rinv_le_contravar; [lra|apply Rle_pow; [lra|lia]]).
    pose proof u_small as Us. pose proof u_pos as Hu. assert (E : INR (5 * 3 + 4) = 19) by (rewrite INR_IZR_INZ; reflexivity).
    pose proof (gamma_near (5 * 3 + 4)) as G. rewrite E in G. specialize (G ltac:(lra)). lra.
  - lra.
  - lra.
  - unfold margin, off_diagonal, line_A, line_f. cbn [asum nth Nat.eqb rops sc_add sc_zero].
    rewrite ?E0, ?E2, ?Em, ?Rabs_R0, ?(Rabs_pos_eq 2), ?(Rabs_left (-1)) by lra. lra.
Qed.
