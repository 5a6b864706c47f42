(** Pivoting in doubles on systems whose columns dominate after a scaling of the equations: no rows are exchanged. *)
From Coq Require Import ZArith Reals Lra Lia List SpecFloat.
From Verif Require Import Base ListFacts DenseModel DenseFacts ScalarModel GeometryReal GraphModel GraphSpec GraphGen LuModel LuFacts LuReal
  FloatFacts FloatError IterFloat LuFloat PropFloatLemmas FloatUnit FloatSweep IterField IterReal LuSuccess PropSuccessLemmas PropIterLemmas
  LuDominant PropRelaxLemmas PropChainLemmas PropDominantLemmas PropDefiniteLemmas PropCloseLemmas PropPivotLemmas LuColumn
  GridSetup PropGridLemmas GridWhole GridDirect.
Import ListNotations.

(** When the search stays on the diagonal, pivoting changes nothing. *)
Section Stays.
  Context {S : Type}.
  Variables (O : sops S) (dbg : bool).

  Lemma pivoting_idle n st (a : list (list S)) A (Inv : nat -> (nat -> nat -> S) -> Prop) :
    is_mat n n a A ->
    (forall m g i, is_mat n n m g -> i < n -> Inv i g -> lu_search O dbg m i = Ok i) ->
    Inv 0 A ->
    (forall i g, i < n -> Inv i g -> sc_lt O (sc_abs O (g i i)) (lu_tolerance st) = false /\
       Inv (i + 1) (fun r c => if i <? r then elim_row O g i r c else g r c)) ->
    exists m, factorise O dbg true st a = Ok (mkLu true (lu_tolerance st) m (seq 0 n), true) /\
      factorise O dbg false st a = Ok (mkLu true (lu_tolerance st) m (lu_pivots st), true) /\ exists g, is_mat n n m g /\ Inv n g.
  Proof using.
    intros Ha HP H0 Hstep. unfold factorise. rewrite (is_mat_rows _ _ _ _ Ha), (shape_cols _ _ _ _ Ha) by auto.
    assert (G : forall k, k <= n -> exists m g, FOR k (lu_round O dbg true (lu_tolerance st)) (true, a, seq 0 n) = Ok (true, m, seq 0 n) /\
      FOR k (lu_round O dbg false (lu_tolerance st)) (true, a, lu_pivots st) = Ok (true, m, lu_pivots st) /\ is_mat n n m g /\ Inv k g).
    { induction k as [|k IH]; intro Hk.
      - exists a, A. split; [reflexivity|]. split; [reflexivity|]. split; auto.
      - destruct (IH ltac:(lia)) as (m & g & E1 & E2 & Hm & HI). replace (Datatypes.S k) with (k + 1) by lia. rewrite !FOR_S, E1, E2. cbn [bind].
        unfold lu_round, lu_pivot. rewrite (HP m g k Hm ltac:(lia) HI). cbn [bind]. rewrite Nat.eqb_refl. cbn [bind].
        rewrite (is_mat_get _ _ _ _ _ _ Hm) by lia. cbn [bind]. destruct (Hstep k g ltac:(lia) HI) as [-> HI'].
        destruct (eliminate_ok O n m g k Hm ltac:(lia)) as (m2 & -> & Hm2). cbn [bind].
        exists m2. eexists. split; [reflexivity|]. split; [reflexivity|]. split; [exact Hm2|exact HI']. }
    destruct (G n (le_n n)) as (m & g & E1 & E2 & Hm & HI). rewrite E1, E2. cbn [bind]. exists m. split; [reflexivity|]. split; [reflexivity|].
    exists g. auto.
  Qed.

  (** Pivots which exchange nothing. *)
  Lemma solve_idle n t p (m : list (list S)) x b : m_rows m = n ->
    lu_solve O dbg true (mkLu true t m (seq 0 n)) x b = lu_solve O dbg false (mkLu true t m p) x b.
  Proof using.
    intro Hr. unfold lu_solve. cbn [lu_matrix lu_factorised].
    destruct (ASSERT_DEBUG dbg _); cbn [bind]; auto. set (x0 := vresize _ _ _).
    assert (E : lu_forward O true (mkLu true t m (seq 0 n)) b x0 = lu_forward O false (mkLu true t m p) b x0); [|rewrite E; reflexivity].
    unfold lu_forward. cbn [lu_matrix lu_pivots]. rewrite Hr. apply FOR_ext. intros i s Hi.
    assert (V : vget (seq 0 n) i = Ok i).
    { apply vget_Ok. rewrite nth_error_nth' with (d := 0) by (rewrite seq_length; exact Hi). rewrite seq_nth by exact Hi. reflexivity. }
    rewrite V. reflexivity.
  Qed.
End Stays.

Local Open Scope R_scope.

(** The margin by which the diagonal of a column dominates when row [i] counts [wt i] times, and the size of the column. *)
Definition column_excess n (wt : nat -> R) (A : nat -> nat -> f64) (j : nat) : R :=
  wt j * Rabs (f_real (A j j)) - rsum n (fun i => if (i =? j)%nat then 0 else wt i * Rabs (f_real (A i j))).
Definition column_size n (wt : nat -> R) (A : nat -> nat -> f64) (j : nat) : R := rsum n (fun i => wt i * Rabs (f_real (A i j))).

Lemma columns_stay dbg n st a A m T K wt : is_mat n n a A -> entries n A ->
  number (lu_tolerance st) -> 0 <= f_real (lu_tolerance st) ->
  (forall i, (i < n)%nat -> 1 <= wt i <= K) -> (forall i j, (i < j < n)%nat -> wt i <= wt j) -> INR n * K <= 2 ^ 969 ->
  (forall j, (j < n)%nat -> m <= column_excess n wt A j) ->
  (forall j, (j < n)%nat -> column_size n wt A j + INR n * K / 2 ^ 969 <= T) ->
  K * (f_real (lu_tolerance st) + / 2 ^ 45) + f_gamma (4 * n) * T < m -> 8 * T <= f_limit ->
  exists s, factorise fops dbg true st a = Ok (mkLu true (lu_tolerance st) s (seq 0 n), true) /\
    factorise fops dbg false st a = Ok (mkLu true (lu_tolerance st) s (lu_pivots st), true) /\
    forall x b, lu_solve fops dbg true (mkLu true (lu_tolerance st) s (seq 0 n)) x b =
      lu_solve fops dbg false (mkLu true (lu_tolerance st) s (lu_pivots st)) x b.
Proof.
  intros Ha HA Nt Ht Hq Hord HnK Hm HT Hg HT1.
  set (v := fun i => if (i <? n)%nat then wt i else wt 0%nat).
  assert (Ev : forall i, (i < n)%nat -> v i = wt i) by (intros i Hi; unfold v; destruct (Nat.ltb_spec i n); [reflexivity|lia]).
  assert (G : exists s, factorise fops dbg true st a = Ok (mkLu true (lu_tolerance st) s (seq 0 n), true) /\
    factorise fops dbg false st a = Ok (mkLu true (lu_tolerance st) s (lu_pivots st), true) /\ exists g, is_mat n n s g /\ True).
  { destruct (Nat.eq_dec n 0) as [Z|Z].
    - apply (pivoting_idle fops dbg n st a A (fun _ _ => True)); auto; intros; lia.
    - assert (Hn : (0 < n)%nat) by lia.
      assert (Hv : forall i, 1 <= v i <= K) by (intro i; unfold v; destruct (Nat.ltb_spec i n); apply Hq; auto).
      pose proof (Hv 0%nat) as Hv0. assert (P9 : 0 < 2 ^ 969) by (apply pow_lt; lra). pose proof u_pos as Hu.
      assert (N1 : 1 <= INR n) by (apply (le_INR 1); lia).
      assert (Ef : cfloor n K = INR n * K / 2 ^ 969) by (unfold cfloor; rewrite tiny_pow; reflexivity).
      assert (Hfl : cfloor n K <= 1).
      { rewrite Ef. apply (Rmult_le_reg_r (2 ^ 969)); [exact P9|]. unfold Rdiv. rewrite Rmult_assoc, Rinv_l by (apply Rgt_not_eq, P9). lra. }
      assert (Hf0 : 0 < cfloor n K).
      { rewrite Ef. apply Rmult_lt_0_compat; [apply Rmult_lt_0_compat; lra|apply Rinv_0_lt_compat, P9]. }
      assert (Hsz : forall j, rsum n (fun i => wt i * Rabs (f_real (A i j))) = rsum n (cmag v A j)).
      { intro j. apply asum_ext. intros i Hi. unfold cmag. rewrite Ev by auto. reflexivity. }
      assert (HT0 : 0 < T).
      { specialize (HT 0%nat Hn). rewrite <- Ef in HT. unfold column_size in HT. rewrite Hsz in HT.
        pose proof (rsum_nonneg n (cmag v A 0) ltac:(intros; apply (cmag_nonneg K v Hv))). lra. }
      assert (Hc : forall j, (j < n)%nat -> col_ok n K v A 0 j m T).
      { intros j Hj. specialize (Hm j Hj). specialize (HT j Hj). rewrite <- Ef in HT. unfold column_excess in Hm. unfold column_size in HT.
        rewrite Hsz in HT. split.
        - assert (E : wsum n 0 j (cmag v A j) = rsum n (fun i => if (i =? j)%nat then 0 else wt i * Rabs (f_real (A i j)))).
          { apply asum_ext. intros i Hi. cbn [Nat.leb andb]. unfold cmag. rewrite Ev by auto. destruct (i =? j)%nat; reflexivity. }
          rewrite E. unfold cmag. rewrite Ev by auto. lra.
        - assert (E : wsum n 0 n (cmag v A j) = rsum n (cmag v A j)).
          { apply asum_ext. intros i Hi. destruct (Nat.eqb_spec i n); [lia|]. reflexivity. }
          rewrite E. exact HT. }
      assert (HmT : m <= T).
      { destruct (Hc 0%nat Hn) as [C1 C2]. rewrite (wsum_all n 0 0) in C2 by lia.
        pose proof (wsum_nonneg n 0 0 (cmag v A 0) ltac:(intro; apply (cmag_nonneg K v Hv))). lra. }
      assert (P45 : 0 < / 2 ^ 45) by (apply Rinv_0_lt_compat, pow_lt; lra).
      set (tol := f_real (lu_tolerance st)) in *.
      assert (Hkt : 0 <= K * (tol + / 2 ^ 45)) by (apply Rmult_le_pos; lra).
      assert (Hgam : f_gamma (4 * n) <= 1) by (apply (Rmult_le_reg_r T); [exact HT0|]; lra).
      set (mu := m - f_gamma (4 * n) * T). assert (Hmu : K * (tol + / 2 ^ 45) < mu) by (unfold mu; lra).
      assert (HKl : K <= f_limit).
      { apply Rle_trans with (2 ^ 969); [|apply limit_big; apply Nat.leb_le; reflexivity]. apply Rle_trans with (2 := HnK).
        rewrite <- (Rmult_1_l K) at 1. apply Rmult_le_compat_r; lra. }
      assert (Piv : forall i g, (i < n)%nat -> column_state n K v m T i g -> tol + / 2 ^ 45 < Rabs (f_real (g i i))).
      { intros i g Hi Hs. destruct (column_pivot n K v Hv m T (Rlt_le _ _ HT0) ltac:(fold mu; lra) i g Hi Hs) as [P _]. fold mu in P. unfold cmag in P.
        destruct (Hv i) as [V1 V2]. apply (Rmult_lt_reg_l (v i)); [lra|]. apply Rlt_le_trans with (2 := P).
        apply Rle_lt_trans with (2 := Hmu). apply Rmult_le_compat_r; lra. }
      destruct (pivoting_idle fops dbg n st a A (column_state n K v m T) Ha) as (s & E1 & E2 & g & Hs & _).
      + intros mm g i Hmm Hi Hs. pose proof (Piv i g Hi Hs) as P. destruct Hs as [Hf Hs'].
        apply (search_stays dbg n mm g i Hmm Hi).
        * intros k Hk. apply Hf; lia.
        * intros k Hk. destruct (Nat.eq_dec k i) as [->|]; [lra|].
          apply (column_pivot n K v Hv m T (Rlt_le _ _ HT0) ltac:(fold mu; lra) i g Hi (conj Hf Hs')); [lia|]. rewrite !Ev by lia. apply Hord. lia.
        * split; [lra|]. destruct (Hs' i ltac:(lia)) as [_ C2]. rewrite (wsum_all n i i) in C2 by lia.
          pose proof (wsum_nonneg n i i (cmag v g i) ltac:(intro; apply (cmag_nonneg K v Hv))). pose proof (cmag_ge K v Hv g i i).
          destruct (cpow_level n m T (Rlt_le _ _ HT0) i ltac:(lia)) as [L _]. pose proof (cTn_le n T (Rlt_le _ _ HT0) Hgam). lra.
      + apply column_0; auto.
      + intros i g Hi Hs. split.
        * pose proof (Piv i g Hi Hs) as P. destruct Hs as [Hf _]. destruct (number_abs _ (Hf i i Hi Hi)) as [Na Ra].
          cbn [fops sc_lt sc_abs]. apply (lt_num_false _ _ Na Nt). rewrite Ra. fold tol. lra.
        * exact (column_next n K v Hv Hfl m T (Rlt_le _ _ HT0) Hgam ltac:(fold mu; lra) HT1 HKl i g Hi Hs).
      + exists s. split; [exact E1|]. split; [exact E2|]. exists g. auto. }
  destruct G as (s & E1 & E2 & g & Hs & _). exists s. split; [exact E1|]. split; [exact E2|]. intros x b. apply solve_idle. apply (is_mat_rows _ _ _ _ Hs).
Qed.

(** ** The grid *)
Lemma hump_increase n i j : (i <= j < n)%nat -> hump (INR (2 * n + 1)) (INR i) <= hump (INR (2 * n + 1)) (INR j).
Proof.
  intros [H1 H2]. apply le_INR in H1. assert (INR j + 1 <= INR n) by (rewrite <- S_INR; apply le_INR; lia).
  rewrite plus_INR, mult_INR. cbn [INR]. unfold hump. pose proof (pos_INR i). nra.
Qed.

Lemma hump_column dbg n g A j : (2 <= n)%nat -> create_graph_structured dbg false n = Ok g -> stencil g 4 A -> (j < n * n)%nat ->
  let v i := hump (INR (2 * n + 1)) (INR (i / n)) in
  rsum (n * n) (fun i => if (i =? j)%nat then 0 else v i * Rabs (A i j)) <= 4 * v j - 2.
Proof.
  intros Hn Hg HA Hi v. destruct (grid_size dbg n g A Hn Hg HA) as (_ & Hsym & _).
  assert (Hy : (j / n < n)%nat) by (apply Nat.div_lt_upper_bound; lia). set (y := (j / n)%nat) in *. set (N := (2 * n + 1)%nat) in *.
  pose proof (grid_row_sum dbg n g A (fun y _ => hump (INR N) y) j Hn Hg HA Hi) as G. cbv zeta in G. fold y in G.
  assert (P1 : 0 <= hump (INR N) (INR y)) by (apply hump_nonneg; lia).
  assert (P2 : 0 <= hump (INR N) (INR y - 1)).
  { destruct y as [|t]; [unfold hump; cbn [INR]; lra|]. rewrite S_INR. replace (INR t + 1 - 1) with (INR t) by ring. apply hump_nonneg. lia. }
  assert (P3 : 0 <= hump (INR N) (INR y + 1)).
  { replace (INR y + 1) with (INR (y + 1)) by (rewrite plus_INR; reflexivity). apply hump_nonneg. lia. }
  specialize (G P1 P1 P2 P3). pose proof (hump_step (INR N) (INR y)) as S.
  rewrite (asum_ext _ _ (n * n) _ (fun i => if (i =? j)%nat then 0 else Rabs (A j i) * hump (INR N) (INR (i / n)))).
  - unfold v. fold y. lra.
  - intros i Hi'. unfold v. rewrite (Hsym i j) by auto. destruct (i =? j)%nat; [reflexivity|ring].
Qed.

Lemma grid_pivoting dbg n r c a0 g0 : (2 <= n <= 1000)%nat -> is_mat r c a0 g0 -> let N := (n * n)%nat in let m := INR n + 1 in
  exists a, dense_setup n a0 = Ok a /\
  forall st x b h H, is_vec N (other_of x b) h -> finite_vec N h -> / 2 ^ 900 <= H <= 2 ^ 900 ->
    (forall i, (i < N)%nat -> Rabs (f_real (h i)) <= H) ->
    f_valid (lu_tolerance st) -> f_finite (lu_tolerance st) = true -> 0 <= f_real (lu_tolerance st) -> m ^ 2 * f_real (lu_tolerance st) <= 1 ->
  exists st' x' d z xs, factorise fops dbg true st a = Ok (st', true) /\ lu_pivots st' = seq 0 N /\
    lu_solve fops dbg true st' x b = Ok (x', d) /\ cd_converged d = true /\ is_vec N x' z /\ finite_vec N z /\
    poisson n xs (fun i => f_real (h i)) /\ (forall ys, poisson n ys (fun i => f_real (h i)) -> forall i, (i < N)%nat -> ys i = xs i) /\
    within N z xs (22 * INR n ^ 4 * m ^ 4 * f_u * H).
Proof.
  intros Hn H0 N m. assert (H2 : (2 <= n)%nat) by lia. destruct (grid_direct dbg n r c a0 g0 Hn H0) as (a & Ea & Hd). exists a. split; [exact Ea|].
  destruct (dense_setup_ok n H2 a0 r c g0 H0) as (a1 & Ea1 & Ha). rewrite Ea in Ea1. injection Ea1 as <-. fold N m in Ha, Hd.
  intros st x b h H Hb Hh HH Hhb Vt Ft Ht Htm.
  destruct (Hd st x b h H Hb Hh HH Hhb Vt Ft Ht ltac:(lra)) as (st' & x' & d & z & xs & E1 & E2 & E3 & E4 & E5 & E6 & E7 & E8). clear Hd.
  destruct (grid_spec dbg false n ltac:(lia)) as (g & Hg & _). pose proof (setup_stencil dbg n g H2 Hg) as Hs.
  destruct (grid_size dbg n g _ H2 Hg Hs) as (_ & _ & Hd). pose proof (m2_range n Hn) as M2. fold m in M2. pose proof (N_range n Hn) as NR. fold N in NR.
  set (v := fun i => hump (INR (2 * n + 1)) (INR (i / n))).
  assert (Hy : forall i, (i < N)%nat -> (i / n < n)%nat) by (intros; apply Nat.div_lt_upper_bound; unfold N in *; lia).
  assert (Hv : forall i, (i < N)%nat -> 1 <= v i <= m ^ 2).
  { intros i Hi. specialize (Hy i Hi). split; [apply hump_pos; lia|]. pose proof (hump_bound (INR (2 * n + 1)) (INR (i / n))) as B. unfold v.
    assert (EE : INR (2 * n + 1) + 1 = 2 * m) by (rewrite plus_INR, mult_INR; cbn [INR]; unfold m; ring). rewrite EE in B.
    replace ((2 * m) ^ 2) with (4 * m ^ 2) in B by ring. lra. }
  assert (Hcol : forall j, (j < N)%nat -> rsum N (fun i => if (i =? j)%nat then 0 else v i * Rabs (f_real (setup_matrix n i j))) <= 4 * v j - 2).
  { intros j Hj. exact (hump_column dbg n g _ j H2 Hg Hs Hj). }
  assert (Hd4 : forall i, (i < N)%nat -> Rabs (f_real (setup_matrix n i i)) = 4) by (intros i Hi; rewrite Hd by auto; apply Rabs_pos_eq; lra).
  assert (Big : INR N * m ^ 2 <= 2 ^ 969).
  { apply Rle_trans with (2 ^ 20 * 2 ^ 20).
    - assert (Q : 2 ^ 20 = 1048576) by (rewrite pow_IZR; reflexivity). rewrite Q. apply Rmult_le_compat; lra.
    - rewrite <- pow_add. apply Rle_pow; [lra|]. apply Nat.leb_le. reflexivity. }
  assert (Fl : INR N * m ^ 2 / 2 ^ 969 <= 1).
  { assert (P : 0 < 2 ^ 969) by (apply pow_lt; lra). apply (Rmult_le_reg_r (2 ^ 969)); [exact P|].
    unfold Rdiv. rewrite Rmult_assoc, Rinv_l by (apply Rgt_not_eq, P). lra. }
  destruct (columns_stay dbg N st a (setup_matrix n) 2 (8 * m ^ 2) (m ^ 2) v Ha) as (s & F1 & F2 & F3).
  - intros i j _ _. apply setup_finite.
  - split; auto.
  - exact Ht.
  - exact Hv.
  - intros i j Hij. unfold v. apply hump_increase. split; [apply Nat.div_le_mono; lia|apply Hy; lia].
  - exact Big.
  - intros j Hj. unfold column_excess. rewrite Hd4 by auto. specialize (Hcol j Hj). lra.
  - intros j Hj. unfold column_size. specialize (Hcol j Hj). specialize (Hv j Hj).
    pose proof (sum_split rops Ropp Rinv R_field N j (fun i => v i * Rabs (f_real (setup_matrix n i j))) Hj) as S. cbn [rops sc_add sc_zero] in S.
    rewrite S, Hd4 by auto. lra.
  - pose proof u_pos as Hu. pose proof u_small as Us. assert (E : INR (4 * N) = 4 * INR N) by (rewrite mult_INR; cbn [INR]; lra).
    assert (B : INR (4 * N) * f_u <= 4000000 * / 1000000000000000) by (apply Rmult_le_compat; lra).
    pose proof (gamma_near (4 * N) ltac:(lra)) as G. assert (G2 : f_gamma (4 * N) <= / 100000000) by lra.
    assert (GT : f_gamma (4 * N) * (8 * m ^ 2) <= / 100000000 * (8 * 1002001)) by (apply Rmult_le_compat; try lra; apply gamma_nonneg).
    assert (P45 : / 2 ^ 45 <= / 35184372088832) by (right; f_equal; rewrite pow_IZR; reflexivity).
    assert (KT : m ^ 2 * / 2 ^ 45 <= 1002001 * / 35184372088832) by (apply Rmult_le_compat; try lra; apply Rlt_le, Rinv_0_lt_compat, pow_lt; lra).
    rewrite Rmult_plus_distr_l. lra.
  - apply Rle_trans with (2 ^ 26); [rewrite pow_IZR; change (2 ^ Z.of_nat 26)%Z with 67108864%Z; lra|apply limit_big; apply Nat.leb_le; reflexivity].
  - rewrite F2 in E1. injection E1 as <-. rewrite <- F3 in E2. eexists. exists x', d, z, xs. split; [exact F1|]. split; [reflexivity|].
    do 6 (split; [assumption|]). exact E8.
Qed.

(** Three unknowns on a line. *)
Definition line_rows (i : nat) : R := nth i [7; 12; 15] 0.

Lemma line_columns : is_mat 3 3 line_f line_A /\ entries 3 line_A /\ number (lu_tolerance (lu_default fops)) /\
  0 <= f_real (lu_tolerance (lu_default fops)) /\ (forall i, (i < 3)%nat -> 1 <= line_rows i <= 15) /\
  (forall i j, (i < j < 3)%nat -> line_rows i <= line_rows j) /\ INR 3 * 15 <= 2 ^ 969 /\
  (forall j, (j < 3)%nat -> 2 <= column_excess 3 line_rows line_A j) /\
  (forall j, (j < 3)%nat -> column_size 3 line_rows line_A j + INR 3 * 15 / 2 ^ 969 <= 50) /\
  15 * (f_real (lu_tolerance (lu_default fops)) + / 2 ^ 45) + f_gamma (4 * 3) * 50 < 2 /\ 8 * 50 <= f_limit /\
  column_excess 3 (fun _ => 1) line_A 1 = 0.
Proof.
  destruct fz_real as (E0 & E1 & E2 & _). pose proof fzm1 as Em. destruct line_hypotheses as (H1 & _ & H2 & _).
  destruct default_tolerance_f as (Vt & Ft & Et).
  assert (L9 : 2 ^ 9 <= f_limit) by (apply limit_big; apply Nat.leb_le; reflexivity).
  assert (P6 : 2 ^ 6 <= 2 ^ 969) by (apply Rle_pow; [lra|apply Nat.leb_le; reflexivity]).
  assert (P46 : 0 < / 2 ^ 46 <= / 2 ^ 6) by (split; [apply Rinv_0_lt_compat, pow_lt; lra|]; apply Rinv_le_contravar; [lra|apply Rle_pow; [lra|lia]]).
  assert (P45 : / 2 ^ 45 <= / 2 ^ 6) by (apply Rinv_le_contravar; [lra|apply Rle_pow; [lra|lia]]).
  split; [exact H1|]. split; [intros i j Hi Hj; apply H2; auto|]. split; [split; assumption|]. rewrite Et. split; [lra|].
  split; [intros [|[|[|i]]] Hi; try lia; cbn; lra|].
  split; [intros [|[|[|i]]] [|[|[|j]]] Hij; try lia; cbn; lra|]. split; [cbn [INR]; lra|].
  split; [|split; [|split; [|split]]].
  - intros [|[|[|j]]] Hj; try lia; unfold column_excess, line_rows, line_A, line_f; cbn [asum nth Nat.eqb rops sc_add sc_zero];
      rewrite ?E0, ?E1, ?E2, ?Em, ?Rabs_R0, ?Rabs_R1, ?(Rabs_pos_eq 2), ?(Rabs_left (-1)) by lra; lra.
  - assert (Ht : INR 3 * 15 / 2 ^ 969 <= 1).
    { change (INR 3) with (1 + 1 + 1). assert (H : / 2 ^ 969 <= / 2 ^ 6) by (apply Rinv_le_contravar; lra).
      apply Rle_trans with ((1 + 1 + 1) * 15 * / 2 ^ 6); [apply Rmult_le_compat_l; lra|lra]. }
    intros [|[|[|j]]] Hj; try lia; unfold column_size, line_rows, line_A, line_f; cbn [asum nth rops sc_add sc_zero];
      rewrite ?E0, ?E1, ?E2, ?Em, ?Rabs_R0, ?Rabs_R1, ?(Rabs_pos_eq 2), ?(Rabs_left (-1)) by lra; lra.
  - pose proof u_small as Us. pose proof u_pos as Hu. assert (E : INR (4 * 3) = 12) by (rewrite INR_IZR_INZ; reflexivity).
    pose proof (gamma_near (4 * 3)) as G. rewrite E in G. specialize (G ltac:(lra)). lra.
  - lra.
  - unfold column_excess, line_A, line_f. cbn [asum nth Nat.eqb rops sc_add sc_zero].
    rewrite ?E0, ?E2, ?Em, ?Rabs_R0, ?(Rabs_pos_eq 2), ?(Rabs_left (-1)) by lra. lra.
Qed.

Lemma test_pivoting : is_vec 100 (other_of [] (Some (repeat (fz 1) 100))) (fun _ => fz 1) /\ finite_vec 100 (fun _ => fz 1) /\
  / 2 ^ 900 <= 1 <= 2 ^ 900 /\ (forall i, (i < 100)%nat -> Rabs (f_real (fz 1)) <= 1) /\
  (INR 10 + 1) ^ 2 * f_real (lu_tolerance (lu_default fops)) <= 1.
Proof.
  destruct test_direct as (H1 & H2 & H3 & H4 & _). do 4 (split; [assumption|]). destruct default_tolerance_f as (_ & _ & ->).
  assert (Q : / 2 ^ 46 <= / 128) by (apply Rinv_le_contravar; [lra|]; rewrite pow_IZR; apply IZR_le; vm_compute; discriminate).
  cbn [INR]. lra.
Qed.
