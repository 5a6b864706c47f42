(** Lemmas behind C143. *)
From Coq Require Import ZArith Reals Lra Lia List SpecFloat Psatz.
From Verif Require Import Base ListFacts Csr DenseModel DenseFacts ScalarModel GeometryReal GraphModel GraphSpec SparseModel SparseSpec
  SparseFacts SparseMul LuModel LuReal IterModel IterFacts IterLoop IterField IterReal FloatFacts FloatError IterFloat
  PropFloatLemmas FloatUnit PropIterLemmas LuSuccess FloatSweep PropSweepLemmas FloatStops FloatSor PropStopLemmas Energy EnergyDrift
  FloatDrift PropDefiniteLemmas SymmetricJacobi FloatDefJacobi PropDefiniteJacobiLemmas GraphGen PropRelaxLemmas PropChainLemmas
  ScaledSymmetric FloatGrid.
Import ListNotations.
Local Open Scope R_scope.

Lemma scaled_constants n A v q d : scaled_dominance n A v q -> q < 1 -> symmetric n A -> 0 < d ->
  (forall i, (i < n)%nat -> d <= A i i) ->
  coercivity n A ((1 - q) * d) /\ positive_definite n (mirrored A) /\ jacobi_factor n A q /\
  sweep_factor n A 1 (1 - (1 - q) / 8) /\ sweep_factor n A (3 / 2) (1 - 3 * (1 - q) / 50).
Proof.
  intros Hsd Hq Hs Hd Hdi. assert (Hp : forall i, (i < n)%nat -> 0 < A i i) by (intros i Hi; specialize (Hdi i Hi); lra).
  split; [apply (scaled_coercive n A v q); auto|]. split; [apply (mirrored_definite n A v q); auto|].
  split; [apply (scaled_jacobi n A v q); auto|]. split; [apply (scaled_seidel n A v q); auto|apply (scaled_sor n A v q); auto].
Qed.

(** The sum of a row of the grid, the columns weighted by a function of the place. *)
Lemma grid_row_sum dbg n g A (F : R -> R -> R) i : (2 <= n)%nat -> create_graph_structured dbg false n = Ok g -> stencil g 4 A -> (i < n * n)%nat ->
  let x := INR (i mod n) in let y := INR (i / n) in
  0 <= F y (x - 1) -> 0 <= F y (x + 1) -> 0 <= F (y - 1) x -> 0 <= F (y + 1) x ->
  rsum (n * n) (fun j => if (j =? i)%nat then 0 else Rabs (A i j) * F (INR (j / n)) (INR (j mod n))) <=
    F y (x - 1) + F y (x + 1) + F (y - 1) x + F (y + 1) x.
Proof.
  intros Hn Hg H Hi x' y' F1 F2 F3 F4. unfold x', y' in *. clear x' y'.
  destruct (grid_spec dbg false n ltac:(lia)) as (g' & Hg' & _ & Hsz & _ & He). rewrite Hg in Hg'. injection Hg' as <-.
  unfold stencil in H. rewrite Hsz in H.
  assert (Hx : (i mod n < n)%nat) by (apply Nat.mod_upper_bound; lia). assert (Hy : (i / n < n)%nat) by (apply Nat.div_lt_upper_bound; lia).
  pose proof (Nat.div_mod i n ltac:(lia)) as Ei. rewrite Nat.mul_comm in Ei. set (x := (i mod n)%nat) in *. set (y := (i / n)%nat) in *.
  apply Rle_trans with (total [((y * n + (x - 1))%nat, F (INR y) (INR x - 1)); ((y * n + (x + 1))%nat, F (INR y) (INR x + 1));
                               (((y - 1) * n + x)%nat, F (INR y - 1) (INR x)); (((y + 1) * n + x)%nat, F (INR y + 1) (INR x))]).
  - apply rsum_pairs.
    + intros p [<-|[<-|[<-|[<-|[]]]]]; cbn [snd]; auto.
    + intros j Hj. destruct (j =? i)%nat eqn:Eq; [left; lra|]. apply Nat.eqb_neq in Eq. destruct (H i j Hi Hj) as (_ & H1 & H2).
      destruct (edge_dec g i j) as [Hd|Hd]; [right|left; rewrite H2, Rabs_R0 by auto; lra].
      rewrite (H1 Hd), (Rabs_left (-1)) by lra. replace (- -1) with 1 by lra. rewrite Rmult_1_l.
      assert (Hx2 : (j mod n < n)%nat) by (apply Nat.mod_upper_bound; lia). assert (Hy2 : (j / n < n)%nat) by (apply Nat.div_lt_upper_bound; lia).
      pose proof (Nat.div_mod j n ltac:(lia)) as Ej. rewrite Nat.mul_comm in Ej. set (x2 := (j mod n)%nat) in *. set (y2 := (j / n)%nat) in *.
      rewrite Ei, Ej in Hd. apply He in Hd; auto. exists (F (INR y2) (INR x2)). split; [|lra]. rewrite Ej.
      destruct Hd as [(Hyy & Hxx)|[(Hxx & Hyy)|(_ & [(Hyy & Hxx)|(Hxx & Hyy)])]].
      * right; left. rewrite Hxx, <- Hyy, plus_INR. reflexivity.
      * right; right; right; left. rewrite Hyy, <- Hxx, plus_INR. reflexivity.
      * left. rewrite Hxx, <- Hyy, plus_INR. cbn [INR]. replace (INR x2 + 1 - 1) with (INR x2) by ring. f_equal. lia.
      * right; right; left. rewrite Hyy, <- Hxx, plus_INR. cbn [INR]. replace (INR y2 + 1 - 1) with (INR y2) by ring. f_equal. f_equal. f_equal. lia.
  - cbn [total fold_right snd]. lra.
Qed.

Lemma largest n (r : nat -> R) : (0 < n)%nat -> exists i, (i < n)%nat /\ forall j, (j < n)%nat -> r j <= r i.
Proof.
  induction n as [|n IH]; intro Hn; [lia|]. destruct n as [|n].
  - exists 0%nat. split; [lia|]. intros [|j] Hj; [lra|lia].
  - destruct (IH ltac:(lia)) as (i & Hi & H). destruct (Rle_lt_dec (r (S n)) (r i)) as [L|L].
    + exists i. split; [lia|]. intros j Hj. destruct (Nat.eq_dec j (S n)) as [->|]; [exact L|apply H; lia].
    + exists (S n). split; [lia|]. intros j Hj. destruct (Nat.eq_dec j (S n)) as [->|]; [lra|]. specialize (H j ltac:(lia)). lra.
Qed.

Section Real.
  Variables (dbg : bool) (n : nat) (g : graph) (A : nat -> nat -> R).
  Hypothesis Hn : (2 <= n)%nat.
  Hypothesis Hg : create_graph_structured dbg false n = Ok g.
  Hypothesis HA : stencil g 4 A.

  Lemma grid_size : size_vertex g = (n * n)%nat /\ symmetric (n * n) A /\ forall i, (i < n * n)%nat -> A i i = 4.
  Proof using Hn Hg HA.
    destruct (grid_spec dbg false n ltac:(lia)) as (g' & Hg' & Hwf & Hsz & _). rewrite Hg in Hg'. injection Hg' as <-.
    split; [exact Hsz|]. split; [rewrite <- Hsz; eapply stencil_symmetric; eauto|].
    intros i Hi. rewrite <- Hsz in Hi. destruct (HA i i Hi Hi) as (E & _). apply E. reflexivity.
  Qed.

  Lemma grid_rows i : (i < n * n)%nat -> rsum (n * n) (fun j => Rabs (A i j)) <= 8.
  Proof using Hn Hg HA.
    intro Hi. destruct grid_size as (_ & _ & Hd).
    pose proof (grid_row_sum dbg n g A (fun _ _ => 1) i Hn Hg HA Hi ltac:(lra) ltac:(lra) ltac:(lra) ltac:(lra)) as H. cbv zeta beta in H.
    pose proof (sum_split rops Ropp Rinv R_field (n * n) i (fun j => Rabs (A i j)) Hi) as S. cbn [rops sc_add sc_zero] in S. rewrite S.
    rewrite (Hd i Hi), (Rabs_pos_eq 4) by lra.
    rewrite (asum_ext _ _ (n * n) _ (fun j => if (j =? i)%nat then 0 else Rabs (A i j) * 1)) by (intros j Hj; destruct (j =? i)%nat; ring). lra.
  Qed.

  Lemma grid_constants : coercivity (n * n) A (4 / (INR n + 1) ^ 2 * 4) /\ positive_definite (n * n) (mirrored A) /\
    jacobi_factor (n * n) A (1 - 4 / (INR n + 1) ^ 2) /\ sweep_factor (n * n) A 1 (1 - 4 / (INR n + 1) ^ 2 / 8) /\
    sweep_factor (n * n) A (3 / 2) (1 - 3 * (4 / (INR n + 1) ^ 2) / 50).
  Proof using Hn Hg HA.
    destruct grid_size as (_ & Hs & Hd). destruct (slowness_range n ltac:(lia)) as (_ & S1).
    pose proof (scaled_constants (n * n) A _ _ 4 (grid_scaled dbg n g A Hn Hg HA) S1 Hs ltac:(lra) ltac:(intros i Hi; rewrite Hd by auto; lra)) as H.
    assert (E : 1 - slowness n = 4 / (INR n + 1) ^ 2) by (unfold slowness; ring). rewrite E in H. exact H.
  Qed.

  (** The solution and its size. *)
  Lemma grid_solution h H : 0 <= H -> (forall i, (i < n * n)%nat -> Rabs (h i) <= H) ->
    exists xs, (forall i, (i < n * n)%nat -> rsum (n * n) (fun j => A i j * xs j) = h i) /\
      (forall ys, (forall i, (i < n * n)%nat -> rsum (n * n) (fun j => A i j * ys j) = h i) -> forall i, (i < n * n)%nat -> ys i = xs i) /\
      forall i, (i < n * n)%nat -> Rabs (xs i) <= (INR n + 1) ^ 2 / 8 * H.
  Proof using Hn Hg HA.
    intros H0 Hh. destruct grid_size as (_ & Hs & Hd). destruct grid_constants as (C & _).
    assert (Hp : positive_definite (n * n) A).
    { intros e (i & Hi & Hne). destruct C as (L0 & C). apply Rlt_le_trans with (2 := C e). apply Rmult_lt_0_compat; [exact L0|].
      apply (rsum_pos _ _ i); auto; [intros; apply Rle_0_sqr|]. apply Rsqr_pos_lt in Hne. exact Hne. }
    destruct (definite_constants (n * n) A Hs Hp) as (_ & _ & _ & _ & _ & _ & _ & _ & _ & Hsol). destruct (Hsol h) as (xs & Hx & Hu).
    exists xs. split; [exact Hx|]. split; [exact Hu|].
    set (v := fun i => hump (INR n) (INR (i / n))).
    assert (Hy : forall i, (i < n * n)%nat -> (i / n < n)%nat) by (intros; apply Nat.div_lt_upper_bound; lia).
    assert (Hv : forall i, (i < n * n)%nat -> 1 <= v i) by (intros; apply hump_pos; auto).
    assert (Hrow : forall i, (i < n * n)%nat -> rsum (n * n) (fun j => if (j =? i)%nat then 0 else Rabs (A i j) * v j) <= 4 * v i - 2).
    { intros i Hi. specialize (Hy i Hi). set (y := (i / n)%nat) in *.
      pose proof (grid_row_sum dbg n g A (fun y _ => hump (INR n) y) i Hn Hg HA Hi) as G. cbv zeta in G. fold y in G.
      assert (P1 : 0 <= hump (INR n) (INR y)) by (apply hump_nonneg; lia).
      assert (P2 : 0 <= hump (INR n) (INR y - 1)).
      { destruct y as [|t]; [unfold hump; cbn [INR]; lra|]. rewrite S_INR. replace (INR t + 1 - 1) with (INR t) by ring. apply hump_nonneg. lia. }
      assert (P3 : 0 <= hump (INR n) (INR y + 1)).
      { replace (INR y + 1) with (INR (y + 1)) by (rewrite plus_INR; reflexivity). apply hump_nonneg. lia. }
      specialize (G P1 P1 P2 P3). pose proof (hump_step (INR n) (INR y)) as S. unfold v. fold y. lra. }
    destruct (largest (n * n) (fun i => Rabs (xs i) / v i) ltac:(nia)) as (i & Hi & Hmax).
    set (e := Rabs (xs i) / v i) in *. pose proof (Hv i Hi) as Vi.
    assert (e0 : 0 <= e) by (apply quotient_nonneg; [apply Rabs_pos|lra]).
    assert (All : forall j, (j < n * n)%nat -> Rabs (xs j) <= e * v j).
    { intros j Hj. specialize (Hmax j Hj). pose proof (Hv j Hj) as Vj. apply (Rmult_le_compat_r (v j)) in Hmax; [|lra].
      unfold Rdiv in Hmax. rewrite Rmult_assoc, Rinv_l, Rmult_1_r in Hmax by lra. exact Hmax. }
    assert (Eqe : Rabs (xs i) = e * v i) by (unfold e; field; lra).
    assert (He : e <= H / 2).
    { pose proof (sum_split rops Ropp Rinv R_field (n * n) i (fun j => A i j * xs j) Hi) as S. cbn [rops sc_add sc_zero] in S.
      rewrite (Hx i Hi), (Hd i Hi) in S.
      assert (Ab : Rabs (rsum (n * n) (fun j => if (j =? i)%nat then 0 else A i j * xs j)) <= e * (4 * v i - 2)).
      { apply Rle_trans with (1 := rsum_abs _ _). apply Rle_trans with (e * rsum (n * n) (fun j => if (j =? i)%nat then 0 else Rabs (A i j) * v j)).
        - rewrite <- rsum_scale. apply rsum_le. intros j Hj. destruct (j =? i)%nat; [rewrite Rabs_R0; lra|]. rewrite Rabs_mult.
          replace (e * (Rabs (A i j) * v j)) with (Rabs (A i j) * (e * v j)) by ring. apply Rmult_le_compat_l; [apply Rabs_pos|apply All, Hj].
        - apply Rmult_le_compat_l; [exact e0|apply Hrow, Hi]. }
      assert (X4 : 4 * Rabs (xs i) = Rabs (h i - rsum (n * n) (fun j => if (j =? i)%nat then 0 else A i j * xs j))).
      { rewrite S. match goal with |- _ = Rabs (?s + 4 * xs i - ?s) => replace (s + 4 * xs i - s) with (4 * xs i) by ring end.
        rewrite Rabs_mult, (Rabs_pos_eq 4) by lra. reflexivity. }
      pose proof (Rabs_triang (h i) (- rsum (n * n) (fun j => if (j =? i)%nat then 0 else A i j * xs j))) as T. rewrite Rabs_Ropp in T.
      unfold Rminus in X4. specialize (Hh i Hi). rewrite Eqe in X4. lra. }
    intros j Hj. apply Rle_trans with (1 := All j Hj). pose proof (hump_bound (INR n) (INR (j / n))) as B. fold (v j) in B. pose proof (Hv j Hj).
    apply Rle_trans with (H / 2 * v j); [apply Rmult_le_compat_r; lra|].
    replace ((INR n + 1) ^ 2 / 8 * H) with (H / 2 * ((INR n + 1) ^ 2 / 4)) by field. apply Rmult_le_compat_l; lra.
  Qed.
End Real.

(** The matrix of the square grid in doubles, a right hand side, and the exact solution bounded by [X]. *)
Record grid_doubles (dbg : bool) (n : nat) (g : graph) (a : smat f64) (A : nat -> nat -> f64) (b : list f64) (h : nat -> f64)
    (xs : nat -> R) (X : R) : Prop := {
  gd_size : (2 <= n <= 120)%nat;
  gd_graph : create_graph_structured dbg false n = Ok g;
  gd_stencil : stencil g 4 (fun i j => f_real (A i j));
  gd_square : sparse_square (S754_zero false) (n * n) a A;
  gd_rhs : is_vec (n * n) b h;
  gd_A : forall i j, (i < n * n)%nat -> (j < n * n)%nat -> f_valid (A i j) /\ f_finite (A i j) = true;
  gd_h : finite_vec (n * n) h;
  gd_sol : forall i, (i < n * n)%nat -> rsum (n * n) (fun j => f_real (A i j) * xs j) = f_real (h i);
  gd_X : 0 <= X <= 2 ^ 900 /\ forall i, (i < n * n)%nat -> Rabs (xs i) <= X
}.

Section Runs.
  Variables (M : nat) (dbg : bool) (stray : option nat) (n : nat) (g : graph) (a : smat f64) (A : nat -> nat -> f64) (b : list f64)
    (h : nat -> f64) (xs : nat -> R) (X : R).
  Hypothesis D : grid_doubles dbg n g a A b h xs X.
  Let m := INR n + 1.
  Let P := f_u * X + f_eta.
  Let N := (n * n)%nat.
  Let l := 4 / m ^ 2 * 4.

  Lemma Hn : (2 <= n <= 120)%nat.
  Proof using D. apply (gd_size _ _ _ _ _ _ _ _ _ D). Qed.

  Lemma grid_definite : definite_doubles N a A b h l 8 xs X.
  Proof using D.
    destruct D as [Hs Hg Ht Hq Hb HA Hh Hx HX]. assert (H2 : (2 <= n)%nat) by lia.
    split; auto.
    - apply (grid_size dbg n g _ H2 Hg Ht).
    - apply (grid_constants dbg n g _ H2 Hg Ht).
    - split; [lra|]. intros i Hi. apply (grid_rows dbg n g _ H2 Hg Ht i Hi).
    - split; [apply HX|apply HX].
  Qed.

  Lemma grid_real : positive_definite N (mirrored (fun i j => f_real (A i j))) /\ jacobi_factor N (fun i j => f_real (A i j)) (1 - 4 / m ^ 2) /\
    sweep_factor N (fun i j => f_real (A i j)) 1 (1 - 4 / m ^ 2 / 8) /\
    sweep_factor N (fun i j => f_real (A i j)) (3 / 2) (1 - 3 * (4 / m ^ 2) / 50).
  Proof using D. apply (grid_constants dbg n g _ (proj1 Hn) (gd_graph _ _ _ _ _ _ _ _ _ D) (gd_stencil _ _ _ _ _ _ _ _ _ D)). Qed.

  Lemma slower c : 0 < c -> 1 - c / m ^ 2 < 1.
  Proof using D. intro Hc. pose proof (m_range n Hn) as Mr. fold m in Mr. assert (0 < c / m ^ 2) by (apply Rdiv_lt_0_compat; [lra|apply pow_lt; lra]). lra. Qed.

  Variables (x : list f64) (f : nat -> f64) (E : R).
  Hypothesis Hx : is_vec N x f.
  Hypothesis Hf : finite_vec N f.
  Hypothesis HE : 0 <= E <= 2 ^ 900.
  Hypothesis Hw : within N f xs E.

  Lemma grid_start : f_enorm N A f xs <= 3 * m * E.
  Proof using D HE Hw.
    apply Rle_trans with (1 := start_norm N a A b h l 8 xs X grid_definite f E (proj1 HE) Hw).
    apply Rmult_le_compat_r; [lra|]. pose proof (m_range n Hn) as Mr. fold m in Mr. pose proof (pos_INR n) as P0.
    rewrite <- (sqrt_square (3 * m)) by lra. apply sqrt_le_1; [apply Rmult_le_pos; [apply pos_INR|lra]|nra|].
    unfold N. rewrite mult_INR. unfold m. nra.
  Qed.

  Let X0 : 0 <= X := proj1 (proj1 (gd_X _ _ _ _ _ _ _ _ _ D)).
  Let X9 : X <= 2 ^ 900 := proj2 (proj1 (gd_X _ _ _ _ _ _ _ _ _ D)).

  Let rj := j_rate N 8 l (1 - 4 / m ^ 2).
  Let r1 := d_rate N 8 l (1 - 4 / m ^ 2 / 8).
  Let r2 := d_rate N 8 l (1 - 3 * (4 / m ^ 2) / 50).
  Let fj := j_floor N 8 l (1 - 4 / m ^ 2) X.
  Let f1 := d_floor N 8 l (1 - 4 / m ^ 2 / 8) X.
  Let f2 := d_floor N 8 l (1 - 3 * (4 / m ^ 2) / 50) X.

  Lemma grid_numbers : (0 <= rj <= 1 - 3 / m ^ 2 /\ rj < 1) /\ (0 <= r1 <= 1 - 2 / 5 / m ^ 2 /\ r1 < 1) /\
    (0 <= r2 <= 1 - 3 / 20 / m ^ 2 /\ r2 < 1) /\ d_kappa N 8 l < 1.
  Proof using D.
    destruct grid_real as (_ & (Sj & _) & (S1 & _) & (S2 & _)). destruct (rates_grid n Hn) as (R1 & R2 & R3).
    destruct (kappa_small n Hn) as (K & _).
    pose proof (slower 3 ltac:(lra)) as L3. pose proof (slower (2 / 5) ltac:(lra)) as L2. pose proof (slower (3 / 20) ltac:(lra)) as L1.
    fold m in R1, R2, R3, K. fold l N in R1, R2, R3, K. fold rj in R1. fold r1 in R2. fold r2 in R3.
    assert (Q : 0 <= d_kappa N 8 l / (1 - d_kappa N 8 l)) by (apply quotient_nonneg; lra).
    assert (0 <= rj /\ 0 <= r1 /\ 0 <= r2) as (H1 & H2 & H3) by (unfold rj, r1, r2, j_rate, d_rate; repeat split; lra).
    repeat split; lra.
  Qed.

  Lemma grid_floors : 0 <= fj <= 4 * 1 * (m ^ 6 * P) /\ 0 <= f1 <= 4 * 6 * (m ^ 6 * P) /\ 0 <= f2 <= 4 * 15 * (m ^ 6 * P) /\
    f_enorm N A f xs <= fj + 3 * m * E /\ f_enorm N A f xs <= f1 + 3 * m * E /\ f_enorm N A f xs <= f2 + 3 * m * E /\
    j_no_overflow N 8 l X (fj + 3 * m * E) /\ d_no_overflow N 8 l X (f1 + 3 * m * E) /\ d_no_overflow N 8 l X (f2 + 3 * m * E) /\
    0 <= 3 * m * E.
  Proof using D HE Hw.
    destruct (floors_grid n Hn X X0) as (Fj & F1 & F2). pose proof (m_range n Hn) as Mr. pose proof (P_pos X X0) as P0.
    fold m in Fj, F1, F2, Mr. fold P in Fj, F1, F2, P0. fold l N in Fj, F1, F2. fold fj in Fj. fold f1 in F1. fold f2 in F2.
    assert (M6 : 0 <= m ^ 6 * P) by (apply Rmult_le_pos; [apply pow_le; lra|lra]). pose proof grid_start as GS.
    assert (Bj : 0 <= fj <= 58 * (m ^ 6 * P)) by lra. assert (B1 : 0 <= f1 <= 58 * (m ^ 6 * P)) by lra.
    split; [lra|]. split; [lra|]. split; [lra|]. split; [lra|]. split; [lra|]. split; [lra|].
    split; [exact (j_room n Hn X E X0 X9 HE fj Bj)|]. split; [exact (d_room n Hn X E X0 X9 HE f1 B1)|].
    split; [exact (d_room n Hn X E X0 X9 HE f2 F2)|]. apply Rmult_le_pos; lra.
  Qed.

  Lemma shown F c r r' k f' : 0 <= F <= 4 * c * (m ^ 6 * P) -> 0 <= r <= r' -> within N f' xs ((F + r ^ k * (3 * m * E)) / sqrt l) ->
    within N f' xs (c * m ^ 7 * P + r' ^ k * (m ^ 2 * E)).
  Proof using D HE.
    intros HF Hr H i Hi. apply Rle_trans with (1 := H i Hi). apply (error_grid n Hn X E X0 HE F c r r' k HF Hr).
  Qed.

  Lemma grid_jacobi k u : length u = N ->
    exists x' u' f', times (jacobi_step fops dbg stray a b) k (x, u) = Ok (x', u') /\ is_vec N x' f' /\ finite_vec N f' /\
      within N f' xs (1 * m ^ 7 * P + (1 - 3 / m ^ 2) ^ k * (m ^ 2 * E)).
  Proof using D Hx Hf HE Hw.
    intro Hu. destruct grid_real as (G1 & G2 & _). destruct grid_numbers as ((R1 & L1) & _).
    destruct grid_floors as (F1 & _ & _ & S1 & _ & _ & O1 & _ & _ & E0).
    destruct (jacobi_definite dbg stray N a A b h l 8 xs X (1 - 4 / m ^ 2) x u f (3 * m * E) k grid_definite G1 G2 L1 Hx Hf Hu E0
      S1 O1) as (x' & u' & f' & H1 & H2 & H3 & _ & H4).
    exists x', u', f'. repeat (split; [assumption|]). exact (shown fj 1 rj _ k f' F1 R1 H4).
  Qed.

  Lemma grid_sweeps k :
    (exists x' f', times (gauss_seidel_step fops dbg stray a b) k (x, []) = Ok (x', []) /\ is_vec N x' f' /\ finite_vec N f' /\
       within N f' xs (6 * m ^ 7 * P + (1 - 2 / 5 / m ^ 2) ^ k * (m ^ 2 * E))) /\
    (exists x' f', times (sor_step fops dbg stray a b) k (x, []) = Ok (x', []) /\ is_vec N x' f' /\ finite_vec N f' /\
       within N f' xs (15 * m ^ 7 * P + (1 - 3 / 20 / m ^ 2) ^ k * (m ^ 2 * E))).
  Proof using D Hx Hf HE Hw.
    destruct grid_real as (_ & _ & G2 & G3). destruct grid_numbers as (_ & (R1 & L1) & (R2 & L2) & K).
    destruct grid_floors as (_ & F1 & F2 & _ & S1 & S2 & _ & O1 & O2 & E0). split.
    - destruct (gauss_seidel_definite dbg stray N a A b h l 8 xs X (1 - 4 / m ^ 2 / 8) x f (3 * m * E) k grid_definite G2 K L1 Hx Hf E0
        S1 O1) as (x' & f' & H1 & H2 & H3 & _ & H4).
      exists x', f'. repeat (split; [assumption|]). exact (shown f1 6 r1 _ k f' F1 R1 H4).
    - destruct (sor_definite dbg stray N a A b h l 8 xs X (1 - 3 * (4 / m ^ 2) / 50) x f (3 * m * E) k grid_definite G3 K L2 Hx Hf E0
        S2 O2) as (x' & f' & H1 & H2 & H3 & _ & H4).
      exists x', f'. repeat (split; [assumption|]). exact (shown f2 15 r2 _ k f' F2 R2 H4).
  Qed.

  Lemma grid_solves lim rho w fuel : (min_iterations lim <= M)%nat -> (max_iteration lim < M)%nat ->
    (Nat.max (min_iterations lim) (max_iteration lim + 1) < fuel)%nat ->
    (exists x' w' cd f', jacobi_solve fops M dbg stray fuel lim w a x b = Ok (x', w', cd) /\ is_vec N x' f' /\ finite_vec N f' /\
       within N f' xs (1 * m ^ 7 * P + (1 - 3 / m ^ 2) ^ cd_iteration cd * (m ^ 2 * E))) /\
    (exists x' cd f', gauss_seidel_solve fops M dbg stray fuel lim a x b = Ok (x', cd) /\ is_vec N x' f' /\ finite_vec N f' /\
       within N f' xs (6 * m ^ 7 * P + (1 - 2 / 5 / m ^ 2) ^ cd_iteration cd * (m ^ 2 * E))) /\
    (exists x' cd f', sor_solve fops M dbg stray fuel lim rho a x b = Ok (x', cd) /\ is_vec N x' f' /\ finite_vec N f' /\
       within N f' xs (15 * m ^ 7 * P + (1 - 3 / 20 / m ^ 2) ^ cd_iteration cd * (m ^ 2 * E))).
  Proof using D Hx Hf HE Hw.
    intros Hmin Hmax Hfuel. destruct grid_real as (G0 & G1 & G2 & G3). destruct grid_numbers as ((Rj & Lj) & (R1 & L1) & (R2 & L2) & K).
    destruct grid_floors as (Fj & F1 & F2 & Sj & S1 & S2 & Oj & O1 & O2 & E0).
    assert (Hne : dbg = true -> N <> 0%nat) by (intros _; pose proof Hn; unfold N; nia). split.
    - destruct (jacobi_solves M dbg stray N a A b h l 8 xs X (1 - 4 / m ^ 2) grid_definite G0 G1 Lj x w f (3 * m * E) lim fuel Hx Hf E0
        Sj Oj Hne Hmin Hmax Hfuel) as (x' & w' & cd & f' & H1 & H2 & H3 & H4).
      exists x', w', cd, f'. repeat (split; [assumption|]). exact (shown fj 1 rj _ _ f' Fj Rj H4).
    - destruct (both_solve M dbg stray N a A b h l 8 xs X grid_definite K _ _ x f (3 * m * E) (3 * m * E) lim rho fuel G2 G3 L1 L2
        Hx Hf E0 E0 S1 O1 S2 O2 Hne Hmin Hmax Hfuel) as ((x' & cd & f' & H1 & H2 & H3 & H4) & (y' & cd2 & f2' & J1 & J2 & J3 & J4)). split.
      + exists x', cd, f'. repeat (split; [assumption|]). exact (shown f1 6 r1 _ _ f' F1 R1 H4).
      + exists y', cd2, f2'. repeat (split; [assumption|]). exact (shown f2 15 r2 _ _ f2' F2 R2 J4).
  Qed.
End Runs.
