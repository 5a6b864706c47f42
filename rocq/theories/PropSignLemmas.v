(** Lemmas behind C124. *)
From Coq Require Import ZArith Reals Lra Lia List SpecFloat Psatz.
From Flocq Require Import Core BinarySingleNaN.
From Verif Require Import Base ListFacts DenseModel DenseFacts ScalarModel GeometryReal LuModel LuFacts LuReal
  FloatFacts FloatError IterFloat LuFloat PropFloatLemmas FloatUnit FloatSweep IterFacts OrderFacts LuSuccess LuDominant
  LuDominantSolve PropSuccessLemmas PropIterLemmas PropDominantLemmas PropOrderLemmas LuSign.
Import ListNotations.
Local Open Scope R_scope.

(* ------------------------------------------------------------------ the words of the statements *)
(** Finite entries, not positive beside the diagonal. *)
Definition off_signs n (A : nat -> nat -> f64) : Prop := forall i j, (i < n)%nat -> (j < n)%nat ->
  f_valid (A i j) /\ f_finite (A i j) = true /\ (i <> j -> f_real (A i j) <= 0).

(** Usable factors, not positive beside the diagonal and positive on it. *)
Definition signed_factors (pivot : bool) n (st : lu_state f64) : Prop := lu_factorised st = true /\
  (pivot = true -> exists s, is_vec n (lu_pivots st) s /\ forall k, (k < n)%nat -> (s k < n)%nat) /\
  exists g, is_mat n n (lu_matrix st) g /\ off_signs n g /\ forall i, (i < n)%nat -> 0 < f_real (g i i).

(** A right hand side given to solve_system with the vector [x]: another vector, or [x] itself without pivoting. *)
Definition given (pivot : bool) n (x : list f64) (b : option (list f64)) : Prop :=
  valid_vec n (other_of x b) /\ (b = None -> pivot = false).

(** Finite entries, those beside the diagonal at most [M], those farther away zero, the diagonal between 2M and D. *)
Definition tridiagonal n (M D : R) (A : nat -> nat -> f64) : Prop := forall i j, (i < n)%nat -> (j < n)%nat ->
  f_valid (A i j) /\ f_finite (A i j) = true /\ ((i + 1 < j \/ j + 1 < i)%nat -> f_real (A i j) = 0) /\
  ((j = i + 1 \/ i = j + 1)%nat -> Rabs (f_real (A i j)) <= M) /\ (i = j -> 2 * M <= f_real (A i j) <= D).

(* ------------------------------------------------------------------ order *)
Lemma valid_is_vec n x : valid_vec n x -> is_vec n x (at_ x).
Proof. intros [L _]. rewrite <- L at 1. apply is_vec_self. Qed.

Lemma is_vec_at n x f i : is_vec n x f -> (i < n)%nat -> at_ x i = f i.
Proof. intros H Hi. exact (vec_nth fops n x f i H Hi). Qed.

Lemma direct_order dbg pivot n st x1 x2 x3 b1 b2 b3 : signed_factors pivot n st ->
  given pivot n x1 b1 -> given pivot n x2 b2 -> given pivot n x3 b3 ->
  inside n (other_of x1 b1) (other_of x2 b2) (other_of x3 b3) ->
  exists d x1' x2' x3', lu_solve fops dbg pivot st x1 b1 = Ok (x1', d) /\ lu_solve fops dbg pivot st x2 b2 = Ok (x2', d) /\
    lu_solve fops dbg pivot st x3 b3 = Ok (x3', d) /\ cd_converged d = true /\
    valid_vec n x1' /\ valid_vec n x2' /\ valid_vec n x3' /\ inside n x1' x2' x3'.
Proof.
  intros (Hf & Hp & g & Hm & Hg & HP) (V1 & N1) (V2 & N2) (V3 & N3) Hb.
  assert (HS : exists s, (pivot = true -> is_vec n (lu_pivots st) s) /\ (pivot = false -> forall k, s k = k) /\
    forall k, (k < n)%nat -> (s k < n)%nat).
  { destruct pivot.
    - destruct (Hp eq_refl) as (s & Hs & Hl). exists s. split; [auto|]. split; [discriminate|auto].
    - exists (fun k => k). split; [discriminate|]. split; auto. }
  destruct HS as (s & S1 & S2 & S3).
  assert (HN : forall i j, (i < n)%nat -> (j < n)%nat -> i <> j -> nonpos (g i j)).
  { intros i j Hi Hj Hne. destruct (Hg i j Hi Hj) as (V & F & N). split; [exact V|]. split; [exact F|auto]. }
  assert (HPs : forall i, (i < n)%nat -> positive (g i i)).
  { intros i Hi. destruct (Hg i i Hi Hi) as (V & F & _). split; [exact V|]. split; [exact F|auto]. }
  destruct (solve_between fops dbg pivot bracket nonpos positive bracket_sub bracket_mul_neg bracket_div
    n st g s x1 x2 x3 b1 b2 b3 _ _ _ Hf Hm S1 S2 S3 HN HPs (valid_is_vec _ _ V1) (valid_is_vec _ _ V2) (valid_is_vec _ _ V3)
    N1 N2 N3) as (d & x1' & x2' & x3' & z1 & z2 & z3 & E1 & E2 & E3 & Hc & W1 & W2 & W3 & R).
  { intros i Hi. split; [apply V1, Hi|]. split; [apply V2, Hi|]. split; [apply V3, Hi|]. apply Hb, Hi. }
  exists d, x1', x2', x3'. do 4 (split; [assumption|]).
  assert (A1 := fun i Hi => is_vec_at n x1' z1 i W1 Hi). assert (A2 := fun i Hi => is_vec_at n x2' z2 i W2 Hi).
  assert (A3 := fun i Hi => is_vec_at n x3' z3 i W3 Hi).
  split; [split; [apply W1|intros i Hi; rewrite A1 by exact Hi; apply (R i Hi)]|].
  split; [split; [apply W2|intros i Hi; rewrite A2 by exact Hi; apply (R i Hi)]|].
  split; [split; [apply W3|intros i Hi; rewrite A3 by exact Hi; apply (R i Hi)]|].
  intros i Hi. rewrite A1, A2, A3 by exact Hi. apply (R i Hi).
Qed.

Lemma direct_sign dbg pivot n st x b : signed_factors pivot n st -> given pivot n x b ->
  exists d x', lu_solve fops dbg pivot st x b = Ok (x', d) /\ cd_converged d = true /\ valid_vec n x' /\
    (not_negative n (other_of x b) -> not_negative n x') /\ (not_positive n (other_of x b) -> not_positive n x').
Proof.
  intros H Hb. destruct (direct_order dbg pivot n st x x x b b b H Hb Hb Hb) as (d & x' & _ & _ & E & _ & _ & Hc & V & _ & _ & _).
  { apply inside_self. }
  exists d, x'. do 3 (split; [assumption|]). destruct H as (Hf & Hp & g & Hm & Hg & HP). destruct Hb as [Vb Nb].
  assert (HS : exists s, (pivot = true -> is_vec n (lu_pivots st) s) /\ (pivot = false -> forall k, s k = k) /\
    forall k, (k < n)%nat -> (s k < n)%nat).
  { destruct pivot.
    - destruct (Hp eq_refl) as (s & Hs & Hl). exists s. split; [auto|]. split; [discriminate|auto].
    - exists (fun k => k). split; [discriminate|]. split; auto. }
  destruct HS as (s & S1 & S2 & S3).
  assert (HN : forall i j, (i < n)%nat -> (j < n)%nat -> i <> j -> nonpos (g i j)).
  { intros i j Hi Hj Hne. destruct (Hg i j Hi Hj) as (V' & F & N). split; [exact V'|]. split; [exact F|auto]. }
  assert (HPs : forall i, (i < n)%nat -> positive (g i i)).
  { intros i Hi. destruct (Hg i i Hi Hi) as (V' & F & _). split; [exact V'|]. split; [exact F|auto]. }
  set (o := repeat (S754_zero false) n).
  assert (Lo : length o = n) by apply repeat_length.
  assert (Vo : is_vec n (other_of [] (Some o)) (fun _ => S754_zero false)).
  { cbn [other_of]. split; [exact Lo|]. intros i Hi. unfold o. apply nth_error_repeat, Hi. }
  split; intro Nx.
  - destruct (solve_between fops dbg pivot apart_zero nonpos positive az_sub az_neg az_div
      n st g s [] x x (Some o) b b _ _ _ Hf Hm S1 S2 S3 HN HPs Vo (valid_is_vec _ _ Vb) (valid_is_vec _ _ Vb)
      ltac:(discriminate) Nb Nb) as (d' & x1' & x2' & x3' & z1 & z2 & z3 & _ & _ & E3 & _ & _ & _ & W3 & R).
    { intros i Hi. split; [exact (proj1 (az_zero (S754_zero false)))|]. split; [apply Vb, Hi|apply Nx, Hi]. }
    rewrite E in E3. injection E3 as <- <-. intros i Hi. rewrite (is_vec_at n x' z3 i W3 Hi). apply (R i Hi).
  - destruct (solve_between fops dbg pivot apart_zero nonpos positive az_sub az_neg az_div
      n st g s x x [] b b (Some o) _ _ _ Hf Hm S1 S2 S3 HN HPs (valid_is_vec _ _ Vb) (valid_is_vec _ _ Vb) Vo
      Nb Nb ltac:(discriminate)) as (d' & x1' & x2' & x3' & z1 & z2 & z3 & E1 & _ & _ & _ & W1 & _ & _ & R).
    { intros i Hi. split; [|exact (proj2 (az_zero (S754_zero false)))]. split; [apply Vb, Hi|apply Nx, Hi]. }
    rewrite E in E1. injection E1 as <- <-. intros i Hi. rewrite (is_vec_at n x' z1 i W1 Hi). apply (R i Hi).
Qed.

(* ------------------------------------------------------------------ factors *)
Lemma mat_same {V} n (m : list (list V)) g h : is_mat n n m g -> is_mat n n m h ->
  forall i j, (i < n)%nat -> (j < n)%nat -> g i j = h i j.
Proof.
  intros H1 H2 i j Hi Hj. pose proof (is_mat_get _ _ _ _ i j H1 Hi Hj). pose proof (is_mat_get _ _ _ _ i j H2 Hi Hj). congruence.
Qed.

Lemma direct_factors dbg n st a A st' g : is_mat n n a A -> off_signs n A -> factorise fops dbg false st a = Ok (st', true) ->
  is_mat n n (lu_matrix st') g -> (forall i j, (i < n)%nat -> (j < n)%nat -> f_finite (g i j) = true) ->
  (forall i, (i < n)%nat -> 0 < f_real (g i i)) ->
  signed_factors false n st' /\ (forall i j, (i <= j)%nat -> (j < n)%nat -> f_real (g i j) <= f_real (A i j)).
Proof.
  intros Ha HA E Hm Hf HP.
  destruct (factorise_dool fops dbg false n st a A st' (F_tol_default dbg) Ha E) as (s & g2 & F & Hm2 & _ & Hs & Hd).
  pose proof (mat_same n _ _ _ Hm Hm2) as Eg.
  assert (VA : forall i j, (i < n)%nat -> (j < n)%nat -> f_valid (A i j)) by (intros; apply HA; auto).
  assert (NA : forall i j, (i < n)%nat -> (j < n)%nat -> i <> j -> f_real (A i j) <= 0) by (intros; apply HA; auto).
  assert (F2 : forall i j, (i < n)%nat -> (j < n)%nat -> f_finite (g2 i j) = true) by (intros; rewrite <- Eg; auto).
  assert (P2 : forall i, (i < n)%nat -> 0 < f_real (g2 i i)) by (intros; rewrite <- Eg; auto).
  pose proof (factor_signs n A g2 s VA NA Hd (Hs eq_refl) F2 P2) as S1.
  pose proof (factor_falls n A g2 s VA NA Hd (Hs eq_refl) F2 P2) as S2.
  split.
  - split; [exact F|]. split; [discriminate|]. exists g. split; [exact Hm|]. split; [|exact HP].
    intros i j Hi Hj. rewrite (Eg i j Hi Hj). split; [exact (entry_valid n A g2 s VA Hd i j Hi Hj)|]. split; [apply F2; auto|].
    intro Hne. apply S1; auto.
  - intros i j Hij Hj. rewrite (Eg i j) by lia. apply S2; auto.
Qed.

Lemma direct_dominant dbg n st a A m T : is_mat n n a A -> off_signs n A ->
  f_valid (lu_tolerance st) -> f_finite (lu_tolerance st) = true -> 0 <= f_real (lu_tolerance st) ->
  (forall i, (i < n)%nat -> off_diagonal n (fun r c => f_real (A r c)) i + m <= f_real (A i i)) ->
  (forall i, (i < n)%nat -> rsum n (fun j => Rabs (f_real (A i j))) + 2 * INR n / 2 ^ 969 <= T) ->
  f_real (lu_tolerance st) + f_gamma (5 * n + 4) * T <= m -> 8 * T <= f_limit ->
  exists st', factorise fops dbg false st a = Ok (st', true) /\ signed_factors false n st'.
Proof.
  intros Ha HA Vt Ft Ht Hd HT Hm HT1. destruct n as [|n'] eqn:En.
  - destruct (factorise_succeeds fops dbg false 0 st a A (fun _ _ => True)) as (st' & g & E & Hg1 & _); auto; try discriminate.
    { intros i g Hi. lia. }
    exists st'. split; [exact E|]. apply (direct_factors dbg 0 st a A st' g Ha HA E Hg1); intros; lia.
  - rewrite <- En in *. assert (Hn : (0 < n)%nat) by lia. clear n' En.
    set (B := fun _ : nat => S754_zero false).
    assert (HA' : forall i j, (i < n)%nat -> (j < n)%nat -> f_valid (A i j) /\ f_finite (A i j) = true).
    { intros i j Hi Hj. destruct (HA i j Hi Hj) as (V & F & _). auto. }
    assert (HB : finite_vec n B) by (intros i Hi; split; reflexivity).
    assert (ZB : forall i, Rabs (f_real (B i)) / 1 = 0) by (intro i; unfold B; cbn [f_real]; rewrite Rabs_R0; lra).
    assert (HX : / 2 ^ 1022 <= 1 <= f_limit).
    { split; [|apply limit_one]. apply Rle_trans with (/ 1); [|lra]. apply Rinv_le_contravar; [lra|apply pow_R1_Rle; lra]. }
    assert (G : 0 <= f_gamma (5 * n + 4)) by apply gamma_nonneg.
    assert (T0 : 0 <= T).
    { specialize (HT 0%nat Hn). assert (0 <= rsum n (fun j => Rabs (f_real (A 0%nat j)))) by (apply rsum_nonneg; intros; apply Rabs_pos).
      assert (0 <= 2 * INR n / 2 ^ 969); [|lra]. apply Rmult_le_pos; [pose proof (pos_INR n); lra|].
      apply Rlt_le, Rinv_0_lt_compat, pow_lt; lra. }
    assert (M0 : 0 <= m) by (pose proof (Rmult_le_pos _ _ G T0); lra).
    assert (Pd : forall i, (i < n)%nat -> 0 <= f_real (A i i)).
    { intros i Hi. specialize (Hd i Hi). assert (0 <= off_diagonal n (fun r c => f_real (A r c)) i); [|lra].
      apply rsum_nonneg. intros j _. destruct (j =? i)%nat; [lra|apply Rabs_pos]. }
    assert (Hm' : forall i, (i < n)%nat -> m <= margin n A B 1 i).
    { intros i Hi. unfold margin. rewrite ZB, Rabs_pos_eq by auto. specialize (Hd i Hi). lra. }
    assert (HT' : forall i, (i < n)%nat -> row_size n A B 1 i + INR n * (1 + / 1) / 2 ^ 969 <= T).
    { intros i Hi. unfold row_size. rewrite ZB, Rplus_0_r, Rinv_1. specialize (HT i Hi).
      replace (INR n * (1 + 1) / 2 ^ 969) with (2 * INR n / 2 ^ 969); [exact HT|]. unfold Rdiv. ring. }
    assert (HTX : 8 * T * 1 <= f_limit) by lra.
    set (A' := fun r c : nat => if (c =? n)%nat then B r else A r c).
    assert (Wp : 0 < / 1) by lra.
    pose proof (start n A B m 1 T Hn HA' HB HX Hm' HT') as S0. cbv zeta in S0. fold A' in S0.
    pose proof (T_pos n A B 1 T Hn HX HT') as Tp. pose proof (gamma4_one n st A B m 1 T Hn Ht HX Hm' HT' Hm) as G4.
    pose proof (mu_pos n st A B m 1 T Hn Ht HX HT' Hm) as Mp. pose proof (Tn_limit n st A B m 1 T Hn Ht HX HT' Hm) as Tl.
    pose proof (mu_low n st m T Hn Hm) as Ml. pose proof (T_w_limit 1 T HX HTX) as Tw.
    destruct (factorise_succeeds fops dbg false n st a A'
      (fun k g => dominant_state n (/ 1) A' m T k g /\ forall i, (i < n)%nat -> 0 < f_real (g i i))) as (st' & g & E & Hg1 & (Hi & HP) & _).
    + apply (is_mat_ext n n a A A' Ha). intros i j _ Hj. unfold A'. destruct (Nat.eqb_spec j n); [lia|reflexivity].
    + discriminate.
    + split; [exact S0|]. intros i Hi. unfold A'. destruct (Nat.eqb_spec i n); [lia|].
      specialize (Hd i Hi). pose proof (m_pos n st A B m 1 T Hn Ht HX HT' Hm).
      assert (0 <= off_diagonal n (fun r c => f_real (A r c)) i); [|lra].
      apply rsum_nonneg. intros j _. destruct (j =? i)%nat; [lra|apply Rabs_pos].
    + intros i g Hi (Hs & HP). split; [|split].
      * pose proof (dominant_pivot n (/ 1) Wp A' m T T0 i g Hi Hs) as P. destruct Hs as (Hf & Hs).
        destruct (Hf i i Hi ltac:(lia)) as [V F]. destruct (abs_real _ V F) as (Va & Fa & Ea). cbn [fops sc_lt sc_abs].
        destruct (SFltb (SFabs (g i i)) (lu_tolerance st)) eqn:El; [exfalso|reflexivity].
        apply (f_lt _ _ Va Vt Fa Ft) in El. rewrite Ea in El. unfold mag in P.
        assert (0 <= f_gamma (n + 4) * ((1 + f_u) ^ (4 * n) * T)).
        { apply Rmult_le_pos; [apply gamma_nonneg|]. apply Rmult_le_pos; [apply pow_le; pose proof u_pos; lra|exact T0]. }
        lra.
      * exact (dominant_next n (/ 1) Wp A' m T T0 G4 Mp Tl HT1 Tw i g Hi Hs).
      * exact (pivots_next n (/ 1) A' m T Wp T0 G4 Mp Tl HT1 Tw i g Hi Hs HP).
    + exists st'. split; [exact E|]. destruct Hi as (Hf & _).
      apply (direct_factors dbg n st a A st' g Ha HA E Hg1); auto. intros i j Hi Hj. apply Hf; lia.
Qed.

(* ------------------------------------------------------------------ tridiagonal matrices *)
Lemma direct_tridiagonal dbg n st a A M D c : is_mat n n a A -> tridiagonal n M D A -> 0 < M -> 2 * D <= f_limit ->
  f_valid c -> f_real c = M ->
  f_valid (lu_tolerance st) -> f_finite (lu_tolerance st) = true -> f_real (lu_tolerance st) <= M ->
  exists st' g, factorise fops dbg false st a = Ok (st', true) /\ is_mat n n (lu_matrix st') g /\
    (forall i j, (i < n)%nat -> (j < n)%nat -> f_valid (g i j) /\ f_finite (g i j) = true) /\
    (forall i, (i < n)%nat -> M <= f_real (g i i) <= 2 * D) /\
    (forall i, (i + 1 < n)%nat -> Rabs (f_real (g (i + 1)%nat i)) <= 1 /\ Rabs (f_real (g i (i + 1)%nat)) <= M) /\
    (forall i j, (i < n)%nat -> (j < n)%nat -> (i + 1 < j \/ j + 1 < i)%nat -> f_real (g i j) = 0) /\
    (off_signs n A -> signed_factors false n st').
Proof.
  intros Ha HA HM HD Vc Ec Vt Ft Ht.
  assert (H0 : tri_state n M D 0 A).
  { apply tri_start; auto.
    - intros i j Hi Hj. destruct (HA i j Hi Hj) as (V & F & _). split; auto.
    - intros i j Hi Hj Hf. apply (HA i j Hi Hj), Hf.
    - intros i j Hi Hj Hf. apply (HA i j Hi Hj), Hf.
    - intros i Hi. apply (HA i i Hi Hi). reflexivity. }
  destruct (tri_factorise n M D HM HD dbg st a A Ha (ex_intro _ c (conj Vc Ec)) Vt Ft Ht H0) as (st' & g & E & Hm & HF & HZ & HP & _ & HU & HL & _).
  exists st', g. split; [exact E|]. split; [exact Hm|]. split; [intros i j Hi Hj; apply (HF i j Hi Hj)|].
  split; [intros i Hi; apply HP; [exact Hi|lia]|]. split; [intros i Hi; split; [apply HL; lia|apply HU; lia]|].
  split; [exact HZ|]. intro Hs. apply (direct_factors dbg n st a A st' g Ha Hs E Hm).
  - intros i j Hi Hj. apply HF; auto.
  - intros i Hi. destruct (HP i Hi ltac:(lia)). lra.
Qed.

Lemma direct_tridiagonal_solve dbg n st a A x b B D beta : is_mat n n a A -> tridiagonal n 1 D A -> 2 * D <= f_limit ->
  f_valid (lu_tolerance st) -> f_finite (lu_tolerance st) = true -> f_real (lu_tolerance st) <= 1 ->
  is_vec n (other_of x b) B -> finite_vec n B -> (forall i, (i < n)%nat -> Rabs (f_real (B i)) <= beta) ->
  (1 + f_u) ^ (2 * n) * (INR n * INR n) * beta <= f_limit ->
  exists st' x' d z, factorise fops dbg false st a = Ok (st', true) /\ lu_solve fops dbg false st' x b = Ok (x', d) /\
    cd_converged d = true /\ is_vec n x' z /\ finite_vec n z /\
    (forall i, (i < n)%nat -> Rabs (f_real (z i)) <= (1 + f_u) ^ (2 * n) * (INR n * INR n) * beta) /\
    (off_signs n A -> (forall i, (i < n)%nat -> 0 <= f_real (B i)) -> forall i, (i < n)%nat -> 0 <= f_real (z i)).
Proof.
  intros Ha HA HD Vt Ft Ht Hb HB Hbeta Hlim.
  assert (H0 : tri_state n 1 D 0 A).
  { apply tri_start; try lra.
    - intros i j Hi Hj. destruct (HA i j Hi Hj) as (V & F & _). split; auto.
    - intros i j Hi Hj Hf. apply (HA i j Hi Hj), Hf.
    - intros i j Hi Hj Hf. apply (HA i j Hi Hj), Hf.
    - intros i Hi. apply (HA i i Hi Hi). reflexivity. }
  assert (Hc : exists c, f_valid c /\ f_real c = 1) by (exists (f_of_Z 1); split; [reflexivity|apply one_real]).
  destruct (tri_factorise n 1 D Rlt_0_1 HD dbg st a A Ha Hc Vt Ft Ht H0) as (st' & g & E & Hm & Hs).
  destruct (factorise_dool fops dbg false n st a A st' (F_tol_default dbg) Ha E) as (s & g2 & Hf & Hm2 & _ & Hid & _).
  assert (Hid' : forall k, s k = k) by (apply Hid; reflexivity).
  destruct (solve_ok fops dbg false n st' g s x b B Hf Hm) as (x' & y & z & Es & Hx' & Hy & Hz); auto; try discriminate.
  { intros k Hk. rewrite Hid'. exact Hk. }
  assert (Hy' : forall i, (i < n)%nat -> y i = rdiff fops (B i) i (fun j => SFmul 53 1024 (g i j) (y j))).
  { intros i Hi. rewrite (Hy i Hi) at 1. rewrite Hid'. reflexivity. }
  assert (HB' : forall i, (i < n)%nat -> fin (B i) /\ Rabs (f_real (B i)) <= beta).
  { intros i Hi. split; [apply HB, Hi|auto]. }
  pose proof (tri_backward n D beta g B y z Hs HB' Hlim Hy' Hz) as R.
  exists st', x'. eexists. exists z. split; [exact E|]. split; [exact Es|]. split; [reflexivity|]. split; [exact Hx'|].
  split; [intros i Hi; apply (R i Hi)|]. split.
  - intros i Hi. apply Rle_trans with (1 := proj2 (R i Hi)). pose proof u_pos.
    assert (0 <= beta) by (pose proof (Rabs_pos (f_real (B i))); specialize (Hbeta i Hi); lra).
    apply Rmult_le_compat_r; auto. apply Rmult_le_compat; [apply pow_le; lra|apply Rmult_le_pos; apply pos_INR|apply Rle_pow; [lra|lia]|].
    apply Rmult_le_compat_l; [apply pos_INR|apply le_INR; lia].
  - intros HN HP i Hi. destruct Hs as (HF & HZ & HPv & _).
    destruct (direct_factors dbg n st a A st' g Ha HN E Hm) as [Hk _].
    + intros r c Hr Hc'. apply HF; auto.
    + intros r Hr. destruct (HPv r Hr ltac:(lia)). lra.
    + assert (Eb : forall k, (k < n)%nat -> at_ (other_of x b) k = B k) by (intros k Hk'; apply (is_vec_at n _ _ _ Hb Hk')).
      destruct (direct_sign dbg false n st' x b Hk) as (d & x2 & E2 & _ & _ & Hsg & _).
      { split; [|reflexivity]. split; [apply Hb|]. intros k Hk'. rewrite Eb by exact Hk'. apply HB, Hk'. }
      rewrite Es in E2. injection E2 as <- <-. rewrite <- (is_vec_at n x' z i Hx' Hi). apply Hsg; [|exact Hi|].
      * intros k Hk' _. rewrite Eb by exact Hk'. apply HP, Hk'.
      * rewrite (is_vec_at n x' z i Hx' Hi). apply (R i Hi).
Qed.

(* ------------------------------------------------------------------ the examples *)
(** 2 on the diagonal and -1 beside it. *)
Definition line_entry (i j : nat) : f64 :=
  if (i =? j)%nat then fz 2 else if ((i =? j + 1) || (j =? i + 1))%nat then fz (-1) else fz 0.
Definition line_matrix (n : nat) : list (list f64) := map (fun i => map (line_entry i) (seq 0 n)) (seq 0 n).

Lemma line_is_mat n : is_mat n n (line_matrix n) line_entry.
Proof.
  unfold line_matrix. split; [rewrite map_length, seq_length; reflexivity|]. intros i Hi.
  destruct (is_vec_map (fun i => map (line_entry i) (seq 0 n)) n) as [_ H]. eexists. split; [apply H, Hi|]. apply is_vec_map.
Qed.

Lemma minus_one_real : f_real (fz (-1)) = -1.
Proof.
  unfold fz. vm_compute (f_of_Z (-1)). cbn [f_real]. change (-52)%Z with (- Z.of_nat 52)%Z.
  rewrite powerRZ_neg', <- pow_powerRZ. field_simplify; lra.
Qed.

Lemma line_tridiagonal n : tridiagonal n 1 2 line_entry /\ off_signs n line_entry.
Proof.
  destruct fz_real as (E0 & E1 & E2 & _ & _). pose proof minus_one_real as Em. unfold tridiagonal, off_signs, line_entry. split; intros i j Hi Hj.
  - destruct (Nat.eqb_spec i j) as [->|Hne].
    + split; [reflexivity|]. split; [reflexivity|]. split; [lia|]. split; [lia|]. intros _. rewrite E2. lra.
    + destruct (Nat.eqb_spec i (j + 1)), (Nat.eqb_spec j (i + 1)); cbn [orb]; (split; [reflexivity|]); (split; [reflexivity|]);
        (split; [try lia; intros _; exact E0|]); (split; [try lia; intros _; rewrite Em, Rabs_left; lra|]); lia.
  - destruct (Nat.eqb_spec i j) as [->|Hne]; [split; [reflexivity|]; split; [reflexivity|]; congruence|].
    destruct (Nat.eqb_spec i (j + 1)), (Nat.eqb_spec j (i + 1)); cbn [orb]; (split; [reflexivity|]); (split; [reflexivity|]);
      intros _; rewrite ?Em, ?E0; lra.
Qed.

(** 4 on the diagonal and -1 elsewhere, three rows. *)
Definition full_matrix : list (list f64) := [[fz 4; fz (-1); fz (-1)]; [fz (-1); fz 4; fz (-1)]; [fz (-1); fz (-1); fz 4]].
Definition full_entry (i j : nat) : f64 := nth j (nth i full_matrix []) (fz 0).

Lemma full_hypotheses : is_mat 3 3 full_matrix full_entry /\ off_signs 3 full_entry /\
  (forall i, (i < 3)%nat -> off_diagonal 3 (fun r c => f_real (full_entry r c)) i + 2 <= f_real (full_entry i i)) /\
  (forall i, (i < 3)%nat -> rsum 3 (fun j => Rabs (f_real (full_entry i j))) + 2 * INR 3 / 2 ^ 969 <= 7) /\
  f_real (lu_tolerance (lu_default fops)) + f_gamma (5 * 3 + 4) * 7 <= 2 /\ 8 * 7 <= f_limit.
Proof.
  destruct fz_real as (E0 & E1 & E2 & E3 & E4). pose proof minus_one_real as Em.
  assert (L9 : 2 ^ 9 <= f_limit) by (unfold f_limit; apply Rle_pow; [lra|apply Nat.leb_le; reflexivity]).
  assert (Rm : Rabs (-1) = 1) by (rewrite Rabs_left; lra).
  split; [|split; [|split; [|split; [|split]]]].
  - split; [reflexivity|]. intros [|[|[|i]]] Hi; try lia; eexists; (split; [reflexivity|]); apply is_vec_self.
  - intros [|[|[|i]]] [|[|[|j]]] Hi Hj; try lia; (split; [reflexivity|]); (split; [reflexivity|]); intro Hne; try lia;
      unfold full_entry, full_matrix; cbn [nth]; rewrite Em; lra.
  - intros [|[|[|i]]] Hi; try lia; unfold off_diagonal, full_entry, full_matrix; cbn [asum nth Nat.eqb];
      rewrite ?E4, ?Em, ?Rm; lra.
  - assert (Ht : 2 * INR 3 / 2 ^ 969 <= 1).
    { change (INR 3) with (1 + 1 + 1). assert (H : / 2 ^ 969 <= / 2 ^ 3).
      { apply Rinv_le_contravar; [lra|]. apply Rle_pow; [lra|apply Nat.leb_le; reflexivity]. }
      apply Rle_trans with (2 * (1 + 1 + 1) * / 2 ^ 3); [apply Rmult_le_compat_l; lra|lra]. }
    intros [|[|[|i]]] Hi; try lia; unfold full_entry, full_matrix; cbn [asum nth];
      rewrite ?E4, ?Em, ?Rm, ?(Rabs_pos_eq 4) by lra; lra.
  - destruct default_tolerance_f as (_ & _ & ->). assert (/ 2 ^ 46 <= / 2 ^ 1) by (apply Rinv_le_contravar; [lra|apply Rle_pow; [lra|lia]]).
    assert (f_gamma (5 * 3 + 4) <= 1 / 20); [|lra]. unfold f_gamma. pose proof u_tiny. pose proof u_pos.
    assert ((1 + f_u) ^ (5 * 3 + 4) <= (1001 / 1000) ^ (5 * 3 + 4)) by (apply pow_incr; lra).
    change (5 * 3 + 4)%nat with 19%nat in *. lra.
  - lra.
Qed.

(** The same rows, the first two exchanged, for the solver with pivoting. *)
Definition swapped_matrix : list (list f64) := [[fz (-1); fz 4; fz (-1)]; [fz 4; fz (-1); fz (-1)]; [fz (-1); fz (-1); fz 4]].

(** A test of [signed_factors]. *)
Definition sign_row (n i : nat) (row : list f64) : bool := (length row =? n)%nat && forallb (fun v => valid_binary 53 1024 v && f_finite v) row &&
  forallb (fun j => if (j =? i)%nat then (0 <? grid (at_ row j))%Z else (grid (at_ row j) <=? 0)%Z) (seq 0 n).
Definition sign_test (n : nat) (st : lu_state f64) : bool := lu_factorised st && (length (lu_matrix st) =? n)%nat &&
  forallb (fun i => sign_row n i (nth i (lu_matrix st) [])) (seq 0 n) &&
  (length (lu_pivots st) =? n)%nat && forallb (fun p => (p <? n)%nat) (lu_pivots st).

Lemma sign_test_ok n st : sign_test n st = true -> signed_factors true n st.
Proof.
  unfold sign_test. rewrite !andb_true_iff, !Nat.eqb_eq. intros ((((Hf & L) & HR) & Lp) & HP).
  split; [exact Hf|]. split.
  - intros _. exists (fun k => nth k (lu_pivots st) 0%nat). split.
    + split; [exact Lp|]. intros i Hi. apply nth_error_nth'. lia.
    + intros k Hk. rewrite forallb_forall in HP. apply Nat.ltb_lt, HP, nth_In. lia.
  - rewrite forallb_forall in HR.
    assert (HR' : forall i, (i < n)%nat -> sign_row n i (nth i (lu_matrix st) []) = true) by (intros i Hi; apply HR, in_seq; lia).
    assert (HG : forall i j, (i < n)%nat -> (j < n)%nat -> let v := at_ (nth i (lu_matrix st) []) j in
      f_valid v /\ f_finite v = true /\ (if (j =? i)%nat then 0 < f_real v else f_real v <= 0)).
    { intros i j Hi Hj v. specialize (HR' i Hi). unfold sign_row in HR'. rewrite !andb_true_iff, Nat.eqb_eq in HR'. destruct HR' as ((Lr & HF) & HS).
      rewrite forallb_forall in HF, HS. assert (Hv : In v (nth i (lu_matrix st) [])) by (apply nth_In; lia).
      apply HF, andb_prop in Hv as [Vv Fv]. split; [exact Vv|]. split; [exact Fv|].
      specialize (HS j ltac:(apply in_seq; lia)). fold v in HS.
      pose proof (grid_real v Vv) as E. pose proof (bpow_gt_0 radix2 1074) as P. destruct (Nat.eqb_spec j i) as [->|Hne].
      - apply Z.ltb_lt, IZR_lt in HS. rewrite <- E in HS. apply Rmult_lt_reg_r with (1 := P). lra.
      - apply Z.leb_le, IZR_le in HS. rewrite <- E in HS. apply Rmult_le_reg_r with (1 := P). lra. }
    exists (fun i j => at_ (nth i (lu_matrix st) []) j). split; [|split].
    + split; [exact L|]. intros i Hi. exists (nth i (lu_matrix st) []). split; [apply nth_error_nth'; lia|].
      specialize (HR' i Hi). unfold sign_row in HR'. rewrite !andb_true_iff, Nat.eqb_eq in HR'. destruct HR' as ((<- & _) & _). apply is_vec_self.
    + intros i j Hi Hj. destruct (HG i j Hi Hj) as (V & F & S). split; [exact V|]. split; [exact F|]. intro Hne.
      destruct (Nat.eqb_spec j i); [congruence|exact S].
    + intros i Hi. destruct (HG i i Hi Hi) as (_ & _ & S). rewrite Nat.eqb_refl in S. exact S.
Qed.

Lemma inside_check n x z y : length x = n -> length z = n -> fin_check x = true -> fin_check y = true -> fin_check z = true ->
  le_check x z = true -> le_check z y = true -> inside n x z y.
Proof.
  intros <- Lz Fx Fy Fz H1 H2 i Hi _ _. split; [apply (fin_check_ok z Fz); lia|]. split.
  - apply (le_check_ok x z Fx Fz H1 i Hi).
  - apply (le_check_ok z y Fz Fy H2 i). lia.
Qed.

Lemma full_factors : exists st g, factorise fops false false (lu_default fops) full_matrix = Ok (st, true) /\
  is_mat 3 3 (lu_matrix st) g /\ (forall i j, (i < 3)%nat -> (j < 3)%nat -> f_finite (g i j) = true) /\
  (forall i, (i < 3)%nat -> 0 < f_real (g i i)) /\ lu_matrix st <> full_matrix.
Proof.
  destruct full_hypotheses as (Ha & HA & Hd & HT & Hm & HL). destruct default_tolerance_f as (Vt & Ft & Et).
  assert (Ht : 0 <= f_real (lu_tolerance (lu_default fops))) by (rewrite Et; apply Rlt_le, Rinv_0_lt_compat, pow_lt; lra).
  destruct (direct_dominant false 3 (lu_default fops) full_matrix full_entry 2 7 Ha HA Vt Ft Ht Hd HT Hm HL) as (st & E & _ & _ & g & Hg & HF & HP).
  exists st, g. split; [exact E|]. split; [exact Hg|]. split; [intros i j Hi Hj; apply (HF i j Hi Hj)|]. split; [exact HP|].
  vm_compute in E. injection E as <-. intro K. vm_compute in K. discriminate.
Qed.

Lemma line_hypotheses n : is_mat n n (line_matrix n) line_entry /\ tridiagonal n 1 2 line_entry /\
  off_signs n line_entry /\ 2 * 2 <= f_limit /\ f_valid (f_of_Z 1) /\ f_real (f_of_Z 1) = 1 /\
  f_valid (lu_tolerance (lu_default fops)) /\ f_finite (lu_tolerance (lu_default fops)) = true /\
  f_real (lu_tolerance (lu_default fops)) <= 1.
Proof.
  assert (L9 : 2 ^ 9 <= f_limit) by (unfold f_limit; apply Rle_pow; [lra|apply Nat.leb_le; reflexivity]).
  destruct (line_tridiagonal n) as [H1 H2]. destruct default_tolerance_f as (Vt & Ft & Et).
  split; [apply line_is_mat|]. split; [exact H1|]. split; [exact H2|]. split; [lra|]. split; [reflexivity|]. split; [apply one_real|].
  split; [exact Vt|]. split; [exact Ft|]. rewrite Et.
  assert (/ 2 ^ 46 <= / 2 ^ 1) by (apply Rinv_le_contravar; [lra|apply Rle_pow; [lra|lia]]). lra.
Qed.

Lemma million : exists n, INR n = 1000000 /\
  (forall i, (i < n)%nat -> Rabs (f_real ((fun _ => fz 1) i)) <= 1) /\
  (1 + f_u) ^ (2 * n) * (INR n * INR n) * 1 <= f_limit.
Proof.
  assert (Hn : INR (Z.to_nat 1000000) = 1000000) by (rewrite INR_IZR_INZ, Z2Nat.id by lia; reflexivity).
  exists (Z.to_nat 1000000). split; [exact Hn|]. split.
  - intros _ _. destruct fz_real as (_ & -> & _). rewrite Rabs_pos_eq; lra.
  - set (n := Z.to_nat 1000000) in *.
    (* (1 + u)^(2n) <= exp(2 n u) <= 3 *)
    assert (P : (1 + f_u) ^ (2 * n) <= 3).
    { apply Rle_trans with (exp (INR (2 * n) * f_u)).
      - rewrite <- (exp_ln (1 + f_u)) by (pose proof u_pos; lra).
        rewrite <- Rpower_pow by apply exp_pos. unfold Rpower. rewrite ln_exp.
        assert (ln (1 + f_u) <= f_u).
        { rewrite <- (ln_exp f_u) at 2. pose proof u_pos. destruct (Rle_lt_or_eq_dec _ _ (exp_ineq1_le f_u)) as [K|K]; [left; apply ln_increasing; lra|rewrite K; lra]. }
        assert (INR (2 * n) * ln (1 + f_u) <= INR (2 * n) * f_u) as K by (apply Rmult_le_compat_l; [apply pos_INR|auto]).
        destruct K as [K|K]; [left; apply exp_increasing, K|rewrite K; apply Rle_refl].
      - apply Rle_trans with (exp 1); [|apply exp_le_3].
        assert (INR (2 * n) * f_u < 1).
        { rewrite mult_INR, Hn. change (INR 2) with 2. assert (f_u <= / 2 ^ 24) by (unfold f_u; apply Rinv_le_contravar; [lra|apply Rle_pow; [lra|lia]]).
          lra. }
        left. apply exp_increasing. exact H. }
    rewrite Hn. assert (L : 2 ^ 50 <= f_limit) by (unfold f_limit; apply Rle_pow; [lra|apply Nat.leb_le; reflexivity]).
    lra.
Qed.
