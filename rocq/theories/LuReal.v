(** The direct solver over the reals and in double precision. *)
From Coq Require Import ZArith Reals Lra Field SpecFloat.
From Verif Require Import Base ListFacts DenseModel DenseFacts ScalarModel GeometryReal LuModel LuFacts LuField.

Local Open Scope R_scope.

Lemma R_field : field_theory (sc_zero rops) (sc_one rops) (sc_add rops) (sc_mul rops) (sc_sub rops) Ropp
  (sc_div rops) Rinv eq.
Proof. exact Rfield. Qed.

Lemma eps_pos : 0 < / 2 ^ 52.
Proof. apply Rinv_0_lt_compat, pow_lt. lra. Qed.

Lemma two52 : 2 ^ 52 = 4503599627370496.
Proof. ring. Qed.

Lemma R_tol_default dbg : tol_default rops dbg.
Proof.
  intros _. unfold default_relative. cbn [rops sc_le sc_eps sc_one sc_mul sc_of_Z]. pose proof eps_pos.
  unfold Rleb. split; destruct (Rle_dec _ _) as [|N]; auto; exfalso; apply N.
  - lra.
  - rewrite two52. lra.
Qed.

Lemma R_refuses_zero tol : 0 < tol -> refuses_zero rops tol.
Proof. intro H. apply Rltb_true. cbn [rops sc_abs sc_zero]. rewrite Rabs_R0. exact H. Qed.

(** [e] is below [m] or within the default tolerances of it. *)
Definition near_le (e m : R) : Prop := e <= m \/ e - m < / 2 ^ 46 \/ e - m < / 2 ^ 36 * (e + m).

Lemma Ok_inj {A} (a b : A) : Ok a = Ok b -> a = b.
Proof. congruence. Qed.

Lemma not_nearly_greater dbg e m : 0 <= e -> 0 <= m ->
  is_nearly_greater rops dbg e m (default_relative rops) (default_absolute rops) = Ok false -> near_le e m.
Proof.
  intros He Hm. unfold is_nearly_greater, is_nearly_less_equal, is_nearly_equal.
  rewrite !assert_ok' by (intro D; apply R_tol_default with (1 := D)). cbn [bind].
  cbn [rops sc_lt sc_eq sc_abs sc_sub sc_add sc_mul sc_max]. fold rops.
  destruct (Rltb e m) eqn:E1; [intros _; left; apply Rltb_true in E1; lra|].
  destruct (Reqb e m) eqn:E2; [intros _; left; apply Reqb_true in E2; lra|].
  cbn [bind]. set (q := std_min _ _ _). intro H. apply Ok_inj in H. apply negb_false_iff in H.
  apply Rltb_true in H. apply Rltb_false in E1. rewrite Rabs_pos_eq in H by lra.
  assert (Hq : q <= e + m).
  { unfold q, std_min. cbn [rops sc_lt sc_add]. rewrite !Rabs_pos_eq by lra.
    destruct (Rltb _ (e + m)) eqn:E; [apply Rltb_true in E|]; lra. }
  pose proof eps_pos as Hp.
  unfold std_max, default_absolute, default_relative in H.
  cbn [rops sc_lt sc_mul sc_of_Z sc_eps] in H.
  assert (A : 64 * / 2 ^ 52 = / 2 ^ 46) by (rewrite two52; replace (2 ^ 46) with 70368744177664 by ring; field).
  assert (B : 65536 * / 2 ^ 52 = / 2 ^ 36) by (rewrite two52; replace (2 ^ 36) with 68719476736 by ring; field).
  rewrite A, B in H. assert (0 < / 2 ^ 36) by lra.
  destruct (Rltb (/ 2 ^ 46) (/ 2 ^ 36 * q)) eqn:E; [|right; left; exact H].
  right; right. apply Rlt_le_trans with (1 := H). apply Rmult_le_compat_l; lra.
Qed.

Lemma nearly_greater_gt dbg e m :
  is_nearly_greater rops dbg e m (default_relative rops) (default_absolute rops) = Ok true -> m < e.
Proof.
  unfold is_nearly_greater, is_nearly_less_equal, is_nearly_equal.
  rewrite !assert_ok' by (intro D; apply R_tol_default with (1 := D)). cbn [bind].
  cbn [rops sc_lt sc_eq]. destruct (Rltb e m) eqn:E1; [discriminate|].
  destruct (Reqb e m) eqn:E2; [discriminate|]. intros _.
  apply Rltb_false in E1. apply Reqb_false in E2. lra.
Qed.

Lemma near_le_mono e m m' : 0 <= e -> 0 <= m -> m <= m' -> near_le e m -> near_le e m'.
Proof.
  intros He Hm Hmm [H|[H|H]]; unfold near_le.
  - left. lra.
  - right; left. lra.
  - right; right. assert (0 < / 2 ^ 36) by (apply Rinv_0_lt_compat, pow_lt; lra). nra.
Qed.

(** The pivot search finds an element which no other one of the column nearly exceeds. *)
Definition best_pivot n (g : nat -> nat -> R) (i j : nat) : Prop :=
  forall k, (i <= k < n)%nat -> near_le (Rabs (g k i)) (Rabs (g j i)).

Lemma search_best dbg n m (g : nat -> nat -> R) i j : is_mat n n m g -> (i < n)%nat ->
  lu_search rops dbg m i = Ok j -> best_pivot n g i j.
Proof.
  intros Hm Hi. unfold lu_search. rewrite (is_mat_cols _ _ _ _ Hm) by lia.
  match goal with |- context[forM (seq i (n - i)) ?F _] =>
    destruct (forM_seq_inv (fun k (s : R * nat) => (i <= snd s < n)%nat /\ 0 <= fst s <= Rabs (g (snd s) i) /\
      forall t, (i <= t < k)%nat -> near_le (Rabs (g t i)) (fst s)) i (n - i) F (sc_zero rops, i)) as (r & E & H) end.
  - cbn [fst snd rops sc_zero]. split; [lia|]. split; [split; [lra|apply Rabs_pos]|]. intros; lia.
  - intros k [mx im] Hk (Hs & Hmx & Hall). cbn [fst snd] in *.
    rewrite (is_mat_get _ _ _ _ _ _ Hm) by lia. cbn [bind].
    destruct (nearly_total rops dbg (sc_abs rops (g k i)) mx (R_tol_default dbg)) as (gt & Eg). rewrite Eg. cbn [bind].
    cbn [rops sc_abs] in Eg. fold rops in Eg. eexists. split; [reflexivity|]. cbn [rops sc_abs].
    pose proof (Rabs_pos (g k i)) as Hp.
    destruct gt; cbn [fst snd].
    + apply nearly_greater_gt in Eg. split; [lia|]. split; [lra|]. intros t Ht.
      destruct (Nat.eq_dec t k) as [->|]; [left; lra|].
      apply (near_le_mono _ mx); [apply Rabs_pos|lra|lra|]. apply Hall. lia.
    + apply not_nearly_greater in Eg; try lra. split; [lia|]. split; [lra|]. intros t Ht.
      destruct (Nat.eq_dec t k) as [->|]; [exact Eg|apply Hall; lia].
  - rewrite E. cbn [bind]. intro Ej. injection Ej as <-. destruct H as (Hs & Hmx & Hall). intros k Hk.
    apply (near_le_mono _ (fst r)); [apply Rabs_pos|lra|lra|]. apply Hall. lia.
Qed.

Lemma near_le_ratio e d : 0 <= e -> / 2 ^ 36 <= d -> near_le e d -> e / d <= 1025 / 1024.
Proof.
  intros He Hd H. assert (P36 : / 2 ^ 36 = 1 / 68719476736) by (replace (2 ^ 36) with 68719476736 by ring; field).
  assert (P46 : / 2 ^ 46 = 1 / 70368744177664) by (replace (2 ^ 46) with 70368744177664 by ring; field).
  unfold near_le in H. rewrite P36, ?P46 in *.
  assert (Hd0 : 0 < d) by lra. apply (Rmult_le_reg_r d); auto. unfold Rdiv at 1. rewrite Rmult_assoc, Rinv_l by lra.
  destruct H as [H|[H|H]]; lra.
Qed.

(** With pivoting the multipliers are bounded. *)
Lemma multipliers_bounded dbg n st a A st' : is_mat n n a A -> / 2 ^ 36 <= lu_tolerance st ->
  factorise rops dbg true st a = Ok (st', true) ->
  exists g, is_mat n n (lu_matrix st') g /\
    forall i j, (j < i < n)%nat -> Rabs (g i j) <= 1025 / 1024.
Proof.
  intros Ha Ht E.
  destruct (factorise_inv rops dbg true n st a A
    (fun k _ g => forall i j, (j < i < n)%nat -> (j < k)%nat -> Rabs (g i j) <= 1025 / 1024)
    (best_pivot n) (R_tol_default dbg) Ha (search_best dbg n)) as (st1 & ok & E1 & _ & _ & s & g & Hm & _ & _ & HI).
  - intros; lia.
  - intros i j s g Hij _ HP HI Hlt r c Hc Hc1. specialize (HP eq_refl).
    assert (Hlt' : lu_tolerance st <= Rabs (g j i)) by (apply Rltb_false; exact Hlt).
    assert (P36 : 0 < / 2 ^ 36) by (apply Rinv_0_lt_compat, pow_lt; lra).
    assert (Tl : forall t, (i <= t < n)%nat -> (i <= transpose i j t < n)%nat).
    { intros t Hl. unfold transpose. destruct (Nat.eqb_spec t i), (Nat.eqb_spec t j); lia. }
    destruct (Nat.eq_dec c i) as [->|Hne].
    + destruct (Nat.ltb_spec i r); [|lia]. unfold elim_row. destruct (Nat.ltb_spec i i); [lia|].
      rewrite Nat.eqb_refl. cbn [rops sc_div].
      replace (transpose i j i) with j by (unfold transpose; rewrite Nat.eqb_refl; auto).
      unfold Rdiv. rewrite Rabs_mult, Rabs_inv. apply near_le_ratio; [apply Rabs_pos|lra|].
      apply HP, Tl. lia.
    + assert (Hci : (c < i)%nat) by lia. assert (E0 : (c <? i) = true) by (apply Nat.ltb_lt; auto).
      unfold elim_row. rewrite E0. assert (Hr : (c < transpose i j r < n)%nat).
      { unfold transpose. destruct (Nat.eqb_spec r i), (Nat.eqb_spec r j); lia. }
      destruct (i <? r); apply HI; auto.
  - rewrite E in E1. injection E1 as <- <-. exists g. split; auto. intros i j Hij. apply HI; auto. lia.
Qed.

(** A matrix with a non-trivial kernel is refused. *)
Lemma singular_refused dbg pivot n st a A w i : is_mat n n a A -> 0 < lu_tolerance st ->
  (forall r, (r < n)%nat -> rsum n (fun j => A r j * w j) = 0) -> (i < n)%nat -> w i <> 0 ->
  exists st', factorise rops dbg pivot st a = Ok (st', false).
Proof.
  intros Ha Ht Hk Hi Hw.
  destruct (factorise_total rops dbg pivot n st a A (R_tol_default dbg) Ha) as (st' & [] & E & _); [exfalso|eauto].
  assert (Hz : is_vec n (repeat 0 n) (fun _ => 0)).
  { split; [apply repeat_length|]. intros k Hk'. apply nth_error_repeat. exact Hk'. }
  destruct (factorise_solves rops Ropp Rinv R_field dbg pivot n st a A st' (R_tol_default dbg)
    (R_refuses_zero _ Ht) Ha E [] (Some (repeat 0 n)) (fun _ => 0) Hz) as (x & z & _ & _ & _ & U); [discriminate|].
  apply Hw. rewrite (U w Hk i Hi). symmetry. apply (U (fun _ => 0)); auto.
  intros r Hr. apply rsum_zero. intros. cbn [rops sc_mul]. ring.
Qed.
