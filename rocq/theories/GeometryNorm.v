(** The norms and the mean over the reals, C67 - C69. *)
From Coq Require Import ZArith Reals Lra.
From Verif Require Import Base ListFacts DenseModel DenseFacts ScalarModel GeometryModel GeometryReal.

Local Open Scope R_scope.

(** [N] is the p-norm of [f 0 .. f (n - 1)], the maximum norm for [p = 0]. *)
Definition p_norm (p n : nat) (f : nat -> R) (N : R) : Prop :=
  match p with
  | O => (forall i, (i < n)%nat -> Rabs (f i) <= N) /\ exists i, (i < n)%nat /\ N = Rabs (f i)
  | _ => 0 <= N /\ N ^ p = rsum n (fun i => Rabs (f i) ^ p)
  end.

Lemma rroot_pow p x : (0 < p)%nat -> 0 <= x -> 0 <= rroot p x /\ rroot p x ^ p = x.
Proof.
  intros Hp Hx. unfold rroot. destruct (Req_EM_T x 0) as [->|Hne].
  - split; [lra|]. apply pow_i, Hp.
  - assert (0 < x) by lra. split; [left; apply exp_pos|].
    rewrite <- Rpower_pow by apply exp_pos. rewrite Rpower_mult, Rinv_l, Rpower_1; auto.
    apply not_0_INR. lia.
Qed.

Lemma even_pow_abs p x : Nat.even p = true -> x ^ p = Rabs x ^ p.
Proof.
  intro H. apply Nat.even_spec in H as (k & ->). rewrite !pow_mult. f_equal.
  cbn [pow]. rewrite !Rmult_1_r. symmetry. rewrite <- Rabs_mult. apply Rabs_pos_eq, Rle_0_sqr.
Qed.

Lemma rsum_pow_nonneg n f p : 0 <= rsum n (fun i => Rabs (f i) ^ p).
Proof. apply rsum_nonneg. intros. apply pow_le, Rabs_pos. Qed.

(** std::max_element on a list. *)
Lemma max_element_list l : forall x,
  (Rabs x <= Rabs (max_element rops x l)) /\
  (forall y, In y l -> Rabs y <= Rabs (max_element rops x l)) /\
  (In (max_element rops x l) (x :: l)).
Proof.
  induction l as [|a l IH]; intro x.
  - cbn. split; [lra|]. split; [intros y []|left; reflexivity].
  - change (max_element rops x (a :: l)) with (max_element rops (if Rltb (Rabs x) (Rabs a) then a else x) l).
    destruct (Rltb (Rabs x) (Rabs a)) eqn:E.
    + apply Rltb_true in E. destruct (IH a) as (H1 & H2 & H3). split; [lra|]. split.
      * intros y [<-|Hy]; auto.
      * destruct H3 as [<-|H3]; [right; left; reflexivity|right; right; exact H3].
    + apply Rltb_false in E. destruct (IH x) as (H1 & H2 & H3). split; [lra|]. split.
      * intros y [<-|Hy]; [lra|auto].
      * destruct H3 as [H3|H3]; [left; exact H3|right; right; exact H3].
Qed.

Lemma is_vec_In {V} n (v : list V) f y : is_vec n v f -> In y v <-> exists i, (i < n)%nat /\ y = f i.
Proof.
  intros [L H]. split.
  - intro Hy. apply In_nth_error in Hy as (i & Hi). assert (Hlt : (i < length v)%nat) by (apply nth_error_Some; congruence).
    exists i. split; [lia|]. rewrite H in Hi by lia. congruence.
  - intros (i & Hi & ->). apply (nth_error_In _ i), H, Hi.
Qed.

Lemma norm_spec p n v f : is_vec n v f -> (p = 0%nat -> (0 < n)%nat) ->
  exists N, lp_norm rops pow rroot p v = Ok N /\ p_norm p n f N.
Proof.
  intros H Hp. destruct p as [|[|[|[|p]]]].
  - destruct v as [|x l]; [exfalso; destruct H as [H _]; cbn in H; specialize (Hp eq_refl); lia|].
    cbn [lp_norm]. eexists. split; [reflexivity|]. cbn [rops sc_abs]. fold rops.
    destruct (max_element_list l x) as (H1 & H2 & H3). split.
    + intros i Hi. assert (Hin : In (f i) (x :: l)) by (apply (is_vec_In _ _ _ _ H); eauto).
      destruct Hin as [E|Hin]; [rewrite <- E; exact H1|apply H2, Hin].
    + apply (is_vec_In _ _ _ _ H) in H3 as (i & Hi & E). exists i. split; auto. rewrite E. reflexivity.
  - cbn [lp_norm]. eexists. split; [reflexivity|]. unfold accumulate. cbn [rops sc_add sc_abs sc_zero].
    rewrite (fold_asum 0 Rplus n v f Rabs H). split.
    + apply rsum_nonneg. intros. apply Rabs_pos.
    + cbn [pow]. rewrite Rmult_1_r. apply asum_ext. intros; ring.
  - rewrite (norm2_ok n v f H). eexists. split; [reflexivity|]. split; [apply sqrt_pos|].
    cbn [pow]. rewrite Rmult_1_r, sqrt_sqrt by apply rsum_sq_nonneg. apply asum_ext. intros i _.
    rewrite Rmult_1_r, <- Rabs_mult. symmetry. apply Rabs_pos_eq, Rle_0_sqr.
  - cbn [lp_norm]. eexists. split; [reflexivity|]. unfold accumulate. cbn [rops sc_add sc_mul sc_abs sc_zero].
    cbv zeta. rewrite (fold_asum 0 Rplus n v f (fun b => Rabs b * Rabs b * Rabs b) H).
    rewrite (asum_ext _ _ _ _ (fun i => Rabs (f i) ^ 3)) by (intros i _; ring).
    apply rroot_pow; [lia|apply rsum_pow_nonneg].
  - set (q := S (S (S (S p)))). assert (Hq : (0 < q)%nat) by (unfold q; lia).
    change (lp_norm rops pow rroot q v) with
      (Ok (rroot q (accumulate rops (fun a b => a + (if Nat.even q then b else Rabs b) ^ q) v))).
    eexists. split; [reflexivity|]. unfold accumulate. cbn [rops sc_zero].
    rewrite (fold_asum 0 Rplus n v f (fun b => (if Nat.even q then b else Rabs b) ^ q) H).
    rewrite (asum_ext _ _ _ _ (fun i => Rabs (f i) ^ q)).
    + change (p_norm q n f) with (fun N => 0 <= N /\ N ^ q = rsum n (fun i => Rabs (f i) ^ q)).
      apply rroot_pow; [exact Hq|apply rsum_pow_nonneg].
    + intros i _. destruct (Nat.even q) eqn:Ev; [apply even_pow_abs, Ev|reflexivity].
Qed.

Lemma norm_inf_empty : lp_norm rops pow rroot 0 [] = Undef.
Proof. reflexivity. Qed.

Lemma pow_lt_lt p x y : (0 < p)%nat -> 0 <= x < y -> x ^ p < y ^ p.
Proof.
  intros Hp [Hx Hy]. destruct p as [|p]; [lia|]. cbn [pow].
  assert (x ^ p <= y ^ p) by (apply pow_incr; lra). assert (0 < y ^ p) by (apply pow_lt; lra).
  assert (0 <= x ^ p) by (apply pow_le; lra). nra.
Qed.

Lemma pow_le_inv p x y : (0 < p)%nat -> 0 <= x -> 0 <= y -> x ^ p <= y ^ p -> x <= y.
Proof.
  intros Hp Hx Hy E. destruct (Rle_or_lt x y) as [H|H]; auto. exfalso.
  pose proof (pow_lt_lt p y x Hp). lra.
Qed.

Lemma pow_inj p x y : (0 < p)%nat -> 0 <= x -> 0 <= y -> x ^ p = y ^ p -> x = y.
Proof. intros Hp Hx Hy E. apply Rle_antisym; apply (pow_le_inv p); auto; lra. Qed.

Lemma p_norm_nonneg p n f N : p_norm p n f N -> 0 <= N.
Proof.
  destruct p as [|p]; [|intros [H _]; exact H]. intros [_ (i & _ & ->)]. apply Rabs_pos.
Qed.

Lemma p_norm_unique p n f N N' : p_norm p n f N -> p_norm p n f N' -> N = N'.
Proof.
  intros H H'. destruct p as [|p].
  - destruct H as [H (i & Hi & E)], H' as [H' (j & Hj & E')].
    specialize (H j Hj). specialize (H' i Hi). lra.
  - destruct H as [H E], H' as [H' E']. apply (pow_inj (S p)); auto; [lia|congruence].
Qed.

Lemma p_norm_zero p n f N : p_norm p n f N -> N = 0 <-> forall i, (i < n)%nat -> f i = 0.
Proof.
  intros H. destruct p as [|p].
  - destruct H as [H (i & Hi & E)]. split.
    + intros -> j Hj. specialize (H j Hj). pose proof (Rabs_pos (f j)).
      destruct (Req_EM_T (f j) 0) as [|Hne]; auto. apply Rabs_pos_lt in Hne. lra.
    + intro Hz. rewrite E, Hz by auto. apply Rabs_R0.
  - destruct H as [H E]. split.
    + intros -> j Hj. rewrite pow_i in E by lia. destruct (Req_EM_T (f j) 0) as [|Hne]; auto. exfalso.
      assert (0 < rsum n (fun i => Rabs (f i) ^ S p)); [|lra].
      apply (rsum_pos n _ j); auto; [intros; apply pow_le, Rabs_pos|apply pow_lt, Rabs_pos_lt, Hne].
    + intro Hz. apply (pow_inj (S p)); auto; try lia; try lra. rewrite E, pow_i by lia.
      apply rsum_zero. intros i Hi. rewrite Hz, Rabs_R0, pow_i by (auto; lia). reflexivity.
Qed.

Lemma p_norm_scale p n f N c : p_norm p n f N -> p_norm p n (fun i => c * f i) (Rabs c * N).
Proof.
  intros H. pose proof (Rabs_pos c) as Hc. destruct p as [|p].
  - destruct H as [H (i & Hi & E)]. split.
    + intros j Hj. rewrite Rabs_mult. specialize (H j Hj). apply Rmult_le_compat_l; auto.
    + exists i. split; auto. rewrite Rabs_mult, E. reflexivity.
  - destruct H as [H E]. split; [apply Rmult_le_pos; auto|].
    rewrite Rpow_mult_distr, E, <- rsum_scale. apply asum_ext. intros i _.
    rewrite Rabs_mult, Rpow_mult_distr. reflexivity.
Qed.

(** Convexity of the powers. *)
Lemma pow_convex p a b l m : 0 <= a -> 0 <= b -> 0 <= l -> 0 <= m -> l + m = 1 ->
  (l * a + m * b) ^ p <= l * a ^ p + m * b ^ p.
Proof.
  intros Ha Hb Hl Hm E. induction p as [|p IH]; cbn [pow]; [lra|].
  assert (Hs : 0 <= l * a + m * b) by nra.
  apply Rle_trans with ((l * a + m * b) * (l * a ^ p + m * b ^ p)); [apply Rmult_le_compat_l; auto|].
  set (x := a ^ p) in *. set (y := b ^ p) in *.
  assert (Hmono : 0 <= (a - b) * (x - y)).
  { destruct (Rle_or_lt a b) as [H|H].
    - assert (x <= y) by (apply pow_incr; lra). nra.
    - assert (y <= x) by (apply pow_incr; lra). nra. }
  assert (Hlm : 0 <= l * m) by nra.
  assert (D : l * (a * x) + m * (b * y) - (l * a + m * b) * (l * x + m * y) = l * m * ((a - b) * (x - y))).
  { replace m with (1 - l) by lra. ring. }
  assert (0 <= l * m * ((a - b) * (x - y))) by (apply Rmult_le_pos; auto). lra.
Qed.

(** Minkowski's inequality. *)
Lemma p_norm_triangle p n f g N L K : p_norm p n f N -> p_norm p n g L ->
  p_norm p n (fun i => f i + g i) K -> K <= N + L.
Proof.
  intros Hf Hg Hk. destruct p as [|p].
  - destruct Hf as [Hf _], Hg as [Hg _], Hk as [_ (i & Hi & ->)].
    specialize (Hf i Hi). specialize (Hg i Hi). pose proof (Rabs_triang (f i) (g i)). lra.
  - pose proof (p_norm_nonneg _ _ _ _ Hf) as HN. pose proof (p_norm_nonneg _ _ _ _ Hg) as HL.
    destruct (Req_EM_T N 0) as [EN|EN].
    { assert (Hz := proj1 (p_norm_zero _ _ _ _ Hf) EN). rewrite EN, Rplus_0_l. right.
      apply (p_norm_unique (S p) n g); auto. destruct Hk as [H1 H2]. split; auto. rewrite H2.
      apply asum_ext. intros i Hi. rewrite Hz, Rplus_0_l by auto. reflexivity. }
    destruct (Req_EM_T L 0) as [EL|EL].
    { assert (Hz := proj1 (p_norm_zero _ _ _ _ Hg) EL). rewrite EL, Rplus_0_r. right.
      apply (p_norm_unique (S p) n f); auto. destruct Hk as [H1 H2]. split; auto. rewrite H2.
      apply asum_ext. intros i Hi. rewrite Hz, Rplus_0_r by auto. reflexivity. }
    destruct Hf as [_ Ef], Hg as [_ Eg], Hk as [HK Ek].
    assert (HNL : 0 < N + L) by lra.
    apply (pow_le_inv (S p)); auto; try lia; try lra. rewrite Ek.
    set (q := S p) in *. set (l := N / (N + L)). set (m := L / (N + L)).
    assert (Hl : 0 <= l) by (unfold l; apply Rmult_le_pos; [lra|left; apply Rinv_0_lt_compat; lra]).
    assert (Hm : 0 <= m) by (unfold m; apply Rmult_le_pos; [lra|left; apply Rinv_0_lt_compat; lra]).
    assert (Hlm : l + m = 1) by (unfold l, m; field; lra).
    apply Rle_trans with (rsum n (fun i => (N + L) ^ q * (l * (Rabs (f i) / N) ^ q + m * (Rabs (g i) / L) ^ q))).
    + apply rsum_le. intros i Hi.
      apply Rle_trans with ((Rabs (f i) + Rabs (g i)) ^ q).
      { apply pow_incr. split; [apply Rabs_pos|apply Rabs_triang]. }
      replace (Rabs (f i) + Rabs (g i)) with ((N + L) * (l * (Rabs (f i) / N) + m * (Rabs (g i) / L))).
      2: { unfold l, m. field. repeat split; lra. }
      rewrite Rpow_mult_distr. apply Rmult_le_compat_l; [apply pow_le; lra|].
      apply pow_convex; auto; (apply Rmult_le_pos; [apply Rabs_pos|left; apply Rinv_0_lt_compat; lra]).
    + rewrite rsum_scale, rsum_plus, !rsum_scale.
      assert (P : forall h M, 0 < M -> M ^ q = rsum n (fun i => Rabs (h i) ^ q) ->
                rsum n (fun i => (Rabs (h i) / M) ^ q) = 1).
      { intros h M HM E. rewrite (asum_ext _ _ _ _ (fun i => (/ M) ^ q * Rabs (h i) ^ q)).
        - rewrite rsum_scale, <- E, <- Rpow_mult_distr, Rinv_l, pow1 by lra. reflexivity.
        - intros i _. unfold Rdiv. rewrite Rpow_mult_distr. ring. }
      rewrite (P f N), (P g L) by (auto; lra). right. rewrite !Rmult_1_r, Hlm. ring.
Qed.

(** *** Mean *)

Lemma mean_ok dbg n v f t : is_vec n v f -> (0 < n)%nat ->
  exists m, mean rops dbg t v = Ok m /\ INR n * m = rsum n f /\
    (forall a b, (forall i, (i < n)%nat -> a <= f i <= b) -> a <= m <= b).
Proof.
  intros H Hn. unfold mean. rewrite (proj1 H).
  rewrite assert_ok by (destruct (Nat.eqb_spec n 0); [lia|]; apply orb_true_r). cbn [bind].
  eexists. split; [reflexivity|]. unfold accumulate. cbn [rops sc_div sc_of_Z sc_zero sc_add].
  rewrite <- INR_IZR_INZ.
  assert (E : fold_left Rplus v 0 = rsum n f) by exact (fold_asum 0 Rplus n v f (fun x => x) H).
  rewrite E. assert (Hp : 0 < INR n) by (apply lt_0_INR; lia).
  split; [field; lra|]. intros a b Hab.
  assert (C : forall c, rsum n (fun _ => c) = INR n * c).
  { intro c. clear. induction n as [|n IH]; [cbn; ring|]. cbn [asum]. rewrite IH, S_INR. ring. }
  assert (L : INR n * a <= rsum n f) by (rewrite <- C; apply rsum_le; intros; apply Hab; auto).
  assert (U : rsum n f <= INR n * b) by (rewrite <- C; apply rsum_le; intros; apply Hab; auto).
  split; apply (Rmult_le_reg_l (INR n)); auto; unfold Rdiv;
    replace (INR n * (rsum n f * / INR n)) with (rsum n f) by (field; lra); auto.
Qed.

Lemma mean_empty : mean rops true 0 [] = Abort.
Proof. reflexivity. Qed.
