(** Norms and geometric operations over the reals, C48. *)
From Coq Require Import ZArith Reals Ratan Lra.
From Verif Require Import Base ListFacts DenseModel DenseFacts ScalarModel GeometryModel.

Local Open Scope R_scope.

Definition Rltb (x y : R) : bool := if Rlt_dec x y then true else false.
Definition Rleb (x y : R) : bool := if Rle_dec x y then true else false.
Definition Reqb (x y : R) : bool := if Req_EM_T x y then true else false.

(** Exact arithmetic. *)
Definition rops : sops R := mkOps R 0 1 Rplus Rminus Rmult Rdiv Rabs sqrt Rltb Rleb Reqb
  (fun x => Reqb x 0) IZR (/ 2 ^ 52) (2 ^ 1024 - 2 ^ 971).

Definition rroot (p : nat) (x : R) : R := if Req_EM_T x 0 then 0 else Rpower x (/ INR p).

Notation rsum := (asum 0 Rplus).

Lemma Rltb_true x y : Rltb x y = true <-> x < y.
Proof. unfold Rltb. destruct (Rlt_dec x y); split; auto; discriminate. Qed.
Lemma Rltb_false x y : Rltb x y = false <-> y <= x.
Proof. unfold Rltb. destruct (Rlt_dec x y); split; auto; try discriminate; lra. Qed.
Lemma Reqb_true x y : Reqb x y = true <-> x = y.
Proof. unfold Reqb. destruct (Req_EM_T x y); split; auto; discriminate. Qed.
Lemma Reqb_false x y : Reqb x y = false <-> x <> y.
Proof. unfold Reqb. destruct (Req_EM_T x y); split; auto; try discriminate; contradiction. Qed.

Lemma is_vec_map_seq {V} n (v : list V) f : is_vec n v f -> v = map f (seq 0 n).
Proof. intro H. apply (is_vec_eq n _ _ f f); auto. apply is_vec_map. Qed.

Lemma fold_asum {V} (z : V) add n (v : list V) f (h : V -> V) : is_vec n v f ->
  fold_left (fun a b => add a (h b)) v z = asum z add n (fun i => h (f i)).
Proof.
  intro H. rewrite (is_vec_map_seq _ _ _ H). clear H v. induction n as [|n IH]; auto.
  rewrite seq_S, map_app, fold_left_app, IH. reflexivity.
Qed.

Lemma rsum_scale c n f : rsum n (fun i => c * f i) = c * rsum n f.
Proof. induction n as [|n IH]; cbn [asum]; [lra|rewrite IH; lra]. Qed.

Lemma rsum_plus n f g : rsum n (fun i => f i + g i) = rsum n f + rsum n g.
Proof. induction n as [|n IH]; cbn [asum]; [lra|rewrite IH; lra]. Qed.

Lemma rsum_minus n f g : rsum n (fun i => f i - g i) = rsum n f - rsum n g.
Proof. induction n as [|n IH]; cbn [asum]; [lra|rewrite IH; lra]. Qed.

Lemma rsum_nonneg n f : (forall i, (i < n)%nat -> 0 <= f i) -> 0 <= rsum n f.
Proof.
  induction n as [|n IH]; intro H; cbn [asum]; [lra|].
  assert (0 <= rsum n f) by (apply IH; intros; apply H; lia). specialize (H n ltac:(lia)). lra.
Qed.

Lemma rsum_le n f g : (forall i, (i < n)%nat -> f i <= g i) -> rsum n f <= rsum n g.
Proof.
  induction n as [|n IH]; intro H; cbn [asum]; [lra|].
  assert (rsum n f <= rsum n g) by (apply IH; intros; apply H; lia). specialize (H n ltac:(lia)). lra.
Qed.

Lemma rsum_pos n f i : (forall i, (i < n)%nat -> 0 <= f i) -> (i < n)%nat -> 0 < f i -> 0 < rsum n f.
Proof.
  induction n as [|n IH]; intros H Hi Hp; cbn [asum]; [lia|].
  assert (0 <= rsum n f) by (apply rsum_nonneg; intros; apply H; lia).
  destruct (Nat.eq_dec i n) as [->|Hne]; [lra|].
  assert (0 < rsum n f) by (apply IH; [intros; apply H; lia|lia|auto]).
  specialize (H n ltac:(lia)). lra.
Qed.

Lemma rsum_zero n f : (forall i, (i < n)%nat -> f i = 0) -> rsum n f = 0.
Proof.
  induction n as [|n IH]; intro H; cbn [asum]; auto. rewrite IH, H by (intros; try apply H; lia). lra.
Qed.

Lemma rsum_sq_nonneg n f : 0 <= rsum n (fun i => f i * f i).
Proof. apply rsum_nonneg. intros. apply Rle_0_sqr. Qed.

Lemma rsum_sq_zero n f : rsum n (fun i => f i * f i) = 0 -> forall i, (i < n)%nat -> f i = 0.
Proof.
  intros H i Hi. destruct (Req_EM_T (f i) 0) as [|Hne]; auto. exfalso.
  assert (0 < rsum n (fun i => f i * f i)); [|lra].
  apply (rsum_pos n _ i); auto; [intros; apply Rle_0_sqr|]. apply Rsqr_pos_lt, Hne.
Qed.

(** Cauchy Schwarz for vectors of norm one. *)
Lemma unit_dot_bound n h k : rsum n (fun i => h i * h i) = 1 -> rsum n (fun i => k i * k i) = 1 ->
  -1 <= rsum n (fun i => h i * k i) <= 1.
Proof.
  intros Hh Hk.
  assert (P : 0 <= rsum n (fun i => (h i - k i) * (h i - k i))) by apply rsum_sq_nonneg.
  assert (Q : 0 <= rsum n (fun i => (h i + k i) * (h i + k i))) by apply rsum_sq_nonneg.
  rewrite (asum_ext _ _ _ _ (fun i => (h i * h i + k i * k i) - 2 * (h i * k i))) in P by (intros; ring).
  rewrite (asum_ext _ _ _ _ (fun i => (h i * h i + k i * k i) + 2 * (h i * k i))) in Q by (intros; ring).
  rewrite rsum_minus, rsum_plus, rsum_scale in P. rewrite rsum_plus, rsum_plus, rsum_scale in Q. lra.
Qed.

Section Real.
  Variables (dbg : bool) (junk : nat -> R).
  Implicit Types (v w : list R) (f g h : nat -> R).

  Notation norm := (lp_norm rops pow rroot).
  Notation unitv := (unit_vector rops pow rroot).

  Lemma norm2_ok n v f : is_vec n v f -> norm 2 v = Ok (sqrt (rsum n (fun i => f i * f i))).
  Proof using.
    intro H. unfold lp_norm, accumulate. cbn [rops sc_sqrt sc_add sc_mul sc_zero].
    rewrite (fold_asum 0 Rplus n v f (fun b => b * b) H). reflexivity.
  Qed.

  (** Normalisation. *)
  Lemma unit_ok n v f : is_vec n v f -> (exists i, (i < n)%nat /\ f i <> 0) ->
    exists u k, unitv v = Ok u /\ 0 < k /\ is_vec n u (fun i => k * f i) /\
      rsum n (fun i => (k * f i) * (k * f i)) = 1.
  Proof using.
    intros H (i & Hi & Hf). unfold unit_vector. rewrite (norm2_ok n v f H). cbn [bind].
    set (q := rsum n (fun i => f i * f i)).
    assert (Hq : 0 < q).
    { apply (rsum_pos n _ i); auto; [intros; apply Rle_0_sqr|]. apply Rsqr_pos_lt, Hf. }
    assert (Hs : 0 < sqrt q) by (apply sqrt_lt_R0, Hq).
    assert (E : sc_inf_recip rops (sqrt q) = false) by (apply Reqb_false; lra). rewrite E.
    destruct (v_scale_ext (sc_mul rops) n v f (sc_div rops (sc_one rops) (sqrt q)) H) as (u & Eu & Hu).
    exists u, (/ sqrt q). split; [exact Eu|]. split; [apply Rinv_0_lt_compat, Hs|]. split.
    - apply (is_vec_ext _ _ _ _ Hu). intros j _. cbn [rops sc_mul sc_div sc_one]. unfold Rdiv. ring.
    - rewrite (asum_ext _ _ _ _ (fun i => (/ sqrt q * / sqrt q) * (f i * f i))) by (intros; ring).
      rewrite rsum_scale. fold q. rewrite <- Rinv_mult, sqrt_sqrt by lra. apply Rinv_l. lra.
  Qed.

  Lemma unit_zero n v f : is_vec n v f -> (forall i, (i < n)%nat -> f i = 0) ->
    exists u, unitv v = Ok u /\ is_vec n u (fun _ => 0).
  Proof using.
    intros H Hz. unfold unit_vector. rewrite (norm2_ok n v f H). cbn [bind].
    rewrite rsum_zero by (intros i Hi; rewrite Hz by auto; ring). rewrite sqrt_0.
    assert (E : sc_inf_recip rops 0 = true) by (apply Reqb_true; reflexivity). rewrite E.
    destruct (v_scale_ext (sc_mul rops) n v f (sc_zero rops) H) as (u & Eu & Hu).
    exists u. split; auto. apply (is_vec_ext _ _ _ _ Hu). intros i _. cbn [rops sc_mul sc_zero]. ring.
  Qed.

  (** unit of any vector: zero or of norm one. *)
  Lemma unit_any n v f : is_vec n v f -> exists u h, unitv v = Ok u /\ is_vec n u h /\
    (rsum n (fun i => h i * h i) = 1 \/ forall i, (i < n)%nat -> h i = 0).
  Proof using.
    intro H. destruct (Req_EM_T (rsum n (fun i => f i * f i)) 0) as [E|E].
    - destruct (unit_zero n v f H (rsum_sq_zero _ _ E)) as (u & Eu & Hu). exists u, (fun _ => 0). auto.
    - assert (Hn : exists i, (i < n)%nat /\ f i <> 0).
      { clear H dbg junk v. induction n as [|n IH]; cbn [asum] in E; [lra|].
        destruct (Req_EM_T (f n) 0) as [E0|E0]; [|exists n; auto with arith].
        destruct IH as (i & Hi & Hf); [rewrite E0 in E; lra|]. exists i. split; [lia|auto]. }
      destruct (unit_ok n v f H Hn) as (u & k & Eu & Hk & Hu & Hs). exists u, (fun i => k * f i). auto.
  Qed.

  Lemma g_dot_ok n v f w g : is_vec n v f -> is_vec n w g ->
    g_dot rops dbg v w = Ok (rsum n (fun i => f i * g i)).
  Proof using. intros Hv Hw. exact (dot_ok 0 Rplus Rmult dbg n v f w g Hv Hw). Qed.

  Lemma promote_size n0 n1 n v w : length v = n -> length w = n -> vtyped n0 v -> vtyped n1 w ->
    promote n0 n1 = 0%nat \/ promote n0 n1 = n.
  Proof using.
    clear dbg junk. unfold vtyped, promote. intros <- E H0 H1. destruct (Nat.eqb_spec n0 0); lia.
  Qed.

  Lemma tangent_ok n0 n1 n v f w g : is_vec n v f -> is_vec n w g -> vtyped n0 v -> vtyped n1 w ->
    (exists i, (i < n)%nat /\ g i <> 0) \/ dbg = false ->
    exists t, projection_tangent rops dbg junk pow rroot n0 n1 v w = Ok t /\
      is_vec n t (fun i => rsum n (fun j => f j * g j) * g i).
  Proof using.
    intros Hv Hw T0 T1 Hn. unfold projection_tangent. rewrite (norm2_ok n w g Hw). cbn [bind].
    assert (E : ASSERT_DEBUG dbg (negb (sc_eq rops (sqrt (rsum n (fun i => g i * g i))) (sc_zero rops))) = Ok tt).
    { destruct Hn as [(i & Hi & Hg)| ->]; [|reflexivity]. apply assert_ok.
      cbn [rops sc_eq sc_zero]. rewrite (proj2 (Reqb_false _ _)); auto.
      assert (0 < sqrt (rsum n (fun i => g i * g i))); [|lra]. apply sqrt_lt_R0.
      apply (rsum_pos n _ i); auto; [intros; apply Rle_0_sqr|]. apply Rsqr_pos_lt, Hg. }
    rewrite E. cbn [bind]. rewrite (proj1 Hv), (proj1 Hw).
    rewrite (assert_ok dbg _ (Nat.eqb_refl n)). cbn [bind].
    rewrite (g_dot_ok n v f w g Hv Hw). cbn [bind].
    destruct (v_lambda_ok (sc_zero rops) dbg junk (promote n0 n1) (fun i => vget w i) n g) as (t & Et & Ht).
    - apply (promote_size n0 n1 n v w); auto; [apply Hv|apply Hw].
    - intros i Hi. apply (is_vec_get _ _ _ _ Hw Hi).
    - rewrite Et. cbn [bind].
      destruct (v_scale_ext (sc_mul rops) n t g (rsum n (fun i => f i * g i)) Ht) as (u & Eu & Hu).
      exists u. split; [exact Eu|]. apply (is_vec_ext _ _ _ _ Hu). intros i _. cbn [rops sc_mul]. ring.
  Qed.

  Lemma orthogonal_ok n0 n1 n v f w g : is_vec n v f -> is_vec n w g -> vtyped n0 v -> vtyped n1 w ->
    (exists i, (i < n)%nat /\ g i <> 0) \/ dbg = false ->
    exists o, projection_orthogonal rops dbg junk pow rroot n0 n1 v w = Ok o /\
      is_vec n o (fun i => f i - rsum n (fun j => f j * g j) * g i).
  Proof using.
    intros Hv Hw T0 T1 Hn. unfold projection_orthogonal. rewrite (proj1 Hv), (proj1 Hw).
    rewrite (assert_ok dbg _ (Nat.eqb_refl n)). cbn [bind].
    destruct (tangent_ok n0 n1 n v f w g Hv Hw T0 T1 Hn) as (t & Et & Ht).
    pose proof (promote_size n0 n1 n v w (proj1 Hv) (proj1 Hw) T0 T1) as Hp.
    destruct (v_lambda_ok (sc_zero rops) dbg junk (promote n0 n1) (fun i => vget v i) n f) as (a & Ea & Ha).
    - exact Hp.
    - intros i Hi. apply (is_vec_get _ _ _ _ Hv Hi).
    - rewrite Ea. cbn [bind]. rewrite Et. cbn [bind].
      apply (v_op_ok 0 Rminus dbg junk (promote n0 n1) (promote n0 n1) n a f t); auto; unfold vtyped.
      + rewrite (proj1 Ha). destruct Hp as [->| ->]; auto.
      + rewrite (proj1 Ht). destruct Hp as [->| ->]; auto.
  Qed.

  Lemma assert_or dbg' (a b : bool) : a = true \/ b = true -> ASSERT_DEBUG dbg' (a || b) = Ok tt.
  Proof using. intros H. apply assert_ok. destruct a, b, H; auto. Qed.

  Lemma size_ok n v w : length v = n -> length w = n -> (n = 2 \/ n = 3)%nat -> size_2_or_3 dbg v w = Ok tt.
  Proof using.
    clear junk. intros Ev Ew Hn. unfold size_2_or_3. rewrite Ev, Ew.
    rewrite (assert_ok dbg _ (Nat.eqb_refl n)). cbn [bind]. destruct Hn as [->| ->]; apply assert_ok; reflexivity.
  Qed.

  Lemma clamp_bound x : -1 <= clamp rops x (0 - 1) 1 <= 1.
  Proof using.
    unfold clamp. cbn [rops sc_lt]. destruct (Rltb x (0 - 1)) eqn:E1; [lra|].
    destruct (Rltb 1 x) eqn:E2; [lra|]. apply Rltb_false in E1, E2. lra.
  Qed.

  Lemma clamp_id x : -1 <= x <= 1 -> clamp rops x (0 - 1) 1 = x.
  Proof using.
    intro H. unfold clamp. cbn [rops sc_lt]. destruct (Rltb x (0 - 1)) eqn:E1; [apply Rltb_true in E1; lra|].
    destruct (Rltb 1 x) eqn:E2; [apply Rltb_true in E2; lra|]. reflexivity.
  Qed.

  Notation rangle := (angle rops dbg pow rroot acos PI).

  Lemma angle_ok n v f w g : is_vec n v f -> is_vec n w g -> (n = 2 \/ n = 3)%nat ->
    exists t, rangle true v w = Ok t /\ rangle true w v = Ok t /\ 0 <= t <= PI /\
      rangle false v w = Ok (t / (PI / 180)).
  Proof using.
    intros Hv Hw Hn. unfold angle.
    rewrite (size_ok n v w (proj1 Hv) (proj1 Hw) Hn), (size_ok n w v (proj1 Hw) (proj1 Hv) Hn). cbn [bind].
    destruct (unit_any n v f Hv) as (a & ha & Ea & Ha & _).
    destruct (unit_any n w g Hw) as (b & hb & Eb & Hb & _).
    rewrite Ea, Eb. cbn [bind]. rewrite (g_dot_ok n a ha b hb Ha Hb), (g_dot_ok n b hb a ha Hb Ha). cbn [bind].
    rewrite (asum_ext 0 Rplus n (fun i => hb i * ha i) (fun i => ha i * hb i)) by (intros; ring).
    cbn [rops sc_div sc_one sc_sub sc_zero sc_of_Z]. fold rops.
    exists (acos (clamp rops (rsum n (fun i => ha i * hb i)) (0 - 1) 1)).
    split; [f_equal; field|]. split; [f_equal; field|]. split; [apply acos_bound|reflexivity].
  Qed.

  (** The cosine of the angle is the dot product over the product of the norms. *)
  Lemma angle_cos n v f w g : is_vec n v f -> is_vec n w g -> (n = 2 \/ n = 3)%nat ->
    (exists i, (i < n)%nat /\ f i <> 0) -> (exists i, (i < n)%nat /\ g i <> 0) ->
    exists t, rangle true v w = Ok t /\
      rsum n (fun i => f i * g i) = cos t * (sqrt (rsum n (fun i => f i * f i)) * sqrt (rsum n (fun i => g i * g i))).
  Proof using.
    intros Hv Hw Hn Nv Nw. unfold angle.
    rewrite (size_ok n v w (proj1 Hv) (proj1 Hw) Hn). cbn [bind].
    destruct (unit_ok n v f Hv Nv) as (a & k & Ea & Hk & Ha & Sa).
    destruct (unit_ok n w g Hw Nw) as (b & l & Eb & Hl & Hb & Sb).
    rewrite Ea, Eb. cbn [bind]. rewrite (g_dot_ok n a _ b _ Ha Hb). cbn [bind].
    cbn [rops sc_div sc_one sc_sub sc_zero]. fold rops.
    pose proof (unit_dot_bound n _ _ Sa Sb) as Hd.
    rewrite clamp_id by exact Hd. eexists. split; [reflexivity|]. unfold Rdiv. rewrite Rinv_1, Rmult_1_r.
    rewrite cos_acos by exact Hd.
    rewrite (asum_ext _ _ _ (fun i => k * f i * (l * g i)) (fun i => (k * l) * (f i * g i))) by (intros; ring).
    rewrite rsum_scale.
    assert (R1 : forall c q, 0 < c -> 0 <= q -> c * c * q = 1 -> c * sqrt q = 1).
    { intros c q Hc Hq E. rewrite <- sqrt_1, <- E, sqrt_mult, sqrt_square by nra. reflexivity. }
    assert (Ka : k * sqrt (rsum n (fun i => f i * f i)) = 1).
    { apply R1; auto; [apply rsum_sq_nonneg|]. rewrite <- Sa, <- rsum_scale. apply asum_ext. intros; ring. }
    assert (La : l * sqrt (rsum n (fun i => g i * g i)) = 1).
    { apply R1; auto; [apply rsum_sq_nonneg|]. rewrite <- Sb, <- rsum_scale. apply asum_ext. intros; ring. }
    set (F := sqrt (rsum n (fun i => f i * f i))) in *. set (G := sqrt (rsum n (fun i => g i * g i))) in *.
    set (D := rsum n (fun i => f i * g i)).
    transitivity (D * (k * F) * (l * G)); [rewrite Ka, La|]; ring.
  Qed.

  Lemma cross3_ok n0 n1 v f w g : is_vec 3 v f -> is_vec 3 w g -> vtyped n0 v -> vtyped n1 w ->
    cross_product rops dbg junk n0 n1 v w =
    Ok [f 1%nat * g 2%nat - f 2%nat * g 1%nat; f 2%nat * g 0%nat - f 0%nat * g 2%nat;
        f 0%nat * g 1%nat - f 1%nat * g 0%nat].
  Proof using.
    intros Hv Hw T0 T1. unfold cross_product.
    rewrite (size_ok 3 v w (proj1 Hv) (proj1 Hw)) by auto. cbn [bind]. rewrite (proj1 Hv). cbn [Nat.eqb].
    rewrite !(is_vec_get 3 v f _ Hv), !(is_vec_get 3 w g _ Hw) by lia. cbn [bind rops sc_sub sc_mul sc_zero].
    destruct (promote_size n0 n1 3 v w (proj1 Hv) (proj1 Hw) T0 T1) as [->| ->].
    - apply v_list_dynamic.
    - apply v_list_static; auto.
  Qed.

  Lemma cross2_ok v f w g : is_vec 2 v f -> is_vec 2 w g ->
    cross_product rops dbg junk 0 0 v w = Ok [0; 0; f 0%nat * g 1%nat - f 1%nat * g 0%nat].
  Proof using.
    intros Hv Hw. unfold cross_product.
    rewrite (size_ok 2 v w (proj1 Hv) (proj1 Hw)) by auto. cbn [bind]. rewrite (proj1 Hv). cbn [Nat.eqb].
    rewrite !(is_vec_get 2 v f _ Hv), !(is_vec_get 2 w g _ Hw) by lia. cbn [bind rops sc_sub sc_mul sc_zero].
    apply v_list_dynamic.
  Qed.

  (** Two dimensional static vectors cannot hold the result. *)
  Lemma cross2_static n0 n1 v f w g : is_vec 2 v f -> is_vec 2 w g -> promote n0 n1 = 2%nat ->
    cross_product rops dbg junk n0 n1 v w = if dbg then Abort else Undef.
  Proof using.
    intros Hv Hw Hp. unfold cross_product.
    rewrite (size_ok 2 v w (proj1 Hv) (proj1 Hw)) by auto. cbn [bind]. rewrite (proj1 Hv). cbn [Nat.eqb].
    rewrite !(is_vec_get 2 v f _ Hv), !(is_vec_get 2 w g _ Hw) by lia. cbn [bind].
    rewrite Hp. unfold v_list. cbn [Nat.eqb length]. destruct dbg; reflexivity.
  Qed.
End Real.
