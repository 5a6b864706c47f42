(** Sums and products of matrices of floats, their cross products and angles, for C136. *)
From Coq Require Import List ZArith Reals Lra Lia SpecFloat Psatz.
From Verif Require Import Base DenseModel DenseFacts DenseOps ScalarModel GeometryModel GeometryReal FloatFacts FloatError
  PropFloatLemmas FloatUnit PropGeoFloatLemmas SingleModel SingleFacts PropSingleLemmas SingleOps SingleSums.
Import ListNotations.
Local Open Scope R_scope.

Definition msingles (r c : nat) (g : nat -> nat -> f32) : Prop := forall i j, (i < r)%nat -> (j < c)%nat -> single (g i j).

Lemma rows_eq r c (m o : list (list f32)) g h : is_mat r c m g -> is_mat r c o h ->
  (forall i j, (i < r)%nat -> (j < c)%nat -> g i j = h i j) -> m = o.
Proof.
  intros Hm Ho H. apply (nth_ext m o [] []); [rewrite (proj1 Hm), (proj1 Ho); reflexivity|]. intros i Hi. rewrite (proj1 Hm) in Hi.
  destruct (is_mat_row _ _ _ _ i Hm Hi) as (a & Ea & Ha). destruct (is_mat_row _ _ _ _ i Ho Hi) as (b & Eb & Hb).
  assert (G : forall (l : list (list f32)) x, vget l i = Ok x -> nth i l [] = x).
  { intros l x E. unfold vget in E. destruct (nth_error l i) eqn:N; [|discriminate]. injection E as <-. apply nth_error_nth, N. }
  rewrite (G _ _ Ea), (G _ _ Eb). apply (is_vec_eq c a b _ _ Ha Hb). intros j Hj. apply H; auto.
Qed.

Lemma sm_op_ok dbg op s0 s1 r c m g o h : is_mat r c m g -> is_mat r c o h -> mtyped s0 r c -> mtyped s1 r c ->
  (forall i j, (i < r)%nat -> (j < c)%nat -> s_valid (op (g i j) (h i j))) ->
  exists u, sm_op dbg op s0 s1 m o = Ok u /\ is_mat r c u (fun i j => op (g i j) (h i j)).
Proof.
  intros Hm Ho H0 H1 HV. unfold sm_op. rewrite (assert_ok dbg _ (same_size_spec _ _ _ _ _ _ Hm Ho)). cbn [bind].
  rewrite (is_mat_rows _ _ _ _ Hm). destruct r as [|r].
  - assert (m_cols m = 0%nat) as -> by (destruct Hm as [Hm _]; destruct m; [reflexivity|discriminate]).
    assert (m_promote s0 s1 = (0, 0)%nat) as ->.
    { unfold m_promote, mtyped in *. destruct H0 as [->|(-> & ? & _)]; [|lia]. destruct H1 as [->|(-> & ? & _)]; [reflexivity|lia]. }
    eexists. split; [reflexivity|]. apply is_mat_nil.
  - rewrite (is_mat_cols _ _ _ _ Hm) by lia. apply lambda_exact; [apply m_promote_typed; auto|].
    intros i j Hi Hj. rewrite (is_mat_get _ _ _ _ i j Hm Hi Hj), (is_mat_get _ _ _ _ i j Ho Hi Hj). split; [reflexivity|auto].
Qed.

Lemma single_matrix_sums dbg op exact s0 s1 r c m g o h : sum_op op exact -> is_mat r c m g -> is_mat r c o h ->
  mtyped s0 r c -> mtyped s1 r c -> msingles r c g -> msingles r c h ->
  exists u k, sm_op dbg op s0 s1 m o = Ok u /\ m_op_assign dbg op m (Some o) = Ok u /\ is_mat r c u k /\
    forall i j, (i < r)%nat -> (j < c)%nat -> let z := exact (f_real (g i j)) (f_real (h i j)) in
      (Rabs z < s_over -> single (k i j) /\ Rabs (f_real (k i j) - z) <= s_u * Rabs z) /\
      (s_over < z -> k i j = S754_infinity false) /\ (z < - s_over -> k i j = S754_infinity true).
Proof.
  intros Hop Hm Ho T0 T1 Hg Hh. destruct (sm_op_ok dbg op s0 s1 r c m g o h Hm Ho T0 T1) as (u & E & Hu).
  { intros i j Hi Hj. apply (sum_valid op exact); [exact Hop|apply Hg; auto|apply Hh; auto]. }
  destruct (m_op_assign_ok dbg op r c m g o h Hm Ho) as (u' & E' & Hu').
  exists u, (fun i j => op (g i j) (h i j)). split; [exact E|]. split.
  - rewrite E'. f_equal. apply (rows_eq r c u' u _ _ Hu' Hu). reflexivity.
  - split; [exact Hu|]. intros i j Hi Hj z. split; [intro H; apply sum_ok; auto|apply (sum_over op exact); auto].
Qed.

(** Sums of several floats. *)
Definition ssum := asum s_zero s_add.

Lemma s_growth k : INR k * s_u <= / 4 -> 1 <= (1 + s_u) ^ k <= 4 / 3.
Proof.
  pose proof s_u_pos as U. intro H. split; [apply pow_R1_Rle; lra|].
  assert (G : (1 + s_u) ^ k * (1 - INR k * s_u) <= 1).
  { clear H. induction k as [|k IH]; [cbn; lra|]. rewrite S_INR. cbn [pow]. pose proof (pow_lt (1 + s_u) k ltac:(lra)) as P.
    pose proof (pos_INR k). apply Rle_trans with (2 := IH).
    replace ((1 + s_u) * (1 + s_u) ^ k * (1 - (INR k + 1) * s_u)) with
      ((1 + s_u) ^ k * (1 - INR k * s_u) - (1 + s_u) ^ k * ((INR k + 1) * (s_u * s_u))) by ring.
    assert (0 <= (1 + s_u) ^ k * ((INR k + 1) * (s_u * s_u))) by (apply Rmult_le_pos; [lra|]; apply Rmult_le_pos; [lra|]; apply Rmult_le_pos; lra).
    lra. }
  pose proof (pow_lt (1 + s_u) k ltac:(lra)) as P. nra.
Qed.

Lemma ssum_error k q : singles k q -> (1 + s_u) ^ k * rsum k (fun i => Rabs (f_real (q i))) < s_over ->
  single (ssum k q) /\ Rabs (f_real (ssum k q) - rsum k (fun i => f_real (q i))) <= ((1 + s_u) ^ k - 1) * rsum k (fun i => Rabs (f_real (q i))).
Proof.
  pose proof s_u_pos as U. induction k as [|k IH]; intros Hq H.
  - split; [split; reflexivity|]. cbn [ssum asum s_zero f_real pow]. rewrite Rminus_diag_eq, Rabs_R0 by reflexivity. lra.
  - assert (P : 1 <= (1 + s_u) ^ k) by (apply pow_R1_Rle; lra). cbn [asum pow] in H. unfold rsum in H, IH |- *. cbn [asum] in H |- *.
    fold (rsum k (fun i => Rabs (f_real (q i)))) in *. fold (rsum k (fun i => f_real (q i))) in *.
    change (ssum (S k) q) with (s_add (ssum k q) (q k)).
    set (A := rsum k (fun i => Rabs (f_real (q i)))) in *. set (T := rsum k (fun i => f_real (q i))) in *.
    assert (A0 : 0 <= A) by (apply rsum_ge0; intros; apply Rabs_pos). assert (HT : Rabs T <= A) by apply rsum_abs.
    set (p := q k) in *. pose proof (Rabs_pos (f_real p)) as Q0. set (Q := Rabs (f_real p)) in *. set (g := (1 + s_u) ^ k) in *.
    assert (M1 : 0 <= (g - 1) * A) by (apply Rmult_le_pos; lra). assert (M2 : 0 <= g * Q) by (apply Rmult_le_pos; lra).
    assert (M3 : 0 <= (g - 1) * Q) by (apply Rmult_le_pos; lra).
    assert (M4 : 0 <= s_u * (g * (A + Q))) by (apply Rmult_le_pos; [lra|]; apply Rmult_le_pos; lra).
    destruct IH as [S E]; [intros i Hi; apply Hq; lia|lra|]. set (s := ssum k q) in *.
    assert (Bs : Rabs (f_real s) <= g * A).
    { replace (f_real s) with ((f_real s - T) + T) by ring. apply Rle_trans with (1 := Rabs_triang _ _). lra. }
    assert (Bz : Rabs (f_real s + f_real p) <= g * A + Q) by (apply Rle_trans with (1 := Rabs_triang _ _); unfold Q; lra).
    destruct (sum_ok s_add Rplus s p) as [S' E']; [left; auto|exact S|apply Hq; lia|lra|]. split; [exact S'|].
    replace (f_real (s_add s p) - (T + f_real p)) with ((f_real (s_add s p) - (f_real s + f_real p)) + (f_real s - T)) by ring.
    apply Rle_trans with (1 := Rabs_triang _ _).
    assert (s_u * Rabs (f_real s + f_real p) <= s_u * (g * A + Q)) by (apply Rmult_le_compat_l; lra).
    assert (0 <= s_u * ((g - 1) * Q)) by (apply Rmult_le_pos; lra).
    cbn [pow]. fold g. replace ((1 + s_u) * g - 1) with (g - 1 + s_u * g) by ring. lra.
Qed.

Lemma sm_times_ok dbg s0 s1 r k c m a o b : is_mat r k m a -> (r = 0 -> k = 0)%nat -> is_mat k c o b -> (k = 0 -> c = 0)%nat ->
  mtyped s0 r k -> mtyped s1 k c -> (s0 = (0, 0) \/ s1 = (0, 0) \/ (r = k /\ k = c))%nat -> msingles r k a ->
  exists u, sm_times dbg s0 s1 m o = Ok u /\ is_mat r c u (fun i j => ssum k (fun l => s_mul (a i l) (b l j))).
Proof.
  intros Hm Hr Ho Hk T0 T1 Hs Ha. unfold sm_times.
  rewrite (shape_cols _ _ _ _ Hm), (is_mat_rows _ _ _ _ Ho), (is_mat_rows _ _ _ _ Hm) by auto.
  rewrite (assert_ok dbg _ (Nat.eqb_refl k)). cbn [bind].
  assert (Hd : (m_demote s0 s1 = (0, 0) \/ (m_demote s0 s1 = (r, k) /\ r = k /\ k = c /\ 0 < c))%nat).
  { unfold m_demote, mtyped in *. destruct T0 as [->|(-> & _ & _)]; [left; reflexivity|].
    destruct T1 as [->|(-> & _ & ?)]; [left; cbn [fst]; rewrite Bool.orb_true_r; reflexivity|].
    cbn [fst snd]. destruct (Nat.eqb_spec r 0), (Nat.eqb_spec k 0); auto.
    right. cbn [orb]. assert (r = k /\ k = c)%nat as [<- <-] by (destruct Hs as [Hs|[Hs|Hs]]; [congruence|congruence|auto]).
    auto. }
  destruct (lambda_exact dbg (m_demote s0 s1) (fun i j => mget m i j) r k a) as (t & Et & Ht).
  - destruct Hd as [->|(-> & -> & -> & ?)]; [left; auto|right; auto].
  - intros i j Hi Hj. split; [apply (is_mat_get _ _ _ _ i j Hm Hi Hj)|apply Ha; auto].
  - rewrite Et. cbn [bind]. apply m_mul_assign_ok; auto.
Qed.

Lemma single_times dbg s0 s1 r k c m a o b : is_mat r k m a -> (r = 0 -> k = 0)%nat -> is_mat k c o b -> (k = 0 -> c = 0)%nat ->
  mtyped s0 r k -> mtyped s1 k c -> (s0 = (0, 0) \/ s1 = (0, 0) \/ (r = k /\ k = c))%nat -> msingles r k a -> msingles k c b ->
  INR k * s_u <= / 4 ->
  (forall i j, (i < r)%nat -> (j < c)%nat -> rsum k (fun l => Rabs (f_real (a i l) * f_real (b l j))) <= 2 ^ 126) ->
  exists u h, sm_times dbg s0 s1 m o = Ok u /\ is_mat r c u h /\ forall i j, (i < r)%nat -> (j < c)%nat -> single (h i j) /\
    Rabs (f_real (h i j) - rsum k (fun l => f_real (a i l) * f_real (b l j))) <=
      mixed_gamma (k + 1) 0 * rsum k (fun l => Rabs (f_real (a i l) * f_real (b l j))) + INR k * (1 + s_u) ^ k * s_eta.
Proof.
  intros Hm Hr Ho Hk T0 T1 Hs Ha Hb Hn HA. destruct (sm_times_ok dbg s0 s1 r k c m a o b Hm Hr Ho Hk T0 T1 Hs Ha) as (u & E & Hu).
  exists u. eexists. split; [exact E|]. split; [exact Hu|]. intros i j Hi Hj. specialize (HA i j Hi Hj). cbv beta.
  set (q := fun l => s_mul (a i l) (b l j)). set (A := rsum k (fun l => Rabs (f_real (a i l) * f_real (b l j)))) in *.
  assert (A0 : 0 <= A) by (apply rsum_ge0; intros; apply Rabs_pos).
  assert (P : forall l, (l < k)%nat -> single (q l) /\ Rabs (f_real (q l) - f_real (a i l) * f_real (b l j)) <=
      s_u * Rabs (f_real (a i l) * f_real (b l j)) + s_eta).
  { intros l Hl. apply product_ok; [apply Ha; auto|apply Hb; auto|]. apply Rle_trans with (2 ^ 126); [|apply two_le; reflexivity].
    apply Rle_trans with (2 := HA). apply (rsum_member k (fun l => Rabs (f_real (a i l) * f_real (b l j))) l Hl).
    intros; apply Rabs_pos. }
  pose proof s_u_pos as U. pose proof s_u_small as Us. pose proof s_eta_pos as Y. pose proof (pos_INR k) as K0.
  assert (E3 : rsum k (fun l => Rabs (f_real (q l))) <= (1 + s_u) * A + INR k * s_eta).
  { unfold A. rewrite <- rsum_scale, <- rsum_const, <- rsum_plus. apply rsum_le. intros l Hl. destruct (P l Hl) as [_ Eq].
    pose proof (Rabs_triang_inv (f_real (q l)) (f_real (a i l) * f_real (b l j))). lra. }
  assert (E2 : Rabs (rsum k (fun l => f_real (q l)) - rsum k (fun l => f_real (a i l) * f_real (b l j))) <= s_u * A + INR k * s_eta).
  { unfold A. rewrite <- rsum_minus, <- rsum_scale, <- rsum_const, <- rsum_plus. apply Rle_trans with (1 := rsum_abs _ _).
    apply rsum_le. intros l Hl. apply P, Hl. }
  destruct (s_growth k Hn) as [G1 G2].
  assert (KE : INR k * s_eta <= 1).
  { assert (s_eta <= s_u) by (apply inv_two_le; reflexivity).
    assert (INR k * s_eta <= INR k * s_u) by (apply Rmult_le_compat_l; lra). lra. }
  assert (RM : (1 + s_u) ^ k * rsum k (fun l => Rabs (f_real (q l))) < s_over).
  { set (Q := rsum k (fun l => Rabs (f_real (q l)))) in *. assert (Q0 : 0 <= Q) by (apply rsum_ge0; intros; apply Rabs_pos).
    assert (s_u * A <= / 1000 * A) by (apply Rmult_le_compat_r; lra).
    assert ((1 + s_u) ^ k * Q <= 4 / 3 * Q) by (apply Rmult_le_compat_r; lra).
    pose proof (two_le 0 126 eq_refl) as B0. change (2 ^ 0) with 1 in B0.
    assert (B1 : 2 ^ 128 = 4 * 2 ^ 126) by (change 128%nat with (2 + 126)%nat; rewrite pow_add; generalize (2 ^ 126); intro; cbn; ring).
    pose proof small103 as [_ B2]. unfold s_over. revert HA B0 B1 B2. generalize (2 ^ 126) (2 ^ 128) (2 ^ 103). intros. lra. }
  destruct (ssum_error k q (fun l Hl => proj1 (P l Hl)) RM) as [S E1]. split; [exact S|].
  set (T := rsum k (fun l => f_real (a i l) * f_real (b l j))) in *. set (Z := rsum k (fun l => f_real (q l))) in *.
  set (Q := rsum k (fun l => Rabs (f_real (q l)))) in *.
  replace (f_real (ssum k q) - T) with ((f_real (ssum k q) - Z) + (Z - T)) by ring. apply Rle_trans with (1 := Rabs_triang _ _).
  assert (((1 + s_u) ^ k - 1) * Q <= ((1 + s_u) ^ k - 1) * ((1 + s_u) * A + INR k * s_eta)) by (apply Rmult_le_compat_l; lra).
  apply Rle_trans with (((1 + s_u) ^ k - 1) * ((1 + s_u) * A + INR k * s_eta) + (s_u * A + INR k * s_eta)); [lra|]. right.
  unfold mixed_gamma. rewrite pow_add. cbn [pow]. ring.
Qed.

(** The cross product. *)
Definition s_minor (a b c d : f32) : f32 := s_sub (s_mul a b) (s_mul c d).

Lemma s_minor_ok a b c d : single a -> single b -> single c -> single d ->
  Rabs (f_real a * f_real b) <= 2 ^ 126 -> Rabs (f_real c * f_real d) <= 2 ^ 126 ->
  single (s_minor a b c d) /\ Rabs (f_real (s_minor a b c d) - (f_real a * f_real b - f_real c * f_real d)) <=
    mixed_gamma 2 0 * (Rabs (f_real a * f_real b) + Rabs (f_real c * f_real d)) + 2 * (1 + s_u) * s_eta.
Proof.
  intros Ha Hb Hc Hd P Q. pose proof (two_le 126 127 eq_refl) as B.
  destruct (product_ok a b Ha Hb ltac:(lra)) as [S1 E1]. destruct (product_ok c d Hc Hd ltac:(lra)) as [S2 E2].
  set (x := s_mul a b) in *. set (y := s_mul c d) in *. set (p := f_real a * f_real b) in *. set (q := f_real c * f_real d) in *.
  pose proof s_u_pos as U. pose proof s_u_small as Us. pose proof s_eta_pos as Y. pose proof s_eta_small as Ys.
  pose proof (Rabs_pos p) as P0. pose proof (Rabs_pos q) as Q0.
  assert (D : Rabs ((f_real x - f_real y) - (p - q)) <= s_u * (Rabs p + Rabs q) + 2 * s_eta).
  { replace (f_real x - f_real y - (p - q)) with ((f_real x - p) - (f_real y - q)) by ring.
    apply Rle_trans with (1 := Rabs_triang _ _). rewrite Rabs_Ropp. lra. }
  assert (Z : Rabs (f_real x - f_real y) <= (1 + s_u) * (Rabs p + Rabs q) + 2 * s_eta).
  { replace (f_real x - f_real y) with ((f_real x - f_real y - (p - q)) + (p - q)) by ring.
    apply Rle_trans with (1 := Rabs_triang _ _). assert (Rabs (p - q) <= Rabs p + Rabs q).
    { apply Rle_trans with (1 := Rabs_triang _ _). rewrite Rabs_Ropp. lra. } lra. }
  assert (L : Rabs (f_real x - f_real y) < s_over).
  { assert (s_u * (Rabs p + Rabs q) <= / 1000 * (Rabs p + Rabs q)) by (apply Rmult_le_compat_r; lra).
    pose proof (two_le 0 126 eq_refl) as B0. change (2 ^ 0) with 1 in B0.
    assert (B1 : 2 ^ 128 = 4 * 2 ^ 126) by (change 128%nat with (2 + 126)%nat; rewrite pow_add; generalize (2 ^ 126); intro; cbn; ring).
    pose proof small103 as [_ B2]. unfold s_over. revert P Q B0 B1 B2. generalize (2 ^ 126) (2 ^ 128) (2 ^ 103). intros. lra. }
  destruct (sum_ok s_sub Rminus x y) as [S E]; [right; auto|exact S1|exact S2|exact L|]. split; [exact S|].
  unfold s_minor. fold x y. replace (f_real (s_sub x y) - (p - q)) with ((f_real (s_sub x y) - (f_real x - f_real y)) + (f_real x - f_real y - (p - q))) by ring.
  apply Rle_trans with (1 := Rabs_triang _ _).
  assert (s_u * Rabs (f_real x - f_real y) <= s_u * ((1 + s_u) * (Rabs p + Rabs q) + 2 * s_eta)) by (apply Rmult_le_compat_l; lra).
  apply Rle_trans with (s_u * ((1 + s_u) * (Rabs p + Rabs q) + 2 * s_eta) + (s_u * (Rabs p + Rabs q) + 2 * s_eta)); [lra|].
  right. unfold mixed_gamma. cbn [pow]. ring.
Qed.

Lemma s_cross_ok dbg junk n0 n1 v f w g : is_vec 3 v f -> is_vec 3 w g -> vtyped n0 v -> vtyped n1 w ->
  s_cross dbg junk n0 n1 v w =
  Ok [s_minor (f 1%nat) (g 2%nat) (f 2%nat) (g 1%nat); s_minor (f 2%nat) (g 0%nat) (f 0%nat) (g 2%nat);
      s_minor (f 0%nat) (g 1%nat) (f 1%nat) (g 0%nat)].
Proof.
  intros Hv Hw T0 T1. unfold s_cross.
  assert (ES : size_2_or_3 dbg v w = Ok tt).
  { unfold size_2_or_3. rewrite (proj1 Hv), (proj1 Hw). rewrite (assert_ok dbg _ (Nat.eqb_refl 3)). cbn [bind].
    apply assert_ok. reflexivity. }
  rewrite ES. cbn [bind]. rewrite (proj1 Hv). cbn [Nat.eqb].
  rewrite !(is_vec_get 3 v f _ Hv), !(is_vec_get 3 w g _ Hw) by lia. cbn [bind].
  assert (Hp : promote n0 n1 = 0%nat \/ promote n0 n1 = 3%nat).
  { pose proof (proj1 Hv) as L0. pose proof (proj1 Hw) as L1. unfold vtyped in *. rewrite L0 in T0. rewrite L1 in T1.
    unfold promote. destruct (Nat.eqb_spec n0 0); lia. }
  destruct Hp as [->| ->].
  - apply v_list_dynamic.
  - unfold v_list. cbn [Nat.eqb length]. destruct dbg; reflexivity.
Qed.

Lemma single_cross dbg junk n0 n1 v f w g : is_vec 3 v f -> is_vec 3 w g -> vtyped n0 v -> vtyped n1 w -> singles 3 f -> singles 3 g ->
  (forall i j, (i < 3)%nat -> (j < 3)%nat -> i <> j -> Rabs (f_real (f i) * f_real (g j)) <= 2 ^ 126) ->
  exists x h, s_cross dbg junk n0 n1 v w = Ok x /\ is_vec 3 x h /\
    forall i j k, (i, j, k) = (0, 1, 2)%nat \/ (i, j, k) = (1, 2, 0)%nat \/ (i, j, k) = (2, 0, 1)%nat ->
      single (h i) /\ Rabs (f_real (h i) - (f_real (f j) * f_real (g k) - f_real (f k) * f_real (g j))) <=
        mixed_gamma 2 0 * (Rabs (f_real (f j) * f_real (g k)) + Rabs (f_real (f k) * f_real (g j))) + 2 * (1 + s_u) * s_eta.
Proof.
  intros Hv Hw T0 T1 Sf Sg B. rewrite (s_cross_ok dbg junk n0 n1 v f w g Hv Hw T0 T1).
  set (x := s_minor (f 1%nat) (g 2%nat) (f 2%nat) (g 1%nat)). set (y := s_minor (f 2%nat) (g 0%nat) (f 0%nat) (g 2%nat)).
  set (z := s_minor (f 0%nat) (g 1%nat) (f 1%nat) (g 0%nat)).
  exists [x; y; z], (fun i => match i with 0 => x | 1 => y | _ => z end)%nat. split; [reflexivity|]. split.
  - split; [reflexivity|]. intros [|[|[|i]]] Hi; try lia; reflexivity.
  - intros i j k [E|[E|E]]; injection E as -> -> ->; (apply s_minor_ok; [apply Sf; lia|apply Sg; lia|apply Sf; lia|apply Sg; lia|apply B; lia|apply B; lia]).
Qed.

Lemma single_cross_plane dbg junk v f w g : is_vec 2 v f -> is_vec 2 w g -> singles 2 f -> singles 2 g ->
  (forall i j, (i < 2)%nat -> (j < 2)%nat -> i <> j -> Rabs (f_real (f i) * f_real (g j)) <= 2 ^ 126) ->
  exists z, s_cross dbg junk 0 0 v w = Ok [s_zero; s_zero; z] /\ single z /\
    Rabs (f_real z - (f_real (f 0%nat) * f_real (g 1%nat) - f_real (f 1%nat) * f_real (g 0%nat))) <=
      mixed_gamma 2 0 * (Rabs (f_real (f 0%nat) * f_real (g 1%nat)) + Rabs (f_real (f 1%nat) * f_real (g 0%nat))) + 2 * (1 + s_u) * s_eta.
Proof.
  intros Hv Hw Sf Sg B. exists (s_minor (f 0%nat) (g 1%nat) (f 1%nat) (g 0%nat)). split.
  - unfold s_cross. assert (ES : size_2_or_3 dbg v w = Ok tt).
    { unfold size_2_or_3. rewrite (proj1 Hv), (proj1 Hw). rewrite (assert_ok dbg _ (Nat.eqb_refl 2)). cbn [bind].
      apply assert_ok. reflexivity. }
    rewrite ES. cbn [bind]. rewrite (proj1 Hv). cbn [Nat.eqb].
    rewrite !(is_vec_get 2 v f _ Hv), !(is_vec_get 2 w g _ Hw) by lia. cbn [bind]. apply v_list_dynamic.
  - apply s_minor_ok; [apply Sf; lia|apply Sg; lia|apply Sf; lia|apply Sg; lia|apply B; lia|apply B; lia].
Qed.

(** The angle. *)
Lemma mixed_small : mixed_gamma 2 7 <= 201 / 100 * s_u /\ (1 + f_u) ^ 3 <= 11 / 10 /\ mixed_gamma 1 3 <= 101 / 100 * s_u.
Proof.
  pose proof s_u_pos as U. pose proof s_u_small as Us. pose proof u_pos as V.
  assert (V1 : f_u <= / 10000 * s_u).
  { unfold f_u, s_u. change 53%nat with (29 + 24)%nat. rewrite pow_add, Rinv_mult. apply Rmult_le_compat_r; [apply Rlt_le, inv_two_pos|].
    apply Rle_trans with (/ 2 ^ 14); [apply inv_two_le; reflexivity|]. lra. }
  assert (G : (1 + f_u) ^ 7 <= 1 + 8 * f_u).
  { replace ((1 + f_u) ^ 7) with ((1 + f_u) ^ 7) by reflexivity. assert (f_u <= / 10000000) by lra.
    assert (K2 : (1 + f_u) ^ 2 <= 1 + 201 / 100 * f_u) by (cbn [pow]; nra).
    assert (K4 : (1 + f_u) ^ 4 <= 1 + 405 / 100 * f_u).
    { replace ((1 + f_u) ^ 4) with ((1 + f_u) ^ 2 * (1 + f_u) ^ 2) by ring. pose proof (pow2_ge_0 (1 + f_u)). nra. }
    replace ((1 + f_u) ^ 7) with ((1 + f_u) ^ 4 * ((1 + f_u) ^ 2 * (1 + f_u))) by ring.
    assert ((1 + f_u) ^ 2 * (1 + f_u) <= 1 + 302 / 100 * f_u) by (pose proof (pow2_ge_0 (1 + f_u)); nra).
    assert (0 <= (1 + f_u) ^ 2 * (1 + f_u)) by (pose proof (pow2_ge_0 (1 + f_u)); nra).
    assert (0 <= (1 + f_u) ^ 4) by (apply pow_le; lra). nra. }
  assert (G3 : 1 <= (1 + f_u) ^ 3 <= 1 + 8 * f_u).
  { split; [apply pow_R1_Rle; lra|]. apply Rle_trans with (2 := G). apply Rle_pow; [lra|lia]. }
  assert (G7 : 1 <= (1 + f_u) ^ 7) by (apply pow_R1_Rle; lra).
  unfold mixed_gamma. revert G G3 G7. generalize ((1 + f_u) ^ 7) ((1 + f_u) ^ 3). intros g7 g3 G [G31 G32] G7. cbn [pow].
  split; [|split]; nra.
Qed.

Lemma mixed_le a b b' : (b <= b')%nat -> mixed_gamma a b <= mixed_gamma a b'.
Proof.
  intro H. unfold mixed_gamma. pose proof u_pos. pose proof s_u_pos. apply Rplus_le_compat_r, Rmult_le_compat_l; [apply pow_le; lra|].
  apply Rle_pow; [lra|exact H].
Qed.
Lemma mixed_nonneg a b : 0 <= mixed_gamma a b.
Proof.
  unfold mixed_gamma. pose proof u_pos. pose proof s_u_pos. assert (1 <= (1 + s_u) ^ a) by (apply pow_R1_Rle; lra).
  assert (1 <= (1 + f_u) ^ b) by (apply pow_R1_Rle; lra). nra.
Qed.

Lemma single_angle dbg arccos pi radians n v f w g : is_vec n v f -> is_vec n w g -> (n = 2 \/ n = 3)%nat -> singles n f -> singles n g ->
  / 2 ^ 126 <= length2 n f <= 2 ^ 120 -> / 2 ^ 126 <= length2 n g <= 2 ^ 120 ->
  exists c, s_angle dbg arccos pi radians v w =
      Ok (narrow (sc_div fops (arccos c) (if radians then sc_one fops else sc_div fops pi (f_of_Z 180)))) /\
    f_valid c /\ f_finite c = true /\ -1 <= f_real c <= 1 /\
    Rabs (f_real c - rsum n (fun i => f_real (f i) * f_real (g i)) / (length2 n f * length2 n g)) <= 6 * s_u.
Proof.
  intros Hv Hw Hn Sf Sg [L1 L2] [M1 M2].
  pose proof s_u_pos as U. pose proof s_u_small as Us. pose proof s_eta_pos as Y.
  assert (Y1 : s_eta <= / 1000 * s_u).
  { unfold s_eta, s_u. change 150%nat with (126 + 24)%nat. rewrite pow_add, Rinv_mult. apply Rmult_le_compat_r; [apply Rlt_le, inv_two_pos|].
    apply Rle_trans with (/ 2 ^ 10); [apply inv_two_le; reflexivity|]. lra. }
  assert (Y2 : 2 * 2 ^ 120 * s_eta <= / 30 * s_u).
  { unfold s_eta, s_u. replace (2 * 2 ^ 120 * / 2 ^ 150) with (/ 2 ^ 5 * / 2 ^ 24).
    - apply Rmult_le_compat_r; [apply Rlt_le, inv_two_pos|]. lra.
    - change 150%nat with (1 + 120 + (5 + 24))%nat. rewrite !pow_add. pose proof (two_pos 120). pose proof (two_pos 24). pose proof (two_pos 5).
      revert H H0 H1. generalize (2 ^ 120) (2 ^ 24) (2 ^ 5). intros. cbn [pow]. field. lra. }
  destruct mixed_small as (G1 & G2 & G3).
  assert (Hn3 : INR n <= 3) by (replace 3 with (INR 3) by (cbn; lra); apply le_INR; lia). pose proof (pos_INR n) as Hn0.
  assert (Hnu : INR n * f_u <= / 4) by (pose proof u_pos; pose proof u_tiny; nra).
  destruct (single_unit n v f Hv Sf Hnu L1) as (a & p & Ea & Ha & Sp & Hp).
  destruct (single_unit n w g Hw Sg Hnu M1) as (b & q & Eb & Hb & Sq & Hq).
  set (L := length2 n f) in *. set (M := length2 n g) in *.
  assert (L0 : 0 < L) by (apply Rlt_le_trans with (2 := L1); apply inv_two_pos).
  assert (M0 : 0 < M) by (apply Rlt_le_trans with (2 := M1); apply inv_two_pos).
  set (W := fun i => f_real (f i) / L) in *. set (Z := fun i => f_real (g i) / M) in *.
  assert (XP : forall h, 0 < length2 n h -> 0 < rsum n (fun i => f_real (h i) ^ 2)).
  { intros h Hh. unfold length2 in Hh. destruct (Rle_or_lt (rsum n (fun i => f_real (h i) ^ 2)) 0) as [N|N]; [|exact N].
    pose proof (sqrt_le_1_alt _ _ N) as K. rewrite sqrt_0 in K. lra. }
  assert (SW : rsum n (fun i => W i ^ 2) = 1) by (apply (unit_sum n (fun i => f_real (f i))), XP, L0).
  assert (SZ : rsum n (fun i => Z i ^ 2) = 1) by (apply (unit_sum n (fun i => f_real (g i))), XP, M0).
  assert (GN : mixed_gamma 2 (n + 4) <= 201 / 100 * s_u) by (apply Rle_trans with (2 := G1); apply mixed_le; lia).
  set (y := 205 / 100 * s_u).
  assert (Y3 : 2 * L * s_eta <= / 30 * s_u) by (apply Rle_trans with (2 := Y2); apply Rmult_le_compat_r; lra).
  assert (Y4 : 2 * M * s_eta <= / 30 * s_u) by (apply Rle_trans with (2 := Y2); apply Rmult_le_compat_r; lra).
  assert (Hterm : forall i, (i < n)%nat -> Rabs (f_real (p i) * f_real (q i) - W i * Z i) <=
            (2 * y + y * y) * (Rabs (W i) * Rabs (Z i)) + 4 * s_eta).
  { intros i Hi. apply term_error; [apply (unit_le n W i SW Hi)|apply (unit_le n Z i SZ Hi)|unfold y; lra|lra|..].
    - apply Rle_trans with (1 := Hp i Hi). apply Rplus_le_compat_r, Rmult_le_compat_r; [apply Rabs_pos|unfold y; lra].
    - apply Rle_trans with (1 := Hq i Hi). apply Rplus_le_compat_r, Rmult_le_compat_r; [apply Rabs_pos|unfold y; lra]. }
  pose proof (unit_products n W Z SW SZ) as HWZ. set (T := rsum n (fun i => W i * Z i)).
  set (P := rsum n (fun i => Rabs (W i) * Rabs (Z i))) in *.
  assert (HP0 : 0 <= P) by (apply rsum_ge0; intros i _; apply Rmult_le_pos; apply Rabs_pos).
  assert (HT : -1 <= T <= 1).
  { apply Rabs_le_between. apply Rle_trans with (1 := rsum_abs _ _).
    rewrite (asum_ext _ _ n _ (fun i => Rabs (W i) * Rabs (Z i))) by (intros; apply Rabs_mult). exact HWZ. }
  assert (Hy0 : 0 <= 2 * y + y * y <= 42 / 10 * s_u) by (unfold y; split; nra).
  assert (Hne : INR n * (4 * s_eta) <= 12 / 1000 * s_u) by nra.
  assert (HyP : (2 * y + y * y) * P <= 42 / 10 * s_u).
  { apply Rle_trans with ((2 * y + y * y) * 1); [apply Rmult_le_compat_l; lra|lra]. }
  assert (D1 : Rabs (rsum n (fun i => f_real (p i) * f_real (q i)) - T) <= 43 / 10 * s_u).
  { unfold T. rewrite <- rsum_minus. apply Rle_trans with (1 := rsum_abs _ _).
    apply Rle_trans with (rsum n (fun i => (2 * y + y * y) * (Rabs (W i) * Rabs (Z i)) + 4 * s_eta)).
    - apply rsum_le. exact Hterm.
    - rewrite rsum_plus, rsum_scale, rsum_const. fold P. lra. }
  set (A := rsum n (fun i => Rabs (f_real (p i) * f_real (q i)))).
  assert (A0 : 0 <= A) by (apply rsum_ge0; intros; apply Rabs_pos).
  assert (D2 : A <= 1 + 43 / 10 * s_u).
  { apply Rle_trans with (rsum n (fun i => Rabs (W i) * Rabs (Z i) + ((2 * y + y * y) * (Rabs (W i) * Rabs (Z i)) + 4 * s_eta))).
    - apply rsum_le. intros i Hi. specialize (Hterm i Hi).
      replace (f_real (p i) * f_real (q i)) with (W i * Z i + (f_real (p i) * f_real (q i) - W i * Z i)) by ring.
      apply Rle_trans with (1 := Rabs_triang _ _). rewrite (Rabs_mult (W i)). lra.
    - rewrite !rsum_plus, rsum_scale, rsum_const. fold P. lra. }
  assert (HB : forall i, (i < n)%nat -> Rabs (f_real (p i) * f_real (q i)) <= 2 ^ 127).
  { intros i Hi. apply Rle_trans with A.
    - apply (rsum_member n (fun i => Rabs (f_real (p i) * f_real (q i))) i Hi). intros; apply Rabs_pos.
    - apply Rle_trans with (2 ^ 1); [cbn; lra|apply two_le; reflexivity]. }
  destruct (single_dot dbg n a b p q Ha Hb Sp Sq Hnu HB) as (d & Ed & Vd & Fd & Herr). fold A in Herr.
  assert (GD : mixed_gamma 1 n <= 101 / 100 * s_u) by (apply Rle_trans with (2 := G3); apply mixed_le; lia).
  pose proof (mixed_nonneg 1 n) as GD0.
  assert (D3 : mixed_gamma 1 n * A <= 102 / 100 * s_u).
  { apply Rle_trans with (101 / 100 * s_u * (1 + 43 / 10 * s_u)); [apply Rmult_le_compat; lra|]. nra. }
  assert (D4 : INR n * (1 + f_u) ^ n * s_eta <= / 100 * s_u).
  { assert ((1 + f_u) ^ n <= 11 / 10) by (apply Rle_trans with (2 := G2); apply Rle_pow; [pose proof u_pos; lra|lia]).
    assert (0 <= (1 + f_u) ^ n) by (apply pow_le; pose proof u_pos; lra).
    assert (INR n * (1 + f_u) ^ n <= 3 * (11 / 10)) by (apply Rmult_le_compat; lra).
    apply Rle_trans with (3 * (11 / 10) * s_eta); [apply Rmult_le_compat_r; lra|lra]. }
  destruct (clamp_float d Vd Fd) as (Vc & Fc & Bc & Hc). set (c := clamp fops d _ _) in *.
  exists c. split.
  - unfold s_angle, size_2_or_3. rewrite (proj1 Hv), (proj1 Hw), Nat.eqb_refl, (assert_ok dbg true eq_refl). cbn [bind].
    assert ((n =? 2)%nat || (n =? 3)%nat = true)%bool as -> by (destruct Hn as [-> | ->]; reflexivity).
    rewrite (assert_ok dbg true eq_refl). cbn [bind]. rewrite Ea, Eb. cbn [bind]. rewrite Ed. cbn [bind]. reflexivity.
  - split; [exact Vc|]. split; [exact Fc|]. split; [exact Bc|].
    assert (ET : rsum n (fun i => f_real (f i) * f_real (g i)) / (L * M) = T).
    { unfold T, W, Z.
      rewrite (asum_ext _ _ n (fun i => f_real (f i) / L * (f_real (g i) / M)) (fun i => / (L * M) * (f_real (f i) * f_real (g i)))) by (intros; field; lra).
      rewrite rsum_scale. unfold Rdiv. ring. }
    rewrite ET. apply Rle_trans with (1 := Hc T HT).
    replace (f_real d - T) with (f_real d - rsum n (fun i => f_real (p i) * f_real (q i)) +
      (rsum n (fun i => f_real (p i) * f_real (q i)) - T)) by ring.
    apply Rle_trans with (1 := Rabs_triang _ _). lra.
Qed.

(** Examples. *)
Lemma products_differ dbg : let m := [[sf 1 24; sf 1 0; sf (-1) 24]; [s_zero; s_zero; s_zero]; [s_zero; s_zero; s_zero]] in
  sm_vec dbg (fun _ => s_zero) (0, 0)%nat 0 m [sf 1 0; sf 1 0; sf 1 0] = Ok [sf 1 0; s_zero; s_zero] /\
  sm_times dbg (0, 0)%nat (0, 0)%nat m [[sf 1 0]; [sf 1 0]; [sf 1 0]] = Ok [[s_zero]; [s_zero]; [s_zero]].
Proof. destruct dbg; vm_compute; auto. Qed.

Lemma angle_short : exists x, single x /\ f_real x = / 2 ^ 140 /\ forall dbg arccos pi,
  s_angle dbg arccos pi true [x; s_zero] [x; s_zero] = Ok (narrow (sc_div fops (arccos S754_nan) (sc_one fops))).
Proof.
  exists (sf 1 (-140)). destruct (sf_real 1 (-140)) as [S E]; [lia|lia|]. split; [exact S|]. split.
  - rewrite E, Rmult_1_l. change (-140)%Z with (- Z.of_nat 140)%Z. rewrite powerRZ_neg', <- pow_powerRZ. reflexivity.
  - intros dbg arccos pi. unfold s_angle.
    assert (size_2_or_3 dbg [sf 1 (-140); s_zero] [sf 1 (-140); s_zero] = Ok tt) as -> by (destruct dbg; reflexivity). cbn [bind].
    rewrite values_tiny. cbn [bind].
    assert (s_dot dbg [S754_infinity false; S754_nan] [S754_infinity false; S754_nan] = Ok S754_nan) as -> by (destruct dbg; vm_compute; reflexivity).
    cbn [bind]. reflexivity.
Qed.

Lemma angle_345 dbg pi : s_angle dbg (fun x => x) pi true v345 [sf 1 0; s_zero] = Ok (sf 10066330 (-24)) /\
  / 2 ^ 126 <= length2 2 f345 <= 2 ^ 120.
Proof.
  split; [destruct dbg; vm_compute; reflexivity|]. rewrite (proj2 (proj2 (proj2 is_345))). split.
  - apply Rle_trans with (/ 2 ^ 1); [apply inv_two_le; reflexivity|cbn; lra].
  - apply Rle_trans with (2 ^ 3); [cbn; lra|apply two_le; reflexivity].
Qed.
