(** Jacobi's iteration on symmetric matrices over the reals. *)
From Coq Require Import ZArith Reals Lra Field Lia Psatz.
From Verif Require Import Base ListFacts Csr DenseModel DenseFacts ScalarModel GeometryReal SparseModel SparseSpec
  SparseFacts SparseMul LuModel LuFacts LuField LuReal IterModel IterFacts IterLoop IterField IterReal Energy EnergyDrift.

Local Open Scope R_scope.

(** The matrix with the signs outside of the diagonal turned: twice the diagonal less the matrix. *)
Definition mirrored (A : nat -> nat -> R) (i j : nat) : R := if i =? j then A i i else - A i j.

(** The sum of the squares weighted by the diagonal. *)
Definition weighted (n : nat) (A : nat -> nat -> R) (e : nat -> R) : R := rsum n (fun i => A i i * (e i * e i)).

Section Jacobi.
  Variables (n : nat) (A : nat -> nat -> R).
  Hypothesis Hs : symmetric n A.
  Hypothesis Hd : forall i, (i < n)%nat -> 0 < A i i.

  Definition correction (e : nat -> R) (i : nat) : R := rsum n (fun j => A i j * e j) / A i i.
  Definition jstep (e : nat -> R) (i : nat) : R := e i - correction e i.
  Definition dd (x y : nat -> R) : R := rsum n (fun i => A i i * (x i * y i)).

  Lemma mirrored_symmetric : symmetric n (mirrored A).
  Proof using Hs.
    intros i j Hi Hj. unfold mirrored. rewrite (Nat.eqb_sym j i). destruct (Nat.eqb_spec i j) as [->|]; [reflexivity|].
    f_equal. apply Hs; auto.
  Qed.

  Lemma mirrored_row e i : (i < n)%nat ->
    rsum n (fun j => mirrored A i j * e j) = 2 * (A i i * e i) - rsum n (fun j => A i j * e j).
  Proof using Type.
    intro Hi. rewrite (asum_ext _ _ n _ (fun j => e j * bump i (2 * A i i) j - A i j * e j)).
    - rewrite rsum_minus, rsum_bump by auto. ring.
    - intros j Hj. unfold mirrored, bump. rewrite (Nat.eqb_sym j i). destruct (Nat.eqb_spec i j) as [->|]; ring.
  Qed.

  Lemma mirrored_energy e : energy n (mirrored A) e = 2 * weighted n A e - energy n A e.
  Proof using Type.
    unfold energy, weighted. rewrite <- rsum_scale, <- rsum_minus. apply asum_ext. intros i Hi.
    rewrite mirrored_row by auto. ring.
  Qed.

  Lemma correction_row e i : (i < n)%nat -> A i i * correction e i = rsum n (fun j => A i j * e j).
  Proof using Hd. intro Hi. unfold correction. field. specialize (Hd i Hi). lra. Qed.

  Lemma dd_correction x y : dd (correction x) y = cross n A y x.
  Proof using Hd.
    unfold dd, cross. apply asum_ext. intros i Hi. rewrite <- correction_row by auto. ring.
  Qed.

  Lemma dd_sym x y : dd x y = dd y x.
  Proof using Type. unfold dd. apply asum_ext. intros. ring. Qed.

  Lemma dd_step x y : dd (jstep x) y = dd x y - cross n A y x.
  Proof using Hd.
    rewrite <- dd_correction. unfold dd. rewrite <- rsum_minus. apply asum_ext. intros i Hi. unfold jstep. ring.
  Qed.

  Lemma dd_adjoint x y : dd (jstep x) y = dd x (jstep y).
  Proof using Hs Hd. rewrite (dd_sym x (jstep y)), !dd_step, (dd_sym y x), (cross_sym n A Hs x y). reflexivity. Qed.

  Lemma dd_self x : dd x x = weighted n A x.
  Proof using Type. reflexivity. Qed.

  Lemma weighted_nonneg x : 0 <= weighted n A x.
  Proof using Hd.
    apply rsum_nonneg. intros i Hi. apply Rmult_le_pos; [left; auto|apply Rle_0_sqr].
  Qed.

  Lemma weighted_pos x : (exists i, (i < n)%nat /\ x i <> 0) -> 0 < weighted n A x.
  Proof using Hd.
    intros (i & Hi & Hx). apply (rsum_pos n _ i); auto.
    - intros j Hj. apply Rmult_le_pos; [left; auto|apply Rle_0_sqr].
    - apply Rmult_lt_0_compat; [auto|]. apply (Rlt_0_sqr _ Hx).
  Qed.

  Lemma dd_cauchy x y : dd x y * dd x y <= weighted n A x * weighted n A y.
  Proof using Hd.
    pose proof (cauchy n (fun i => sqrt (A i i) * x i) (fun i => sqrt (A i i) * y i)) as H.
    assert (E : forall u v, rsum n (fun i => sqrt (A i i) * u i * (sqrt (A i i) * v i)) = dd u v).
    { intros u v. apply asum_ext. intros i Hi.
      replace (sqrt (A i i) * u i * (sqrt (A i i) * v i)) with (sqrt (A i i) * sqrt (A i i) * (u i * v i)) by ring.
      rewrite sqrt_sqrt; [reflexivity|]. left. auto. }
    cbv beta in H. change (weighted n A x) with (dd x x). change (weighted n A y) with (dd y y).
    rewrite <- (E x y), <- (E x x), <- (E y y). exact H.
  Qed.

  (** One step on the energy. *)
  Lemma jstep_energy e : energy n A (jstep e) = energy n A e - energy n (mirrored A) (correction e).
  Proof using Hs Hd.
    rewrite mirrored_energy, <- dd_self, dd_correction.
    rewrite (energy_ext n A (jstep e) (fun i => e i + (- 1) * correction e i)) by (intros; unfold jstep; ring).
    rewrite (energy_comb n A Hs), (cross_sym n A Hs e). ring.
  Qed.

  (** Definite together with the mirrored matrix: the energy falls by a constant factor. *)
  Lemma jstep_rate : positive_definite n A -> positive_definite n (mirrored A) ->
    exists q, 0 <= q < 1 /\ forall e, energy n A (jstep e) <= q * energy n A e.
  Proof using Hs Hd.
    intros Hp Hm. destruct (coercive n A Hs Hp) as (l1 & Hl1 & Hc1).
    destruct (coercive n (mirrored A) mirrored_symmetric Hm) as (l2 & Hl2 & Hc2).
    set (T := rsum n (fun i => A i i * A i i)). assert (HT : 0 <= T) by apply rsum_sq_nonneg.
    set (g := l1 * l2 / (1 + T)). assert (Hg : 0 < g) by (apply Rdiv_lt_0_compat; nra).
    exists (Rmax 0 (1 - g)). split; [split; [apply Rmax_l|apply Rmax_lub_lt; lra]|]. intro e.
    assert (HE : 0 <= energy n A e).
    { apply Rle_trans with (2 := Hc1 e). apply Rmult_le_pos; [lra|apply rsum_sq_nonneg]. }
    apply Rle_trans with ((1 - g) * energy n A e); [|apply Rmult_le_compat_r; [exact HE|apply Rmax_r]].
    rewrite jstep_energy. set (c := correction e). specialize (Hc2 c). specialize (Hc1 e).
    set (C := rsum n (fun i => c i * c i)) in *. set (N := rsum n (fun i => e i * e i)) in *.
    assert (HC : 0 <= C) by apply rsum_sq_nonneg. assert (HN : 0 <= N) by apply rsum_sq_nonneg.
    set (E := energy n A e) in *.
    assert (H1 : E * E <= T * C * N).
    { assert (HEc : E = rsum n (fun i => A i i * c i * e i)).
      { unfold E, energy. apply asum_ext. intros i Hi. unfold c. rewrite correction_row by auto. ring. }
      rewrite HEc at 1 2. apply Rle_trans with (1 := cauchy n (fun i => A i i * c i) e).
      apply Rmult_le_compat_r; [exact HN|]. unfold T, C. rewrite (Rmult_comm (rsum n _)), <- rsum_scale.
      apply rsum_le. intros i Hi. fold C.
      replace (A i i * c i * (A i i * c i)) with ((c i * c i) * (A i i * A i i)) by ring.
      apply Rmult_le_compat_r; [apply Rle_0_sqr|]. rewrite <- (rsum_bump n i (c i) c Hi).
      apply rsum_le. intros j Hj. unfold bump. destruct (Nat.eqb_spec j i) as [->|]; [lra|]. rewrite Rmult_0_r.
      apply Rle_0_sqr. }
    assert (H2 : l1 * E <= (1 + T) * C).
    { destruct HE as [HE|HE]; [|rewrite <- HE, Rmult_0_r; apply Rmult_le_pos; lra].
      apply (Rmult_le_reg_r E); [exact HE|]. apply Rle_trans with (l1 * (T * C * N)).
      - rewrite Rmult_assoc. apply Rmult_le_compat_l; lra.
      - replace (l1 * (T * C * N)) with (T * C * (l1 * N)) by ring. apply Rle_trans with (T * C * E).
        + apply Rmult_le_compat_l; [apply Rmult_le_pos|]; auto.
        + apply Rmult_le_compat_r; [lra|]. apply Rmult_le_compat_r; lra. }
    assert (H3 : g * E <= l2 * C).
    { unfold g. replace (l1 * l2 / (1 + T) * E) with (l2 * (l1 * E) * / (1 + T)) by (field; lra).
      replace (l2 * C) with (l2 * ((1 + T) * C) * / (1 + T)) by (field; lra).
      apply Rmult_le_compat_r; [left; apply Rinv_0_lt_compat; lra|]. apply Rmult_le_compat_l; lra. }
    lra.
  Qed.

  (** ** Steps that do not bring the weighted error down *)
  Fixpoint jsteps (k : nat) (e : nat -> R) : nat -> R :=
    match k with O => e | S k => jstep (jsteps k e) end.

  Lemma stays e : (exists i, (i < n)%nat /\ e i <> 0) -> energy n A e <= 0 \/ energy n (mirrored A) e <= 0 ->
    weighted n A e <= weighted n A (jstep e).
  Proof using Hs Hd.
    intros Hne H. pose proof (weighted_pos e Hne) as Hp. pose proof (dd_cauchy (jstep e) e) as Hc.
    assert (E : dd (jstep e) e = weighted n A e - energy n A e) by apply dd_step.
    assert (Hm := mirrored_energy e). set (W := weighted n A e) in *. set (W' := weighted n A (jstep e)) in *.
    set (X := dd (jstep e) e) in *.
    assert (HX : W * W <= X * X) by (destruct H; nra).
    apply (Rmult_le_reg_r W); [exact Hp|]. lra.
  Qed.

  Lemma grows e : (exists i, (i < n)%nat /\ e i <> 0) -> energy n A e <= 0 \/ energy n (mirrored A) e <= 0 ->
    forall k, weighted n A (jsteps k e) <= weighted n A (jsteps (S k) e) /\ 0 < weighted n A (jsteps k e).
  Proof using Hs Hd.
    intros Hne H k. induction k as [|k [IH Hp]].
    - split; [apply stays; auto|apply weighted_pos, Hne].
    - assert (Hp' : 0 < weighted n A (jsteps (S k) e)) by lra. split; [|exact Hp'].
      pose proof (dd_cauchy (jsteps k e) (jsteps (S (S k)) e)) as Hc.
      assert (E : dd (jsteps k e) (jsteps (S (S k)) e) = weighted n A (jsteps (S k) e)).
      { cbn [jsteps]. rewrite <- dd_adjoint. reflexivity. }
      rewrite E in Hc. set (a := weighted n A (jsteps k e)) in *. set (b := weighted n A (jsteps (S k) e)) in *.
      set (c := weighted n A (jsteps (S (S k)) e)) in *. apply (Rmult_le_reg_l a); [exact Hp|].
      apply Rle_trans with (2 := Hc). apply Rmult_le_compat_r; lra.
  Qed.

  Lemma never_smaller e : (exists i, (i < n)%nat /\ e i <> 0) -> energy n A e <= 0 \/ energy n (mirrored A) e <= 0 ->
    forall k, weighted n A e <= weighted n A (jsteps k e).
  Proof using Hs Hd.
    intros Hne H k. induction k as [|k IH]; [cbn; lra|]. destruct (grows e Hne H k). lra.
  Qed.

  (** Vectors with small components have a small weighted sum and a small energy. *)
  Lemma weighted_small t : 0 < t -> exists eps, 0 < eps /\ forall e, (forall i, (i < n)%nat -> Rabs (e i) < eps) -> weighted n A e < t.
  Proof using Hd.
    intro Ht. set (T := rsum n (fun i => A i i)).
    assert (HT : 0 <= T) by (apply rsum_nonneg; intros; left; auto).
    assert (Hq : 0 < t / (1 + T)) by (apply Rdiv_lt_0_compat; lra).
    exists (Rmin 1 (t / (1 + T))). set (eps := Rmin 1 (t / (1 + T))).
    assert (He : 0 < eps) by (apply Rmin_glb_lt; lra). assert (He1 : eps <= 1) by apply Rmin_l.
    assert (He2 : eps <= t / (1 + T)) by apply Rmin_r. split; [exact He|]. intros e Hb.
    apply Rle_lt_trans with (eps * T).
    - unfold weighted, T. rewrite <- rsum_scale. apply rsum_le. intros i Hi. rewrite (Rmult_comm eps).
      apply Rmult_le_compat_l; [left; auto|]. specialize (Hb i Hi).
      assert (0 <= Rabs (e i)) by apply Rabs_pos. rewrite <- (Rabs_pos_eq (e i * e i)) by apply Rle_0_sqr.
      rewrite Rabs_mult. nra.
    - apply Rle_lt_trans with (t / (1 + T) * T); [apply Rmult_le_compat_r; lra|].
      apply (Rmult_lt_reg_r (1 + T)); [lra|]. unfold Rdiv.
      replace (t * / (1 + T) * T * (1 + T)) with (t * T) by (field; lra). lra.
  Qed.
End Jacobi.

Lemma energy_small n A t : 0 < t -> exists eps, 0 < eps /\
  forall e, (forall i, (i < n)%nat -> Rabs (e i) < eps) -> - t < energy n A e.
Proof.
  intro Ht. set (T := rsum n (fun i => rsum n (fun j => Rabs (A i j)))).
  assert (HT : 0 <= T) by (apply rsum_nonneg; intros; apply rsum_nonneg; intros; apply Rabs_pos).
  assert (Hq : 0 < t / (1 + T)) by (apply Rdiv_lt_0_compat; lra).
  exists (Rmin 1 (t / (1 + T))). set (eps := Rmin 1 (t / (1 + T))).
  assert (He : 0 < eps) by (apply Rmin_glb_lt; lra). assert (He1 : eps <= 1) by apply Rmin_l.
  assert (He2 : eps <= t / (1 + T)) by apply Rmin_r. split; [exact He|]. intros e Hb.
  assert (H : - (eps * T) <= energy n A e).
  { unfold energy, T. rewrite <- rsum_scale.
    replace (- rsum n (fun i => eps * rsum n (fun j => Rabs (A i j)))) with
      (rsum n (fun i => (- eps) * rsum n (fun j => Rabs (A i j)))) by (rewrite !rsum_scale; ring).
    apply rsum_le. intros i Hi. rewrite <- !rsum_scale. apply rsum_le. intros j Hj.
    pose proof (Hb i Hi) as Bi. pose proof (Hb j Hj) as Bj.
    assert (0 <= Rabs (e i)) by apply Rabs_pos. assert (0 <= Rabs (e j)) by apply Rabs_pos.
    assert (0 <= Rabs (A i j)) by apply Rabs_pos.
    pose proof (Rle_abs (- (e i * (A i j * e j)))) as Ha. rewrite Rabs_Ropp, !Rabs_mult in Ha.
    assert (Rabs (e i) * (Rabs (A i j) * Rabs (e j)) <= eps * Rabs (A i j)); [|lra].
    replace (Rabs (e i) * (Rabs (A i j) * Rabs (e j))) with (Rabs (e i) * Rabs (e j) * Rabs (A i j)) by ring.
    apply Rmult_le_compat_r; [auto|]. nra. }
  assert (eps * T < t); [|lra].
  apply Rle_lt_trans with (t / (1 + T) * T); [apply Rmult_le_compat_r; lra|].
  apply (Rmult_lt_reg_r (1 + T)); [lra|].
  replace (t / (1 + T) * T * (1 + T)) with (t * T) by (field; lra). lra.
Qed.

Lemma rsum_sq_entry n e i : (i < n)%nat -> e i * e i <= rsum n (fun j => e j * e j).
Proof.
  intro Hi. rewrite <- (rsum_bump n i (e i) e Hi). apply rsum_le. intros j Hj. unfold bump.
  destruct (Nat.eqb_spec j i) as [->|]; [lra|]. rewrite Rmult_0_r. apply Rle_0_sqr.
Qed.

(** Energies under a falling geometric sequence bring every component below any bound. *)
Lemma geometric_small n A q D : symmetric n A -> positive_definite n A -> 0 <= q < 1 -> 0 <= D ->
  forall eps, 0 < eps -> exists K, forall k, (K <= k)%nat -> forall e, energy n A e <= q ^ k * D ->
    forall i, (i < n)%nat -> Rabs (e i) < eps.
Proof.
  intros Hs Hp Hq HD eps He. destruct (coercive n A Hs Hp) as (l & Hl & Hco).
  assert (Ht : 0 < l * (eps * eps) / (D + 1)) by (apply Rdiv_lt_0_compat; [apply Rmult_lt_0_compat; nra|lra]).
  destruct (pow_lt_1_zero q ltac:(rewrite Rabs_right; lra) _ Ht) as (K & HK). exists K. intros k Hk e Hf i Hi.
  assert (Hlt : q ^ k * D < l * (eps * eps)).
  { specialize (HK k Hk). assert (0 <= q ^ k) by (apply pow_le; lra). rewrite Rabs_right in HK by lra.
    apply (Rmult_lt_compat_r (D + 1)) in HK; [|lra].
    unfold Rdiv in HK. rewrite Rmult_assoc, Rinv_l, Rmult_1_r in HK by lra. nra. }
  pose proof (rsum_sq_entry n e i Hi) as H1. specialize (Hco e). assert (H2 : e i * e i < eps * eps).
  { apply (Rmult_lt_reg_l l); auto. apply Rle_lt_trans with (l * rsum n (fun i => e i * e i)); [|lra].
    apply Rmult_le_compat_l; lra. }
  unfold Rabs. destruct (Rcase_abs (e i)); nra.
Qed.
