(** Proofs of the property theorems about symmetric positive definite systems. *)
From Coq Require Import ZArith Reals Lra Lia.
From Verif Require Import Base ListFacts DenseModel DenseFacts ScalarModel GeometryReal SparseModel SparseSpec
  LuModel LuReal PropLuLemmas IterModel IterFacts IterLoop IterField IterReal PropIterLemmas Energy.
Local Open Scope nat_scope.

Section Definite.
  Variables (dbg : bool) (stray : option nat) (n : nat) (a : smat R) (A : nat -> nat -> R) (b : list R) (h : nat -> R).
  Hypothesis Ha : sparse_square 0%R n a A.
  Hypothesis Hb : is_vec n b h.
  Hypothesis Hs : symmetric n A.

  Lemma sweep_form w x f : (forall i, i < n -> (0 < A i i)%R) -> is_vec n x f ->
    exists x' z, forward_sweep rops dbg stray a None x b w = Ok x' /\ is_vec n x' z /\
      forall i, i < n -> z i = relaxed rops n A h w i (fun j => if j <? i then z j else f j).
  Proof using Ha Hb.
    intros Hd Hx. destruct (field_rows rops Ropp Rinv dbg stray R_field n a A b h Ha Hb) as (rs & d & Hro & Hv).
    { intros i Hi. specialize (Hd i Hi). cbn [rops sc_zero]. lra. }
    destruct (seidel_sweep_ok rops dbg stray n a b rs d h x f w Hro Hx) as (x' & z & E & Hx' & Hz).
    exists x', z. split; [exact E|]. split; [exact Hx'|]. intros i Hi. rewrite <- Hv by auto. apply Hz, Hi.
  Qed.

  Lemma energy_decreases xs x f w : (forall i, i < n -> (0 < A i i)%R) -> (0 < w < 2)%R -> solves rops n A xs h ->
    is_vec n x f ->
    exists x' f', forward_sweep rops dbg stray a None x b w = Ok x' /\ is_vec n x' f' /\
      (energy n A (fun i => f' i - xs i) <= energy n A (fun i => f i - xs i))%R /\
      (energy n A (fun i => f' i - xs i) = energy n A (fun i => f i - xs i) -> solves rops n A f h)%R.
  Proof using Ha Hb Hs.
    intros Hd Hw Hx Hf. destruct (sweep_form w x f Hd Hf) as (x' & z & E & Hx' & Hz).
    exists x', z. split; [exact E|]. split; [exact Hx'|]. apply (sweep_decreases n A h xs w f z); auto.
  Qed.

  Lemma sweep_rate w : positive_definite n A -> (0 < w < 2)%R -> exists q, (0 <= q < 1)%R /\
    forall xs x f, solves rops n A xs h -> is_vec n x f ->
      exists x' f', forward_sweep rops dbg stray a None x b w = Ok x' /\ is_vec n x' f' /\
        (energy n A (fun i => f' i - xs i) <= q * energy n A (fun i => f i - xs i))%R.
  Proof using Ha Hb Hs.
    intros Hp Hw. assert (Hd : forall i, i < n -> (0 < A i i)%R) by (intros; eapply positive_diagonal; eauto).
    destruct (coercive n A Hs Hp) as (l & Hl & Hco).
    set (c := fun i j => if j <? i then A i j else if j =? i then (A i i / w)%R else 0%R).
    exists (Rmax 0 (1 - (2 - w) / w * l * l / (1 + rsum n (fun i => rsum n (fun j => c i j * c i j)))))%R.
    split.
    - split; [apply Rmax_l|]. apply Rmax_lub_lt; [lra|].
      assert (H : (0 < (2 - w) / w * l * l / (1 + rsum n (fun i => rsum n (fun j => c i j * c i j))))%R); [|lra].
      apply Rdiv_lt_0_compat.
      + assert ((0 < (2 - w) / w)%R) by (apply Rdiv_lt_0_compat; lra).
        apply Rmult_lt_0_compat; [apply Rmult_lt_0_compat|]; auto.
      + assert (H : (0 <= rsum n (fun i => rsum n (fun j => c i j * c i j)))%R); [|lra].
        apply rsum_nonneg. intros. apply rsum_sq_nonneg.
    - intros xs x f Hx Hf. destruct (sweep_form w x f Hd Hf) as (x' & z & E & Hx' & Hz).
      exists x', z. split; [exact E|]. split; [exact Hx'|].
      eapply Rle_trans; [apply (sweep_linear n A h xs w f z Hs Hd Hw Hx Hz l Hl Hco)|].
      apply Rmult_le_compat_r; [|apply Rmax_r].
      eapply Rle_trans; [|apply Hco]. apply Rmult_le_pos; [lra|apply rsum_sq_nonneg].
  Qed.

  Lemma times_rate (step : list R * list R -> res (list R * list R)) w q xs : (0 <= q)%R -> (forall x u, step (x, u) =
      (do x' <- forward_sweep rops dbg stray a None x b w; Ok (x', u))) ->
    (forall x f, is_vec n x f -> exists x' f', forward_sweep rops dbg stray a None x b w = Ok x' /\ is_vec n x' f' /\
        (energy n A (fun i => f' i - xs i) <= q * energy n A (fun i => f i - xs i))%R) ->
    forall k x f, is_vec n x f -> exists x' f', times step k (x, []) = Ok (x', []) /\ is_vec n x' f' /\
      (energy n A (fun i => f' i - xs i) <= q ^ k * energy n A (fun i => f i - xs i))%R.
  Proof using.
    intros Hq Hst H k x f Hf. induction k as [|k IH]; cbn [times].
    - exists x, f. split; [reflexivity|]. split; [exact Hf|]. rewrite pow_O. lra.
    - destruct IH as (x1 & f1 & -> & H1 & E1). cbn [bind]. rewrite Hst.
      destruct (H x1 f1 H1) as (x2 & f2 & -> & H2 & E2). cbn [bind]. exists x2, f2. split; [reflexivity|].
      split; [exact H2|]. apply Rle_trans with (1 := E2). cbn [pow]. rewrite Rmult_assoc.
      apply Rmult_le_compat_l; auto.
  Qed.

  Lemma definite_rate : positive_definite n A -> exists q, (0 <= q < 1)%R /\
    forall xs x f k, solves rops n A xs h -> is_vec n x f ->
    (exists x' f', times (gauss_seidel_step rops dbg stray a b) k (x, []) = Ok (x', []) /\ is_vec n x' f' /\
       (energy n A (fun i => f' i - xs i) <= q ^ k * energy n A (fun i => f i - xs i))%R) /\
    (exists x' f', times (sor_step rops dbg stray a b) k (x, []) = Ok (x', []) /\ is_vec n x' f' /\
       (energy n A (fun i => f' i - xs i) <= q ^ k * energy n A (fun i => f i - xs i))%R).
  Proof using Ha Hb Hs.
    intro Hp. destruct (sweep_rate 1 Hp ltac:(lra)) as (q1 & Hq1 & H1).
    destruct (sweep_rate (3 / 2) Hp ltac:(lra)) as (q2 & Hq2 & H2).
    destruct (coercive n A Hs Hp) as (l & Hl & Hco).
    assert (Hpos : forall e, (0 <= energy n A e)%R).
    { intro e. eapply Rle_trans; [|apply Hco]. apply Rmult_le_pos; [lra|apply rsum_sq_nonneg]. }
    exists (Rmax q1 q2). split; [split; [apply Rle_trans with q1; [lra|apply Rmax_l]|apply Rmax_lub_lt; lra]|].
    intros xs x f k Hx Hf. split.
    - destruct (times_rate (gauss_seidel_step rops dbg stray a b) 1 q1 xs ltac:(lra)) with (k := k) (x := x) (f := f)
        as (x' & f' & E & Hx' & He); auto.
      exists x', f'. split; [exact E|]. split; [exact Hx'|]. apply Rle_trans with (1 := He).
      apply Rmult_le_compat_r; [apply Hpos|]. apply pow_incr. split; [lra|apply Rmax_l].
    - destruct (times_rate (sor_step rops dbg stray a b) (3 / 2) q2 xs ltac:(lra)) with (k := k) (x := x) (f := f)
        as (x' & f' & E & Hx' & He); auto.
      exists x', f'. split; [exact E|]. split; [exact Hx'|]. apply Rle_trans with (1 := He).
      apply Rmult_le_compat_r; [apply Hpos|]. apply pow_incr. split; [lra|apply Rmax_r].
  Qed.

  Lemma definite_converges : positive_definite n A -> exists xs, solves rops n A xs h /\
    (forall ys, solves rops n A ys h -> forall i, i < n -> ys i = xs i) /\
    forall x, length x = n -> forall eps, (0 < eps)%R -> exists K, forall k, K <= k ->
      (exists x' f', times (gauss_seidel_step rops dbg stray a b) k (x, []) = Ok (x', []) /\
         is_vec n x' f' /\ forall i, i < n -> (Rabs (f' i - xs i) < eps)%R) /\
      (exists x' f', times (sor_step rops dbg stray a b) k (x, []) = Ok (x', []) /\
         is_vec n x' f' /\ forall i, i < n -> (Rabs (f' i - xs i) < eps)%R).
  Proof using Ha Hb Hs.
    intro Hp. destruct (definite_solution n A h Hs Hp) as (xs & Hx). exists xs. split; [exact Hx|]. split.
    - intros ys Hy i Hi. destruct (Req_dec (ys i) (xs i)) as [|Hne]; auto. exfalso.
      assert (H : (0 < energy n A (fun j => ys j - xs j))%R) by (apply Hp; exists i; split; [auto|lra]).
      unfold energy in H. rewrite rsum_zero in H; [lra|]. intros k Hk.
      rewrite (error_row n A h xs Hx ys k Hk). pose proof (Hy k Hk) as Hyk. cbn [rops sc_zero sc_add sc_mul] in Hyk.
      rewrite Hyk. ring.
    - intros x Hl eps He. destruct (definite_rate Hp) as (q & Hq & Hr). destruct (coercive n A Hs Hp) as (l & Hl0 & Hco).
      assert (Hv : is_vec n x (fun i => nth i x 0%R)) by (rewrite <- Hl; apply is_vec_self).
      set (D := energy n A (fun i => nth i x 0 - xs i)%R) in *.
      assert (HD : (0 <= D)%R).
      { unfold D. eapply Rle_trans; [|apply Hco]. apply Rmult_le_pos; [lra|apply rsum_sq_nonneg]. }
      assert (Ht : (0 < l * (eps * eps) / (D + 1))%R) by (apply Rdiv_lt_0_compat; [apply Rmult_lt_0_compat; nra|lra]).
      destruct (pow_lt_1_zero q ltac:(rewrite Rabs_right; lra) _ Ht) as (K & HK). exists K. intros k Hk.
      assert (Hlt : (q ^ k * D < l * (eps * eps))%R).
      { specialize (HK k Hk). assert (0 <= q ^ k)%R by (apply pow_le; lra). rewrite Rabs_right in HK by lra.
        apply (Rmult_lt_compat_r (D + 1)) in HK; [|lra].
        unfold Rdiv in HK. rewrite Rmult_assoc, Rinv_l, Rmult_1_r in HK by lra. nra. }
      assert (Hfin : forall f', (energy n A (fun i => f' i - xs i) <= q ^ k * D)%R ->
                forall i, i < n -> (Rabs (f' i - xs i) < eps)%R).
      { intros f' Hf i Hi. set (e := fun i => (f' i - xs i)%R) in *. change (Rabs (e i) < eps)%R.
        assert (H1 : (e i * e i <= rsum n (fun i => e i * e i))%R).
        { rewrite <- (rsum_bump n i (e i) e Hi). apply rsum_le. intros j Hj. unfold bump.
          destruct (Nat.eqb_spec j i) as [->|]; [lra|]. rewrite Rmult_0_r. apply Rle_0_sqr. }
        specialize (Hco e). assert (H2 : (e i * e i < eps * eps)%R).
        { apply (Rmult_lt_reg_l l); auto. apply Rle_lt_trans with (l * rsum n (fun i => e i * e i))%R; [|lra].
          apply Rmult_le_compat_l; lra. }
        unfold Rabs. destruct (Rcase_abs (e i)); nra. }
      destruct (Hr xs x _ k Hx Hv) as [(x1 & f1 & E1 & V1 & G1) (x2 & f2 & E2 & V2 & G2)]. split.
      + exists x1, f1. split; [exact E1|]. split; [exact V1|]. apply Hfin, G1.
      + exists x2, f2. split; [exact E2|]. split; [exact V2|]. apply Hfin, G2.
  Qed.
End Definite.
