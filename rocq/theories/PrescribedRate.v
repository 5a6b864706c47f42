(** Systems with prescribed values: the rate of Gauss-Seidel and SOR, and the Laplace problem with a source. *)
From Coq Require Import ZArith Reals Lra Lia List Psatz.
From Verif Require Import Base ListFacts DenseModel DenseFacts ScalarModel GeometryReal GraphModel GraphSpec SparseModel SparseSpec SparseSeq LuModel LuReal LuFacts LuSuccess FloatError FloatUnit
  PropLuLemmas IterModel IterFacts IterLoop IterField IterReal FloatFacts PropIterLemmas Energy EnergyDrift PropEnergyLemmas PropRelaxLemmas PropSuccessLemmas PropGraphLemmas
  GraphGen GridSetup PropGridLemmas GridWhole SourceModel SourceFacts SourceError SourceSolved Prescribed.
Import ListNotations.
Local Open Scope R_scope.

Lemma combined s r C : 0 <= s < 1 -> 0 <= r < 1 -> 0 <= C -> exists q G, 0 <= q < 1 /\ 0 <= G /\
  forall E D, 0 <= E -> 0 <= D -> s * E + C * D + G * (r * D) <= q * (E + G * D).
Proof.
  intros Hs Hr HC. pose proof (Rmax_l s r) as M1. pose proof (Rmax_r s r) as M2. assert (M3 : Rmax s r < 1) by (apply Rmax_lub_lt; lra).
  set (q := (1 + Rmax s r) / 2). assert (Q : s <= q /\ r < q /\ q < 1) by (unfold q; lra). destruct Q as (Q1 & Q2 & Q3).
  exists q, (C / (q - r)). split; [lra|]. split; [apply Rmult_le_pos; [exact HC|left; apply Rinv_0_lt_compat; lra]|].
  intros E D HE HD. replace (s * E + C * D + C / (q - r) * (r * D)) with (s * E + q * (C / (q - r) * D)) by (field; lra).
  rewrite Rmult_plus_distr_l. apply Rplus_le_compat_r, Rmult_le_compat_r; auto.
Qed.

Section Rate.
  Variables (dbg : bool) (stray : option nat) (n : nat) (a : smat R) (A : nat -> nat -> R) (b : list R) (h : nat -> R) (d : nat -> bool).
  Hypothesis Ha : sparse_square 0 n a A.
  Hypothesis Hb : is_vec n b h.
  Hypothesis Hd : prescribed n d A.
  Hypothesis Hs : symmetric n (free_part d A).
  Hypothesis Hp : positive_definite n (free_part d A).

  Lemma held_sweep w x f : is_vec n x f ->
    exists x' z, forward_sweep rops dbg stray a None x b w = Ok x' /\ is_vec n x' z /\
      forall i, (i < n)%nat -> z i = relaxed rops n A h w i (fun j => if (j <? i)%nat then z j else f j).
  Proof using Ha Hb Hd Hs Hp.
    intros Hx. destruct (field_rows rops Ropp Rinv dbg stray R_field n a A b h Ha Hb) as (rs & dd & Hro & Hv).
    { intros i Hi. apply (diagonal_nonzero n d A Hd Hs Hp i Hi). }
    destruct (seidel_sweep_ok rops dbg stray n a b rs dd h x f w Hro Hx) as (x' & z & E & Hx' & Hz).
    exists x', z. split; [exact E|]. split; [exact Hx'|]. intros i Hi. rewrite <- Hv by auto. apply Hz, Hi.
  Qed.

  Lemma held_rate (step : list R * list R -> res (list R * list R)) w xs : 0 < w <= 3 / 2 -> (forall x u, step (x, u) =
      (do x' <- forward_sweep rops dbg stray a None x b w; Ok (x', u))) ->
    (forall i, (i < n)%nat -> rsum n (fun j => A i j * xs j) = h i) ->
    exists q, 0 <= q < 1 /\ forall x f, is_vec n x f -> exists C, 0 <= C /\ forall k,
      exists x' f', times step k (x, []) = Ok (x', []) /\ is_vec n x' f' /\ forall i, (i < n)%nat -> Rabs (f' i - xs i) <= C * q ^ k.
  Proof using Ha Hb Hd Hs Hp.
    intros Hw Hst Hx. set (F := free_part d A) in *.
    destruct (factor_exists n F w Hs Hp ltac:(lra)) as (s & Hsf). destruct (coercive n F Hs Hp) as (l & Hl). change (coercivity n F l) in Hl.
    assert (L0 : 0 < sqrt l) by (apply sqrt_lt_R0, Hl).
    set (B := rsum n (fun i => rsum n (fun j => Rabs (A i j)))). assert (B0 : 0 <= B) by (apply rsum_nonneg; intros; apply rsum_nonneg; intros; apply Rabs_pos).
    assert (R1 : 0 <= Rabs (1 - w) < 1) by (split; [apply Rabs_pos|apply Rabs_def1; lra]).
    assert (C0 : 0 <= 2 * (sqrt (INR n) * B / sqrt l)).
    { apply Rmult_le_pos; [lra|]. apply Rmult_le_pos; [apply Rmult_le_pos; [apply sqrt_pos|exact B0]|left; apply Rinv_0_lt_compat, L0]. }
    destruct (combined s (Rabs (1 - w)) _ (proj1 Hsf) R1 C0) as (q & G & Hq & HG & Hc).
    exists q. split; [exact Hq|]. intros x f Hf.
    set (E0 := enorm n F (fun j => f j - xs j)). set (D0 := rsum n (fun j => Rabs (f j - xs j))).
    assert (E00 : 0 <= E0) by apply sqrt_pos. assert (D00 : 0 <= D0) by (apply rsum_nonneg; intros; apply Rabs_pos).
    set (T := E0 + G * D0). assert (T0 : 0 <= T) by (unfold T; pose proof (Rmult_le_pos _ _ HG D00); lra).
    exists (T / sqrt l). split; [apply Rmult_le_pos; [exact T0|left; apply Rinv_0_lt_compat, L0]|].
    assert (K : forall k, exists x' f' E D, times step k (x, []) = Ok (x', []) /\ is_vec n x' f' /\ 0 <= E /\ 0 <= D /\
      enorm n F (fun j => f' j - xs j) <= E /\ (forall j, (j < n)%nat -> d j = true -> Rabs (f' j - xs j) <= D) /\ E + G * D <= T * q ^ k).
    { induction k as [|k IH]; cbn [times].
      - exists x, f, E0, D0. split; [reflexivity|]. split; [exact Hf|]. split; [exact E00|]. split; [exact D00|]. split; [apply Rle_refl|].
        split; [|rewrite pow_O, Rmult_1_r; apply Rle_refl]. intros j Hj _. apply (rsum_member n (fun j => Rabs (f j - xs j)) j Hj). intros; apply Rabs_pos.
      - destruct IH as (x1 & f1 & E & D & -> & H1 & HE & HD & N1 & V1 & Q1). cbn [bind]. rewrite Hst.
        destruct (held_sweep w x1 f1 H1) as (x2 & z & -> & H2 & Hz). cbn [bind].
        destruct (prescribed_sweep n d A Hd Hs Hp h xs Hx w l s f1 z E D Hl Hw Hsf Hz HD N1 V1) as (N2 & V2). fold F B in N2.
        exists x2, z, (s * E + 2 * (sqrt (INR n) * B / sqrt l) * D), (Rabs (1 - w) * D). split; [reflexivity|]. split; [exact H2|].
        split; [apply Rplus_le_le_0_compat; apply Rmult_le_pos; auto; apply Hsf|]. split; [apply Rmult_le_pos; auto; apply Rabs_pos|].
        split; [apply Rle_trans with (1 := N2); apply Req_le; field; lra|]. split; [exact V2|].
        apply Rle_trans with (1 := Hc E D HE HD). cbn [pow]. rewrite <- Rmult_assoc, (Rmult_comm T q), Rmult_assoc. apply Rmult_le_compat_l; [lra|exact Q1]. }
    intro k. destruct (K k) as (x' & f' & E & D & Et & Hv & HE & HD & N1 & _ & Q1). exists x', f'. split; [exact Et|]. split; [exact Hv|].
    intros i Hi. apply Rle_trans with (1 := component_bound n F l Hl (fun j => f' j - xs j) i Hi).
    replace (T / sqrt l * q ^ k) with (T * q ^ k / sqrt l) by (unfold Rdiv; ring).
    apply Rmult_le_compat_r; [left; apply Rinv_0_lt_compat, L0|]. pose proof (Rmult_le_pos _ _ HG HD). lra.
  Qed.

  Lemma prescribed_rate : exists xs q, 0 <= q < 1 /\ (forall i, (i < n)%nat -> rsum n (fun j => A i j * xs j) = h i) /\
    (forall ys, (forall i, (i < n)%nat -> rsum n (fun j => A i j * ys j) = h i) -> forall i, (i < n)%nat -> ys i = xs i) /\
    forall x, length x = n -> exists C, 0 <= C /\ forall k,
      (exists x' f, times (gauss_seidel_step rops dbg stray a b) k (x, []) = Ok (x', []) /\ is_vec n x' f /\
         forall i, (i < n)%nat -> Rabs (f i - xs i) <= C * q ^ k) /\
      (exists x' f, times (sor_step rops dbg stray a b) k (x, []) = Ok (x', []) /\ is_vec n x' f /\
         forall i, (i < n)%nat -> Rabs (f i - xs i) <= C * q ^ k).
  Proof using Ha Hb Hd Hs Hp.
    destruct (prescribed_solution n d A Hd Hs Hp h) as (xs & Hx & Hu). exists xs.
    destruct (held_rate (gauss_seidel_step rops dbg stray a b) 1 xs ltac:(lra) ltac:(reflexivity) Hx) as (q1 & Hq1 & R1).
    destruct (held_rate (sor_step rops dbg stray a b) (3 / 2) xs ltac:(lra) ltac:(reflexivity) Hx) as (q2 & Hq2 & R2).
    exists (Rmax q1 q2). pose proof (Rmax_l q1 q2) as M1. pose proof (Rmax_r q1 q2) as M2. split; [split; [lra|apply Rmax_lub_lt; lra]|].
    split; [exact Hx|]. split; [exact Hu|]. intros x Hl.
    assert (Hv : is_vec n x (fun i => nth i x 0)) by (rewrite <- Hl; apply is_vec_self).
    destruct (R1 x _ Hv) as (C1 & P1 & G1). destruct (R2 x _ Hv) as (C2 & P2 & G2). exists (Rmax C1 C2).
    pose proof (Rmax_l C1 C2) as N1. pose proof (Rmax_r C1 C2) as N2. split; [lra|]. intro k. split.
    - destruct (G1 k) as (x' & f & E & V & H). exists x', f. split; [exact E|]. split; [exact V|]. intros i Hi.
      apply Rle_trans with (1 := H i Hi). apply Rmult_le_compat; auto; [apply pow_le; lra|apply pow_incr; lra].
    - destruct (G2 k) as (x' & f & E & V & H). exists x', f. split; [exact E|]. split; [exact V|]. intros i Hi.
      apply Rle_trans with (1 := H i Hi). apply Rmult_le_compat; auto; [apply pow_le; lra|apply pow_incr; lra].
  Qed.
End Rate.

(** The problem with a source: the boundary is prescribed. *)
Section Source.
  Variable n : nat.
  Hypothesis Hn : (3 <= n)%nat.
  Notation N := (n * n)%nat.
  Notation S0 := (fun i j => f_real (setup_matrix n i j)).
  Notation F := (free_part (on_boundary n) (source_full n)).

  Lemma source_prescribed : prescribed N (on_boundary n) (source_full n).
  Proof using.
    intros i Hi B. assert (E : forall j, (j < N)%nat -> source_full n i j = if (i =? j)%nat then 1 else 0).
    { intros j Hj. unfold source_full, source_entry. apply Nat.ltb_lt in Hi, Hj. rewrite Hi, Hj, B. reflexivity. }
    split; [rewrite E, Nat.eqb_refl by exact Hi; lra|]. intros j Hj Hne. rewrite E by exact Hj. destruct (Nat.eqb_spec i j); [congruence|reflexivity].
  Qed.

  Lemma free_source i j : (i < N)%nat -> (j < N)%nat -> on_boundary n i = false -> source_full n i j = inverse_square rops n * S0 i j.
  Proof using.
    intros Hi Hj B. unfold source_full, setup_matrix, source_entry, setup_entry. apply Nat.ltb_lt in Hi, Hj.
    rewrite Hi, Hj, B. cbn [andb]. destruct (i =? j)%nat; [rewrite PropSorLemmas.fz4; ring|]. destruct (touches n i j); [rewrite PropDefiniteLemmas.fzm1; ring|].
    change (f_real (SpecFloat.S754_zero false)) with 0. ring.
  Qed.

  Lemma source_free : symmetric N F /\ positive_definite N F.
  Proof using Hn.
    destruct (grid_spec false false n ltac:(lia)) as (g & Hg & _). assert (H2 : (2 <= n)%nat) by lia.
    pose proof (setup_stencil false n g H2 Hg) as Ht. destruct (grid_size false n g S0 H2 Hg Ht) as (_ & Hs & _).
    destruct (grid_constants false n g S0 H2 Hg Ht) as ((L0 & Lc) & _). set (l := 4 / (INR n + 1) ^ 2 * 4) in *.
    destruct (spacing_pos n Hn) as (Hh & _). assert (Hc : 0 < inverse_square rops n) by (rewrite inverse_is by exact Hn; apply Rinv_0_lt_compat, pow_lt; lra).
    split.
    - intros i j Hi Hj. unfold free_part. rewrite (Bool.orb_comm (on_boundary n j)), (Nat.eqb_sym j i).
      destruct (on_boundary n i) eqn:Bi; [reflexivity|]. destruct (on_boundary n j) eqn:Bj; [reflexivity|]. cbn [orb].
      rewrite !free_source by auto. cbv beta. f_equal. apply Hs; auto.
    - intros e (i & Hi & He). set (e0 := fun j => if on_boundary n j then 0 else e j).
      assert (Q : energy N F e = inverse_square rops n * energy N S0 e0 + rsum N (fun j => if on_boundary n j then e j * e j else 0)).
      { unfold energy. rewrite <- rsum_scale, <- rsum_plus. apply asum_ext. intros k Hk. unfold e0 at 1. destruct (on_boundary n k) eqn:Bk.
        - rewrite (proj2 (row_prescribed N (on_boundary n) (source_full n) source_prescribed k e Hk Bk)). ring.
        - replace (rsum N (fun j => F k j * e j)) with (inverse_square rops n * rsum N (fun j => S0 k j * e0 j)); [ring|].
          rewrite <- rsum_scale. apply asum_ext. intros j Hj. unfold free_part, e0. rewrite Bk. cbn [orb]. destruct (on_boundary n j) eqn:Bj.
          + destruct (Nat.eqb_spec k j) as [->|]; [congruence|ring].
          + rewrite free_source by auto. ring. }
      rewrite Q. specialize (Lc e0).
      assert (P1 : 0 <= rsum N (fun j => if on_boundary n j then e j * e j else 0)) by (apply rsum_nonneg; intros j Hj; destruct (on_boundary n j); [apply Rle_0_sqr|lra]).
      assert (P2 : 0 <= rsum N (fun j => e0 j * e0 j)) by apply rsum_sq_nonneg.
      assert (P3 : 0 <= energy N S0 e0) by (apply Rle_trans with (2 := Lc), Rmult_le_pos; lra).
      assert (P4 : 0 < e i * e i) by (apply Rsqr_pos_lt, He).
      destruct (on_boundary n i) eqn:Bi.
      + assert (G : e i * e i <= rsum N (fun j => if on_boundary n j then e j * e j else 0)).
        { pose proof (rsum_member N (fun j => if on_boundary n j then e j * e j else 0) i Hi) as G. cbv beta in G. rewrite Bi in G. apply G.
          intros j Hj. destruct (on_boundary n j); [apply Rle_0_sqr|lra]. }
        pose proof (Rmult_le_pos _ _ (Rlt_le _ _ Hc) P3). lra.
      + assert (G : e i * e i <= rsum N (fun j => e0 j * e0 j)).
        { assert (Ei : e0 i = e i) by (unfold e0; rewrite Bi; reflexivity). rewrite <- Ei. apply (rsum_member N (fun j => e0 j * e0 j) i Hi). intros j Hj. apply Rle_0_sqr. }
        assert (0 < energy N S0 e0) by (apply Rlt_le_trans with (2 := Lc), Rmult_lt_0_compat; lra).
        pose proof (Rmult_lt_0_compat _ _ Hc H). lra.
  Qed.
End Source.

Lemma source_rate M dbg stray n b : (3 <= n)%nat -> let N := (n * n)%nat in
  exists a b' us q, run_ops 0 M dbg stray (source_matrix rops n) s_default = Ok a /\ source_b rops n b = Ok b' /\
  0 <= q < 1 /\ discretised n us /\
  forall x, length x = N -> exists C, 0 <= C /\ forall k,
    (exists x' f, times (gauss_seidel_step rops dbg stray a b') k (x, []) = Ok (x', []) /\ is_vec N x' f /\
       forall i, (i < N)%nat -> Rabs (f i - us i) <= C * q ^ k) /\
    (exists x' f, times (sor_step rops dbg stray a b') k (x, []) = Ok (x', []) /\ is_vec N x' f /\
       forall i, (i < N)%nat -> Rabs (f i - us i) <= C * q ^ k).
Proof.
  intros Hn N. destruct (source_runs n Hn M dbg stray) as (a & Ea & Ha). destruct (b_filled n Hn b) as (b' & Eb & Hb).
  destruct (source_free n Hn) as (Fs & Fp).
  destruct (prescribed_rate dbg stray N a (source_full n) b' (given_b n) (on_boundary n) Ha Hb (source_prescribed n) Fs Fp) as (us & q & Hq & Hx & _ & H).
  exists a, b', us, q. split; [exact Ea|]. split; [exact Eb|]. split; [exact Hq|]. split; [apply (solves_discretised n Hn us); exact Hx|]. exact H.
Qed.

(** They reach the function the problem is made from, up to the error of the five point equations. *)
Lemma source_reached M dbg stray n b : (3 <= n)%nat -> let N := (n * n)%nat in
  exists a b' q, run_ops 0 M dbg stray (source_matrix rops n) s_default = Ok a /\ source_b rops n b = Ok b' /\ 0 <= q < 1 /\
  forall x, length x = N -> exists C, 0 <= C /\ forall k,
    let reaches (f : nat -> R) := forall p r, (p < n)%nat -> (r < n)%nat ->
      - (C * q ^ k) <= f (r * n + p)%nat - true_u (INR p * spacing n) (INR r * spacing n) <= C * q ^ k + spacing n ^ 2 / 8 in
    (exists x' f, times (gauss_seidel_step rops dbg stray a b') k (x, []) = Ok (x', []) /\ is_vec N x' f /\ reaches f) /\
    (exists x' f, times (sor_step rops dbg stray a b') k (x, []) = Ok (x', []) /\ is_vec N x' f /\ reaches f).
Proof.
  intros Hn N. destruct (source_rate M dbg stray n b Hn) as (a & b' & us & q & Ea & Eb & Hq & Hd & H). exists a, b', q.
  split; [exact Ea|]. split; [exact Eb|]. split; [exact Hq|]. intros x Hx. destruct (H x Hx) as (C & HC & K). exists C. split; [exact HC|].
  intros k reaches.
  assert (G : forall f, (forall i, (i < N)%nat -> Rabs (f i - us i) <= C * q ^ k) -> reaches f).
  { intros f Hf p r Hp Hr. assert (Hi : (r * n + p < N)%nat) by (unfold N; nia). specialize (Hf _ Hi). pose proof (Rle_abs (f (r * n + p)%nat - us (r * n + p)%nat)) as U1.
    pose proof (Rle_abs (- (f (r * n + p)%nat - us (r * n + p)%nat))) as U2. rewrite Rabs_Ropp in U2.
    pose proof (source_error n us Hn Hd p r Hp Hr) as Q. cbv zeta in Q. lra. }
  destruct (K k) as ((x1 & f1 & E1 & V1 & G1) & (x2 & f2 & E2 & V2 & G2)). split; [exists x1, f1|exists x2, f2]; auto.
Qed.
