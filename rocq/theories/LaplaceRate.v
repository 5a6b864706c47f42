(** How fast Jacobi and Gauss-Seidel are on the system of the class Laplace_2D. *)
From Coq Require Import ZArith Reals Lra Lia List Psatz.
From Verif Require Import Base ListFacts DenseModel DenseFacts ScalarModel GeometryReal SparseModel SparseSpec LuModel LuReal IterModel IterLoop IterField IterReal
  PropIterLemmas PropRelaxLemmas PropSuccessLemmas PropChainLemmas SourceError LaplaceModel LaplaceFacts LaplaceReal LaplaceSolved.
Import ListNotations.
Local Open Scope R_scope.

Section Rate.
  Variable N : nat.
  Hypothesis HN : (9 <= N)%nat.
  Local Notation n := (Nat.sqrt N).
  Local Notation h := (spacing n).

  (** The weights: between 1/8 and 1/4, and by a quarter of the square of the spacing larger than the mean of the neighbours' weights. *)
  Definition bulge (i : nat) : R := / 8 + INR (i mod n) * h * (1 - INR (i mod n) * h) / 2.

  Lemma bulge_range i : / 8 <= bulge i <= / 4.
  Proof using HN.
    destruct (side N HN) as (H3 & _). destruct (spacing_pos n H3) as (Hh & Eh). unfold bulge.
    assert (Hm : (i mod n <= n - 1)%nat) by (pose proof (Nat.mod_upper_bound i n); lia).
    apply le_INR in Hm. rewrite minus_INR in Hm by lia. cbn [INR] in Hm. pose proof (pos_INR (i mod n)) as H0.
    set (s := INR (i mod n) * h). assert (Hs : 0 <= s <= 1) by (unfold s; split; [apply Rmult_le_pos; lra|rewrite <- Eh, Rmult_comm; apply Rmult_le_compat_l; lra]).
    split; [assert (0 <= s * (1 - s)) by (apply Rmult_le_pos; lra); lra|]. pose proof (Rle_0_sqr (s - / 2)) as Q. unfold Rsqr in Q. lra.
  Qed.

  Lemma bulge_step i : (i < N)%nat -> ~ rim N n i -> bulge (i - 1) + bulge (i + 1) + bulge (i - n) + bulge (i + n) = 4 * bulge i - h ^ 2.
  Proof using HN.
    intros Hi B. destruct (inner N HN i Hi B) as (p & q & Em & P1 & P2 & Q1 & Q2 & B2 & E1 & E2 & E3 & E4).
    unfold bulge. rewrite E1, E2, E3, E4, Em. rewrite !(place_mod N HN) by lia. rewrite minus_INR, plus_INR by lia. cbn [INR]. field.
  Qed.

  Lemma l_scaled : scaled_dominance N (l_full N) bulge (1 - h ^ 2).
  Proof using HN.
    destruct (side N HN) as (H3 & Hs). destruct (spacing_pos n H3) as (Hh & _). assert (Hc : 0 < / h ^ 2) by (apply Rinv_0_lt_compat, pow_lt; lra).
    assert (Hn : (n <= N)%nat) by (apply Nat.sqrt_le_lin; lia). assert (Hq : 0 <= 1 - h ^ 2) by nra.
    assert (D : forall i, (i < N)%nat -> l_full N i i = if l_boundary N n i then 1 else 4 * / h ^ 2).
    { intros i Hi. unfold l_full, laid. rewrite (proj2 (Nat.ltb_lt i N) Hi), Nat.eqb_refl, (l_inverse_is N HN). destruct (l_boundary N n i); reflexivity. }
    assert (Neg : forall i j, (i < N)%nat -> j <> i -> l_full N i j <= 0).
    { intros i j Hi Hj. unfold l_full, laid. rewrite (proj2 (Nat.ltb_lt i N) Hi), (proj2 (Nat.eqb_neq j i) Hj), (l_inverse_is N HN).
      destruct (l_boundary N n i); [lra|]. destruct (_ || _)%bool; [cbn [rops sc_mul sc_of_Z]; lra|lra]. }
    split; [exact Hq|]. intros i Hi. pose proof (bulge_range i) as Hb. split; [lra|].
    assert (E : rsum N (fun j => if (j =? i)%nat then 0 else Rabs (l_full N i j) * bulge j) = rsum N (fun j => l_full N i j * (if (j =? i)%nat then 0 else - bulge j))).
    { apply asum_ext. intros j Hj. destruct (Nat.eqb_spec j i) as [->|Hne]; [ring|]. rewrite Rabs_left1 by (apply Neg; auto). ring. }
    rewrite E, (l_rows N HN _ _ Hi), (D i Hi). pose proof (rim_test N n i Hn) as T. destruct (l_boundary N n i) eqn:B.
    - split; [lra|]. rewrite Nat.eqb_refl, Rabs_R1. apply Rmult_le_pos; [exact Hq|lra].
    - assert (B' : ~ rim N n i) by (intro F; apply T in F; discriminate). split; [lra|]. rewrite Nat.eqb_refl.
      destruct (inner N HN i Hi B') as (p & q & Em & P1 & P2 & Q1 & Q2 & B2 & E1 & E2 & E3 & E4).
      destruct (Nat.eqb_spec (i - 1) i) as [F1|F1]; [lia|]. destruct (Nat.eqb_spec (i + 1) i) as [F2|F2]; [lia|].
      destruct (Nat.eqb_spec (i - n) i) as [F3|F3]; [lia|]. destruct (Nat.eqb_spec (i + n) i) as [F4|F4]; [lia|].
      rewrite Rabs_pos_eq by lra. pose proof (bulge_step i Hi B') as St.
      replace (/ h ^ 2 * (4 * 0 - - bulge (i - 1) - - bulge (i + 1) - - bulge (i - n) - - bulge (i + n))) with (/ h ^ 2 * (4 * bulge i - h ^ 2)) by (rewrite <- St; ring).
      replace ((1 - h ^ 2) * (4 * / h ^ 2 * bulge i)) with (/ h ^ 2 * ((1 - h ^ 2) * (4 * bulge i))) by ring.
      apply Rmult_le_compat_l; [lra|]. assert (0 <= h ^ 2) by (apply pow_le; lra). nra.
  Qed.

  (** (n - 1)^2 iterations halve the bound. *)
  Lemma halves k : (1 - h ^ 2) ^ (k * ((n - 1) * (n - 1))) <= (/ 2) ^ k.
  Proof using HN.
    destruct (side N HN) as (H3 & _). destruct (spacing_pos n H3) as (Hh & Eh). set (m := ((n - 1) * (n - 1))%nat).
    assert (Hm : INR m * h ^ 2 = 1).
    { unfold m. rewrite mult_INR, minus_INR by lia. cbn [INR]. replace ((INR n - 1) * (INR n - 1) * h ^ 2) with ((h * (INR n - 1)) * (h * (INR n - 1))) by ring. rewrite Eh. ring. }
    assert (Hx : 0 < h ^ 2 < 1) by (split; [apply pow_lt; lra|nra]). set (x := h ^ 2) in *.
    rewrite Nat.mul_comm, pow_mult. apply pow_incr. split; [apply pow_le; lra|].
    assert (G : forall j, (1 - x) ^ j * (1 + INR j * x) <= 1).
    { induction j as [|j IH]; [cbn [pow INR]; lra|]. cbn [pow]. rewrite S_INR. assert (0 <= (1 - x) ^ j) by (apply pow_le; lra). pose proof (pos_INR j).
      assert ((1 - x) * (1 + (INR j + 1) * x) <= 1 + INR j * x) by nra.
      apply Rle_trans with ((1 - x) ^ j * (1 + INR j * x)); [|exact IH].
      replace ((1 - x) * (1 - x) ^ j * (1 + (INR j + 1) * x)) with ((1 - x) ^ j * ((1 - x) * (1 + (INR j + 1) * x))) by ring. apply Rmult_le_compat_l; assumption. }
    specialize (G m). rewrite Hm in G. lra.
  Qed.
End Rate.

Lemma laplace_speed M dbg stray N a A0 b x : (9 <= N)%nat -> sparse_square 0 N a A0 -> length b = N -> length x = N ->
  let n := Nat.sqrt N in exists a' b' us, (exists x', construct_sparse rops M dbg stray a b x = Ok (a', b', x')) /\ five_points N us /\
  forall y g e, is_vec N y g -> 0 <= e -> (forall i, (i < N)%nat -> Rabs (g i - us i) <= e) -> forall k,
    (forall w, length w = N -> exists y' w' f, times (jacobi_step rops dbg stray a' b') k (y, w) = Ok (y', w') /\ is_vec N y' f /\
       forall i, (i < N)%nat -> Rabs (f i - us i) <= 2 * e * (1 - spacing n ^ 2) ^ k /\ forall m, (k = m * ((n - 1) * (n - 1)))%nat -> Rabs (f i - us i) <= 2 * e / 2 ^ m) /\
    (exists y' f, times (gauss_seidel_step rops dbg stray a' b') k (y, []) = Ok (y', []) /\ is_vec N y' f /\
       forall i, (i < N)%nat -> Rabs (f i - us i) <= 2 * e * (1 - spacing n ^ 2) ^ k /\ forall m, (k = m * ((n - 1) * (n - 1)))%nat -> Rabs (f i - us i) <= 2 * e / 2 ^ m).
Proof.
  intros HN Ha Lb Lx n. destruct (sparse_filled M dbg stray N a A0 b x HN Ha Lb Lx) as (a' & b' & x' & E & Ha' & Hb & _).
  destruct (chained_converges dbg stray N a' (l_full N) b' (given rops N) Ha' Hb (l_chained N HN)) as (us & Hs & _ & _).
  exists a', b', us. split; [exists x'; exact E|]. split; [apply (l_equations N HN us); exact Hs|]. intros y g e Vy He Hg k.
  destruct (side N HN) as (H3 & _). destruct (spacing_pos n H3) as (Hh & _).
  assert (Hq : 0 <= 1 - spacing n ^ 2 <= 1) by nra. assert (Hqk : 0 <= (1 - spacing n ^ 2) ^ k) by (apply pow_le; lra).
  pose proof (l_scaled N HN) as Hd.
  assert (W : within_scaled N g us (bulge N) (8 * e)).
  { intros i Hi. apply Rle_trans with (1 := Hg i Hi). pose proof (bulge_range N HN i). nra. }
  assert (Fin : forall f, within_scaled N f us (bulge N) ((1 - spacing n ^ 2) ^ k * (8 * e)) -> forall i, (i < N)%nat ->
    Rabs (f i - us i) <= 2 * e * (1 - spacing n ^ 2) ^ k /\ forall m, (k = m * ((n - 1) * (n - 1)))%nat -> Rabs (f i - us i) <= 2 * e / 2 ^ m).
  { intros f Hf i Hi. specialize (Hf i Hi). pose proof (bulge_range N HN i) as Hr.
    assert (B1 : Rabs (f i - us i) <= 2 * e * (1 - spacing n ^ 2) ^ k).
    { apply Rle_trans with (1 := Hf). replace (2 * e * (1 - spacing n ^ 2) ^ k) with ((1 - spacing n ^ 2) ^ k * (8 * e) * / 4) by field.
      apply Rmult_le_compat_l; [apply Rmult_le_pos; lra|lra]. }
    split; [exact B1|]. intros m Hm. apply Rle_trans with (1 := B1). pose proof (halves N HN m) as Hv. fold n in Hv. rewrite <- Hm in Hv.
    rewrite pow_inv in Hv. unfold Rdiv. apply Rmult_le_compat_l; [lra|exact Hv]. }
  split.
  - intros w Lw. destruct (jacobi_scaled dbg stray N a' (l_full N) b' (given rops N) us (bulge N) (1 - spacing n ^ 2) Ha' Hb Hd Hs k y w g (8 * e) Vy Lw ltac:(lra) W) as (y' & w' & f & E' & V & _ & C).
    exists y', w', f. split; [exact E'|]. split; [exact V|]. apply Fin, C.
  - destruct (seidel_scaled dbg stray N a' (l_full N) b' (given rops N) us (bulge N) (1 - spacing n ^ 2) Ha' Hb Hd Hs k y [] g (8 * e) ltac:(lra) Vy ltac:(lra) W) as (y' & f & E' & V & C).
    exists y', f. split; [exact E'|]. split; [exact V|]. apply Fin, C.
Qed.
