(** Systems with prescribed values: Jacobi. *)
From Coq Require Import ZArith Reals Lra Lia List Psatz.
From Verif Require Import Base ListFacts DenseModel DenseFacts ScalarModel GeometryReal SparseModel SparseSpec LuModel LuReal LuSuccess FloatError FloatUnit
  PropLuLemmas IterModel IterFacts IterLoop IterField IterReal PropIterLemmas Energy EnergyDrift PropEnergyLemmas PropRelaxLemmas SymmetricJacobi FloatDefJacobi
  Prescribed PrescribedRate StopReal.
Import ListNotations.
Local Open Scope R_scope.

Section Jacobi.
  Variables (dbg : bool) (stray : option nat) (n : nat) (a : smat R) (A : nat -> nat -> R) (b : list R) (h : nat -> R) (d : nat -> bool).
  Hypothesis Ha : sparse_square 0 n a A.
  Hypothesis Hb : is_vec n b h.
  Hypothesis Hd : prescribed n d A.
  Notation F := (free_part d A).
  Hypothesis Hs : symmetric n F.
  Hypothesis Hp : positive_definite n F.
  Hypothesis Hm : positive_definite n (mirrored F).
  Variable xs : nat -> R.
  Hypothesis Hx : forall i, (i < n)%nat -> rsum n (fun j => A i j * xs j) = h i.

  Lemma held_jacobi x u f : is_vec n x f -> length u = n ->
    exists x', jacobi_step rops dbg stray a b (x, u) = Ok (x', x) /\ is_vec n x' (fun i => relaxed rops n A h 1 i f).
  Proof using Ha Hb Hd Hs Hp.
    intros Hf Hu. destruct (field_rows rops Ropp Rinv dbg stray R_field n a A b h Ha Hb) as (rs & dd & Hro & Hv).
    { intros i Hi. apply (diagonal_nonzero n d A Hd Hs Hp i Hi). }
    destruct (jacobi_sweep_ok rops dbg stray n a b rs dd h x u f 1 Hro Hf Hu) as (x' & E & Hx').
    exists x'. unfold jacobi_step. cbn [fst snd]. cbn [rops sc_one]. fold rops. rewrite E. cbn [bind]. split; [reflexivity|].
    apply (is_vec_ext _ _ _ _ Hx'). intros i Hi. apply Hv, Hi.
  Qed.

  Lemma jacobi_held f i : (i < n)%nat -> d i = true -> relaxed rops n A h 1 i f = xs i.
  Proof using Hd Hx.
    intros Hi Ei. unfold relaxed. cbn [rops sc_zero sc_one sc_add sc_sub sc_mul sc_div]. rewrite (rsum_zero n).
    - pose proof (Hx i Hi) as Q. rewrite (proj1 (row_prescribed n d A Hd i xs Hi Ei)) in Q. rewrite <- Q. field. apply (Hd i Hi Ei).
    - intros j Hj. destruct (Nat.eqb_spec j i); [reflexivity|]. rewrite (proj2 (Hd i Hi Ei) j Hj) by congruence. apply Rmult_0_l.
  Qed.

  Lemma jacobi_contracts s f : jacobi_factor n F s -> (forall j, (j < n)%nat -> d j = true -> f j = xs j) ->
    enorm n F (fun j => relaxed rops n A h 1 j f - xs j) <= s * enorm n F (fun j => f j - xs j).
  Proof using Hd Hs Hp Hx.
    intros (_ & Hj) Hf. apply (Hj (fun i => rsum n (fun j => F i j * xs j)) xs f (fun j => relaxed rops n A h 1 j f)); [reflexivity|].
    intros i Hi. destruct (free_diagonal n d A Hs Hp i Hi) as (P & Q). destruct (d i) eqn:Ei.
    - rewrite (jacobi_held f i Hi Ei), (proj2 (row_prescribed n d A Hd i xs Hi Ei)), Q. rewrite (rsum_zero n); [field|].
      intros j Hj'. destruct (Nat.eqb_spec j i); [reflexivity|]. unfold free_part. rewrite Ei. cbn [orb]. destruct (Nat.eqb_spec i j); [congruence|ring].
    - unfold relaxed. cbn [rops sc_zero sc_one sc_add sc_sub sc_mul sc_div]. rewrite <- (Hx i Hi).
      pose proof (rsum_out n i (fun j => A i j * f j) Hi) as O1. pose proof (rsum_out n i (fun j => F i j * f j) Hi) as O2.
      cbv beta in O1, O2. rewrite (row_free n d A i _ Hi Ei) in O1. rewrite (row_free n d A i xs Hi Ei).
      assert (Q3 : drawn n d A i f = drawn n d A i xs).
      { unfold drawn. apply asum_ext. intros j Hj'. destruct (d j) eqn:Ej; [rewrite (Hf j Hj' Ej); reflexivity|reflexivity]. }
      rewrite Q3 in O1. rewrite Q in *.
      match goal with |- 1 * (_ - ?s1) / _ + _ = (_ - ?s2) / _ => set (S1 := s1) in *; set (S2 := s2) in * end.
      change (asum 0 Rplus n (fun j => F i j * f j)) with (rsum n (fun j => F i j * f j)) in *.
      replace S1 with (S2 + drawn n d A i xs) by (fold S1 in O1; lra). field. lra.
  Qed.

  Lemma held_jacobi_rate : exists q, 0 <= q < 1 /\ forall x, length x = n -> exists C, 0 <= C /\ forall k u, length u = n ->
    exists x' u' f, times (jacobi_step rops dbg stray a b) k (x, u) = Ok (x', u') /\ is_vec n x' f /\ forall i, (i < n)%nat -> Rabs (f i - xs i) <= C * q ^ k.
  Proof using Ha Hb Hd Hs Hp Hm Hx.
    destruct (jacobi_factor_exists n F Hs Hp Hm) as (s & Hsf). destruct (coercive n F Hs Hp) as (l & Hl). change (coercivity n F l) in Hl.
    assert (L0 : 0 < sqrt l) by (apply sqrt_lt_R0, Hl). pose proof (proj1 Hsf) as S0.
    set (q := Rmax s (/ 2)). pose proof (Rmax_l s (/ 2)) as Q1. pose proof (Rmax_r s (/ 2)) as Q2. fold q in Q1, Q2.
    assert (Hq : 0 < q < 1) by (split; [lra|apply Rmax_lub_lt; lra]). exists q. split; [lra|]. intros x Lx.
    assert (V : is_vec n x (fun i => nth i x 0)) by (rewrite <- Lx; apply is_vec_self). set (f0 := fun i => nth i x 0) in *.
    set (f1 := fun i => relaxed rops n A h 1 i f0). set (E0 := enorm n F (fun j => f0 j - xs j)). set (E1 := enorm n F (fun j => f1 j - xs j)).
    assert (P0 : 0 <= E0) by apply sqrt_pos. assert (P1 : 0 <= E1) by apply sqrt_pos. assert (Pq : 0 <= E1 / q) by (apply Rmult_le_pos; [exact P1|left; apply Rinv_0_lt_compat; lra]).
    exists ((E0 + E1 / q) / sqrt l). split; [apply Rmult_le_pos; [lra|left; apply Rinv_0_lt_compat, L0]|].
    assert (K : forall k u, length u = n -> exists x' u' f, times (jacobi_step rops dbg stray a b) (S k) (x, u) = Ok (x', u') /\ length u' = n /\ is_vec n x' f /\
      (forall j, (j < n)%nat -> d j = true -> f j = xs j) /\ enorm n F (fun j => f j - xs j) <= E1 * q ^ k).
    { intros k u Lu. induction k as [|k IH].
      - destruct (held_jacobi x u f0 V Lu) as (x' & E & V'). exists x', x, f1. cbn [times bind]. split; [exact E|]. split; [exact Lx|]. split; [exact V'|].
        split; [intros j Hj Ej; apply jacobi_held; auto|]. rewrite pow_O, Rmult_1_r. apply Rle_refl.
      - destruct IH as (x1 & u1 & g & Et & Lu1 & Vg & Hg & Ng). change (times (jacobi_step rops dbg stray a b) (S (S k)) (x, u)) with
          (do t <- times (jacobi_step rops dbg stray a b) (S k) (x, u); jacobi_step rops dbg stray a b t). rewrite Et. cbn [bind].
        destruct (held_jacobi x1 u1 g Vg Lu1) as (x' & E & V'). exists x', x1, (fun i => relaxed rops n A h 1 i g). split; [exact E|]. split; [apply Vg|]. split; [exact V'|].
        split; [intros j Hj Ej; apply jacobi_held; auto|]. apply Rle_trans with (1 := jacobi_contracts s g Hsf Hg). cbn [pow].
        replace (E1 * (q * q ^ k)) with (q * (E1 * q ^ k)) by ring. apply Rmult_le_compat; [lra|apply sqrt_pos|exact Q1|exact Ng]. }
    intros k u Lu. destruct k as [|k].
    - exists x, u, f0. split; [reflexivity|]. split; [exact V|]. intros i Hi. apply Rle_trans with (1 := component_bound n F l Hl (fun j => f0 j - xs j) i Hi).
      fold E0. rewrite pow_O, Rmult_1_r. apply Rmult_le_compat_r; [left; apply Rinv_0_lt_compat, L0|lra].
    - destruct (K k u Lu) as (x' & u' & f & E & _ & V' & _ & N). exists x', u', f. split; [exact E|]. split; [exact V'|]. intros i Hi.
      apply Rle_trans with (1 := component_bound n F l Hl (fun j => f j - xs j) i Hi). unfold Rdiv at 2. rewrite Rmult_assoc, (Rmult_comm (/ sqrt l)), <- Rmult_assoc.
      apply Rmult_le_compat_r; [left; apply Rinv_0_lt_compat, L0|]. apply Rle_trans with (1 := N). cbn [pow]. assert (0 <= q ^ k) by (apply pow_le; lra).
      replace ((E0 + E1 / q) * (q * q ^ k)) with (E0 * (q * q ^ k) + E1 * q ^ k) by (field; lra). assert (0 <= E0 * (q * q ^ k)) by (apply Rmult_le_pos; [exact P0|apply Rmult_le_pos; lra]). lra.
  Qed.
End Jacobi.

Lemma prescribed_jacobi dbg stray n a A b h d : sparse_square 0 n a A -> is_vec n b h -> prescribed n d A ->
  symmetric n (free_part d A) -> positive_definite n (free_part d A) -> positive_definite n (mirrored (free_part d A)) ->
  exists xs q, 0 <= q < 1 /\ (forall i, (i < n)%nat -> rsum n (fun j => A i j * xs j) = h i) /\
  forall x, length x = n -> exists C, 0 <= C /\ forall k u, length u = n ->
    exists x' u' f, times (jacobi_step rops dbg stray a b) k (x, u) = Ok (x', u') /\ is_vec n x' f /\ forall i, (i < n)%nat -> Rabs (f i - xs i) <= C * q ^ k.
Proof.
  intros Ha Hb Hd Hs Hp Hm. destruct (prescribed_solution n d A Hd Hs Hp h) as (xs & Hx & _).
  destruct (held_jacobi_rate dbg stray n a A b h d Ha Hb Hd Hs Hp Hm xs Hx) as (q & Hq & H). exists xs, q. auto.
Qed.

Lemma prescribed_jacobi_stops M dbg stray n a A b h d x tol working : (0 < n)%nat -> sparse_square 0 n a A -> is_vec n b h -> prescribed n d A ->
  symmetric n (free_part d A) -> positive_definite n (free_part d A) -> positive_definite n (mirrored (free_part d A)) -> length x = n -> 0 < tol ->
  solver_stops M n A h tol (jacobi_step rops dbg stray a b (x, vresize working n 0))
    (fun lim fuel => do r <- jacobi_solve rops M dbg stray fuel lim working a x b; Ok (fst (fst r), snd r)).
Proof.
  intros Hn Ha Hb Hd Hs Hp Hm Lx Ht. destruct (prescribed_jacobi dbg stray n a A b h d Ha Hb Hd Hs Hp Hm) as (xs & q & Hq & Hx & H).
  destruct (H x Lx) as (C & HC & G). apply (jacobi_stops M dbg stray n a A b h xs Hn Ha Hb Hx x tol Lx Ht).
  intros eps He. destruct (geometric_near C q eps HC Hq He) as (K & HK). exists K. intros k Hk u Lu. destruct (G k u Lu) as (x' & u' & f & E & V & N).
  exists x', u', f. split; [exact E|]. split; [exact V|]. intros i Hi. apply Rle_lt_trans with (1 := N i Hi), HK, Hk.
Qed.
