(** Lemmas behind C123. *)
From Coq Require Import ZArith Reals Lra Lia List Psatz.
From Verif Require Import Base ListFacts DenseModel DenseFacts ScalarModel GraphModel GraphSpec GraphFacts GeometryReal SparseModel
  SparseSpec SparseFacts SparseSeq SparseMul LuReal IterModel IterFacts IterLoop IterField IterReal LuFloat LuSuccess Energy
  PropIterLemmas PropSuccessLemmas GraphGen PropGraphLemmas PropEnergyLemmas PropTreeLemmas PropRelaxLemmas.
Import ListNotations.
Local Open Scope R_scope.

(** No diagonal element is smaller than the sum of the others of its row. *)
Definition weak_rows n (A : nat -> nat -> R) : Prop := forall i, (i < n)%nat -> A i i <> 0 /\ off_diagonal n A i <= Rabs (A i i).

(** From row [i] elements that are not zero lead in [k] steps to a row whose diagonal is larger than the others together. *)
Inductive chain n (A : nat -> nat -> R) : nat -> nat -> Prop :=
| chain_0 i : (i < n)%nat -> off_diagonal n A i < Rabs (A i i) -> chain n A 0 i
| chain_S k i j : (i < n)%nat -> i <> j -> A i j <> 0 -> chain n A k j -> chain n A (S k) i.

Definition chained n (A : nat -> nat -> R) : Prop := weak_rows n A /\ forall i, (i < n)%nat -> exists k, chain n A k i.

(** All diagonal elements are the same, and every edge has the element -1. *)
Definition stencil (g : graph) (d : R) (A : nat -> nat -> R) : Prop :=
  let n := size_vertex g in forall i j, (i < n)%nat -> (j < n)%nat ->
    (i = j -> A i j = d) /\ (edge g i j -> A i j = - 1) /\ (i <> j -> ~ edge g i j -> A i j = 0).

(** The diagonal is the number of edges plus something that holds the vertex down; every edge has the element -1. *)
Definition grounded (g : graph) (c : nat -> R) (A : nat -> nat -> R) : Prop :=
  let n := size_vertex g in forall i j, (i < n)%nat -> (j < n)%nat ->
    (i = j -> A i j = INR (length (row g i)) + c i) /\ (edge g i j -> A i j = - 1) /\ (i <> j -> ~ edge g i j -> A i j = 0).

Lemma quotient_nonneg a b : 0 <= a -> 0 < b -> 0 <= a / b.
Proof. intros Ha Hb. apply Rmult_le_pos; [exact Ha|left; apply Rinv_0_lt_compat, Hb]. Qed.

Lemma chain_row n A k i : chain n A k i -> (i < n)%nat.
Proof. destruct 1; auto. Qed.

(* ------------------------------------------------------------------ scaling a chained matrix *)
Section Scale.
  Variables (n : nat) (A : nat -> nat -> R).
  Hypothesis Hw : weak_rows n A.

  Definition beside (v : nat -> R) (i : nat) : R := rsum n (fun j => if (j =? i)%nat then 0 else Rabs (A i j) * v j).
  Definition spread (v : nat -> R) (i : nat) : R := beside v i / Rabs (A i i).
  Fixpoint level (m : nat) : nat -> R :=
    match m with O => fun _ => 1 | S m => fun i => (level m i + spread (level m) i) / 2 end.

  Lemma diag_pos i : (i < n)%nat -> 0 < Rabs (A i i).
  Proof. intro Hi. apply Rabs_pos_lt, Hw, Hi. Qed.

  Lemma beside_lin u v i : beside (fun j => (u j - v j) / 2) i = (beside u i - beside v i) / 2.
  Proof.
    unfold beside. replace ((rsum n (fun j => if (j =? i)%nat then 0 else Rabs (A i j) * u j) - rsum n (fun j => if (j =? i)%nat then 0 else Rabs (A i j) * v j)) / 2)
      with (/ 2 * (rsum n (fun j => if (j =? i)%nat then 0 else Rabs (A i j) * u j) - rsum n (fun j => if (j =? i)%nat then 0 else Rabs (A i j) * v j))) by field.
    rewrite <- rsum_minus, <- rsum_scale. apply asum_ext. intros j Hj. destruct (j =? i)%nat; field.
  Qed.

  Lemma beside_ext u v i : (forall j, (j < n)%nat -> u j = v j) -> beside u i = beside v i.
  Proof. intro H. apply asum_ext. intros j Hj. destruct (j =? i)%nat; [reflexivity|]. rewrite H by exact Hj. reflexivity. Qed.

  Lemma beside_nonneg v i : (forall j, (j < n)%nat -> 0 <= v j) -> 0 <= beside v i.
  Proof.
    intro H. apply rsum_nonneg. intros j Hj. destruct (j =? i)%nat; [lra|].
    apply Rmult_le_pos; [apply Rabs_pos|apply H, Hj].
  Qed.

  Lemma level_ok m : forall i, (i < n)%nat -> 0 < level m i /\ beside (level m) i <= Rabs (A i i) * level m i /\
    forall k, (k <= m)%nat -> chain n A k i -> beside (level m) i < Rabs (A i i) * level m i.
  Proof.
    induction m as [|m IH]; intros i Hi; pose proof (diag_pos i Hi) as Hd.
    - destruct (Hw i Hi) as (_ & Hle). assert (E : beside (level 0) i = off_diagonal n A i).
      { apply asum_ext. intros j Hj. destruct (j =? i)%nat; [reflexivity|]. cbn [level]. ring. }
      rewrite E. cbn [level]. split; [lra|]. split; [lra|]. intros k Hk C. assert (k = 0%nat) by lia. subst k. inversion C. lra.
    - set (v := level m) in *.
      assert (Hv : forall j, (j < n)%nat -> 0 < v j) by (intros; apply IH; auto).
      assert (Hs : forall j, (j < n)%nat -> 0 <= spread v j /\ spread v j <= v j).
      { intros j Hj. pose proof (diag_pos j Hj) as Hdj. destruct (IH j Hj) as (P & Q & _). unfold spread. split.
        - apply quotient_nonneg; [|exact Hdj]. apply beside_nonneg. intros; left; apply Hv; auto.
        - apply (Rmult_le_reg_r (Rabs (A j j))); [exact Hdj|]. unfold Rdiv. rewrite Rmult_assoc, Rinv_l, Rmult_1_r by lra. lra. }
      assert (Hnew : level (S m) = fun j => (v j + spread v j) / 2) by reflexivity.
      assert (E : Rabs (A i i) * level (S m) i - beside (level (S m)) i =
                  (Rabs (A i i) * v i - beside v i) / 2 + beside (fun j => (v j - spread v j) / 2) i).
      { rewrite Hnew, beside_lin. rewrite (beside_ext (fun j => (v j + spread v j) / 2) (fun j => (v j - (- spread v j)) / 2)) by (intros; field).
        rewrite beside_lin. assert (G : beside (fun j => - spread v j) i = - beside (spread v) i).
        { unfold beside. replace (- rsum n (fun j => if (j =? i)%nat then 0 else Rabs (A i j) * spread v j))
            with (-1 * rsum n (fun j => if (j =? i)%nat then 0 else Rabs (A i j) * spread v j)) by ring.
          rewrite <- rsum_scale. apply asum_ext. intros j Hj. destruct (j =? i)%nat; ring. }
        rewrite G. unfold spread at 1. field. lra. }
      destruct (IH i Hi) as (P & Q & S1). assert (B0 : 0 <= beside (fun j => (v j - spread v j) / 2) i).
      { apply beside_nonneg. intros j Hj. destruct (Hs j Hj). lra. }
      split; [|split].
      + rewrite Hnew. destruct (Hs i Hi). lra.
      + lra.
      + intros k Hk C. inversion C as [i' Hi' L|k' i' j Hi' Hne Ha Hc]; subst.
        * specialize (S1 0%nat ltac:(lia) C). lra.
        * assert (Hj := chain_row _ _ _ _ Hc). destruct (IH j Hj) as (_ & _ & Sj). specialize (Sj k' ltac:(lia) Hc).
          assert (Hlt : spread v j < v j).
          { pose proof (diag_pos j Hj) as Hdj. unfold spread. apply (Rmult_lt_reg_r (Rabs (A j j))); [exact Hdj|].
            unfold Rdiv. rewrite Rmult_assoc, Rinv_l, Rmult_1_r by lra. lra. }
          assert (0 < beside (fun j => (v j - spread v j) / 2) i); [|lra].
          unfold beside. apply (rsum_pos _ _ j); [|exact Hj|].
          -- intros l Hl. destruct (l =? i)%nat; [lra|]. apply Rmult_le_pos; [apply Rabs_pos|]. destruct (Hs l Hl). lra.
          -- destruct (j =? i)%nat eqn:Eji; [apply Nat.eqb_eq in Eji; congruence|]. apply Rmult_lt_0_compat; [apply Rabs_pos_lt, Ha|lra].
  Qed.
End Scale.

Lemma common_depth n A m : (m <= n)%nat -> (forall i, (i < n)%nat -> exists k, chain n A k i) ->
  exists K, forall i, (i < m)%nat -> exists k, (k <= K)%nat /\ chain n A k i.
Proof.
  induction m as [|m IH]; intros Hm H; [exists 0%nat; intros; lia|]. destruct IH as (K & HK); [lia|exact H|].
  destruct (H m) as (k & Hk); [lia|]. exists (Nat.max K k). intros i Hi. destruct (Nat.eq_dec i m) as [->|Hne].
  - exists k. split; [lia|exact Hk].
  - destruct (HK i) as (k' & L & C); [lia|]. exists k'. split; [lia|exact C].
Qed.

Lemma common_factor n (f g : nat -> R) : (forall i, (i < n)%nat -> 0 <= f i < g i) ->
  exists q, 0 <= q < 1 /\ forall i, (i < n)%nat -> f i <= q * g i.
Proof.
  induction n as [|n IH]; intro H; [exists 0; split; [lra|intros; lia]|].
  destruct IH as (q & Hq & Hf); [intros; apply H; lia|]. destruct (H n) as (P & L); [lia|].
  assert (Hr : 0 <= f n / g n < 1).
  { split; [apply quotient_nonneg; lra|]. apply (Rmult_lt_reg_r (g n)); [lra|]. unfold Rdiv. rewrite Rmult_assoc, Rinv_l by lra. lra. }
  exists (Rmax q (f n / g n)). split.
  - split; [apply Rle_trans with q; [lra|apply Rmax_l]|apply Rmax_lub_lt; lra].
  - intros i Hi. destruct (Nat.eq_dec i n) as [->|Hne].
    + apply Rle_trans with (f n / g n * g n); [right; field; lra|]. apply Rmult_le_compat_r; [lra|apply Rmax_r].
    + apply Rle_trans with (q * g i); [apply Hf; lia|]. apply Rmult_le_compat_r; [|apply Rmax_l].
      destruct (H i); [lia|lra].
Qed.

Lemma chained_scaled n A : chained n A -> exists v q, q < 1 /\ scaled_dominance n A v q.
Proof.
  intros (Hw & Hc). destruct (common_depth n A n (Nat.le_refl n) Hc) as (K & HK).
  destruct (common_factor n (beside n A (level n A K)) (fun i => Rabs (A i i) * level n A K i)) as (q & Hq & Hf).
  - intros i Hi. destruct (level_ok n A Hw K i Hi) as (P & _ & L). destruct (HK i Hi) as (k & Hk & C). split; [|apply (L k Hk C)].
    apply beside_nonneg. intros j Hj. left. apply (level_ok n A Hw K j Hj).
  - exists (level n A K), q. split; [lra|]. split; [lra|]. intros i Hi. split; [apply (level_ok n A Hw K i Hi)|].
    split; [apply Hw, Hi|]. apply Hf, Hi.
Qed.

Lemma chained_converges dbg stray n a A b h : sparse_square 0 n a A -> is_vec n b h -> chained n A ->
  exists xs, solves rops n A xs h /\ (forall ys, solves rops n A ys h -> forall i, (i < n)%nat -> ys i = xs i) /\
  forall x, length x = n -> forall eps, 0 < eps -> exists K, forall k, (K <= k)%nat ->
    (forall w, length w = n -> exists x' w' f', times (jacobi_step rops dbg stray a b) k (x, w) = Ok (x', w') /\
       is_vec n x' f' /\ near n f' xs eps) /\
    (exists x' f', times (gauss_seidel_step rops dbg stray a b) k (x, []) = Ok (x', []) /\ is_vec n x' f' /\ near n f' xs eps).
Proof.
  intros Ha Hb Hc. destruct (chained_scaled n A Hc) as (v & q & Hq & Hd).
  destruct (scaled_converges dbg stray n a A b h v q Ha Hb Hd Hq) as (xs & Hs & Hu & H). exists xs. split; [exact Hs|].
  split; [exact Hu|]. intros x Lx eps He. destruct (H x Lx eps He) as (K & HK). exists K. intros k Hk.
  destruct (HK k Hk) as (J & G & _). split; [exact J|exact G].
Qed.

(* ------------------------------------------------------------------ symmetric matrices *)
Lemma scaled_definite n A v q : scaled_dominance n A v q -> q < 1 -> symmetric n A -> (forall i, (i < n)%nat -> 0 < A i i) ->
  (forall e, (1 - q) * rsum n (fun i => A i i * (e i * e i)) <= energy n A e) /\ positive_definite n A.
Proof.
  intros (Hq & Hd) Hq1 Hs Hp.
  assert (M : forall e, (1 - q) * rsum n (fun i => A i i * (e i * e i)) <= energy n A e).
  { intro e. unfold energy.
    set (p i j := if (j =? i)%nat then 0 else Rabs (A i j) * v j * v i * ((e i / v i) * (e i / v i))).
    assert (S1 : rsum n (fun i => rsum n (p i)) <= q * rsum n (fun i => A i i * (e i * e i))).
    { rewrite <- rsum_scale. apply rsum_le. intros i Hi. destruct (Hd i Hi) as (Pv & _ & L).
      apply Rle_trans with (v i * ((e i / v i) * (e i / v i)) * rsum n (fun j => if (j =? i)%nat then 0 else Rabs (A i j) * v j)).
      - right. rewrite <- rsum_scale. apply asum_ext. intros j Hj. unfold p. destruct (j =? i)%nat; ring.
      - apply Rle_trans with (v i * ((e i / v i) * (e i / v i)) * (q * (Rabs (A i i) * v i))).
        + apply Rmult_le_compat_l; [|exact L]. apply Rmult_le_pos; [lra|]. nra.
        + right. rewrite (Rabs_pos_eq (A i i)) by (left; apply Hp, Hi). field. lra. }
    assert (S2 : rsum n (fun i => rsum n (fun j => p j i)) = rsum n (fun i => rsum n (p i))) by (symmetry; apply rsum_exchange).
    apply Rle_trans with (rsum n (fun i => A i i * (e i * e i)) - (rsum n (fun i => rsum n (p i)) + rsum n (fun i => rsum n (fun j => p j i))) / 2); [lra|].
    replace ((rsum n (fun i => rsum n (p i)) + rsum n (fun i => rsum n (fun j => p j i))) / 2)
      with (rsum n (fun i => / 2 * (rsum n (p i) + rsum n (fun j => p j i)))) by (rewrite rsum_scale, rsum_plus; field).
    rewrite <- rsum_minus. apply rsum_le. intros i Hi. rewrite (rsum_out n i (fun j => A i j * e j) Hi), (Rmult_plus_distr_l (e i)).
    replace (e i * (A i i * e i)) with (A i i * (e i * e i)) by ring. unfold Rminus. apply Rplus_le_compat_l.
    rewrite <- rsum_plus, <- rsum_scale, <- rsum_scale.
    replace (- rsum n (fun j => / 2 * (p i j + p j i))) with (-1 * rsum n (fun j => / 2 * (p i j + p j i))) by ring.
    rewrite <- rsum_scale. apply rsum_le. intros j Hj. unfold p. rewrite (Nat.eqb_sym i j).
    destruct (j =? i)%nat eqn:E; [lra|]. destruct (Hd i Hi) as (Pi & _). destruct (Hd j Hj) as (Pj & _).
    rewrite (Hs j i Hj Hi). set (s := e i / v i). set (t := e j / v j).
    replace (e i) with (s * v i) by (unfold s; field; lra). replace (e j) with (t * v j) by (unfold t; field; lra).
    assert (Hm : 0 <= Rabs (A i j) * v j * v i).
    { apply Rmult_le_pos; [|lra]. apply Rmult_le_pos; [apply Rabs_pos|lra]. }
    assert (Hm2 : Rabs (A i j * v j * v i) = Rabs (A i j) * v j * v i) by (rewrite !Rabs_mult, (Rabs_pos_eq (v j)), (Rabs_pos_eq (v i)) by lra; reflexivity).
    pose proof (Rle_abs (- (A i j * v j * v i))) as H1. rewrite Rabs_Ropp, Hm2 in H1. pose proof (Rle_abs (A i j * v j * v i)) as H2. rewrite Hm2 in H2.
    set (m := Rabs (A i j) * v j * v i) in *. set (z := A i j * v j * v i) in *.
    replace (s * v i * (A i j * (t * v j))) with (z * (s * t)) by (unfold z; ring).
    replace (Rabs (A i j) * v i * v j) with m by (unfold m; ring).
    assert (0 <= (m + z) * ((s + t) * (s + t)) + (m - z) * ((s - t) * (s - t))); [|nra].
    apply Rplus_le_le_0_compat; apply Rmult_le_pos; try lra; apply Rle_0_sqr. }
  split; [exact M|]. intros e (i & Hi & Hne). apply Rlt_le_trans with (2 := M e). apply Rmult_lt_0_compat; [lra|].
  apply (rsum_pos _ _ i); [|exact Hi|].
  - intros j Hj. apply Rmult_le_pos; [left; apply Hp, Hj|apply Rle_0_sqr].
  - apply Rmult_lt_0_compat; [apply Hp, Hi|]. assert (0 < e i * e i); [|lra]. apply Rsqr_pos_lt in Hne. exact Hne.
Qed.

Lemma chained_sor dbg stray n a A b h : sparse_square 0 n a A -> is_vec n b h -> chained n A -> symmetric n A ->
  (forall i, (i < n)%nat -> 0 < A i i) ->
  positive_definite n A /\
  exists xs, solves rops n A xs h /\ (forall ys, solves rops n A ys h -> forall i, (i < n)%nat -> ys i = xs i) /\
  forall x, length x = n -> forall eps, 0 < eps -> exists K, forall k, (K <= k)%nat ->
    exists x' f', times (sor_step rops dbg stray a b) k (x, []) = Ok (x', []) /\ is_vec n x' f' /\ near n f' xs eps.
Proof.
  intros Ha Hb Hc Hs Hp. destruct (chained_scaled n A Hc) as (v & q & Hq & Hd).
  destruct (scaled_definite n A v q Hd Hq Hs Hp) as (_ & Hpd). split; [exact Hpd|].
  destruct (definite_converges dbg stray n a A b h Ha Hb Hs Hpd) as (xs & Hx & Hu & H). exists xs. split; [exact Hx|].
  split; [exact Hu|]. intros x Lx eps He. destruct (H x Lx eps He) as (K & HK). exists K. intros k Hk. apply (HK k Hk).
Qed.

(* ------------------------------------------------------------------ connected graphs *)
Lemma walk_chain n A (E : nat -> nat -> Prop) : (forall i j, E i j -> (i < n)%nat /\ i <> j /\ A i j <> 0) ->
  forall k u w, walk E k u w -> forall m, chain n A m w -> chain n A (k + m) u.
Proof.
  intros HE k u w W. induction W as [u|k u v w W IH Hvw]; intros m C; [exact C|].
  destruct (HE v w Hvw) as (Hv & Hne & Ha). replace (S k + m)%nat with (k + S m)%nat by lia. apply IH. eapply chain_S; eauto.
Qed.

Lemma irreducible_chained d g A i0 : well_formed d g -> connected g -> let n := size_vertex g in
  (forall i j, edge g i j -> A i j <> 0) -> weak_rows n A -> (i0 < n)%nat -> off_diagonal n A i0 < Rabs (A i0 i0) -> chained n A.
Proof.
  intros Hwf Hc n He Hw Hi Hs. split; [exact Hw|]. intros i Hin. destruct (Hc i i0 Hin Hi) as (k & W). exists (k + 0)%nat.
  apply (walk_chain n A (edge g)) with (w := i0); [|exact W|apply chain_0; auto].
  intros u v E. destruct (edge_bounds d g u v Hwf E) as (Hu & Hv & Hne). split; [exact Hu|]. split; [congruence|apply He, E].
Qed.

Lemma rsum_single n k c : rsum n (fun j => if (k =? j)%nat then c else 0) = if (k <? n)%nat then c else 0.
Proof.
  induction n as [|n IH]; [reflexivity|]. cbn [asum]. rewrite IH.
  destruct (k <? n)%nat eqn:E1, (k =? n)%nat eqn:E2, (k <? S n)%nat eqn:E3;
    rewrite ?Nat.ltb_lt, ?Nat.ltb_ge, ?Nat.eqb_eq, ?Nat.eqb_neq in *; try lia; lra.
Qed.

Definition total (L : list (nat * R)) : R := fold_right (fun p s => snd p + s) 0 L.

Lemma rsum_pairs n F L : (forall p, In p L -> 0 <= snd p) ->
  (forall j, (j < n)%nat -> F j <= 0 \/ exists c, In (j, c) L /\ F j <= c) -> rsum n F <= total L.
Proof.
  intros HL HF. set (G := fun j => fold_right (fun p s => (if (fst p =? j)%nat then snd p else 0) + s) 0 L).
  assert (P : forall l j, (forall p, In p l -> 0 <= snd p) ->
    0 <= fold_right (fun p s => (if (fst p =? j)%nat then snd p else 0) + s) 0 l).
  { induction l as [|p l IH]; intros j H; cbn [fold_right]; [lra|]. specialize (IH j (fun p Hp => H p (or_intror Hp))).
    pose proof (H p (or_introl eq_refl)). destruct (fst p =? j)%nat; lra. }
  apply Rle_trans with (rsum n G).
  - apply rsum_le. intros j Hj. destruct (HF j Hj) as [H|(c & Hin & H)]; [apply Rle_trans with (1 := H), P, HL|].
    apply Rle_trans with (1 := H). unfold G. clear HF H G.
    induction L as [|p l IH]; [destruct Hin|]. cbn [fold_right]. destruct Hin as [->|Hin].
    + cbn [fst snd]. rewrite Nat.eqb_refl. specialize (P l j (fun p Hp => HL p (or_intror Hp))). lra.
    + specialize (IH (fun p Hp => HL p (or_intror Hp)) Hin). pose proof (HL p (or_introl eq_refl)).
      destruct (fst p =? j)%nat; lra.
  - unfold G. clear HF P G. induction L as [|p l IH]; cbn [fold_right total].
    + right. apply rsum_zero. reflexivity.
    + rewrite rsum_plus, rsum_single. specialize (IH (fun p Hp => HL p (or_intror Hp))). fold (total l).
      pose proof (HL p (or_introl eq_refl)). destruct (fst p <? n)%nat; lra.
Qed.

Lemma total_ones l : total (map (fun j => (j, 1)) l) = INR (length l).
Proof. induction l as [|x l IH]; [reflexivity|]. cbn [map total fold_right snd length]. fold (total (map (fun j => (j, 1)) l)). rewrite S_INR, IH. lra. Qed.

Lemma edge_dec g i j : {edge g i j} + {~ edge g i j}.
Proof.
  unfold edge. destruct (lt_dec i (size_vertex g)) as [L|L]; [|right; tauto].
  destruct (in_dec Nat.eq_dec j (row g i)) as [H|H]; [left; auto|right; tauto].
Qed.

Lemma grounded_rows g c A i : grounded g c A -> (i < size_vertex g)%nat -> off_diagonal (size_vertex g) A i <= INR (length (row g i)).
Proof.
  intros H Hi. rewrite <- total_ones. apply rsum_pairs.
  - intros p Hp. apply in_map_iff in Hp. destruct Hp as (j & <- & _). cbn [snd]. lra.
  - intros j Hj. destruct (j =? i)%nat eqn:E; [left; lra|]. apply Nat.eqb_neq in E. destruct (H i j Hi Hj) as (_ & H1 & H2).
    destruct (edge_dec g i j) as [He|He]; [right|left].
    + exists 1. split; [apply (in_map (fun j => (j, 1))), He|]. rewrite (H1 He), (Rabs_left (-1)) by lra. lra.
    + rewrite H2, Rabs_R0 by auto. lra.
Qed.

Lemma grounded_chained g c A i0 : well_formed false g -> connected g -> grounded g c A ->
  (forall i, (i < size_vertex g)%nat -> 0 <= c i) -> (i0 < size_vertex g)%nat -> 0 < c i0 ->
  chained (size_vertex g) A /\ symmetric (size_vertex g) A /\ forall i, (i < size_vertex g)%nat -> 0 < A i i.
Proof.
  intros Hwf Hc H Hpos Hi0 Hg. set (n := size_vertex g) in *.
  assert (Hd : forall i, (i < n)%nat -> 0 < A i i /\ A i i = INR (length (row g i)) + c i).
  { intros i Hi. destruct (H i i Hi Hi) as (E & _). specialize (E eq_refl). split; [|exact E]. rewrite E.
    destruct (Nat.eq_dec i i0) as [->|Hne]; [pose proof (pos_INR (length (row g i0))); lra|].
    destruct (Hc i0 i Hi0 Hi) as (k & W). inversion W as [|k' u' v' w' W' He]; subst; [congruence|].
    pose proof (edge_sym g v' i Hwf He) as (_ & Hin). destruct (row g i) as [|x l]; [destruct Hin|]. cbn [length]. rewrite S_INR.
    pose proof (pos_INR (length l)). specialize (Hpos i Hi). lra. }
  split; [|split; [|intros; apply Hd; auto]].
  - apply (irreducible_chained false g A i0 Hwf Hc).
    + intros i j He. destruct (edge_bounds false g i j Hwf He) as (Hi & Hj & _). destruct (H i j Hi Hj) as (_ & E & _). rewrite (E He). lra.
    + intros i Hi. destruct (Hd i Hi) as (P & E). split; [lra|]. rewrite Rabs_pos_eq by lra.
      pose proof (grounded_rows g c A i H Hi) as L. specialize (Hpos i Hi). unfold n in *. lra.
    + exact Hi0.
    + destruct (Hd i0 Hi0) as (P & E). rewrite Rabs_pos_eq by lra. pose proof (grounded_rows g c A i0 H Hi0) as L. unfold n in *. lra.
  - intros i j Hi Hj. destruct (Nat.eq_dec i j) as [->|Hne]; [reflexivity|]. destruct (H i j Hi Hj) as (_ & H1 & H2).
    destruct (H j i Hj Hi) as (_ & H3 & H4). destruct (edge_dec g i j) as [He|He].
    + rewrite (H1 He), (H3 (edge_sym g i j Hwf He)). reflexivity.
    + rewrite H2, H4; auto. intro G. apply He, (edge_sym g j i Hwf G).
Qed.

(* ------------------------------------------------------------------ the line and the grid *)
Definition hump (n t : R) : R := (t + 1) * (n - t).

Lemma hump_bound n t : 4 * hump n t <= (n + 1) ^ 2.
Proof. unfold hump. assert (0 <= (n - 1 - 2 * t) ^ 2) by apply pow2_ge_0. nra. Qed.

Lemma hump_step n t : hump n (t - 1) + hump n (t + 1) = 2 * hump n t - 2.
Proof. unfold hump. ring. Qed.

Lemma hump_pos n i : (i < n)%nat -> 1 <= hump (INR n) (INR i).
Proof.
  intro H. unfold hump. assert (INR i + 1 <= INR n) by (rewrite <- S_INR; apply le_INR; lia). pose proof (pos_INR i). nra.
Qed.

Lemma hump_nonneg n i : (i <= n)%nat -> 0 <= hump (INR n) (INR i).
Proof. intro H. unfold hump. apply le_INR in H. pose proof (pos_INR i). nra. Qed.

Definition slowness (n : nat) : R := 1 - 4 / (INR n + 1) ^ 2.

Lemma slowness_range n : (1 <= n)%nat -> 0 <= slowness n < 1.
Proof.
  intro H. unfold slowness. assert (P : 1 <= INR n) by (apply (le_INR 1), H).
  assert (Q : 4 <= (INR n + 1) ^ 2) by nra. assert (0 < / (INR n + 1) ^ 2) by (apply Rinv_0_lt_compat; lra).
  assert (4 / (INR n + 1) ^ 2 <= 1).
  { apply (Rmult_le_reg_r ((INR n + 1) ^ 2)); [lra|]. unfold Rdiv. rewrite Rmult_assoc, Rinv_l by lra. lra. }
  unfold Rdiv in *. lra.
Qed.

Lemma slowness_hump n t : (1 <= n)%nat -> 0 <= t -> hump (INR n) t * (1 - slowness n) <= 1.
Proof.
  intros H Ht. unfold slowness. assert (P : 1 <= INR n) by (apply (le_INR 1), H). pose proof (hump_bound (INR n) t) as B.
  apply (Rmult_le_reg_r ((INR n + 1) ^ 2)); [nra|].
  replace (hump (INR n) t * (1 - (1 - 4 / (INR n + 1) ^ 2)) * (INR n + 1) ^ 2) with (4 * hump (INR n) t) by (field; lra). lra.
Qed.

Lemma line_scaled M dbg n g A : (2 <= n)%nat -> create_graph_line M dbg false n = Ok g -> stencil g 2 A ->
  scaled_dominance n A (fun i => hump (INR n) (INR i)) (slowness n).
Proof.
  intros Hn Hg H. destruct (create_line_spec M dbg false n Hn) as (g' & Hg' & _ & Hsz & _ & He). rewrite Hg in Hg'. injection Hg' as <-.
  unfold stencil in H. rewrite Hsz in H. destruct (slowness_range n ltac:(lia)) as (S0 & S1). split; [exact S0|]. intros i Hi.
  pose proof (hump_pos n i Hi) as P. split; [lra|]. destruct (H i i Hi Hi) as (E & _). rewrite E by reflexivity. split; [lra|].
  apply Rle_trans with (total [((i - 1)%nat, hump (INR n) (INR i - 1)); ((i + 1)%nat, hump (INR n) (INR i + 1))]).
  - apply rsum_pairs.
    + intros p [<-|[<-|[]]]; cbn [snd]; [|replace (INR i + 1) with (INR (i + 1)) by (rewrite plus_INR; reflexivity); apply hump_nonneg; lia].
      destruct i as [|i]; [unfold hump; cbn [INR]; lra|]. rewrite S_INR. replace (INR i + 1 - 1) with (INR i) by ring. apply hump_nonneg. lia.
    + intros j Hj. destruct (j =? i)%nat eqn:Eq; [left; lra|]. apply Nat.eqb_neq in Eq. destruct (H i j Hi Hj) as (_ & H1 & H2).
      destruct (edge_dec g i j) as [Hd|Hd]; [right|left; rewrite H2, Rabs_R0 by auto; lra].
      rewrite (H1 Hd), (Rabs_left (-1)) by lra. replace (- -1) with 1 by lra. rewrite Rmult_1_l. exists (hump (INR n) (INR j)). split; [|lra].
      apply He in Hd. destruct Hd as (_ & _ & [->|(_ & ->)]).
      * right; left. rewrite plus_INR. reflexivity.
      * left. rewrite plus_INR. cbn [INR]. f_equal; [lia|f_equal; ring].
  - cbn [total fold_right snd]. rewrite Rplus_0_r, hump_step, (Rabs_pos_eq 2) by lra.
    pose proof (slowness_hump n (INR i) ltac:(lia) (pos_INR i)). nra.
Qed.

Lemma grid_scaled dbg n g A : (2 <= n)%nat -> create_graph_structured dbg false n = Ok g -> stencil g 4 A ->
  scaled_dominance (n * n) A (fun i => hump (INR n) (INR (i / n)) * hump (INR n) (INR (i mod n))) (slowness n).
Proof.
  intros Hn Hg H. destruct (grid_spec dbg false n ltac:(lia)) as (g' & Hg' & _ & Hsz & _ & He). rewrite Hg in Hg'. injection Hg' as <-.
  unfold stencil in H. rewrite Hsz in H. destruct (slowness_range n ltac:(lia)) as (S0 & S1). split; [exact S0|]. intros i Hi.
  assert (Hx : (i mod n < n)%nat) by (apply Nat.mod_upper_bound; lia). assert (Hy : (i / n < n)%nat) by (apply Nat.div_lt_upper_bound; lia).
  pose proof (Nat.div_mod i n ltac:(lia)) as Ei. rewrite Nat.mul_comm in Ei. set (x := (i mod n)%nat) in *. set (y := (i / n)%nat) in *.
  pose proof (hump_pos n x Hx) as Px. pose proof (hump_pos n y Hy) as Py. split; [nra|].
  destruct (H i i Hi Hi) as (E & _). rewrite E by reflexivity. split; [lra|].
  set (f := hump (INR n)) in *.
  assert (Fm : forall t, (t < n)%nat -> 0 <= f (INR t - 1)).
  { intros t Ht. unfold f. destruct t as [|t]; [unfold hump; cbn [INR]; lra|]. rewrite S_INR. replace (INR t + 1 - 1) with (INR t) by ring. apply hump_nonneg. lia. }
  assert (Fp : forall t, (t < n)%nat -> 0 <= f (INR t + 1)).
  { intros t Ht. unfold f. replace (INR t + 1) with (INR (t + 1)) by (rewrite plus_INR; reflexivity). apply hump_nonneg. lia. }
  apply Rle_trans with (total [((y * n + (x - 1))%nat, f (INR y) * f (INR x - 1)); ((y * n + (x + 1))%nat, f (INR y) * f (INR x + 1));
                               (((y - 1) * n + x)%nat, f (INR y - 1) * f (INR x)); (((y + 1) * n + x)%nat, f (INR y + 1) * f (INR x))]).
  - apply rsum_pairs.
    + intros p [<-|[<-|[<-|[<-|[]]]]]; cbn [snd]; apply Rmult_le_pos; auto; lra.
    + intros j Hj. destruct (j =? i)%nat eqn:Eq; [left; lra|]. apply Nat.eqb_neq in Eq. destruct (H i j Hi Hj) as (_ & H1 & H2).
      destruct (edge_dec g i j) as [Hd|Hd]; [right|left; rewrite H2, Rabs_R0 by auto; lra].
      rewrite (H1 Hd), (Rabs_left (-1)) by lra. replace (- -1) with 1 by lra. rewrite Rmult_1_l.
      assert (Hx2 : (j mod n < n)%nat) by (apply Nat.mod_upper_bound; lia). assert (Hy2 : (j / n < n)%nat) by (apply Nat.div_lt_upper_bound; lia).
      pose proof (Nat.div_mod j n ltac:(lia)) as Ej. rewrite Nat.mul_comm in Ej. set (x2 := (j mod n)%nat) in *. set (y2 := (j / n)%nat) in *.
      rewrite Ei, Ej in Hd. apply He in Hd; auto. exists (f (INR y2) * f (INR x2)). split; [|lra]. rewrite Ej.
      destruct Hd as [(Hyy & Hxx)|[(Hxx & Hyy)|(_ & [(Hyy & Hxx)|(Hxx & Hyy)])]].
      * right; left. rewrite Hxx, <- Hyy, plus_INR. reflexivity.
      * right; right; right; left. rewrite Hyy, <- Hxx, plus_INR. reflexivity.
      * left. rewrite Hxx, <- Hyy, plus_INR. cbn [INR]. replace (INR x2 + 1 - 1) with (INR x2) by ring. f_equal. lia.
      * right; right; left. rewrite Hyy, <- Hxx, plus_INR. cbn [INR]. replace (INR y2 + 1 - 1) with (INR y2) by ring. f_equal. f_equal. f_equal. lia.
  - cbn [total fold_right snd]. rewrite Rplus_0_r, (Rabs_pos_eq 4) by lra.
    pose proof (hump_step (INR n) (INR x)) as Sx. pose proof (hump_step (INR n) (INR y)) as Sy. fold f in Sx, Sy.
    pose proof (slowness_hump n (INR x) ltac:(lia) (pos_INR x)) as Bx. pose proof (slowness_hump n (INR y) ltac:(lia) (pos_INR y)) as By.
    fold f in Bx, By. set (a1 := f (INR x)) in *. set (b1 := f (INR y)) in *.
    replace (b1 * f (INR x - 1) + (b1 * f (INR x + 1) + (f (INR y - 1) * a1 + f (INR y + 1) * a1)))
      with (b1 * (f (INR x - 1) + f (INR x + 1)) + a1 * (f (INR y - 1) + f (INR y + 1))) by ring.
    rewrite Sx, Sy. assert (b1 * (a1 * (1 - slowness n)) <= b1 * 1) by (apply Rmult_le_compat_l; lra).
    assert (a1 * (b1 * (1 - slowness n)) <= a1 * 1) by (apply Rmult_le_compat_l; lra). lra.
Qed.

(** What a solver has after [k] sweeps: an error of at most [r^k e v] if it was at most [e v] before. *)
Definition loses dbg stray n a b (xs v : nat -> R) (r : R) : Prop :=
  forall k x w f e, is_vec n x f -> length w = n -> 0 <= e -> within_scaled n f xs v e ->
    (exists x' w' f', times (jacobi_step rops dbg stray a b) k (x, w) = Ok (x', w') /\ is_vec n x' f' /\ within_scaled n f' xs v (r ^ k * e)) /\
    (exists x' f', times (gauss_seidel_step rops dbg stray a b) k (x, w) = Ok (x', w) /\ is_vec n x' f' /\ within_scaled n f' xs v (r ^ k * e)).

Definition sor_reaches dbg stray n a b (xs : nat -> R) : Prop :=
  forall x, length x = n -> forall eps, 0 < eps -> exists K, forall k, (K <= k)%nat ->
    exists x' f', times (sor_step rops dbg stray a b) k (x, []) = Ok (x', []) /\ is_vec n x' f' /\ near n f' xs eps.

Lemma scaled_rates dbg stray n a A b h v q : sparse_square 0 n a A -> is_vec n b h -> scaled_dominance n A v q -> q < 1 ->
  symmetric n A -> (forall i, (i < n)%nat -> 0 < A i i) ->
  exists xs, solves rops n A xs h /\ (forall ys, solves rops n A ys h -> forall i, (i < n)%nat -> ys i = xs i) /\
    loses dbg stray n a b xs v q /\ sor_reaches dbg stray n a b xs.
Proof.
  intros Ha Hb Hd Hq Hs Hp. destruct (scaled_definite n A v q Hd Hq Hs Hp) as (_ & Hpd).
  destruct (definite_converges dbg stray n a A b h Ha Hb Hs Hpd) as (xs & Hx & Hu & H). exists xs. split; [exact Hx|].
  split; [exact Hu|]. split.
  - intros k x w f e Vx Lw He W. split.
    + destruct (jacobi_scaled dbg stray n a A b h xs v q Ha Hb Hd Hx k x w f e Vx Lw He W) as (x' & w' & f' & E & V & _ & C).
      exists x', w', f'. auto.
    + apply (seidel_scaled dbg stray n a A b h xs v q Ha Hb Hd Hx k x w f e); auto. lra.
  - intros x Lx eps He. destruct (H x Lx eps He) as (K & HK). exists K. intros k Hk. apply (HK k Hk).
Qed.

Lemma stencil_symmetric g d A : well_formed false g -> stencil g d A -> symmetric (size_vertex g) A.
Proof.
  intros Hwf H i j Hi Hj. destruct (Nat.eq_dec i j) as [->|Hne]; [reflexivity|]. destruct (H i j Hi Hj) as (_ & H1 & H2).
  destruct (H j i Hj Hi) as (_ & H3 & H4). destruct (edge_dec g i j) as [He|He].
  - rewrite (H1 He), (H3 (edge_sym g i j Hwf He)). reflexivity.
  - rewrite H2, H4; auto. intro G. apply He, (edge_sym g j i Hwf G).
Qed.

Lemma line_rates M dbg stray n g a A b h : (2 <= n)%nat -> create_graph_line M dbg false n = Ok g -> stencil g 2 A ->
  sparse_square 0 n a A -> is_vec n b h ->
  exists xs, solves rops n A xs h /\ (forall ys, solves rops n A ys h -> forall i, (i < n)%nat -> ys i = xs i) /\
    loses dbg stray n a b xs (fun i => (INR i + 1) * (INR n - INR i)) (1 - 4 / (INR n + 1) ^ 2) /\
    sor_reaches dbg stray n a b xs.
Proof.
  intros Hn Hg H Ha Hb. destruct (create_line_spec M dbg false n Hn) as (g' & Hg' & Hwf & Hsz & _). rewrite Hg in Hg'. injection Hg' as <-.
  apply (scaled_rates dbg stray n a A b h _ _ Ha Hb (line_scaled M dbg n g A Hn Hg H)).
  - apply (slowness_range n). lia.
  - rewrite <- Hsz. eapply stencil_symmetric; eauto.
  - intros i Hi. rewrite <- Hsz in Hi. destruct (H i i Hi Hi) as (E & _). rewrite E by reflexivity. lra.
Qed.

Lemma grid_rates dbg stray n g a A b h : (2 <= n)%nat -> create_graph_structured dbg false n = Ok g -> stencil g 4 A ->
  sparse_square 0 (n * n) a A -> is_vec (n * n) b h ->
  exists xs, solves rops (n * n) A xs h /\ (forall ys, solves rops (n * n) A ys h -> forall i, (i < n * n)%nat -> ys i = xs i) /\
    loses dbg stray (n * n) a b xs
      (fun i => (INR (i / n) + 1) * (INR n - INR (i / n)) * ((INR (i mod n) + 1) * (INR n - INR (i mod n)))) (1 - 4 / (INR n + 1) ^ 2) /\
    sor_reaches dbg stray (n * n) a b xs.
Proof.
  intros Hn Hg H Ha Hb. destruct (grid_spec dbg false n ltac:(lia)) as (g' & Hg' & Hwf & Hsz & _). rewrite Hg in Hg'. injection Hg' as <-.
  apply (scaled_rates dbg stray (n * n) a A b h _ _ Ha Hb (grid_scaled dbg n g A Hn Hg H)).
  - apply (slowness_range n). lia.
  - rewrite <- Hsz. eapply stencil_symmetric; eauto.
  - intros i Hi. rewrite <- Hsz in Hi. destruct (H i i Hi Hi) as (E & _). rewrite E by reflexivity. lra.
Qed.

Lemma grounded_converges dbg stray g c a A b h i0 : well_formed false g -> connected g -> grounded g c A ->
  (forall i, (i < size_vertex g)%nat -> 0 <= c i) -> (i0 < size_vertex g)%nat -> 0 < c i0 ->
  let n := size_vertex g in sparse_square 0 n a A -> is_vec n b h ->
  exists xs, solves rops n A xs h /\ (forall ys, solves rops n A ys h -> forall i, (i < n)%nat -> ys i = xs i) /\
    (exists v q, (forall i, (i < n)%nat -> 0 < v i) /\ 0 <= q < 1 /\ loses dbg stray n a b xs v q) /\
    sor_reaches dbg stray n a b xs.
Proof.
  intros Hwf Hc H Hpos Hi0 Hg n Ha Hb. destruct (grounded_chained g c A i0 Hwf Hc H Hpos Hi0 Hg) as (Hch & Hs & Hp).
  destruct (chained_scaled _ A Hch) as (v & q & Hq & Hd).
  destruct (scaled_rates dbg stray n a A b h v q Ha Hb Hd Hq Hs Hp) as (xs & Hx & Hu & Hl & Ho). exists xs. split; [exact Hx|].
  split; [exact Hu|]. split; [|exact Ho]. exists v, q. split; [intros; apply Hd; auto|]. split; [split; [apply Hd|exact Hq]|exact Hl].
Qed.

Lemma irreducible_converges d g dbg stray a A b h i0 : well_formed d g -> connected g -> let n := size_vertex g in
  (forall i j, edge g i j -> A i j <> 0) -> weak_rows n A -> (i0 < n)%nat -> off_diagonal n A i0 < Rabs (A i0 i0) ->
  sparse_square 0 n a A -> is_vec n b h ->
  exists xs, solves rops n A xs h /\ (forall ys, solves rops n A ys h -> forall i, (i < n)%nat -> ys i = xs i) /\
  forall x, length x = n -> forall eps, 0 < eps -> exists K, forall k, (K <= k)%nat ->
    (forall w, length w = n -> exists x' w' f', times (jacobi_step rops dbg stray a b) k (x, w) = Ok (x', w') /\
       is_vec n x' f' /\ near n f' xs eps) /\
    (exists x' f', times (gauss_seidel_step rops dbg stray a b) k (x, []) = Ok (x', []) /\ is_vec n x' f' /\ near n f' xs eps).
Proof.
  intros Hwf Hc n He Hw Hi Hs Ha Hb. apply (chained_converges dbg stray n a A b h Ha Hb).
  apply (irreducible_chained d g A i0 Hwf Hc He Hw Hi Hs).
Qed.

(** No row dominates: (1 -1; -1 1) is weakly dominant and connected, and the sweeps of Jacobi go to and fro for ever. *)
Lemma swing_step dbg stray (p q r s : R) : jacobi_step rops dbg stray (two 1 (- 1) (- 1) 1) [0; 0] ([p; q], [r; s]) = Ok ([q; p], [p; q]).
Proof.
  transitivity (Ok ([1 * (0 - (0 + - 1 * q)) / 1 + (1 - 1) * p; 1 * (0 - (0 + - 1 * p)) / 1 + (1 - 1) * q], [p; q]));
    [destruct dbg; reflexivity|]. f_equal. f_equal. f_equal; [field|f_equal; field].
Qed.

Lemma swing_runs dbg stray k : times (jacobi_step rops dbg stray (two 1 (- 1) (- 1) 1) [0; 0]) k ([1; 0], [0; 1]) =
  Ok (if Nat.even k then ([1; 0], [0; 1]) else ([0; 1], [1; 0])).
Proof.
  induction k as [|k IH]; [reflexivity|]. cbn [times]. rewrite IH. cbn [bind]. rewrite Nat.even_succ, <- Nat.negb_even.
  destruct (Nat.even k); cbn [negb]; apply swing_step.
Qed.
