(** Fixed points of the sweeps over a field, C54. *)
From Coq Require Import ZArith Field_theory Field Ring.
From Verif Require Import Base ListFacts Csr DenseModel DenseFacts ScalarModel SparseModel SparseSpec SparseFacts
  SparseMul LuModel LuField IterModel IterFacts.

(** [a] holds the [n] by [n] matrix [A]. *)
Definition sparse_square {S : Type} (zero : S) (n : nat) (a : smat S) (A : nat -> nat -> S) : Prop :=
  swf a /\ s_rows a = n /\ csize a = n /\ represents zero a A.

Section IterField.
  Context {S : Type}.
  Variables (O : sops S) (opp inv : S -> S) (dbg : bool) (stray : option nat).
  Notation "0" := (sc_zero O). Notation "1" := (sc_one O).
  Notation "x + y" := (sc_add O x y). Notation "x * y" := (sc_mul O x y).
  Notation "x - y" := (sc_sub O x y). Notation "x / y" := (sc_div O x y).
  Hypothesis Fth : field_theory 0 1 (sc_add O) (sc_mul O) (sc_sub O) opp (sc_div O) inv eq.
  Add Field SField2 : Fth.
  Notation sum := (asum 0 (sc_add O)).

  Lemma semi_ring : semi_ring_theory 0 1 (sc_add O) (sc_mul O) eq.
  Proof using Fth. constructor; intros; ring. Qed.

  (** The new value of component [i] as a function of the matrix. *)
  Definition relaxed n (A : nat -> nat -> S) (h : nat -> S) (w : S) (i : nat) (f : nat -> S) : S :=
    w * (h i - sum n (fun j => if j =? i then 0 else A i j * f j)) / A i i + (1 - w) * f i.

  Lemma relaxed_ext n A h w i f g : (i < n)%nat -> (forall j, (j < n)%nat -> f j = g j) ->
    relaxed n A h w i f = relaxed n A h w i g.
  Proof using.
    intros Hi E. unfold relaxed. rewrite E by auto. f_equal. f_equal. f_equal. f_equal. apply asum_ext.
    intros j Hj. rewrite E by auto. reflexivity.
  Qed.

  Lemma field_rows n a A b h : sparse_square 0 n a A -> is_vec n b h -> (forall i, (i < n)%nat -> A i i <> 0) ->
    exists rs d, rows_of dbg stray n a b rs d h /\
      forall w i f, (i < n)%nat -> swept O rs d h w i f = relaxed n A h w i f.
  Proof using Fth.
    intros (Hw & Hr & Hc & HA) Hb Hd.
    assert (Hst : forall i, (i < n)%nat -> stored a i i (A i i)).
    { intros i Hi. destruct (stored_dec a i i Hw) as [(v & Hv)|Hn].
      - rewrite (proj1 (HA i i) v Hv). exact Hv.
      - destruct (Hd i Hi). apply (proj2 (HA i i)), Hn. }
    destruct (system_rows O dbg stray n a b) as (rs & d & Hro & Hs & Hdi).
    { split; [auto|]. split; [auto|]. split; [auto|]. split; [apply Hb|]. eauto. }
    exists rs, d. split.
    - destruct Hro. constructor; auto.
    - intros w i f Hi. unfold swept, new_value, relaxed.
      rewrite (proj2 (row_sums O semi_ring n a rs A i f (ro_repr _ _ _ _ _ _ _ _ Hro) Hs (ro_len _ _ _ _ _ _ _ _ Hro) Hi HA)).
      rewrite (proj1 (HA i i) _ (Hdi i Hi)). reflexivity.
  Qed.

  (** The whole row. *)
  Lemma sum_split n i (F : nat -> S) : (i < n)%nat -> sum n F = sum n (fun j => if j =? i then 0 else F j) + F i.
  Proof using Fth.
    induction n as [|n IH]; intro Hi; [lia|]. cbn [asum]. destruct (Nat.eqb_spec n i) as [->|Hne].
    - rewrite (asum_ext _ _ i (fun j => if j =? i then 0 else F j) F); [ring|].
      intros j Hj. destruct (Nat.eqb_spec j i); [lia|auto].
    - rewrite IH by lia. ring.
  Qed.

  Lemma mul_zero (x y : S) : x * y = 0 -> x <> 0 -> y = 0.
  Proof using Fth.
    intros E Hx. transitivity (x * y / x); [field; exact Hx|]. rewrite E. field. exact Hx.
  Qed.

  (** A component keeps its value exactly when its equation holds. *)
  Lemma relaxed_fixed n A h w i f : (i < n)%nat -> w <> 0 -> A i i <> 0 ->
    (relaxed n A h w i f = f i <-> sum n (fun j => A i j * f j) = h i).
  Proof using Fth.
    intros Hi Hw Hd. unfold relaxed. rewrite (sum_split n i (fun j => A i j * f j) Hi).
    set (o := sum n _). split.
    - intro E. assert (H : w * (h i - (o + A i i * f i)) = 0).
      { transitivity (A i i * ((w * (h i - o) / A i i + (1 - w) * f i) - f i)); [field; exact Hd|].
        rewrite E. ring. }
      apply mul_zero in H; auto. transitivity (h i - (h i - (o + A i i * f i))); [ring|]. rewrite H. ring.
    - intro E. rewrite <- E. field. exact Hd.
  Qed.

  Lemma is_vec_inj n x (f g : nat -> S) : is_vec n x f -> is_vec n x g -> forall i, (i < n)%nat -> f i = g i.
  Proof using. clear O opp inv dbg stray Fth. intros [_ Hf] [_ Hg] i Hi. specialize (Hf i Hi). specialize (Hg i Hi). congruence. Qed.

  Lemma jacobi_fixed n a A b h x u f w : sparse_square 0 n a A -> is_vec n b h -> is_vec n x f ->
    length u = n -> (forall i, (i < n)%nat -> A i i <> 0) -> w <> 0 ->
    (forward_sweep O dbg stray a (Some x) u b w = Ok x <->
     forall i, (i < n)%nat -> sum n (fun j => A i j * f j) = h i).
  Proof using Fth.
    intros Ha Hb Hx Hu Hd Hw. destruct (field_rows n a A b h Ha Hb Hd) as (rs & d & Hro & Hv).
    destruct (jacobi_sweep_ok O dbg stray n a b rs d h x u f w Hro Hx Hu) as (u' & -> & Hu').
    assert (Hu2 : is_vec n u' (fun i => relaxed n A h w i f)) by (apply (is_vec_ext _ _ _ _ Hu'); auto).
    split.
    - intros E i Hi. injection E as ->. apply (relaxed_fixed n A h w i f); auto.
      apply (is_vec_inj n x _ _ Hu2 Hx i Hi).
    - intro E. f_equal. apply (is_vec_eq n _ _ _ _ Hu2 Hx). intros i Hi. apply relaxed_fixed; auto.
  Qed.

  Lemma seidel_fixed n a A b h x f w : sparse_square 0 n a A -> is_vec n b h -> is_vec n x f ->
    (forall i, (i < n)%nat -> A i i <> 0) -> w <> 0 ->
    (forward_sweep O dbg stray a None x b w = Ok x <->
     forall i, (i < n)%nat -> sum n (fun j => A i j * f j) = h i).
  Proof using Fth.
    intros Ha Hb Hx Hd Hw. destruct (field_rows n a A b h Ha Hb Hd) as (rs & d & Hro & Hv).
    destruct (seidel_sweep_ok O dbg stray n a b rs d h x f w Hro Hx) as (x' & z & -> & Hx' & Hz).
    assert (Hz' : forall i, (i < n)%nat -> z i = relaxed n A h w i (fun j => if j <? i then z j else f j))
      by (intros i Hi; rewrite <- Hv by auto; apply Hz, Hi).
    clear Hz. split.
    - intros E i Hi. injection E as ->. pose proof (is_vec_inj n x _ _ Hx' Hx) as Ef.
      apply (relaxed_fixed n A h w i f); auto. rewrite <- (Ef i Hi). rewrite (Hz' i Hi).
      apply relaxed_ext; auto. intros j Hj. destruct (j <? i); auto. symmetry; auto.
    - intro E. f_equal. apply (is_vec_eq n _ _ _ _ Hx' Hx). intro i.
      induction i as [i IH] using lt_wf_ind. intro Hi. rewrite (Hz' i Hi).
      rewrite (relaxed_ext n A h w i _ f Hi); [apply relaxed_fixed; auto|].
      intros j Hj. destruct (Nat.ltb_spec j i); auto.
  Qed.

  Lemma seidel_back_fixed n a A b h x f w : sparse_square 0 n a A -> is_vec n b h -> is_vec n x f ->
    (forall i, (i < n)%nat -> A i i <> 0) -> w <> 0 ->
    (backward_sweep O dbg stray a None x b w = Ok x <->
     forall i, (i < n)%nat -> sum n (fun j => A i j * f j) = h i).
  Proof using Fth.
    intros Ha Hb Hx Hd Hw. destruct (field_rows n a A b h Ha Hb Hd) as (rs & d & Hro & Hv).
    destruct (seidel_back_ok O dbg stray n a b rs d h x f w Hro Hx) as (x' & z & -> & Hx' & Hz).
    assert (Hz' : forall i, (i < n)%nat -> z i = relaxed n A h w i (fun j => if i <? j then z j else f j))
      by (intros i Hi; rewrite <- Hv by auto; apply Hz, Hi).
    clear Hz. split.
    - intros E i Hi. injection E as ->. pose proof (is_vec_inj n x _ _ Hx' Hx) as Ef.
      apply (relaxed_fixed n A h w i f); auto. rewrite <- (Ef i Hi). rewrite (Hz' i Hi).
      apply relaxed_ext; auto. intros j Hj. destruct (i <? j); auto. symmetry; auto.
    - intro E. f_equal. apply (is_vec_eq n _ _ _ _ Hx' Hx). intros i Hi.
      remember (n - i)%nat as m eqn:Em. revert i Hi Em. induction m as [m IH] using lt_wf_ind. intros i Hi Em.
      rewrite (Hz' i Hi).
      rewrite (relaxed_ext n A h w i _ f Hi); [apply relaxed_fixed; auto|].
      intros j Hj. destruct (Nat.ltb_spec i j); auto. apply (IH (n - j)%nat); lia.
  Qed.

  Lemma jacobi_back_same n a A b h x u w : sparse_square 0 n a A -> is_vec n b h -> length x = n ->
    length u = n -> (forall i, (i < n)%nat -> A i i <> 0) ->
    backward_sweep O dbg stray a (Some x) u b w = forward_sweep O dbg stray a (Some x) u b w.
  Proof using Fth.
    intros Ha Hb Hx Hu Hd. destruct (field_rows n a A b h Ha Hb Hd) as (rs & d & Hro & _).
    assert (Hv : is_vec n x (fun i => nth i x 0)) by (rewrite <- Hx; apply is_vec_self).
    destruct (jacobi_sweep_ok O dbg stray n a b rs d h x u _ w Hro Hv Hu) as (u1 & -> & H1).
    destruct (jacobi_back_ok O dbg stray n a b rs d h x u _ w Hro Hv Hu) as (u2 & -> & H2).
    f_equal. apply (is_vec_eq n _ _ _ _ H2 H1). auto.
  Qed.
End IterField.
