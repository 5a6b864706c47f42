(** Operands of dense vectors and matrices whose sizes do not match. *)
From Coq Require Import List Arith Lia Bool.
From Verif Require Import Base ListFacts DenseModel DenseFacts DenseOps.
Import ListNotations.

Section Sizes.
  Context {V : Type}.
  Variables (vzero : V) (vadd vmul : V -> V -> V) (junk : nat -> V).

  Lemma get_ok (l : list V) i : i < length l -> exists x, vget l i = Ok x.
  Proof. intro H. unfold vget. destruct (nth_error l i) eqn:E; [eauto|]. apply nth_error_None in E. lia. Qed.

  Lemma dot_sizes v w : length v <> length w -> dot vzero vadd vmul true v w = Abort /\
    (length w < length v -> dot vzero vadd vmul false v w = Undef) /\
    (length v < length w -> dot vzero vadd vmul false v w = dot vzero vadd vmul true v (firstn (length v) w)).
  Proof.
    intro H. split; [|split].
    - unfold dot, ASSERT_DEBUG. apply Nat.eqb_neq in H. rewrite H. reflexivity.
    - intro L. unfold dot. change (ASSERT_DEBUG false (length v =? length w)) with (Ok tt). cbn [bind].
      apply (FOR_undef (fun _ _ => True) _ (length w)); auto.
      + intros i s Hi _. destruct (get_ok v i ltac:(lia)) as (x & ->). destruct (get_ok w i Hi) as (y & ->). cbn [bind]. eauto.
      + intros s _. destruct (get_ok v (length w) L) as (x & ->). cbn [bind]. unfold vget.
        rewrite (proj2 (nth_error_None w (length w))) by lia. reflexivity.
    - intro L. unfold dot, ASSERT_DEBUG. rewrite firstn_length_le, Nat.eqb_refl by lia. cbn [bind].
      apply FOR_ext. intros i s Hi. unfold vget. rewrite nth_error_firstn. apply Nat.ltb_lt in Hi. rewrite Hi. reflexivity.
  Qed.

  Lemma different m o : m_rows m <> m_rows o \/ m_cols m <> m_cols o -> same_size (V := V) m o = false.
  Proof. intros [H|H]; unfold same_size; apply Nat.eqb_neq in H; rewrite H; [reflexivity|apply andb_false_r]. Qed.

  Lemma vec_sizes r n m v : m_cols m <> length v -> m_vec vzero vadd vmul true junk r n m v = Abort.
  Proof. intro H. apply Nat.eqb_neq in H. unfold m_vec, ASSERT_DEBUG. rewrite H. reflexivity. Qed.

  Lemma product_sizes :
    (forall s0 s1 m o, m_cols m <> m_rows o -> m_times vzero vadd vmul true s0 s1 m o = Abort) /\
    (forall m o, m_cols m <> m_rows o -> m_mul_assign vzero vadd vmul true (0, 0) m (Some o) = Abort) /\
    (forall m, m_cols m <> m_rows m -> m_mul_assign vzero vadd vmul true (0, 0) m None = Abort) /\
    (forall r c m o, 0 < r -> m_rows m <> m_rows o \/ m_cols m <> m_cols o -> m_mul_assign vzero vadd vmul true (r, c) m (Some o) = Abort).
  Proof.
    split; [|split; [|split]].
    - intros s0 s1 m o H. apply Nat.eqb_neq in H. unfold m_times, ASSERT_DEBUG. rewrite H. reflexivity.
    - intros m o H. apply Nat.eqb_neq in H. unfold m_mul_assign, ASSERT_DEBUG. cbn [fst Nat.eqb other_of]. rewrite H. reflexivity.
    - intros m H. apply Nat.eqb_neq in H. unfold m_mul_assign, ASSERT_DEBUG. cbn [fst Nat.eqb other_of]. rewrite H. reflexivity.
    - intros r c m o Hr H. unfold m_mul_assign, ASSERT_DEBUG. cbn [fst other_of]. destruct (Nat.eqb_spec r 0); [lia|].
      rewrite (different m o H). reflexivity.
  Qed.
End Sizes.
