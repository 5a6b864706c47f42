(** Permutations of 0 .. n-1 held in a vector. *)
From Verif Require Import Base ListFacts GraphSpec.


Lemma perm_length n p : is_perm n p -> length p = n.
Proof. intro H. apply Permutation_length in H. rewrite seq_length in H. auto. Qed.

Lemma perm_NoDup n p : is_perm n p -> NoDup p.
Proof. intro H. eapply Permutation_NoDup; [apply Permutation_sym, H|apply seq_NoDup]. Qed.

Lemma perm_In n p x : is_perm n p -> (In x p <-> x < n).
Proof.
  intro H. split; intro Hx.
  - eapply Permutation_in in Hx; [|exact H]. apply in_seq in Hx. lia.
  - eapply Permutation_in; [apply Permutation_sym, H|]. apply in_seq. lia.
Qed.

Lemma perm_bound n p i : is_perm n p -> i < n -> nth i p 0 < n.
Proof.
  intros H Hi. apply (perm_In n p); auto. apply nth_In. rewrite (perm_length n p H). auto.
Qed.

Lemma perm_inj n p i j : is_perm n p -> i < n -> j < n -> nth i p 0 = nth j p 0 -> i = j.
Proof.
  intros H Hi Hj E. pose proof (perm_length n p H) as Hl.
  eapply (proj1 (NoDup_nth p 0)); eauto using perm_NoDup; lia.
Qed.

Lemma perm_intro n p : length p = n -> NoDup p -> (forall x, In x p -> x < n) -> is_perm n p.
Proof.
  intros Hl Hn Hb. apply NoDup_Permutation_bis; auto.
  - rewrite seq_length. lia.
  - intros x Hx. apply in_seq. specialize (Hb x Hx). lia.
Qed.

Lemma perm_intro_nth n p : length p = n ->
  (forall i, i < n -> nth i p 0 < n) ->
  (forall i j, i < n -> j < n -> nth i p 0 = nth j p 0 -> i = j) -> is_perm n p.
Proof.
  intros Hl Hb Hi. apply perm_intro; auto.
  - apply (NoDup_nth p 0). rewrite Hl. auto.
  - intros x Hx. apply (In_nth _ _ 0) in Hx as (i & Hi' & <-). apply Hb. lia.
Qed.

(** Position of a value. *)
Fixpoint pos (x : nat) (l : list nat) : nat :=
  match l with
  | [] => 0
  | y :: r => if x =? y then 0 else S (pos x r)
  end.

Lemma pos_nth x l : In x l -> pos x l < length l /\ nth (pos x l) l 0 = x.
Proof.
  induction l as [|y l IH]; simpl; [tauto|]. intros H.
  destruct (Nat.eqb_spec x y) as [->|Hn].
  - split; [lia|auto].
  - destruct IH as [H1 H2]; [intuition congruence|]. split; [lia|auto].
Qed.

Lemma perm_pos n p k : is_perm n p -> k < n -> pos k p < n /\ nth (pos k p) p 0 = k.
Proof.
  intros H Hk. rewrite <- (perm_length n p H) at 1. apply pos_nth. apply (perm_In n); auto.
Qed.

Lemma perm_pos_nth n p i : is_perm n p -> i < n -> pos (nth i p 0) p = i.
Proof.
  intros H Hi. pose proof (perm_bound n p i H Hi) as Hb.
  destruct (perm_pos n p _ H Hb) as [H1 H2]. eapply perm_inj; eauto.
Qed.

(** The inverse permutation as a vector. *)
Definition invert (p : list nat) : list nat := map (fun k => pos k p) (seq 0 (length p)).

Lemma invert_length p : length (invert p) = length p.
Proof. unfold invert. rewrite map_length, seq_length. reflexivity. Qed.

Lemma nth_invert n p k : is_perm n p -> k < n -> nth k (invert p) 0 = pos k p.
Proof.
  intros H Hk. unfold invert. rewrite (perm_length n p H).
  apply nth_error_nth. rewrite nth_error_map', nth_error_seq.
  destruct (Nat.ltb_spec k n); [reflexivity|lia].
Qed.

Lemma invert_perm n p : is_perm n p -> is_perm n (invert p).
Proof.
  intro H. apply perm_intro_nth.
  - rewrite invert_length. apply perm_length; auto.
  - intros i Hi. rewrite (nth_invert n) by auto. apply (perm_pos n p i H Hi).
  - intros i j Hi Hj E. rewrite !(nth_invert n) in E by auto.
    rewrite <- (proj2 (perm_pos n p i H Hi)), <- (proj2 (perm_pos n p j H Hj)). congruence.
Qed.

Lemma invert_nth n p i : is_perm n p -> i < n -> nth (nth i p 0) (invert p) 0 = i.
Proof.
  intros H Hi. rewrite (nth_invert n) by auto using perm_bound. eapply perm_pos_nth; eauto.
Qed.

Lemma nth_invert_nth n p k : is_perm n p -> k < n -> nth (nth k (invert p) 0) p 0 = k.
Proof. intros H Hk. rewrite (nth_invert n) by auto. apply (perm_pos n p k H Hk). Qed.

(** A vector satisfying the two inverse equations is [invert]. *)
Lemma invert_unique n p q : is_perm n p -> length q = n ->
  (forall i, i < n -> nth (nth i p 0) q 0 = i) -> q = invert p.
Proof.
  intros H Hl Hq. apply nth_error_ext_len.
  - rewrite invert_length, (perm_length n p H). auto.
  - intros k Hk. rewrite Hl in Hk.
    destruct (perm_pos n p k H Hk) as [H1 H2].
    rewrite !(nth_error_nth_lt _ _ 0) by (rewrite ?invert_length, ?(perm_length n p H); lia).
    f_equal. rewrite (nth_invert n) by auto. rewrite <- H2 at 1. apply Hq. auto.
Qed.

Lemma vsum_acc l a : fold_left Nat.add l a = a + fold_left Nat.add l 0.
Proof.
  revert a; induction l as [|x l IH]; intro a; simpl; [lia|]. rewrite IH, (IH x). lia.
Qed.

Lemma vsum_perm l1 l2 : Permutation l1 l2 -> fold_left Nat.add l1 0 = fold_left Nat.add l2 0.
Proof.
  induction 1; simpl; auto; try congruence.
  - rewrite vsum_acc, (vsum_acc l'). lia.
  - reflexivity || (f_equal; lia).
Qed.

Lemma vsum_seq n : 2 * fold_left Nat.add (seq 0 n) 0 = (n - 1) * n.
Proof.
  induction n as [|n IH]; [reflexivity|]. rewrite seq_S, fold_left_app. simpl fold_left.
  rewrite Nat.mul_add_distr_l, IH. destruct n; simpl; nia.
Qed.
