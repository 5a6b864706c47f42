(** Determinants over a field, by expansion along the first column, C134. *)
From Coq Require Import ZArith Field_theory Field Ring.
From Verif Require Import Base ListFacts DenseFacts ScalarModel LuFacts LuField.
Local Open Scope nat_scope.

(** The row of a matrix that is row [a] once row [r] is left out. *)
Definition skip (r a : nat) : nat := if a <? r then a else a + 1.

Section Det.
  Context {S : Type}.
  Variable O : sops S.

  (** 1, -1, 1, -1, ... *)
  Definition sign (i : nat) : S := if Nat.even i then sc_one O else sc_sub O (sc_zero O) (sc_one O).

  (** The determinant of the leading [n] by [n] block of [A]. *)
  Fixpoint det (n : nat) (A : nat -> nat -> S) : S :=
    match n with
    | 0 => sc_one O
    | Datatypes.S k => asum (sc_zero O) (sc_add O) n (fun i =>
        sc_mul O (sc_mul O (sign i) (A i 0)) (det k (fun a b => A (skip i a) (Datatypes.S b))))
    end.

  (** f 0 * ... * f (n - 1). *)
  Definition prod (n : nat) (f : nat -> S) : S := asum (sc_one O) (sc_mul O) n f.

  Lemma prod_ext n f h : (forall i, i < n -> f i = h i) -> prod n f = prod n h.
  Proof using. apply asum_ext. Qed.
End Det.

Section DetField.
  Context {S : Type}.
  Variables (O : sops S) (opp inv : S -> S).
  Notation "0" := (sc_zero O). Notation "1" := (sc_one O).
  Notation "x + y" := (sc_add O x y). Notation "x * y" := (sc_mul O x y).
  Notation "x - y" := (sc_sub O x y). Notation "x / y" := (sc_div O x y).
  Notation "- x" := (opp x).
  Hypothesis Fth : field_theory 0 1 (sc_add O) (sc_mul O) (sc_sub O) opp (sc_div O) inv eq.
  Add Field DField : Fth.
  Notation sum := (asum 0 (sc_add O)).
  Notation det := (det O). Notation sign := (sign O). Notation prod := (prod O).
  Implicit Types (A B C g : nat -> nat -> S) (f h : nat -> S).

  Lemma sign_S i : sign (Datatypes.S i) = - sign i.
  Proof using Fth.
    unfold Determinant.sign. rewrite Nat.even_succ, <- Nat.negb_even. destruct (Nat.even i); cbn [negb]; ring.
  Qed.

  Lemma det_ext n : forall A B, (forall a b, a < n -> b < n -> A a b = B a b) -> det n A = det n B.
  Proof using.
    clear. induction n as [|n IH]; intros A B H; [reflexivity|]. cbn [Determinant.det]. apply asum_ext. intros i Hi.
    rewrite (H i 0%nat) by lia. f_equal. apply IH. intros a b Ha Hb. apply H; unfold skip; [|lia].
    destruct (a <? i); lia.
  Qed.

  (** Linear in every row. *)
  Lemma det_row n : forall A B C r c, (r < n)%nat ->
    (forall a b, (a < n)%nat -> (b < n)%nat -> a <> r -> B a b = A a b /\ C a b = A a b) ->
    (forall b, (b < n)%nat -> A r b = B r b + c * C r b) -> det n A = det n B + c * det n C.
  Proof using Fth.
    induction n as [|n IH]; intros A B C r c Hr He Hl; [lia|]. cbn [Determinant.det].
    rewrite <- (sum_scale O opp inv Fth), <- (sum_plus O opp inv Fth). apply asum_ext. intros i Hi.
    destruct (Nat.eq_dec i r) as [->|Hne].
    - rewrite Hl by lia.
      rewrite (det_ext n (fun a b => B (skip r a) (Datatypes.S b)) (fun a b => A (skip r a) (Datatypes.S b))).
      2:{ intros a b Ha Hb. apply He; unfold skip; destruct (Nat.ltb_spec a r); lia. }
      rewrite (det_ext n (fun a b => C (skip r a) (Datatypes.S b)) (fun a b => A (skip r a) (Datatypes.S b))).
      2:{ intros a b Ha Hb. apply He; unfold skip; destruct (Nat.ltb_spec a r); lia. }
      ring.
    - destruct (He i 0%nat Hi ltac:(lia) Hne) as [-> ->].
      rewrite (IH (fun a b => A (skip i a) (Datatypes.S b)) (fun a b => B (skip i a) (Datatypes.S b))
                 (fun a b => C (skip i a) (Datatypes.S b)) (if r <? i then r else r - 1)%nat c); [ring| | |].
      + destruct (Nat.ltb_spec r i); lia.
      + intros a b Ha Hb Hna. apply He; unfold skip; destruct (Nat.ltb_spec a i), (Nat.ltb_spec r i); lia.
      + intros b Hb. replace (skip i (if r <? i then r else r - 1)) with r; [apply Hl; lia|].
        unfold skip. destruct (Nat.ltb_spec r i); [destruct (Nat.ltb_spec r i); lia|].
        destruct (Nat.ltb_spec (r - 1) i); lia.
  Qed.

  Lemma sum_two n f r : (r + 1 < n)%nat -> (forall i, (i < n)%nat -> i <> r -> i <> (r + 1)%nat -> f i = 0) ->
    sum n f = f r + f (r + 1)%nat.
  Proof using Fth.
    intros Hr H. replace n with (r + (2 + (n - r - 2)))%nat by lia.
    rewrite (sum_app O opp inv Fth), (sum_app O opp inv Fth 2).
    rewrite (sum_zero O opp inv Fth r), (sum_zero O opp inv Fth (n - r - 2)) by (intros; apply H; lia).
    cbn [asum]. rewrite Nat.add_0_r. ring.
  Qed.

  Lemma det_adjacent n : forall A r, (r + 1 < n)%nat -> (forall b, (b < n)%nat -> A r b = A (r + 1)%nat b) -> det n A = 0.
  Proof using Fth.
    induction n as [|n IH]; intros A r Hr He; [lia|]. cbn [Determinant.det]. rewrite (sum_two _ _ r Hr).
    - rewrite Nat.add_1_r, sign_S, <- Nat.add_1_r.
      rewrite (det_ext n (fun a b => A (skip (r + 1) a) (Datatypes.S b)) (fun a b => A (skip r a) (Datatypes.S b))).
      + rewrite <- He by lia. ring.
      + intros a b Ha Hb. unfold skip. destruct (Nat.ltb_spec a (r + 1)), (Nat.ltb_spec a r); try lia; auto.
        replace a with r by lia. apply He. lia.
    - intros i Hi H1 H2.
      rewrite (IH _ (if r <? i then r else r - 1)%nat); [ring| |].
      + destruct (Nat.ltb_spec r i); lia.
      + intros b Hb. unfold skip. destruct (Nat.ltb_spec r i).
        * destruct (Nat.ltb_spec r i), (Nat.ltb_spec (r + 1) i); try lia. apply He. lia.
        * destruct (Nat.ltb_spec (r - 1) i), (Nat.ltb_spec (r - 1 + 1) i); try lia.
          replace (r - 1 + 1)%nat with r by lia. apply He. lia.
  Qed.

  (** [A] with row [r] replaced. *)
  Definition put A (r : nat) (u : nat -> S) (a b : nat) : S := if a =? r then u b else A a b.

  Lemma det_put_linear n A r u v c : (r < n)%nat ->
    det n (put A r (fun b => u b + c * v b)) = det n (put A r u) + c * det n (put A r v).
  Proof using Fth.
    intro Hr. apply (det_row n _ _ _ r); auto.
    - intros a b Ha Hb Hne. unfold put. destruct (Nat.eqb_spec a r); [lia|auto].
    - intros b Hb. unfold put. rewrite Nat.eqb_refl. reflexivity.
  Qed.

  (** An exchange of two rows changes the sign, when equal rows make the determinant zero. *)
  Lemma det_swap_of n r s A : (r < n)%nat -> (s < n)%nat -> r <> s ->
    (forall B, (forall b, (b < n)%nat -> B r b = B s b) -> det n B = 0) ->
    det n (fun a b => A (transpose r s a) b) = - det n A.
  Proof using Fth.
    intros Hr Hs Hne Z.
    set (M := fun u v => put (put A r u) s v).
    assert (ML : forall u u' v, det n (M (fun b => u b + 1 * u' b) v) = det n (M u v) + 1 * det n (M u' v)).
    { intros u u' v. apply (det_row n _ _ _ r); auto.
      - intros a b Ha Hb Hn. unfold M, put. destruct (a =? s); auto. destruct (Nat.eqb_spec a r); [lia|auto].
      - intros b Hb. unfold M, put. destruct (Nat.eqb_spec r s); [lia|]. rewrite Nat.eqb_refl. reflexivity. }
    assert (MR : forall u v v', det n (M u (fun b => v b + 1 * v' b)) = det n (M u v) + 1 * det n (M u v')).
    { intros u v v'. apply det_put_linear; auto. }
    assert (ME : forall u, det n (M u u) = 0).
    { intro u. apply Z. intros b Hb. unfold M, put. rewrite Nat.eqb_refl.
      destruct (Nat.eqb_spec r s); [lia|]. rewrite Nat.eqb_refl. reflexivity. }
    pose proof (ME (fun b => A r b + 1 * A s b)) as H. rewrite ML, !MR, !ME in H.
    rewrite (det_ext n (fun a b => A (transpose r s a) b) (M (A s) (A r))).
    2:{ intros a b Ha Hb. unfold transpose, M, put. destruct (Nat.eqb_spec a r), (Nat.eqb_spec a s); auto; lia. }
    rewrite (det_ext n A (M (A r) (A s))).
    2:{ intros a b Ha Hb. unfold M, put. destruct (Nat.eqb_spec a s), (Nat.eqb_spec a r); subst; auto. }
    set (p := det n (M (A s) (A r))) in *. set (q := det n (M (A r) (A s))) in *.
    transitivity (- q + (0 + 1 * q + 1 * (p + 1 * 0))); [ring|]. rewrite H. ring.
  Qed.

  Lemma det_equal n : forall d A r, (r + d + 1 < n)%nat -> (forall b, (b < n)%nat -> A r b = A (r + d + 1)%nat b) -> det n A = 0.
  Proof using Fth.
    induction d as [|d IH]; intros A r Hr He.
    - rewrite Nat.add_0_r in *. apply (det_adjacent n A r); auto.
    - set (s := (r + d + 1)%nat). assert (Es : (r + Datatypes.S d + 1)%nat = (s + 1)%nat) by lia. rewrite Es in *.
      assert (H : det n (fun a b => A (transpose s (s + 1) a) b) = - det n A).
      { apply det_swap_of; try lia. intros B HB. apply (det_adjacent n B s); [lia|auto]. }
      rewrite (IH (fun a b => A (transpose s (s + 1) a) b) r) in H.
      + transitivity (- - det n A); [ring|]. rewrite <- H. ring.
      + lia.
      + intros b Hb. fold s. unfold transpose. rewrite Nat.eqb_refl.
        destruct (Nat.eqb_spec r s); [lia|]. destruct (Nat.eqb_spec r (s + 1)); [lia|]. auto.
  Qed.

  Lemma det_equal_rows n A r s : (r < n)%nat -> (s < n)%nat -> r <> s -> (forall b, (b < n)%nat -> A r b = A s b) -> det n A = 0.
  Proof using Fth.
    intros Hr Hs Hne H. destruct (Nat.lt_ge_cases r s).
    - apply (det_equal n (s - r - 1) A r); [lia|]. replace (r + (s - r - 1) + 1)%nat with s by lia. auto.
    - apply (det_equal n (r - s - 1) A s); [lia|]. replace (s + (r - s - 1) + 1)%nat with r by lia.
      intros. symmetry. auto.
  Qed.

  Lemma det_swap n A r s : (r < n)%nat -> (s < n)%nat -> r <> s ->
    det n (fun a b => A (transpose r s a) b) = - det n A.
  Proof using Fth. intros Hr Hs Hne. apply det_swap_of; auto. intros B HB. apply (det_equal_rows n B r s); auto. Qed.

  (** Adding a multiple of another row. *)
  Lemma det_add n A r s c : (r < n)%nat -> (s < n)%nat -> r <> s ->
    det n (put A s (fun b => A s b + c * A r b)) = det n A.
  Proof using Fth.
    intros Hr Hs Hne. rewrite det_put_linear by auto.
    rewrite (det_equal_rows n (put A s (A r)) r s); auto.
    - rewrite (det_ext n (put A s (A s)) A); [ring|]. intros a b _ _. unfold put. destruct (Nat.eqb_spec a s); subst; auto.
    - intros b _. unfold put. rewrite Nat.eqb_refl. destruct (Nat.eqb_spec r s); [lia|auto].
  Qed.

  Lemma prod_first n f : prod (Datatypes.S n) f = f 0%nat * prod n (fun i => f (Datatypes.S i)).
  Proof using Fth.
    induction n as [|n IH]; unfold Determinant.prod in *; [cbn [asum]; ring|].
    remember (Datatypes.S n) as m eqn:Em. cbn [asum]. rewrite IH. subst m. cbn [asum]. ring.
  Qed.

  Lemma det_upper n : forall A, (forall a b, (b < a < n)%nat -> A a b = 0) -> det n A = prod n (fun i => A i i).
  Proof using Fth.
    induction n as [|n IH]; intros A H; [reflexivity|]. rewrite prod_first. cbn [Determinant.det].
    change (Datatypes.S n) with (1 + n)%nat at 1. rewrite (sum_app O opp inv Fth), (sum_zero O opp inv Fth n).
    - cbn [asum]. rewrite (IH (fun a b => A (skip 0 a) (Datatypes.S b))).
      + unfold skip, Determinant.sign. cbn [Nat.ltb Nat.leb Nat.even].
        rewrite (prod_ext O n (fun i => A (i + 1)%nat (Datatypes.S i)) (fun i => A (Datatypes.S i) (Datatypes.S i))); [ring|].
        intros i _. rewrite Nat.add_1_r. reflexivity.
      + intros a b Hab. unfold skip. cbn [Nat.ltb Nat.leb]. apply H. lia.
    - intros i Hi. rewrite (H (1 + i)%nat 0%nat) by lia. ring.
  Qed.

  (** Subtracting multiples of row [i] from the rows below. *)
  Lemma det_eliminate n A i (l : nat -> S) : (i < n)%nat ->
    det n (fun a b => if i <? a then A a b - l a * A i b else A a b) = det n A.
  Proof using Fth.
    intro Hi. assert (G : forall k, (i + 1 + k <= n)%nat ->
      det n (fun a b => if (i <? a) && (a <? i + 1 + k) then A a b - l a * A i b else A a b) = det n A).
    { induction k as [|k IH]; intro Hk.
      - apply det_ext. intros a b _ _. destruct (Nat.ltb_spec i a), (Nat.ltb_spec a (i + 1 + 0)); cbn [andb]; auto; lia.
      - rewrite <- IH by lia. set (B := fun a b => if (i <? a) && (a <? i + 1 + k) then A a b - l a * A i b else A a b).
        rewrite <- (det_add n B i (i + 1 + k) (- l (i + 1 + k)%nat)) by lia. apply det_ext. intros a b _ _.
        unfold put, B. destruct (Nat.eqb_spec a (i + 1 + k)) as [->|Hne].
        + destruct (Nat.ltb_spec i (i + 1 + k)); [|lia].
          destruct (Nat.ltb_spec (i + 1 + k) (i + 1 + Datatypes.S k)); [|lia].
          destruct (Nat.ltb_spec (i + 1 + k) (i + 1 + k)); [lia|]. destruct (Nat.ltb_spec i i); [lia|]. cbn [andb]. ring.
        + destruct (Nat.ltb_spec i a), (Nat.ltb_spec a (i + 1 + Datatypes.S k)), (Nat.ltb_spec a (i + 1 + k)); cbn [andb]; auto; lia. }
    rewrite <- (G (n - (i + 1))%nat) by lia. apply det_ext. intros a b Ha _.
    destruct (Nat.ltb_spec i a), (Nat.ltb_spec a (i + 1 + (n - (i + 1)))); cbn [andb]; auto; lia.
  Qed.

End DetField.
