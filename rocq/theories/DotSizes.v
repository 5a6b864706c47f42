(** Inner products of vectors of different sizes, for elements that are converted to doubles. *)
From Coq Require Import ZArith List Lia SpecFloat.
From Verif Require Import Base ListFacts DenseModel ScalarModel GeometryModel MacroModel IntModel SingleModel.
Import ListNotations.

Section Loop.
  Context {A B : Type}.
  Variable F : A -> A -> B -> res B.
  Let run n (v w : list A) s := FOR n (fun i s => do x <- vget v i; do y <- vget w i; F x y s) s.

  Lemma run_short (v w : list A) s : length v <= length w -> run (length v) v w s = run (length v) v (firstn (length v) w) s.
  Proof.
    intro H. unfold run. apply FOR_ext. intros i u Hi. destruct (vget v i) as [x| | |]; try reflexivity. cbn [bind].
    assert (E : vget (firstn (length v) w) i = vget w i); [|rewrite E; reflexivity].
    unfold vget. rewrite <- (firstn_skipn (length v) w) at 2.
    rewrite nth_error_app1 by (rewrite firstn_length; lia). reflexivity.
  Qed.

  Lemma run_long (v w : list A) s : (forall x y s, F x y s = Undef \/ exists s', F x y s = Ok s') -> length w < length v ->
    run (length v) v w s = Undef.
  Proof.
    intros HF H.
    assert (K : forall n, n <= length w -> run n v w s = Undef \/ exists s', run n v w s = Ok s').
    { induction n as [|n IH]; intro Hn; [right; eexists; reflexivity|]. unfold run in *. rewrite <- Nat.add_1_r, FOR_S.
      destruct (IH ltac:(lia)) as [E|[s' E]]; rewrite E; cbn [bind]; [left; reflexivity|].
      unfold vget. destruct (nth_error v n) as [x|] eqn:Ex; [|apply nth_error_None in Ex; lia].
      destruct (nth_error w n) as [y|] eqn:Ey; [|apply nth_error_None in Ey; lia]. cbn [bind]. apply HF. }
    assert (G : forall n, length w < n -> n <= length v -> run n v w s = Undef); [|apply G; lia].
    induction n as [|n IH]; intros Hn Hv; [lia|]. unfold run in *. rewrite <- Nat.add_1_r, FOR_S.
    destruct (Nat.eq_dec n (length w)) as [->|N]; [|rewrite IH by lia; reflexivity].
    destruct (K (length w) (le_n _)) as [E|[s' E]]; rewrite E; cbn [bind]; [reflexivity|].
    unfold vget. destruct (nth_error v (length w)) as [x|] eqn:Ex; [|apply nth_error_None in Ex; lia]. cbn [bind].
    rewrite (proj2 (nth_error_None w (length w))) by lia. reflexivity.
  Qed.
End Loop.

Lemma integer_sizes t (v w : list Z) : length v <> length w -> i_dot t true v w = Abort /\
  (length w < length v -> i_dot t false v w = Undef) /\
  (length v < length w -> i_dot t false v w = i_dot t false v (firstn (length v) w)).
Proof.
  intro N. split; [|split].
  - unfold i_dot. rewrite (proj2 (Nat.eqb_neq _ _) N). reflexivity.
  - intro H. apply (run_long (fun x y s => do z <- i_value (promoted t) (x * y); Ok (sc_add fops s (f_of_Z z)))); [|exact H].
    intros x y s. unfold i_value. destruct (i_signed (promoted t) && negb (i_fits (promoted t) (x * y))); [left; reflexivity|].
    right. eexists. reflexivity.
  - intro H. apply (run_short (fun x y s => do z <- i_value (promoted t) (x * y); Ok (sc_add fops s (f_of_Z z)))). lia.
Qed.

Lemma single_sizes (v w : list f32) : length v <> length w -> s_dot true v w = Abort /\
  (length w < length v -> s_dot false v w = Undef) /\
  (length v < length w -> s_dot false v w = s_dot false v (firstn (length v) w)).
Proof.
  intro N. split; [|split].
  - unfold s_dot. rewrite (proj2 (Nat.eqb_neq _ _) N). reflexivity.
  - intro H. apply (run_long (fun x y s => Ok (sc_add fops s (widen (s_mul x y))))); [|exact H]. intros x y s. right. eexists. reflexivity.
  - intro H. apply (run_short (fun x y s => Ok (sc_add fops s (widen (s_mul x y))))). lia.
Qed.
