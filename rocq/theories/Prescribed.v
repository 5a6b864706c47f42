(** Relaxation on systems some of whose equations prescribe a value. *)
From Coq Require Import ZArith Reals Lra Lia List Psatz.
From Verif Require Import Base ListFacts DenseModel DenseFacts ScalarModel GeometryReal SparseModel SparseSpec LuModel LuReal LuSuccess FloatError FloatUnit
  PropLuLemmas IterModel IterFacts IterLoop IterField IterReal PropIterLemmas Energy EnergyDrift PropEnergyLemmas PropRelaxLemmas.
Import ListNotations.
Local Open Scope R_scope.

(** The equations of the unknowns in [d] hold no other unknown. *)
Definition prescribed (n : nat) (d : nat -> bool) (A : nat -> nat -> R) : Prop :=
  forall i, (i < n)%nat -> d i = true -> A i i <> 0 /\ forall j, (j < n)%nat -> i <> j -> A i j = 0.

(** The matrix without these unknowns; one stands in their places. *)
Definition free_part (d : nat -> bool) (A : nat -> nat -> R) (i j : nat) : R :=
  if (d i || d j)%bool then if (i =? j)%nat then 1 else 0 else A i j.

Section Prescribed.
  Variables (n : nat) (d : nat -> bool) (A : nat -> nat -> R).
  Hypothesis Hd : prescribed n d A.
  Notation F := (free_part d A).
  Hypothesis Hs : symmetric n F.
  Hypothesis Hp : positive_definite n F.

  Lemma free_diagonal i : (i < n)%nat -> 0 < F i i /\ F i i = if d i then 1 else A i i.
  Proof using Hs Hp.
    intro Hi. split; [apply (positive_diagonal n F i Hs Hp Hi)|]. unfold free_part. rewrite Nat.eqb_refl. destruct (d i); reflexivity.
  Qed.

  Lemma diagonal_nonzero i : (i < n)%nat -> A i i <> 0.
  Proof using Hd Hs Hp. intro Hi. destruct (d i) eqn:E; [apply (Hd i Hi E)|]. destruct (free_diagonal i Hi) as (P & Q). rewrite E in Q. lra. Qed.

  Definition drawn (i : nat) (y : nat -> R) : R := rsum n (fun j => if d j then A i j * y j else 0).

  Lemma row_free i y : (i < n)%nat -> d i = false -> rsum n (fun j => A i j * y j) = rsum n (fun j => F i j * y j) + drawn i y.
  Proof using.
    intros Hi E. unfold drawn. rewrite <- rsum_plus. apply asum_ext. intros j Hj. unfold free_part. rewrite E. cbn [orb].
    destruct (d j) eqn:Ej; [|ring]. destruct (Nat.eqb_spec i j) as [->|]; [congruence|ring].
  Qed.

  Lemma row_prescribed i y : (i < n)%nat -> d i = true -> rsum n (fun j => A i j * y j) = A i i * y i /\ rsum n (fun j => F i j * y j) = y i.
  Proof using Hd.
    intros Hi E. split; rewrite (rsum_out n i) by exact Hi.
    - rewrite (rsum_zero n); [ring|]. intros j Hj. destruct (Nat.eqb_spec j i); [reflexivity|]. rewrite (proj2 (Hd i Hi E) j Hj) by congruence. ring.
    - unfold free_part at 1. rewrite E, Nat.eqb_refl. cbn [orb]. rewrite (rsum_zero n); [ring|]. intros j Hj. destruct (Nat.eqb_spec j i); [reflexivity|].
      unfold free_part. rewrite E. cbn [orb]. destruct (Nat.eqb_spec i j); [congruence|ring].
  Qed.

  (** There is exactly one solution. *)
  Lemma prescribed_solution h : exists xs, (forall i, (i < n)%nat -> rsum n (fun j => A i j * xs j) = h i) /\
    forall ys, (forall i, (i < n)%nat -> rsum n (fun j => A i j * ys j) = h i) -> forall i, (i < n)%nat -> ys i = xs i.
  Proof using Hd Hs Hp.
    destruct (definite_solution n F (fun i => if d i then h i / A i i else h i - drawn i (fun j => h j / A j j)) Hs Hp) as (xs & Hx).
    assert (Xd : forall i, (i < n)%nat -> d i = true -> xs i = h i / A i i).
    { intros i Hi E. specialize (Hx i Hi). rewrite (proj2 (row_prescribed i xs Hi E)), E in Hx. exact Hx. }
    assert (Sx : forall i, (i < n)%nat -> rsum n (fun j => A i j * xs j) = h i).
    { intros i Hi. destruct (d i) eqn:E.
      - rewrite (proj1 (row_prescribed i xs Hi E)), (Xd i Hi E). field. apply (Hd i Hi E).
      - rewrite (row_free i xs Hi E), (Hx i Hi), E.
        assert (Q : drawn i xs = drawn i (fun j => h j / A j j)).
        { unfold drawn. apply asum_ext. intros j Hj. destruct (d j) eqn:Ej; [rewrite (Xd j Hj Ej); reflexivity|reflexivity]. }
        rewrite Q. ring. }
    exists xs. split; [exact Sx|]. intros ys Hy i Hi. destruct (Req_dec (ys i) (xs i)) as [|Hne]; [assumption|exfalso].
    assert (P : 0 < energy n F (fun j => ys j - xs j)) by (apply Hp; exists i; split; [exact Hi|lra]).
    assert (Ed : forall k, (k < n)%nat -> d k = true -> ys k - xs k = 0).
    { intros k Hk E. pose proof (Hy k Hk) as Q. rewrite (proj1 (row_prescribed k ys Hk E)) in Q. rewrite (Xd k Hk E), <- Q. field. apply (Hd k Hk E). }
    unfold energy in P. rewrite (rsum_zero n) in P; [lra|]. intros k Hk. cbv beta. destruct (d k) eqn:E; [rewrite (Ed k Hk E); ring|].
    assert (Q : rsum n (fun j => A k j * (ys j - xs j)) = 0).
    { rewrite (asum_ext _ _ n _ (fun j => A k j * ys j - A k j * xs j)) by (intros; ring). rewrite rsum_minus, (Hy k Hk), (Sx k Hk). ring. }
    rewrite (row_free k _ Hk E) in Q. assert (Q2 : drawn k (fun j => ys j - xs j) = 0).
    { unfold drawn. apply rsum_zero. intros j Hj. destruct (d j) eqn:Ej; [rewrite (Ed j Hj Ej); ring|reflexivity]. }
    rewrite Q2, Rplus_0_r in Q. rewrite Q. ring.
  Qed.

  Variables (h xs : nat -> R).
  Hypothesis Hx : forall i, (i < n)%nat -> rsum n (fun j => A i j * xs j) = h i.
  Let hF (i : nat) : R := rsum n (fun j => F i j * xs j).
  Let B : R := rsum n (fun i => rsum n (fun j => Rabs (A i j))).

  Lemma B_row i : (i < n)%nat -> rsum n (fun j => Rabs (A i j)) <= B.
  Proof using.
    intro Hi. apply (rsum_member n (fun i => rsum n (fun j => Rabs (A i j))) i Hi). intros j Hj. apply rsum_nonneg. intros. apply Rabs_pos.
  Qed.
  Lemma B_pos : 0 <= B.
  Proof using. apply rsum_nonneg. intros i Hi. apply rsum_nonneg. intros. apply Rabs_pos. Qed.

  (** One sweep. *)
  Lemma prescribed_sweep w l s f z E D : coercivity n F l -> 0 < w <= 3 / 2 -> sweep_factor n F w s ->
    (forall i, (i < n)%nat -> z i = relaxed rops n A h w i (fun j => if (j <? i)%nat then z j else f j)) ->
    0 <= D -> enorm n F (fun j => f j - xs j) <= E -> (forall j, (j < n)%nat -> d j = true -> Rabs (f j - xs j) <= D) ->
    enorm n F (fun j => z j - xs j) <= s * E + 2 * (sqrt (INR n) * (B * D) / sqrt l) /\
    (forall j, (j < n)%nat -> d j = true -> Rabs (z j - xs j) <= Rabs (1 - w) * D).
  Proof using Hd Hs Hp Hx.
    intros Hl Hw Hsf Hz HD HE Hf.
    assert (Zd : forall i, (i < n)%nat -> d i = true -> z i = w * xs i + (1 - w) * f i).
    { intros i Hi Ei. rewrite (Hz i Hi). unfold relaxed. cbn [rops sc_zero sc_one sc_add sc_sub sc_mul sc_div].
      rewrite (rsum_zero n).
      - pose proof (Hx i Hi) as Q. rewrite (proj1 (row_prescribed i xs Hi Ei)) in Q. rewrite <- Q, Nat.ltb_irrefl. field. apply (Hd i Hi Ei).
      - intros j Hj. destruct (Nat.eqb_spec j i); [reflexivity|]. rewrite (proj2 (Hd i Hi Ei) j Hj) by congruence. apply Rmult_0_l. }
    assert (Zb : forall j, (j < n)%nat -> d j = true -> Rabs (z j - xs j) <= Rabs (1 - w) * D).
    { intros j Hj Ej. rewrite (Zd j Hj Ej). replace (w * xs j + (1 - w) * f j - xs j) with ((1 - w) * (f j - xs j)) by ring.
      rewrite Rabs_mult. apply Rmult_le_compat_l; [apply Rabs_pos|]. apply Hf; auto. }
    split; [|exact Zb].
    assert (W1 : Rabs (1 - w) <= 1) by (apply Rabs_le; lra).
    assert (Mb : forall i j, (j < n)%nat -> d j = true -> Rabs (mixed f z i j - xs j) <= D).
    { intros i j Hj Ej. unfold mixed. destruct (j <? i)%nat; [|apply Hf; auto]. apply Rle_trans with (1 := Zb j Hj Ej).
      rewrite <- (Rmult_1_l D) at 2. apply Rmult_le_compat_r; auto. }
    set (dl := fun i => if d i then 0 else - w * drawn i (fun j => mixed f z i j - xs j) / A i i).
    assert (Hrow : forall i, (i < n)%nat -> z i = exact_row n F hF w i (mixed f z i) + dl i).
    { intros i Hi. unfold dl. destruct (d i) eqn:Ei.
      - rewrite (Zd i Hi Ei). unfold exact_row, hF. rewrite (proj2 (row_prescribed i xs Hi Ei)). rewrite (rsum_zero n).
        + rewrite (proj2 (free_diagonal i Hi)), Ei. unfold mixed. rewrite Nat.ltb_irrefl. field.
        + intros j Hj. destruct (Nat.eqb_spec j i); [reflexivity|]. unfold free_part. rewrite Ei. cbn [orb]. destruct (Nat.eqb_spec i j); [congruence|ring].
      - destruct (free_diagonal i Hi) as (P & Q). rewrite Ei in Q. rewrite (Hz i Hi) at 1. fold (mixed f z i). unfold relaxed, exact_row, hF.
        cbn [rops sc_zero sc_one sc_add sc_sub sc_mul sc_div]. rewrite <- (Hx i Hi).
        pose proof (rsum_out n i (fun j => A i j * mixed f z i j) Hi) as O1. pose proof (rsum_out n i (fun j => F i j * mixed f z i j) Hi) as O2.
        cbv beta in O1, O2. rewrite (row_free i _ Hi Ei) in O1. rewrite (row_free i xs Hi Ei).
        assert (Q3 : drawn i (fun j => mixed f z i j - xs j) = drawn i (mixed f z i) - drawn i xs).
        { unfold drawn. rewrite <- rsum_minus. apply asum_ext. intros j Hj. destruct (d j); ring. }
        rewrite Q3. rewrite Q in *.
        match goal with |- w * (_ - ?s1) / _ + _ = w * (_ - ?s2) / _ + _ + _ => set (S1 := s1) in *; set (S2 := s2) in * end.
        change (asum 0 Rplus n (fun j => F i j * mixed f z i j)) with (rsum n (fun j => F i j * mixed f z i j)) in *.
        replace S1 with (S2 + drawn i (mixed f z i)) by (fold S1 in O1; lra). field. lra. }
    assert (Hdl : forall i, (i < n)%nat -> F i i * Rabs (dl i) <= w * (B * D)).
    { intros i Hi. pose proof B_pos as B0. pose proof (B_row i Hi) as Br. unfold dl. destruct (free_diagonal i Hi) as (P & Q). destruct (d i) eqn:Ei.
      - rewrite Rabs_R0, Rmult_0_r. apply Rmult_le_pos; [lra|apply Rmult_le_pos; auto].
      - rewrite Q in P |- *. unfold Rdiv. rewrite !Rabs_mult, Rabs_Ropp, Rabs_inv, (Rabs_pos_eq w), (Rabs_pos_eq (A i i)) by lra.
        replace (A i i * (w * Rabs (drawn i (fun j => mixed f z i j - xs j)) * / A i i)) with (w * Rabs (drawn i (fun j => mixed f z i j - xs j))) by (field; lra).
        apply Rmult_le_compat_l; [lra|]. unfold drawn. apply Rle_trans with (1 := rsum_abs _ _).
        apply Rle_trans with (rsum n (fun j => D * Rabs (A i j))).
        + apply rsum_le. intros j Hj. pose proof (Rabs_pos (A i j)). destruct (d j) eqn:Ej.
          * rewrite Rabs_mult, Rmult_comm. apply Rmult_le_compat_r; [apply Rabs_pos|]. apply Mb; auto.
          * rewrite Rabs_R0. apply Rmult_le_pos; auto.
        + rewrite rsum_scale, (Rmult_comm B). apply Rmult_le_compat_l; auto. }
    pose proof (sweep_norm n F hF xs w l f z dl Hs Hl ltac:(lra) ltac:(intros; reflexivity) s (B * D) Hsf Hp
      (Rmult_le_pos _ _ B_pos HD) Hrow Hdl) as H.
    apply Rle_trans with (1 := H). destruct Hsf as ((S0 & _) & _). apply Rplus_le_compat_r, Rmult_le_compat_l; auto.
  Qed.
End Prescribed.
