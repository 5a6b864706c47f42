(** Lemmas behind C91. *)
From Coq Require Import ZArith Reals Lra Lia List.
From Verif Require Import Base ListFacts DenseModel DenseFacts ScalarModel GeometryReal LuModel LuFacts LuField LuReal
  PropLuLemmas Energy LuSuccess.
Import ListNotations.
Local Open Scope R_scope.

(** The off-diagonal sum of a row (of a column: of the transposed matrix). *)
Definition off_diagonal n (A : nat -> nat -> R) (i : nat) : R :=
  rsum n (fun j => if (j =? i)%nat then 0 else Rabs (A i j)).

(** The row sums of absolute values strictly below the diagonal of column [j]. *)
Definition below n (g : nat -> nat -> R) (j : nat) : R :=
  rsum n (fun i => if (j <? i)%nat then Rabs (g i j) else 0).

(** The solver with state [st'] solves every right hand side. *)
Definition solves_all dbg pivot n (A : nat -> nat -> R) st' : Prop :=
  forall x b B, is_vec n b B ->
  exists x' d z, lu_solve rops dbg pivot st' x (Some b) = Ok (x', d) /\ cd_converged d = true /\
    is_vec n x' z /\
    (forall i, (i < n)%nat -> rsum n (fun j => A i j * z j) = B i) /\
    (forall w, (forall i, (i < n)%nat -> rsum n (fun j => A i j * w j) = B i) -> forall i, (i < n)%nat -> w i = z i).

Lemma off_wsum n A i : off_diagonal n A i = wsum n 0 i (fun j => Rabs (A i j)).
Proof. apply asum_ext. intros j _. destruct (j =? i)%nat; auto. Qed.

Lemma below_csum n g j : below n g j = csum n (j + 1) g j.
Proof. apply asum_ext. intros i _. destruct (Nat.ltb_spec j i), (Nat.leb_spec (j + 1) i); auto; lia. Qed.

Lemma row_dominant_solved dbg n st a A d : is_mat n n a A -> 0 < lu_tolerance st <= d ->
  (forall i, (i < n)%nat -> off_diagonal n A i + d <= Rabs (A i i)) ->
  exists st', factorise rops dbg false st a = Ok (st', true) /\ solves_all dbg false n A st'.
Proof.
  intros Ha [Ht Hd] H. destruct (row_dominant_ok dbg n st a A d) as (st' & E); auto; [lra|..].
  - intros i Hi. specialize (H i ltac:(lia)). rewrite off_wsum in H. lra.
  - exists st'. split; auto. exact (factorise_solves_R dbg false n st a A st' Ht Ha E).
Qed.

Lemma column_dominant_solved dbg pivot n st a A d : is_mat n n a A -> 0 < lu_tolerance st <= d ->
  (pivot = true -> / 2 ^ 46 <= d) ->
  (forall j, (j < n)%nat -> off_diagonal n (fun r c => A c r) j + d <= Rabs (A j j)) ->
  exists st' g, factorise rops dbg pivot st a = Ok (st', true) /\ solves_all dbg pivot n A st' /\
    (pivot = true -> lu_pivots st' = seq 0 n) /\
    is_mat n n (lu_matrix st') g /\
    (forall i j, (i <= j < n)%nat -> Rabs (g i j) <= rsum n (fun k => Rabs (A k j))) /\
    (forall j, (j < n)%nat -> below n g j < 1).
Proof.
  intros Ha [Ht Hd] Hp H.
  destruct (column_dominant_ok dbg pivot n st a A d) as (st' & g & E & Hg & Hpiv & HU & HL); auto; [lra|..].
  - intros j Hj. specialize (H j ltac:(lia)). rewrite off_wsum in H. lra.
  - exists st', g. split; auto. split; [exact (factorise_solves_R dbg pivot n st a A st' Ht Ha E)|].
    split; auto. split; auto. split; auto. intros j Hj. rewrite below_csum. auto.
Qed.

Lemma definite_solved dbg n st a A l : is_mat n n a A -> 0 < lu_tolerance st <= l -> symmetric n A ->
  (forall e, l * rsum n (fun i => e i * e i) <= energy n A e) ->
  exists st' g, factorise rops dbg false st a = Ok (st', true) /\ solves_all dbg false n A st' /\
    is_mat n n (lu_matrix st') g /\ (forall i, (i < n)%nat -> l <= g i i).
Proof.
  intros Ha [Ht Hl] Hs H. destruct (definite_ok dbg n st a A l) as (st' & g & E & Hg & Hp); auto; [lra|].
  exists st', g. split; auto. split; auto. exact (factorise_solves_R dbg false n st a A st' Ht Ha E).
Qed.

(** The example: a tridiagonal matrix. *)
Definition tri_rows : list (list R) := [[4; -1; 0]; [-1; 4; -1]; [0; -1; 4]].
Definition tri (i j : nat) : R := nth j (nth i tri_rows []) 0.

Lemma default_tolerance : lu_tolerance (lu_default rops) = / 2 ^ 46.
Proof.
  cbn [lu_default lu_tolerance]. unfold default_absolute. cbn [rops sc_mul sc_of_Z sc_eps].
  rewrite two52. replace (2 ^ 46) with 70368744177664 by ring. field.
Qed.

Lemma default_tolerance_range : 0 < lu_tolerance (lu_default rops) <= 2.
Proof.
  rewrite default_tolerance. split; [apply Rinv_0_lt_compat, pow_lt; lra|].
  replace (2 ^ 46) with 70368744177664 by ring. lra.
Qed.

Lemma tri_mat : is_mat 3 3 tri_rows tri.
Proof.
  split; [reflexivity|]. intros i Hi. destruct i as [|[|[|i]]]; [| | |lia];
    (eexists; split; [reflexivity|]; split; [reflexivity|]; intros j Hj; destruct j as [|[|[|j]]]; [reflexivity..|lia]).
Qed.

Lemma tri_symmetric : symmetric 3 tri.
Proof.
  intros i j Hi Hj. destruct i as [|[|[|i]]]; [| | |lia]; (destruct j as [|[|[|j]]]; [reflexivity..|lia]).
Qed.

Lemma tri_rows_dominant i : (i < 3)%nat -> off_diagonal 3 tri i + 2 <= Rabs (tri i i).
Proof.
  intro Hi. destruct i as [|[|[|i]]]; [| | |lia]; unfold off_diagonal, rsum, asum, tri, tri_rows; cbn;
    try rewrite (Rabs_left (-1)) by lra; rewrite ?Rabs_R0, (Rabs_pos_eq 4) by lra; lra.
Qed.

Lemma tri_columns_dominant j : (j < 3)%nat -> off_diagonal 3 (fun r c => tri c r) j + 2 <= Rabs (tri j j).
Proof.
  intro Hi. destruct j as [|[|[|j]]]; [| | |lia]; unfold off_diagonal, rsum, asum, tri, tri_rows; cbn;
    try rewrite (Rabs_left (-1)) by lra; rewrite ?Rabs_R0, (Rabs_pos_eq 4) by lra; lra.
Qed.

Lemma tri_definite e : 2 * rsum 3 (fun i => e i * e i) <= energy 3 tri e.
Proof.
  unfold energy, rsum, asum, tri, tri_rows. cbn.
  pose proof (Rle_0_sqr (e 0%nat - e 1%nat)). pose proof (Rle_0_sqr (e 1%nat - e 2%nat)).
  pose proof (Rle_0_sqr (e 0%nat)). pose proof (Rle_0_sqr (e 2%nat)). unfold Rsqr in *. lra.
Qed.
