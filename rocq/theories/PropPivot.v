(** C135: pivoting in double precision. *)
From Coq Require Import List ZArith Reals Lra Lia SpecFloat.
From Verif Require Import Base DenseModel DenseFacts ScalarModel GeometryReal LuModel FloatFacts FloatError LuFloat PropIterLemmas PropIntLemmas PropFloatLemmas PropCloseLemmas
  PropPivotLemmas.
Import ListNotations.
Local Open Scope R_scope.

(** The row the search returns holds an element that is, up to the tolerances of is_nearly_greater, the largest of its column. *)
Theorem C135_pivot dbg n m g i j : is_mat n n m g -> (i < n)%nat -> lu_search fops dbg m i = Ok j ->
  (forall k, (i <= k < n)%nat -> number (g k i) /\ 2 * Rabs (f_real (g k i)) <= f_limit) ->
  forall k, (i <= k < n)%nat -> Rabs (f_real (g k i)) <= Rabs (f_real (g j i)) * (1 + / 2 ^ 34) + / 2 ^ 45.
Proof. exact (pivot_near dbg n m g i j). Qed.
Print Assumptions C135_pivot.

(** The factorisation ends, and what it stores are numbers: bounded multipliers, elements that at most grow by [growth] per round,
    diagonal elements no smaller than the tolerance, and a product close to the permuted matrix. *)
Theorem C135_ends dbg n st a A M : admissible n st a A M -> exists st' ok, factorise fops dbg true st a = Ok (st', ok).
Proof. exact (ends_ok dbg n st a A M). Qed.
Print Assumptions C135_ends.

Theorem C135_factors dbg n st a A M st' : admissible n st a A M -> factorise fops dbg true st a = Ok (st', true) ->
  let t := f_real (lu_tolerance st) in
  exists s g, is_mat n n (lu_matrix st') g /\ is_vec n (lu_pivots st') s /\ rows_permuted n s /\
    forall i j, (i < n)%nat -> (j < n)%nat -> number (g i j) /\
      ((j < i)%nat -> Rabs (f_real (g i j)) <= multiplier t) /\ ((i <= j)%nat -> Rabs (f_real (g i j)) <= growth t ^ i * M) /\
      t <= Rabs (f_real (g i i)) /\
      Rabs (f_real (A (s i) j) - rsum n (fun k => f_lower g i k * f_upper g k j)) <= element_error n t M.
Proof. exact (factors_ok dbg n st a A M st'). Qed.
Print Assumptions C135_factors.

(** A refused matrix maps a vector with a component 1 to almost nothing. *)
Theorem C135_refused dbg n st a A M st' : admissible n st a A M -> factorise fops dbg true st a = Ok (st', false) ->
  let t := f_real (lu_tolerance st) in
  exists w k, (k < n)%nat /\ w k = 1 /\ forall r, (r < n)%nat ->
    Rabs (rsum n (fun j => f_real (A r j) * w j)) < t * (1 + / 2 ^ 34) + / 2 ^ 45 + element_error n t M * rsum n (fun j => Rabs (w j)).
Proof. exact (refused_ok dbg n st a A M st'). Qed.
Print Assumptions C135_refused.

(** So a matrix that is well conditioned compared to the tolerance is accepted; for one, every matrix with a dominating element per column. *)
Theorem C135_accepted dbg n st a A M sigma : admissible n st a A M -> conditioned n A sigma ->
  let t := f_real (lu_tolerance st) in t * (1 + / 2 ^ 34) + / 2 ^ 45 + INR n * element_error n t M <= sigma ->
  exists st', factorise fops dbg true st a = Ok (st', true).
Proof. exact (accepted_ok dbg n st a A M sigma). Qed.
Print Assumptions C135_accepted.

Theorem C135_dominated n A sigma : 0 <= sigma -> dominated n A sigma -> conditioned n A sigma.
Proof. exact (dominated_conditioned n A sigma). Qed.
Print Assumptions C135_dominated.

(** Both substitutions stay within the doubles, and the solution nearly satisfies every equation. *)
Theorem C135_solve dbg n st a A M st' x b B K : admissible n st a A M -> factorise fops dbg true st a = Ok (st', true) ->
  let t := f_real (lu_tolerance st) in solvable n t M b B K ->
  exists x' d z, lu_solve fops dbg true st' x (Some b) = Ok (x', d) /\ is_vec n x' z /\
    (forall i, (i < n)%nat -> number (z i) /\ Rabs (f_real (z i)) <= spread n t M ^ n * largest n t K) /\
    forall i, (i < n)%nat -> Rabs (f_real (B i) - rsum n (fun j => f_real (A i j) * f_real (z j))) <=
      solve_error n t M (rsum n (fun j => Rabs (f_real (z j)))).
Proof. exact (solve_ok_f dbg n st a A M st' x b B K). Qed.
Print Assumptions C135_solve.

(** From the matrix and the right side to the distance from the exact solution. *)
Theorem C135_close dbg n st a A M sigma x b B K : admissible n st a A M -> conditioned n A sigma ->
  let t := f_real (lu_tolerance st) in t * (1 + / 2 ^ 34) + / 2 ^ 45 + INR n * element_error n t M <= sigma -> solvable n t M b B K ->
  exists st' x' d z, factorise fops dbg true st a = Ok (st', true) /\ lu_solve fops dbg true st' x (Some b) = Ok (x', d) /\
    is_vec n x' z /\ (forall i, (i < n)%nat -> number (z i)) /\
    forall e : nat -> R, (forall i, (i < n)%nat -> rsum n (fun j => f_real (A i j) * e j) = f_real (B i)) ->
      forall k, (k < n)%nat -> Rabs (e k - f_real (z k)) <= solve_error n t M (rsum n (fun j => Rabs (f_real (z j)))) / sigma.
Proof. exact (close_ok dbg n st a A M sigma x b B K). Qed.
Print Assumptions C135_close.

(** A system whose rows must change places, with the default tolerance. *)
Example C135_hypotheses :
  let a := [[fz 1; fz 5; fz 1]; [fz 6; fz 1; fz 2]; [fz 1; fz 2; fz 7]] in let A i j := nth j (nth i a []) (fz 0) in
  let b := [fz 7; fz 9; fz 10] in let B i := nth i b (fz 0) in let st := lu_default fops in let t := f_real (lu_tolerance st) in
  admissible 3 st a A 7 /\ dominated 3 A 3 /\ t * (1 + / 2 ^ 34) + / 2 ^ 45 + INR 3 * element_error 3 t 7 <= 3 /\
  solvable 3 t 7 b B 10 /\ lu_search fops true a 0 = Ok 1%nat /\
  (exists st', factorise fops true true st a = Ok (st', true) /\ lu_pivots st' = [1; 0; 2]%nat) /\
  solve_error 3 t 7 4 <= / 2 ^ 30 /\
  let a1 := [[SFdiv 53 1024 (fz 1) (fz 281474976710656)]] in
  admissible 1 st a1 (fun _ _ => SFdiv 53 1024 (fz 1) (fz 281474976710656)) 1 /\
  exists st', factorise fops true true st a1 = Ok (st', false).
Proof.
  intros a A b B st t.
  assert (Et : t = / 2 ^ 46) by exact (proj1 (proj2 (proj2 (proj2 (proj2 (proj2 (proj2 limits))))))).
  assert (P46 : / 2 ^ 46 = 1 / 70368744177664) by exact p46.
  assert (Eg : growth t = 10 + 1 / 536870912).
  { unfold growth. rewrite Et, p29. replace (/ 2 ^ 43 / / 2 ^ 46) with 8; [lra|]. rewrite p43, p46. field. }
  assert (Em : multiplier t = 5 + 1 / 1073741824).
  { unfold multiplier. rewrite Et, p30. replace (/ 2 ^ 44 / / 2 ^ 46) with 4; [lra|]. rewrite p44, p46. field. }
  assert (HG : 1000 <= growth t ^ 3 <= 1001) by (rewrite Eg; cbn [pow]; lra).
  assert (HL : forall k, (k <= 1023)%nat -> 2 ^ k <= f_limit) by (intros; unfold f_limit; apply Rle_pow; [lra|auto]).
  assert (HL1 : 1000000 <= f_limit).
  { apply Rle_trans with (2 ^ 20); [cbn [pow]; lra|]. apply HL. apply Nat.leb_le. reflexivity. }
  assert (F : forall z, (0 <= z <= 10)%Z -> number (fz z) /\ f_real (fz z) = IZR z).
  { intros z Hz. destruct (of_Z_round z ltac:(lia)) as (V & N & R). split; [split; [exact V|exact N]|]. unfold fz. rewrite R. apply rnd_int. lia. }
  assert (F3 : forall i j, (i < 3)%nat -> (j < 3)%nat -> number (A i j) /\ Rabs (f_real (A i j)) <= 7).
  { intros i j Hi Hj. destruct i as [|[|[|i]]], j as [|[|[|j]]]; try lia; cbn [A a nth];
      (match goal with |- number (fz ?z) /\ _ => destruct (F z ltac:(lia)) as [N ->] end; split; [exact N|rewrite Rabs_pos_eq; lra]). }
  assert (FB : forall i, (i < 3)%nat -> number (B i) /\ Rabs (f_real (B i)) <= 10).
  { intros i Hi. destruct i as [|[|[|i]]]; try lia; cbn [B b nth];
      (match goal with |- number (fz ?z) /\ _ => destruct (F z ltac:(lia)) as [N ->] end; split; [exact N|rewrite Rabs_pos_eq; lra]). }
  assert (Hu := u_num). assert (He := eta_num). assert (Hep := eta_pos). clear HL.
  assert (Nt : number (lu_tolerance st)) by (split; vm_compute; reflexivity).
  assert (H7 : 7000 <= largest 3 t 7 <= 7007) by (unfold largest; lra).
  assert (G3 : 0 <= f_gamma 3 <= / 2 ^ 50).
  { unfold f_gamma. rewrite Hu. replace (2 ^ 50) with 1125899906842624 by ring. cbn [pow]. lra. }
  assert (G9 : 0 <= f_gamma 9 <= / 2 ^ 49).
  { unfold f_gamma. rewrite Hu. replace (2 ^ 49) with 562949953421312 by ring. cbn [pow]. lra. }
  assert (I3 : INR 3 = 3) by (cbn [INR]; lra).
  assert (HE : 0 <= element_error 3 t 7 <= 1 / 1000).
  { unfold element_error. rewrite Em, I3. split.
    - apply Rplus_le_le_0_compat; [apply Rmult_le_pos; [lra|lra]|].
      apply Rmult_le_pos; [apply Rmult_le_pos; [apply pow_le; rewrite Hu; lra|lra]|lra].
    - assert (H1 : f_gamma 3 * (3 * (5 + 1 / 1073741824) * largest 3 t 7) <= / 2 ^ 50 * 200000) by (apply Rmult_le_compat; lra).
      assert (H2 : (1 + f_u) ^ 3 * f_eta * (3 + largest 3 t 7) <= 2 * (1 / 1237940039285380274899124224) * 10000).
      { assert (0 <= (1 + f_u) ^ 3 <= 2) by (rewrite Hu; cbn [pow]; lra).
        apply Rmult_le_compat; [apply Rmult_le_pos; lra|lra| |lra]. apply Rmult_le_compat; lra. }
      replace (2 ^ 50) with 1125899906842624 in H1 by ring. lra. }
  split; [|split; [|split; [|split; [|split; [|split; [|split]]]]]].
  - split; [exact Nt|]. fold t. split; [lra|]. split.
    + split; [reflexivity|]. intros i Hi. destruct i as [|[|[|i]]]; [| | |lia];
        (eexists; split; [reflexivity|]; split; [reflexivity|]; intros j Hj; destruct j as [|[|[|j]]]; [reflexivity..|lia]).
    + split; [intros i j Hi Hj; apply F3; auto|]. split; [intros i j Hi Hj; apply F3; auto|]. split; lra.
  - intros k Hk. destruct (F 0%Z ltac:(lia)) as [_ F0], (F 1%Z ltac:(lia)) as [_ F1], (F 2%Z ltac:(lia)) as [_ F2], (F 5%Z ltac:(lia)) as [_ F5],
      (F 6%Z ltac:(lia)) as [_ F6], (F 7%Z ltac:(lia)) as [_ F7].
    destruct k as [|[|[|k]]]; [exists 1%nat|exists 0%nat|exists 2%nat|lia]; (split; [lia|]); cbn [asum Nat.eqb A a nth];
      rewrite ?F1, ?F2, ?F5, ?F6, ?F7, !Rabs_pos_eq; lra.
  - rewrite I3, Et, p34, p45, P46. rewrite Et, P46 in HE. lra.
  - split; [split; [reflexivity|intros i Hi; destruct i as [|[|[|i]]]; [reflexivity..|lia]]|]. split; [exact FB|]. split; [lra|].
    split; [rewrite I3; replace (2 ^ 50) with 1125899906842624 by ring; lra|]. assert (H10 : 10000 <= largest 3 t 10 <= 10010) by (unfold largest; lra).
    split; [lra|].
    assert (HS : 0 <= spread 3 t 7 <= 2 ^ 63).
    { assert (Es := spread_eq 3 t 7 ltac:(lra)). rewrite I3 in Es. replace (2 ^ 63) with 9223372036854775808 by ring.
      set (s := spread 3 t 7) in *. set (l := largest 3 t 7) in *. clearbody s l. rewrite Et, P46 in Es. lra. }
    assert (HS3 : spread 3 t 7 ^ 3 <= 2 ^ 189).
    { apply Rle_trans with ((2 ^ 63) ^ 3); [apply pow_incr; exact HS|]. rewrite <- pow_mult. apply Req_le. reflexivity. }
    assert (HS0 : 0 <= spread 3 t 7 ^ 3) by (apply pow_le; lra).
    apply Rle_trans with (16 * (2 ^ 189 * 65536)).
    + apply Rmult_le_compat; [lra|apply Rmult_le_pos; lra|lra|]. apply Rmult_le_compat; lra.
    + replace (16 * (2 ^ 189 * 65536)) with (2 ^ 189 * 2 ^ 20) by (replace (2 ^ 20) with (16 * 65536) by ring; ring).
      rewrite <- pow_add. unfold f_limit. apply Rle_pow; [lra|]. apply Nat.leb_le. reflexivity.
  - vm_compute. reflexivity.
  - eexists. split; vm_compute; reflexivity.
  - unfold solve_error. rewrite Em, I3. change (3 * 3)%nat with 9%nat. change (2 * 3)%nat with 6%nat.
    assert (H1 : f_gamma 9 * (3 * (5 + 1 / 1073741824) * largest 3 t 7 * 4) <= / 2 ^ 49 * 450000) by (apply Rmult_le_compat; lra).
    assert (H2 : (1 + f_u) ^ 6 * f_eta * (3 + (3 + largest 3 t 7) * (3 * (5 + 1 / 1073741824) + 4)) <= 2 * (1 / 1237940039285380274899124224) * 200000).
    { assert (0 <= (1 + f_u) ^ 6 <= 2) by (rewrite Hu; cbn [pow]; lra).
      apply Rmult_le_compat; [apply Rmult_le_pos; lra|lra| |lra]. apply Rmult_le_compat; lra. }
    rewrite p30. replace (2 ^ 49) with 562949953421312 in H1 by ring. lra.
  - intro a1. split.
    + split; [exact Nt|]. fold t. split; [lra|]. split.
      * split; [reflexivity|]. intros i Hi. replace i with 0%nat by lia. eexists. split; [reflexivity|]. split; [reflexivity|].
        intros j Hj. replace j with 0%nat by lia. reflexivity.
      * assert (N1 : number (SFdiv 53 1024 (fz 1) (fz 281474976710656))) by (split; vm_compute; reflexivity).
        split; [intros i j _ _; exact N1|]. split; [|split; [lra|unfold largest; rewrite Eg; cbn [pow]; lra]]. intros i j _ _.
        destruct (F 1%Z ltac:(lia)) as [[V1 _] R1]. destruct (of_Z_round 281474976710656 ltac:(lia)) as (V2 & N2 & R2).
        destruct (f_div_round (fz 1) (fz 281474976710656) V1 V2 N2 (proj2 N1)) as (_ & _ & ->). rewrite R1.
        replace (f_real (fz 281474976710656)) with 281474976710656 by (unfold fz; rewrite R2; symmetry; apply rnd_int; lia).
        destruct (rnd_error (1 / 281474976710656)) as (d & e & Hd & He2 & ->). apply Rabs_le_between in Hd, He2. apply Rabs_le. rewrite Hu in Hd. lra.
    + eexists. vm_compute. reflexivity.
Qed.
