(** Lemmas for the statements of property C139: an example. *)
From Coq Require Import ZArith Reals Lra Lia List SpecFloat.
From Verif Require Import Base ListFacts DenseModel DenseFacts PropDenseLemmas ScalarModel GeometryReal SparseModel SparseSpec
  SparseFacts SparseSeq LuModel LuFacts LuReal LuFloat IterModel IterFacts IterLoop IterField FloatFacts FloatError
  IterFloat PropFloatLemmas FloatUnit PropIterLemmas FloatSweep PropSweepLemmas FloatStop PropStopLemmas PropSorLemmas FloatForward.
Import ListNotations.
Local Open Scope R_scope.

(** The system 2x + y = 3, 4x + 3y = 7, whose second row is not dominant. *)
Definition fw_sys : smat f64 := two (fz 2) (fz 1) (fz 4) (fz 3).
Definition fw_A (i j : nat) : f64 := lookup (S754_zero false) (nth i (two_rows (fz 2) (fz 1) (fz 4) (fz 3)) []) j.
Definition fw_a : list (list f64) := [[fz 2; fz 1]; [fz 4; fz 3]].
Definition fw_b : list f64 := [fz 3; fz 7].
Definition fw_h (i : nat) : f64 := nth i fw_b (fz 0).
Definition fw_H (k i : nat) : R := nth i (nth k [[3 / 2; - (1 / 2)]; [- 2; 1]] []) 0.

(** Its factors. *)
Definition fw_lu : list (list f64) := [[fz 4; fz 3]; [f_half; SFopp f_half]].
Definition fw_g (i j : nat) : f64 := nth j (nth i fw_lu []) (fz 0).
Definition fw_s (i : nat) : nat := nth i [1; 0]%nat 0%nat.

Lemma fz3 : f_real (fz 3) = 3.
Proof. unfold fz. vm_compute (f_of_Z 3). cbn [f_real]. change (-51)%Z with (- Z.of_nat 51)%Z. rewrite powerRZ_neg', <- pow_powerRZ. field_simplify; [|lra..]; lra. Qed.

Lemma fz7 : f_real (fz 7) = 7.
Proof. unfold fz. vm_compute (f_of_Z 7). cbn [f_real]. change (-50)%Z with (- Z.of_nat 50)%Z. rewrite powerRZ_neg', <- pow_powerRZ. field_simplify; [|lra..]; lra. Qed.

Lemma opp_half : f_real (SFopp f_half) = - (1 / 2).
Proof. rewrite <- half_real. unfold f_half. vm_compute (SFopp _). vm_compute (SFdiv _ _ _ _). cbn [f_real]. lra. Qed.

Lemma fw_reals : f_real (fw_A 0 0) = 2 /\ f_real (fw_A 0 1) = 1 /\ f_real (fw_A 1 0) = 4 /\ f_real (fw_A 1 1) = 3.
Proof.
  rewrite (eq_refl : fw_A 0 0 = fz 2), (eq_refl : fw_A 0 1 = fz 1), (eq_refl : fw_A 1 0 = fz 4), (eq_refl : fw_A 1 1 = fz 3).
  rewrite fz1, fz2, fz3, fz4. auto.
Qed.

Lemma fw_inverse : left_inverse 2 fw_H (fun i j => f_real (fw_A i j)).
Proof.
  destruct fw_reals as (E1 & E2 & E3 & E4).
  intros [|[|k]] [|[|j]] Hk Hj; try lia; cbn [asum Nat.eqb]; rewrite ?E1, ?E2, ?E3, ?E4; cbn [fw_H nth]; lra.
Qed.

Lemma fw_solution : forall i, (i < 2)%nat -> rsum 2 (fun j => f_real (fw_A i j) * 1) = f_real (fw_h i).
Proof.
  destruct fw_reals as (E1 & E2 & E3 & E4).
  intros [|[|i]] Hi; try lia; cbn [asum fw_h fw_b nth]; rewrite ?E1, ?E2, ?E3, ?E4, ?fz3, ?fz7; lra.
Qed.

Lemma fw_mat : is_mat 2 2 fw_a fw_A.
Proof.
  split; [reflexivity|]. intros i Hi. destruct i as [|[|i]]; [| |lia];
    (eexists; split; [reflexivity|]; split; [reflexivity|]; intros j Hj; destruct j as [|[|j]]; [reflexivity..|lia]).
Qed.

Lemma fw_direct : exists st' x' d, factorise fops true true (lu_default fops) fw_a = Ok (st', true) /\ lu_matrix st' = fw_lu /\
  lu_pivots st' = [1; 0]%nat /\ lu_solve fops true true st' [] (Some fw_b) = Ok (x', d) /\ x' = [fz 1; fz 1] /\
  is_mat 2 2 (lu_matrix st') fw_g /\ is_vec 2 (lu_pivots st') fw_s /\ (forall i j, (i < 2)%nat -> (j < 2)%nat -> f_finite (fw_g i j) = true).
Proof.
  do 3 eexists. split; [vm_compute; reflexivity|]. cbn [lu_matrix lu_pivots].
  split; [vm_compute; reflexivity|]. split; [reflexivity|]. split; [vm_compute; reflexivity|]. split; [vm_compute; reflexivity|].
  split; [|split].
  - split; [reflexivity|]. intros i Hi. destruct i as [|[|i]]; [| |lia];
      (eexists; split; [reflexivity|]; split; [reflexivity|]; intros j Hj; destruct j as [|[|j]]; [vm_compute; reflexivity..|lia]).
  - apply is_vec_self.
  - intros [|[|i]] [|[|j]] Hi Hj; try lia; vm_compute; reflexivity.
Qed.

Lemma fw_rates : forall k, (k < 2)%nat -> lu_rate 2 fw_H fw_g fw_s k <= 1 / 1000 /\ lu_rest 2 fw_H fw_g fw_s k <= 1 / 1000 /\ Rabs 1 <= 1.
Proof.
  destruct small_units as (U & E & _). pose proof u_pos as Hu. pose proof eta_pos as He.
  assert (P6 : 1 <= (1 + f_u) ^ 6 <= 1 + 1 / 100000).
  { split; [apply pow_R1_Rle; lra|]. apply Rle_trans with ((1 + / 1024 / 1024) ^ 6); [apply pow_incr; lra|lra]. }
  assert (P4 : 1 <= (1 + f_u) ^ 4 <= 11 / 10).
  { split; [apply pow_R1_Rle; lra|]. apply Rle_trans with ((1 + / 1024 / 1024) ^ 4); [apply pow_incr; lra|lra]. }
  unfold lu_rate, lu_rest, lu_abs, f_gamma. change (3 * 2)%nat with 6%nat. change (2 * 2)%nat with 4%nat. change (INR 2) with (1 + 1).
  assert (W : 0 <= (1 + f_u) ^ 4 * f_eta <= 11 / 10 * (/ 1024 / 1024)) by (split; [apply Rmult_le_pos; lra|apply Rmult_le_compat; lra]).
  set (p := (1 + f_u) ^ 6) in *. set (w := (1 + f_u) ^ 4 * f_eta) in *. clearbody p w.
  intros k Hk. cbn [asum]. unfold f_lower, f_upper. cbn [Nat.ltb Nat.leb Nat.eqb fw_s nth].
  rewrite ?(eq_refl : fw_g 0 0 = fz 4), ?(eq_refl : fw_g 0 1 = fz 3), ?(eq_refl : fw_g 1 0 = f_half), ?(eq_refl : fw_g 1 1 = SFopp f_half).
  rewrite fz3, fz4, half_real, opp_half.
  rewrite ?Rabs_Ropp, ?Rabs_R0, ?Rabs_R1, ?(Rabs_pos_eq 3), ?(Rabs_pos_eq 4), ?(Rabs_pos_eq (1 / 2)) by lra.
  destruct k as [|[|k]]; try lia; cbn [fw_H nth];
    rewrite ?Rabs_Ropp, ?Rabs_R0, ?Rabs_R1, ?(Rabs_pos_eq (3 / 2)), ?(Rabs_left (-2)), ?(Rabs_pos_eq (1 / 2)) by lra; lra.
Qed.

(** Six sweeps of Gauss-Seidel from 0. *)
Lemma fw_rows : valid_rows 2 fw_sys fw_A fw_b fw_h.
Proof.
  destruct (two_square (S754_zero false) (fz 2) (fz 1) (fz 4) (fz 3)) as (H1 & H2 & H3 & H4).
  split.
  - split; [exact H1|]. split; [exact H2|]. split; [exact H3|exact H4].
  - apply is_vec_self.
  - intros [|[|i]] [|[|j]] Hi Hj; try lia; vm_compute; reflexivity.
  - intros [|[|i]] Hi; try lia; vm_compute; reflexivity.
  - intros [|[|i]] Hi; try lia; (split; [cbn; lia|]); [exists 0%nat|exists 3%nat]; (split; [cbn; lia|split; reflexivity]).
Qed.

Lemma fw_run : exists x' cd,
  run fops 100 true None fw_sys fw_b (mkLimits 0 5 f_half) ([fz 0; fz 0], []) (gauss_seidel_step fops true None fw_sys fw_b) x' cd /\
  (1 <= cd_iteration cd)%nat /\ f_finite (cd_residual cd) = true /\ valid_state 2 ([fz 0; fz 0], []).
Proof.
  eexists. eexists. split; [eapply (run_seidel fops 100 true None fw_sys fw_b _ 20); vm_compute; reflexivity|].
  split; [cbn; lia|]. split; [reflexivity|]. exists (fun i => nth i [fz 0; fz 0] (fz 0)). split; [apply is_vec_self|].
  intros [|[|i]] Hi; try lia; vm_compute; reflexivity.
Qed.
