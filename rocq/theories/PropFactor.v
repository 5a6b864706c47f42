(** Property C134: what the factors of the direct solver are, and which matrices it refuses. [factor_of n pivot st a A] says that [st] is
    the solver after a successful factorisation of the [n] by [n] matrix [a] with elements [A]. [order pivot st i] is the row of the
    matrix that is row i of the factors, [lower] and [upper] are the two factors kept in one matrix, [det] is the determinant by
    expansion along the first column, [prod] the product. *)
From Coq Require Import ZArith Field QArith Qcanon Permutation Reals Lra.
From Verif Require Import Base DenseModel DenseFacts ScalarModel GeometryReal LuModel LuFacts LuField LuReal PropLuLemmas PropLuAlgebraLemmas
  Determinant PropFactorLemmas.
Local Open Scope nat_scope.

(** The product of the factors is the matrix with its rows in the order of the pivots. *)
Theorem C134_product : forall {S} (O : sops S) (opp inv : S -> S),
  field_theory (sc_zero O) (sc_one O) (sc_add O) (sc_mul O) (sc_sub O) opp (sc_div O) inv eq ->
  forall dbg n, tol_default O dbg -> forall pivot st a A, factor_of O dbg n pivot st a A ->
  exists g, is_mat n n (lu_matrix st) g /\ Permutation (map (order pivot st) (seq 0 n)) (seq 0 n) /\
    (forall i, i < n -> g i i <> sc_zero O) /\
    (forall i j, i < n -> j < n -> A (order pivot st i) j =
       asum (sc_zero O) (sc_add O) n (fun m => sc_mul O (lower O g i m) (upper O g m j))).
Proof. exact @product. Qed.
Print Assumptions C134_product.

(** There are no other factors. *)
Theorem C134_unique : forall {S} (O : sops S) (opp inv : S -> S),
  field_theory (sc_zero O) (sc_one O) (sc_add O) (sc_mul O) (sc_sub O) opp (sc_div O) inv eq ->
  forall dbg n, tol_default O dbg -> forall pivot st a A g L U, factor_of O dbg n pivot st a A -> is_mat n n (lu_matrix st) g ->
  unit_lower O n L -> upper_triangle O n U ->
  (forall i j, i < n -> j < n -> A (order pivot st i) j =
     asum (sc_zero O) (sc_add O) n (fun m => sc_mul O (L i m) (U m j))) ->
  forall i j, i < n -> j < n -> L i j = lower O g i j /\ U i j = upper O g i j.
Proof. exact @unique. Qed.
Print Assumptions C134_unique.

(** Without pivoting the leading blocks are accepted too, and their factors are the leading blocks of the factors: for scalars without
    any laws, in particular doubles. *)
Theorem C134_leading : forall {S} (O : sops S) dbg n k st a a' A st1, is_mat n n a A -> k <= n -> is_mat k k a' A ->
  factorise O dbg false st a = Ok (st1, true) ->
  exists st2 g, factorise O dbg false st a' = Ok (st2, true) /\ is_mat n n (lu_matrix st1) g /\ is_mat k k (lu_matrix st2) g.
Proof. exact @leading. Qed.
Print Assumptions C134_leading.

(** Symmetric matrices: the upper factor is the transposed lower one with its rows scaled by the pivots. *)
Theorem C134_symmetric : forall {S} (O : sops S) (opp inv : S -> S),
  field_theory (sc_zero O) (sc_one O) (sc_add O) (sc_mul O) (sc_sub O) opp (sc_div O) inv eq ->
  forall dbg n, tol_default O dbg -> forall st a A g, factor_of O dbg n false st a A -> is_mat n n (lu_matrix st) g ->
  (forall i j, i < n -> j < n -> A i j = A j i) -> forall i j, i < j < n -> g i j = sc_mul O (g i i) (g j i).
Proof. exact @symmetric_factors. Qed.
Print Assumptions C134_symmetric.

(** An upper triangular matrix is its own factorisation; of a lower triangular one the columns are divided by the diagonal. *)
Theorem C134_upper : forall {S} (O : sops S) (opp inv : S -> S),
  field_theory (sc_zero O) (sc_one O) (sc_add O) (sc_mul O) (sc_sub O) opp (sc_div O) inv eq ->
  forall dbg n, tol_default O dbg -> forall st a A g, factor_of O dbg n false st a A -> is_mat n n (lu_matrix st) g ->
  upper_triangle O n A -> forall i j, i < n -> j < n -> g i j = A i j.
Proof. exact @upper_factors. Qed.
Print Assumptions C134_upper.

Theorem C134_lower : forall {S} (O : sops S) (opp inv : S -> S),
  field_theory (sc_zero O) (sc_one O) (sc_add O) (sc_mul O) (sc_sub O) opp (sc_div O) inv eq ->
  forall dbg n, tol_default O dbg -> forall st a A g, factor_of O dbg n false st a A -> is_mat n n (lu_matrix st) g ->
  (forall i j, i < j < n -> A i j = sc_zero O) -> forall i j, i < n -> j < n ->
  g i j = if i <? j then sc_zero O else if i =? j then A i i else sc_div O (A i j) (A j j).
Proof. exact @lower_factors. Qed.
Print Assumptions C134_lower.

(** The product of the pivots is the determinant of the matrix in the order of the pivots, and that of the matrix up to its sign. *)
Theorem C134_determinant : forall {S} (O : sops S) (opp inv : S -> S),
  field_theory (sc_zero O) (sc_one O) (sc_add O) (sc_mul O) (sc_sub O) opp (sc_div O) inv eq ->
  forall dbg n, tol_default O dbg -> forall pivot st a A g, factor_of O dbg n pivot st a A -> is_mat n n (lu_matrix st) g ->
  det O n (fun i j => A (order pivot st i) j) = prod O n (fun i => g i i) /\
  (det O n A = prod O n (fun i => g i i) \/ det O n A = opp (prod O n (fun i => g i i))).
Proof. exact @determinant. Qed.
Print Assumptions C134_determinant.

Theorem C134_minors : forall {S} (O : sops S) (opp inv : S -> S),
  field_theory (sc_zero O) (sc_one O) (sc_add O) (sc_mul O) (sc_sub O) opp (sc_div O) inv eq ->
  forall dbg n, tol_default O dbg -> forall st a A g, factor_of O dbg n false st a A -> is_mat n n (lu_matrix st) g ->
  forall k, k <= n -> det O k A = prod O k (fun i => g i i).
Proof. exact @minors. Qed.
Print Assumptions C134_minors.

Example C134_hypotheses : exists st st' st2 st3 st4,
  let a := [[q 1; q 2; q 0]; [q 3; q 4; q 1]; [q 0; q 1; q 5]] in let s := [[q 4; q 2; q 0]; [q 2; q 3; q 1]; [q 0; q 1; q 2]] in
  let u := [[q 1; q 2; q 3]; [q 0; q 4; q 5]; [q 0; q 0; q 6]] in let l := [[q 2; q 0; q 0]; [q 1; q 4; q 0]; [q 3; q 5; q 6]] in
  let E (m : list (list Qc)) i j := nth j (nth i m []) (q 0) in
  field_theory (sc_zero qops) (sc_one qops) (sc_add qops) (sc_mul qops) (sc_sub qops) Qcopp (sc_div qops) Qcinv eq /\
  tol_default qops true /\ factor_of qops true 3 true st a (E a) /\ factor_of qops true 3 false st' s (E s) /\
  factor_of qops true 3 false st2 u (E u) /\ factor_of qops true 3 false st3 l (E l) /\
  (forall i j, i < 3 -> j < 3 -> E s i j = E s j i) /\ upper_triangle qops 3 (E u) /\ (forall i j, i < j < 3 -> E l i j = q 0) /\
  is_mat 2 2 [[q 4; q 2]; [q 2; q 3]] (E s) /\
  factorise qops true false (lu_default qops) [[q 4; q 2]; [q 2; q 3]] = Ok (st4, true) /\
  map (order true st) [0; 1; 2] = [1; 2; 0] /\ det qops 3 (E a) = q (-11) /\
  map (map this) (lu_matrix st') = [[inject_Z 4; inject_Z 2; inject_Z 0]; [1 # 2; inject_Z 2; inject_Z 1]; [inject_Z 0; 1 # 2; 3 # 2]]%Q /\
  map (map this) (lu_matrix st4) = [[inject_Z 4; inject_Z 2]; [1 # 2; inject_Z 2]]%Q.
Proof.
  assert (M : forall r0 r1 r2 : list Qc, length r0 = 3 -> length r1 = 3 -> length r2 = 3 ->
    is_mat 3 3 [r0; r1; r2] (fun i j => nth j (nth i [r0; r1; r2] []) (q 0))).
  { intros. split; [reflexivity|]. intros i Hi. destruct i as [|[|[|i]]]; [| | |lia];
      (eexists; split; [reflexivity|]; split; [assumption|]; intros j Hj; cbn [nth]; apply nth_error_nth'; lia). }
  do 5 eexists. cbv zeta. split; [exact qops_field|]. split; [apply qops_tol|].
  split; [split; [apply M; reflexivity|]; exists (lu_default qops); split; vm_compute; reflexivity|].
  split; [split; [apply M; reflexivity|]; exists (lu_default qops); split; vm_compute; reflexivity|].
  split; [split; [apply M; reflexivity|]; exists (lu_default qops); split; vm_compute; reflexivity|].
  split; [split; [apply M; reflexivity|]; exists (lu_default qops); split; vm_compute; reflexivity|].
  split. { intros i j Hi Hj. destruct i as [|[|[|i]]], j as [|[|[|j]]]; try lia; reflexivity. }
  split. { intros i j Hij. destruct i as [|[|[|i]]], j as [|[|[|j]]]; try lia; reflexivity. }
  split. { intros i j Hij. destruct i as [|[|[|i]]], j as [|[|[|j]]]; try lia; reflexivity. }
  split. { split; [reflexivity|]. intros i Hi. destruct i as [|[|i]]; [| |lia];
      (eexists; split; [reflexivity|]; split; [reflexivity|]; intros j Hj; destruct j as [|[|j]]; [reflexivity..|lia]). }
  split; [vm_compute; reflexivity|]. split; [vm_compute; reflexivity|]. split; [apply Qc_is_canon; vm_compute; reflexivity|].
  split; vm_compute; reflexivity.
Qed.

Local Open Scope R_scope.

(** Without pivoting a matrix is accepted exactly when the leading minors decrease by no more than the tolerance. *)
Theorem C134_accepted : forall dbg n st a A, is_mat n n a A -> 0 < lu_tolerance st ->
  exists st' ok, factorise rops dbg false st a = Ok (st', ok) /\
    (ok = true <-> forall k, (k < n)%nat -> lu_tolerance st * Rabs (det rops k A) <= Rabs (det rops (k + 1) A)).
Proof. exact minors_decide. Qed.
Print Assumptions C134_accepted.

(** A matrix with a small determinant is refused, with and without pivoting. *)
Theorem C134_determinant_bound : forall dbg pivot n st a A st', is_mat n n a A -> 0 < lu_tolerance st ->
  factorise rops dbg pivot st a = Ok (st', true) -> lu_tolerance st ^ n <= Rabs (det rops n A).
Proof. exact accepted_determinant. Qed.
Print Assumptions C134_determinant_bound.

(** A refusal with pivoting shows a vector that is not small and that the matrix makes small. *)
Theorem C134_refused : forall dbg n st a A st', is_mat n n a A -> 0 < lu_tolerance st ->
  factorise rops dbg true st a = Ok (st', false) ->
  exists w k, (k < n)%nat /\ w k = 1 /\
    forall r, (r < n)%nat -> Rabs (rsum n (fun j => A r j * w j)) < lu_tolerance st * (1025 / 1024) + / 2 ^ 46.
Proof. exact refused_nearly_singular. Qed.
Print Assumptions C134_refused.

(** Matrices that make no such vector small are accepted. *)
Theorem C134_regular : forall dbg n st a A, is_mat n n a A -> 0 < lu_tolerance st ->
  (forall w k, (k < n)%nat -> w k = 1 -> exists r, (r < n)%nat /\
     lu_tolerance st * (1025 / 1024) + / 2 ^ 46 <= Rabs (rsum n (fun j => A r j * w j))) ->
  exists st', factorise rops dbg true st a = Ok (st', true).
Proof. exact regular_accepted. Qed.
Print Assumptions C134_regular.

(** Without pivoting the vector is one for a leading block. *)
Theorem C134_refused_block : forall dbg n st a A st', is_mat n n a A -> 0 < lu_tolerance st ->
  factorise rops dbg false st a = Ok (st', false) ->
  exists w k, (k < n)%nat /\ w k = 1 /\ (forall j, (k < j)%nat -> w j = 0) /\
    (forall r, (r < k)%nat -> rsum n (fun j => A r j * w j) = 0) /\
    Rabs (rsum n (fun j => A k j * w j)) < lu_tolerance st.
Proof. exact unpivoted_refused. Qed.
Print Assumptions C134_refused_block.

(** The exchange matrix: refused without pivoting, as the first minor is zero, accepted with pivoting. *)
Example C134_hypotheses_real :
  let A i j := nth j (nth i [[0; 1]; [1; 0]] []) 0 in
  is_mat 2 2 [[0; 1]; [1; 0]] A /\ 0 < lu_tolerance (lu_default rops) /\
  det rops 0 A = 1 /\ det rops 1 A = 0 /\ det rops 2 A = -1 /\
  (forall w k, (k < 2)%nat -> w k = 1 -> exists r, (r < 2)%nat /\
     lu_tolerance (lu_default rops) * (1025 / 1024) + / 2 ^ 46 <= Rabs (rsum 2 (fun j => A r j * w j))) /\
  (exists st', factorise rops true false (lu_default rops) [[0; 1]; [1; 0]] = Ok (st', false)) /\
  (exists st', factorise rops true true (lu_default rops) [[/ 2 ^ 47]] = Ok (st', false)).
Proof.
  intro A.
  assert (P : forall k, 0 < / 2 ^ k) by (intro; apply Rinv_0_lt_compat, pow_lt; lra).
  assert (HA : is_mat 2 2 [[0; 1]; [1; 0]] A).
  { split; [reflexivity|]. intros i Hi. destruct i as [|[|i]]; [| |lia];
      (eexists; split; [reflexivity|]; split; [reflexivity|]; intros j Hj; destruct j as [|[|j]]; [reflexivity..|lia]). }
  assert (HT : lu_tolerance (lu_default rops) = / 2 ^ 46).
  { unfold lu_default, default_absolute. cbn [lu_tolerance rops sc_mul sc_of_Z sc_eps]. rewrite two52.
    replace (2 ^ 46) with 70368744177664 by ring. field. }
  assert (H46 : / 2 ^ 46 = 1 / 70368744177664) by (replace (2 ^ 46) with 70368744177664 by ring; field).
  split; [exact HA|]. rewrite HT. split; [apply P|]. split; [reflexivity|].
  assert (D1 : det rops 1 A = 0) by (unfold A; cbn; ring). assert (D2 : det rops 2 A = -1) by (unfold A; cbn; ring).
  split; [exact D1|]. split; [exact D2|]. split; [|split].
  - intros w k Hk Hw. destruct k as [|[|k]]; [exists 1%nat|exists 0%nat|lia]; (split; [lia|]).
    + replace (rsum 2 (fun j => A 1%nat j * w j)) with 1; [rewrite Rabs_R1, H46; lra|]. unfold A. cbn. rewrite Hw. ring.
    + replace (rsum 2 (fun j => A 0%nat j * w j)) with 1; [rewrite Rabs_R1, H46; lra|]. unfold A. cbn. rewrite Hw. ring.
  - destruct (minors_decide true 2 (lu_default rops) [[0; 1]; [1; 0]] A HA) as (st' & ok & E & HI); [rewrite HT; apply P|].
    destruct ok; [|eauto]. exfalso. destruct HI as [HI _]. specialize (HI eq_refl 0%nat ltac:(lia)).
    cbn [Nat.add] in HI. rewrite D1, HT, Rabs_R0 in HI. change (det rops 0 A) with 1 in HI. rewrite Rabs_R1 in HI.
    specialize (P 46%nat). lra.
  - apply small_refused. split; [apply P|]. apply Rinv_lt_contravar; [apply Rmult_lt_0_compat; apply pow_lt; lra|].
    apply Rlt_pow; [lra|lia].
Qed.
