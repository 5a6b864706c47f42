(** Properties C52, C53, C70 - C74: the direct solver. The statements use [is_vec] and [is_mat] (components),
    [asum] (sum in ascending order), [tol_default] (the default tolerances pass the assertions of
    is_nearly_equal, true for the reals, rationals and doubles) and [refuses_zero tol] (|0| < tol). *)
From Coq Require Import ZArith Reals Lra Field QArith Qcanon SpecFloat.
From Verif Require Import Base DenseModel DenseFacts ScalarModel GeometryReal LuModel LuFacts LuField LuReal PropLuLemmas.
Local Open Scope nat_scope.

(** ** C52
    [b = None] is a call with the same object as solution and constant vector. *)

Theorem C52_field : forall {S} (O : sops S) (opp inv : S -> S),
  field_theory (sc_zero O) (sc_one O) (sc_add O) (sc_mul O) (sc_sub O) opp (sc_div O) inv eq ->
  forall dbg pivot n st a A st', tol_default O dbg -> refuses_zero O (lu_tolerance st) ->
  is_mat n n a A -> factorise O dbg pivot st a = Ok (st', true) ->
  forall x b B, is_vec n (other_of x b) B -> (b = None -> pivot = false) ->
  exists x' z, lu_solve O dbg pivot st' x b =
      Ok (x', mkConv true 1 (sc_max O) (sc_max O) (sc_max O) (sc_max O) (sc_max O) (sc_max O)) /\
    is_vec n x' z /\
    (forall i, i < n -> asum (sc_zero O) (sc_add O) n (fun j => sc_mul O (A i j) (z j)) = B i) /\
    (forall w, (forall i, i < n -> asum (sc_zero O) (sc_add O) n (fun j => sc_mul O (A i j) (w j)) = B i) ->
       forall i, i < n -> w i = z i).
Proof. exact @factorise_solves. Qed.
Print Assumptions C52_field.

Theorem C52_real : forall dbg pivot n st a A st', (0 < lu_tolerance st)%R ->
  is_mat n n a A -> factorise rops dbg pivot st a = Ok (st', true) ->
  forall x b B, is_vec n b B ->
  exists x' d z, lu_solve rops dbg pivot st' x (Some b) = Ok (x', d) /\ cd_converged d = true /\
    is_vec n x' z /\
    (forall i, i < n -> rsum n (fun j => A i j * z j)%R = B i) /\
    (forall w, (forall i, i < n -> rsum n (fun j => A i j * w j)%R = B i) -> forall i, i < n -> w i = z i).
Proof. exact factorise_solves_R. Qed.
Print Assumptions C52_real.

(** factorise of a square matrix ends normally, for scalars without any laws. *)
Theorem C52_total : forall {S} (O : sops S) dbg pivot n st a A, tol_default O dbg -> is_mat n n a A ->
  exists st' ok, factorise O dbg pivot st a = Ok (st', ok) /\ lu_factorised st' = ok.
Proof. exact @factorise_total. Qed.
Print Assumptions C52_total.

Example C52_hypotheses : exists st',
  field_theory (sc_zero qops) (sc_one qops) (sc_add qops) (sc_mul qops) (sc_sub qops) Qcopp (sc_div qops) Qcinv eq /\
  tol_default qops true /\ refuses_zero qops (lu_tolerance (lu_default qops)) /\
  is_mat 3 3 [[q 0; q 2; q 1]; [q 1; q 1; q 0]; [q 4; q 0; q 3]]
    (fun i j => nth j (nth i [[q 0; q 2; q 1]; [q 1; q 1; q 0]; [q 4; q 0; q 3]] []) (q 0)) /\
  factorise qops true true (lu_default qops) [[q 0; q 2; q 1]; [q 1; q 1; q 0]; [q 4; q 0; q 3]] = Ok (st', true) /\
  lu_pivots st' = [2; 0; 1] /\
  option_map (fun r => map this (fst r)) (match lu_solve qops true true st' [] (Some [q 3; q 2; q 7]) with Ok r => Some r | _ => None end) =
    Some (map this [q 1; q 1; q 1]).
Proof.
  eexists. split; [exact qops_field|]. split; [apply qops_tol|]. split; [vm_compute; reflexivity|]. split.
  - split; [reflexivity|]. intros i Hi. destruct i as [|[|[|i]]]; [| | |lia];
      (eexists; split; [reflexivity|]; split; [reflexivity|]; intros j Hj; destruct j as [|[|[|j]]]; [reflexivity..|lia]).
  - split; [vm_compute; reflexivity|]. split; vm_compute; reflexivity.
Qed.

(** ** C53
    [run] executes calls of initialise_solver, factorise and solve_system on a new solver and returns with the
    object what the last call of factorise returned. In debug builds a constant vector of the wrong size is
    refused instead. *)

Theorem C53_unfactorised : forall {S} (O : sops S) dbg pivot calls st last,
  run O dbg pivot calls (lu_default O) None = Ok (st, last) -> last <> Some true ->
  forall x b, length (other_of x b) = m_rows (lu_matrix st) \/ dbg = false ->
  lu_solve O dbg pivot st x b = Ok (x, conv_default O).
Proof. exact @unfactorised. Qed.
Print Assumptions C53_unfactorised.

Theorem C53_factorised : forall {S} (O : sops S) dbg pivot calls st last,
  run O dbg pivot calls (lu_default O) None = Ok (st, last) -> last = Some true ->
  forall x b x' d, lu_solve O dbg pivot st x b = Ok (x', d) -> cd_converged d = true /\ cd_iteration d = 1.
Proof. exact @factorised_claims. Qed.
Print Assumptions C53_factorised.

Example C53_hypotheses :
  (exists st, run qops true true [CInit true true (q 1); CFactorise [[q 2]]; CSolve [] (Some [q 4]); CFactorise [[q 0]]]
    (lu_default qops) None = Ok (st, Some false) /\ length [q 5] = m_rows (lu_matrix st)) /\
  (exists st, run qops true true [CFactorise [[q 0]]; CFactorise [[q 2]]] (lu_default qops) None = Ok (st, Some true)) /\
  cd_converged (conv_default qops) = false.
Proof.
  split; [eexists; vm_compute; split; reflexivity|]. split; [eexists; vm_compute; reflexivity|reflexivity].
Qed.

(** ** C70
    Full statement: solve_system(b, b) leaves the solution of A x = b in b. Holds without pivoting (also C52). *)

Theorem C70_in_place_partial : forall dbg n st a A st', (0 < lu_tolerance st)%R ->
  is_mat n n a A -> factorise rops dbg false st a = Ok (st', true) ->
  forall x B, is_vec n x B ->
  exists x' d z, lu_solve rops dbg false st' x None = Ok (x', d) /\ cd_converged d = true /\
    is_vec n x' z /\ (forall i, i < n -> rsum n (fun j => A i j * z j)%R = B i).
Proof. exact in_place_R. Qed.
Print Assumptions C70_in_place_partial.

(** With pivoting the exchange matrix gives (2, 2) instead of (2, 1). *)
Theorem C70_in_place_refuted : exists st',
  factorise qops true true (lu_default qops) [[q 0; q 1]; [q 1; q 0]] = Ok (st', true) /\
  lu_solve qops true true st' [] (Some [q 1; q 2]) =
    Ok ([q 2; q 1], mkConv true 1 (sc_max qops) (sc_max qops) (sc_max qops) (sc_max qops) (sc_max qops) (sc_max qops)) /\
  lu_solve qops true true st' [q 1; q 2] None =
    Ok ([q 2; q 2], mkConv true 1 (sc_max qops) (sc_max qops) (sc_max qops) (sc_max qops) (sc_max qops) (sc_max qops)).
Proof. exact in_place_pivot_wrong. Qed.
Print Assumptions C70_in_place_refuted.

Example C70_hypotheses : exists st',
  factorise qops true false (lu_default qops) [[q 2; q 1]; [q 4; q 5]] = Ok (st', true) /\
  option_map (fun r => map this (fst r)) (match lu_solve qops true false st' [q 3; q 9] None with Ok r => Some r | _ => None end) =
    Some (map this [q 1; q 1]).
Proof. eexists. split; vm_compute; reflexivity. Qed.

(** ** C71 *)

Theorem C71_multipliers : forall dbg n st a A st', is_mat n n a A -> (/ 2 ^ 36 <= lu_tolerance st)%R ->
  factorise rops dbg true st a = Ok (st', true) ->
  exists g, is_mat n n (lu_matrix st') g /\
    forall i j, j < i < n -> (Rabs (g i j) <= 1025 / 1024)%R.
Proof. exact multipliers_bounded. Qed.
Print Assumptions C71_multipliers.

(** / 2 ^ 36 is the default of the configuration, and the bound is about pivots that are not the largest. *)
Example C71_hypotheses :
  (/ 2 ^ 36 <= default_relative rops)%R /\
  is_mat 1 1 [[3%R]] (fun _ _ => 3%R) /\
  exists st', factorise qops true true (mkLu false (default_relative qops) [] []) [[q 1; q 2]; [q 3; q 4]] = Ok (st', true) /\
    map (map this) (lu_matrix st') = [[inject_Z 3; inject_Z 4]; [1 # 3; 2 # 3]]%Q.
Proof.
  split.
  - unfold default_relative. cbn [rops sc_mul sc_of_Z sc_eps].
    replace (65536 * / 2 ^ 52)%R with (/ 2 ^ 36)%R; [lra|].
    rewrite two52. replace (2 ^ 36)%R with 68719476736%R by ring. field.
  - split.
    + split; [reflexivity|]. intros i Hi. exists [3%R]. split; [destruct i; [reflexivity|lia]|].
      split; [reflexivity|]. intros j Hj. destruct j; [reflexivity|lia].
    + eexists. vm_compute. split; reflexivity.
Qed.

(** ** C72
    Full statement: factorise returns false exactly for singular matrices. One direction holds: *)

Theorem C72_singular_partial : forall dbg pivot n st a A w i, is_mat n n a A -> (0 < lu_tolerance st)%R ->
  (forall r, r < n -> rsum n (fun j => A r j * w j)%R = 0%R) -> i < n -> w i <> 0%R ->
  exists st', factorise rops dbg pivot st a = Ok (st', false).
Proof. exact singular_refused. Qed.
Print Assumptions C72_singular_partial.

(** Every one by one matrix below the tolerance is refused, and without pivoting the exchange matrix. *)
Theorem C72_small_refuted : forall dbg pivot (t : R), (0 < t < / 2 ^ 46)%R ->
  exists st', factorise rops dbg pivot (lu_default rops) [[t]] = Ok (st', false).
Proof. exact small_refused. Qed.
Print Assumptions C72_small_refuted.

Theorem C72_no_pivot_refuted : exists st',
  factorise qops true false (lu_default qops) [[q 0; q 1]; [q 1; q 0]] = Ok (st', false).
Proof. exact no_pivot_refused. Qed.
Print Assumptions C72_no_pivot_refuted.

Example C72_hypotheses :
  (0 < lu_tolerance (lu_default rops))%R /\
  (forall r, r < 2 -> rsum 2 (fun j => nth j (nth r [[1; 2]; [2; 4]]%R []) 0 * nth j [2; -1]%R 0)%R = 0%R) /\
  nth 0 [2; -1]%R 0%R <> 0%R /\ (0 < / 2 ^ 47 < / 2 ^ 46)%R.
Proof.
  assert (P : forall k, (0 < / 2 ^ k)%R) by (intro; apply Rinv_0_lt_compat, pow_lt; lra).
  split; [unfold lu_default, default_absolute; cbn [lu_tolerance rops sc_mul sc_of_Z sc_eps]; specialize (P 52); lra|].
  split; [intros r Hr; destruct r as [|[|r]]; [cbn; lra|cbn; lra|lia]|].
  split; [cbn; lra|]. split; [apply P|]. apply Rinv_lt_contravar; [apply Rmult_lt_0_compat; apply pow_lt; lra|].
  apply Rlt_pow; [lra|lia].
Qed.

(** ** C73
    Full statement: factorise of a matrix which is not square is refused. Refuted: *)

Theorem C73_wide_refuted : forall {S} (O : sops S) dbg st a r c A,
  tol_default O dbg -> is_mat r c a A -> 0 < r < c -> factorise O dbg true st a = Undef.
Proof. exact @wide_undef. Qed.
Print Assumptions C73_wide_refuted.

Theorem C73_tall_refuted : factorise qops true false (lu_default qops) [[q 1]; [q 1]] = Undef.
Proof. exact tall_undef. Qed.
Print Assumptions C73_tall_refuted.

Example C73_hypotheses :
  tol_default qops true /\ is_mat 1 2 [[q 1; q 2]] (fun i j => nth j [q 1; q 2] (q 0)) /\ 0 < 1 < 2.
Proof.
  split; [apply qops_tol|]. split; [|lia]. split; [reflexivity|]. intros i Hi. destruct i; [|lia].
  eexists. split; [reflexivity|]. split; [reflexivity|].
  intros j Hj. destruct j as [|[|j]]; [reflexivity..|lia].
Qed.

(** ** C74
    Full statement: in double precision a direct solve that reports convergence returns finite values.
    Refuted for a matrix with NaN and for a finite system whose solution overflows. *)

Theorem C74_nan_refuted : exists st' d,
  factorise fops true true (lu_default fops) [[S754_nan]] = Ok (st', true) /\
  lu_solve fops true true st' [] (Some [f_of_Z 1]) = Ok ([S754_nan], d) /\ cd_converged d = true.
Proof. exact nan_accepted. Qed.
Print Assumptions C74_nan_refuted.

Theorem C74_overflow_refuted : exists st' d,
  factorise fops true true (lu_default fops) [[S754_finite false 4503599627370496 (-97)]] = Ok (st', true) /\
  lu_solve fops true true st' [] (Some [S754_finite false 4503599627370496 948]) = Ok ([S754_infinity false], d) /\
  cd_converged d = true.
Proof. exact overflow_accepted. Qed.
Print Assumptions C74_overflow_refuted.

Example C74_hypotheses :
  valid_binary 53 1024 (S754_finite false 4503599627370496 (-97)) = true /\
  valid_binary 53 1024 (S754_finite false 4503599627370496 948) = true.
Proof. split; vm_compute; reflexivity. Qed.
