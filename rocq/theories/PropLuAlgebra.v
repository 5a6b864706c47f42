(** Property C114: the direct solver and the arithmetic of dense vectors and matrices, over any field. [factor_of n pivot st a A] says that
    [st] is the solver after a successful factorisation of the [n] by [n] matrix [a] with elements [A]; [solved] is the
    report of a solve that ended normally. *)
From Coq Require Import ZArith Field QArith Qcanon.
From Verif Require Import Base DenseModel DenseFacts ScalarModel LuModel LuFacts LuField PropLuLemmas PropLuAlgebraLemmas.
Local Open Scope nat_scope.

(** Solving with a product of the matrix gives back the vector. *)
Theorem C114_undoes_product : forall {S} (O : sops S) (opp inv : S -> S),
  field_theory (sc_zero O) (sc_one O) (sc_add O) (sc_mul O) (sc_sub O) opp (sc_div O) inv eq ->
  forall dbg n, tol_default O dbg -> forall pivot st a A junk r t x w W,
  factor_of O dbg n pivot st a A -> is_vec n w W -> r = 0 \/ r = n -> vtyped t w ->
  exists b, m_vec (sc_zero O) (sc_add O) (sc_mul O) dbg junk r t a w = Ok b /\
    lu_solve O dbg pivot st x (Some b) = Ok (w, solved O).
Proof. exact @undoes_product. Qed.
Print Assumptions C114_undoes_product.

(** The product of the matrix with the solution is the constant vector. *)
Theorem C114_product_undoes : forall {S} (O : sops S) (opp inv : S -> S),
  field_theory (sc_zero O) (sc_one O) (sc_add O) (sc_mul O) (sc_sub O) opp (sc_div O) inv eq ->
  forall dbg n, tol_default O dbg -> forall pivot st a A junk r t x b,
  factor_of O dbg n pivot st a A -> length b = n -> r = 0 \/ r = n -> t = 0 \/ t = n ->
  exists w, lu_solve O dbg pivot st x (Some b) = Ok (w, solved O) /\ length w = n /\
    m_vec (sc_zero O) (sc_add O) (sc_mul O) dbg junk r t a w = Ok b.
Proof. exact @product_undoes. Qed.
Print Assumptions C114_product_undoes.

(** The solvers with and without pivoting give the same solution where both factorise. *)
Theorem C114_pivoting : forall {S} (O : sops S) (opp inv : S -> S),
  field_theory (sc_zero O) (sc_one O) (sc_add O) (sc_mul O) (sc_sub O) opp (sc_div O) inv eq ->
  forall dbg n, tol_default O dbg -> forall st st' a A x x' b,
  factor_of O dbg n true st a A -> factor_of O dbg n false st' a A -> length b = n ->
  exists w, lu_solve O dbg true st x (Some b) = Ok (w, solved O) /\
    lu_solve O dbg false st' x' (Some b) = Ok (w, solved O).
Proof. exact @pivoting_irrelevant. Qed.
Print Assumptions C114_pivoting.

(** Solving is linear in the constant vector. *)
Theorem C114_linear : forall {S} (O : sops S) (opp inv : S -> S),
  field_theory (sc_zero O) (sc_one O) (sc_add O) (sc_mul O) (sc_sub O) opp (sc_div O) inv eq ->
  forall dbg n, tol_default O dbg -> forall pivot st a A junk n0 n1 x b c s,
  factor_of O dbg n pivot st a A -> length b = n -> length c = n -> n0 = 0 \/ n0 = n -> n1 = 0 \/ n1 = n ->
  exists y z bc yz sb sy,
    lu_solve O dbg pivot st x (Some b) = Ok (y, solved O) /\ lu_solve O dbg pivot st x (Some c) = Ok (z, solved O) /\
    v_plus (sc_zero O) (sc_add O) dbg junk n0 n1 b c = Ok bc /\ v_plus (sc_zero O) (sc_add O) dbg junk n0 n1 y z = Ok yz /\
    lu_solve O dbg pivot st x (Some bc) = Ok (yz, solved O) /\
    v_times (sc_mul O) s b = Ok sb /\ v_times (sc_mul O) s y = Ok sy /\
    lu_solve O dbg pivot st x (Some sb) = Ok (sy, solved O).
Proof. exact @linear. Qed.
Print Assumptions C114_linear.

(** Solving with a product of matrices is solving with the one and then with the other. *)
Theorem C114_matrix_product : forall {S} (O : sops S) (opp inv : S -> S),
  field_theory (sc_zero O) (sc_one O) (sc_add O) (sc_mul O) (sc_sub O) opp (sc_div O) inv eq ->
  forall dbg n, tol_default O dbg -> forall p1 p2 p3 st1 st2 st3 a A c C p P s0 s1 x b,
  factor_of O dbg n p1 st1 a A -> factor_of O dbg n p2 st2 c C -> mtyped s0 n n -> mtyped s1 n n ->
  m_times (sc_zero O) (sc_add O) (sc_mul O) dbg s0 s1 a c = Ok p -> factor_of O dbg n p3 st3 p P -> length b = n ->
  exists y z, lu_solve O dbg p1 st1 x (Some b) = Ok (y, solved O) /\ lu_solve O dbg p2 st2 x (Some y) = Ok (z, solved O) /\
    lu_solve O dbg p3 st3 x (Some b) = Ok (z, solved O).
Proof. exact @product_solves. Qed.
Print Assumptions C114_matrix_product.

Example C114_hypotheses : exists st st' st2 st3 p,
  let a := [[q 1; q 2]; [q 3; q 4]] in let c := [[q 2; q 0]; [q 1; q 1]] in
  let E (m : list (list Qc)) i j := nth j (nth i m []) (q 0) in
  field_theory (sc_zero qops) (sc_one qops) (sc_add qops) (sc_mul qops) (sc_sub qops) Qcopp (sc_div qops) Qcinv eq /\
  tol_default qops true /\ factor_of qops true 2 true st a (E a) /\ factor_of qops true 2 false st' a (E a) /\
  factor_of qops true 2 true st2 c (E c) /\ m_times (sc_zero qops) (sc_add qops) (sc_mul qops) true (0, 0) (0, 0) a c = Ok p /\
  factor_of qops true 2 false st3 p (E p) /\ lu_pivots st = [1; 0] /\
  option_map (fun r => map this (fst r)) (match lu_solve qops true true st [] (Some [q 5; q 11]) with Ok r => Some r | _ => None end) =
    Some (map this [q 1; q 2]).
Proof.
  assert (M : forall a b c d : Qc, is_mat 2 2 [[a; b]; [c; d]] (fun i j => nth j (nth i [[a; b]; [c; d]] []) (q 0))).
  { intros. split; [reflexivity|]. intros i Hi. destruct i as [|[|i]]; [| |lia];
      (eexists; split; [reflexivity|]; split; [reflexivity|]; intros j Hj; destruct j as [|[|j]]; [reflexivity..|lia]). }
  do 5 eexists. cbv zeta. split; [exact qops_field|]. split; [apply qops_tol|].
  split; [split; [apply M|]; exists (lu_default qops); split; vm_compute; reflexivity|].
  split; [split; [apply M|]; exists (lu_default qops); split; vm_compute; reflexivity|].
  split; [split; [apply M|]; exists (lu_default qops); split; vm_compute; reflexivity|].
  split; [vm_compute; reflexivity|].
  split; [split; [apply M|]; exists (lu_default qops); split; vm_compute; reflexivity|].
  split; [vm_compute; reflexivity|]. vm_compute. reflexivity.
Qed.
