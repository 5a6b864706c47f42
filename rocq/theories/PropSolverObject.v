(** Property C108: Solver objects that are used again. [seen] is what the caller of solve gets, the solution
    vector and the convergence data; [last_factorise] keeps the last call of factorise only. *)
From Coq Require Import ZArith SpecFloat.
From Verif Require Import Base DenseModel ScalarModel SparseModel LuModel PropLuLemmas IterModel PropIterLemmas
  SolverObjectModel PropSolverObjectLemmas.

(** After any history a solve and a factorisation do what they do on a new solver of the same configuration on
    which only the last factorisation was made. *)
Theorem C108_history : forall {S} (O : sops S) M dbg stray cs c s0 s,
  build_solver O c = Ok s0 -> solver_run O M dbg stray cs s0 = Ok s ->
  exists t, solver_run O M dbg stray (last_factorise cs) s0 = Ok t /\
    (forall fuel a x b, seen (solve_sparse O M dbg stray fuel s a x b) = seen (solve_sparse O M dbg stray fuel t a x b)) /\
    (forall x b, seen (solve_dense O dbg s x b) = seen (solve_dense O dbg t x b)) /\
    (forall m, (do r <- solver_factorise O dbg s m; Ok (snd r)) = (do r <- solver_factorise O dbg s0 m; Ok (snd r))).
Proof. exact @reuse. Qed.
Print Assumptions C108_history.

(** The initial value of the solution vector of a direct solve is irrelevant, its size included. *)
Theorem C108_initial_value : forall {S} (O : sops S) dbg pivot (st : lu_state S) b x y,
  lu_factorised st = true -> length b = m_rows (lu_matrix st) ->
  lu_solve O dbg pivot st x (Some b) = lu_solve O dbg pivot st y (Some b).
Proof. exact @initial_value. Qed.
Print Assumptions C108_initial_value.

(** "This class serves as an 'all in one' solver class for both sparse and dense systems": without reaching into
    the object for factorise no dense system is ever solved. *)
Theorem C108_dense_refuted : forall {S} (O : sops S) M dbg stray cs c s0 s,
  cf_type c = lower_upper_factorisation -> build_solver O c = Ok s0 ->
  no_factorise cs -> solver_run O M dbg stray cs s0 = Ok s ->
  forall x b, (dbg = true /\ b <> [] -> solve_dense O dbg s x (Some b) = Abort) /\
              (dbg = false \/ b = [] -> solve_dense O dbg s x (Some b) = Ok (s, x, conv_default O)).
Proof. exact @never_factorised. Qed.
Print Assumptions C108_dense_refuted.

Definition ex_lu_config : config f64 := mkConfig lower_upper_factorisation true f_half 0 9 f_half f_half.
Definition ex_jacobi_config : config f64 := mkConfig jacobi true f_half 0 9 f_half f_half.
Definition ex_m1 : list (list f64) := [[fz 4; fz 2]; [fz 2; fz 3]].
Definition ex_m2 : list (list f64) := [[fz 1; fz 2; fz 0]; [fz 2; fz 1; fz 0]; [fz 0; fz 0; fz 1]].

Example C108_history_direct : exists s0 s,
  build_solver fops ex_lu_config = Ok s0 /\
  solver_run fops 100 true None [SFactorise ex_m2; SDense [] (Some [fz 3; fz 3; fz 1]); SFactorise ex_m1;
                                 SDense [fz 7] (Some [fz 6; fz 5])] s0 = Ok s /\
  last_factorise [SFactorise ex_m2; SDense [] (Some [fz 3; fz 3; fz 1]); SFactorise ex_m1;
                  SDense [fz 7] (Some [fz 6; fz 5])] = [SFactorise ex_m1] /\
  match seen (solve_dense fops true s [] (Some [fz 6; fz 5])) with
  | Ok r => fst r = [fz 1; fz 1] /\ cd_converged (snd r) = true
  | _ => False
  end.
Proof.
  do 2 eexists. split; [reflexivity|]. split; [vm_compute; reflexivity|]. split; [reflexivity|].
  vm_compute. split; reflexivity.
Qed.

Example C108_history_jacobi : exists s0 s,
  build_solver fops ex_jacobi_config = Ok s0 /\
  solver_run fops 100 true None [SSparse 20 ex_sys [fz 5; fz 7] ex_b] s0 = Ok s /\ s <> s0 /\
  match seen (solve_sparse fops 100 true None 20 s ex_sys ex_x0 ex_b) with
  | Ok r => cd_iteration (snd r) = 2
  | _ => False
  end.
Proof.
  do 2 eexists. split; [reflexivity|]. split; [vm_compute; reflexivity|]. split; [discriminate|].
  vm_compute. reflexivity.
Qed.

Example C108_initial_value_ex : exists st,
  factorise fops true true (lu_default fops) ex_m1 = Ok (st, true) /\ lu_factorised st = true /\
  length [fz 6; fz 5] = m_rows (lu_matrix st) /\
  lu_solve fops true true st [fz 9; fz 8; fz 7] (Some [fz 6; fz 5]) = lu_solve fops true true st [] (Some [fz 6; fz 5]).
Proof. eexists. split; [vm_compute; reflexivity|]. split; [reflexivity|]. split; [reflexivity|]. vm_compute. reflexivity. Qed.

Example C108_dense_ex : exists s0 s,
  build_solver fops ex_lu_config = Ok s0 /\ no_factorise [SDense [fz 1] (Some [fz 2])] /\
  solver_run fops 100 false None [SDense [fz 1] (Some [fz 2])] s0 = Ok s /\
  solve_dense fops false s [fz 1] (Some [fz 2]) = Ok (s, [fz 1], conv_default fops).
Proof.
  do 2 eexists. split; [reflexivity|]. split; [intros m [E|[]]; discriminate|].
  split; [vm_compute; reflexivity|]. vm_compute. reflexivity.
Qed.
