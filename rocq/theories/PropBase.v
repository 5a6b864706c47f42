(** Property C95: solve() of the solver base classes Direct and Solver_Iterative. *)
From Coq Require Import SpecFloat.
From Verif Require Import Base DenseModel ScalarModel SparseModel LuModel IterModel PropIterLemmas BaseSolverModel PropBaseLemmas.

(** ** C95 *)
(** The vectors are those of solve_system. Full statement: also [exists cd, read r = Ok cd /\ _solve = Ok (y, cd)]. *)
Theorem C95_vectors_partial : forall {S} (O : sops S) M dbg stray,
  (forall fuel lim w a x b y r, base_jacobi O M dbg stray fuel lim w a x b = Ok (y, r) <->
     (exists cd, jacobi_solve O M dbg stray fuel lim w a x b = Ok (y, cd)) /\ r = Dangling) /\
  (forall fuel lim a x b y r, base_gauss_seidel O M dbg stray fuel lim a x b = Ok (y, r) <->
     (exists cd, gauss_seidel_solve O M dbg stray fuel lim a x b = Ok (y, cd)) /\ r = Dangling) /\
  (forall fuel lim rho a x b y r, base_sor O M dbg stray fuel lim rho a x b = Ok (y, r) <->
     (exists cd, sor_solve O M dbg stray fuel lim rho a x b = Ok (y, cd)) /\ r = Dangling) /\
  (forall pivot st x b y r, base_lu O dbg pivot st x b = Ok (y, r) <->
     (exists cd, lu_solve O dbg pivot st x b = Ok (y, cd)) /\ r = Dangling).
Proof. exact @base_vectors. Qed.
Print Assumptions C95_vectors_partial.

Theorem C95_data_refuted : forall {S} (O : sops S) M dbg stray,
  (forall fuel lim w a x b y r, base_jacobi O M dbg stray fuel lim w a x b = Ok (y, r) -> read r = Undef) /\
  (forall fuel lim a x b y r, base_gauss_seidel O M dbg stray fuel lim a x b = Ok (y, r) -> read r = Undef) /\
  (forall fuel lim rho a x b y r, base_sor O M dbg stray fuel lim rho a x b = Ok (y, r) -> read r = Undef) /\
  (forall pivot st x b y r, base_lu O dbg pivot st x b = Ok (y, r) -> read r = Undef).
Proof. exact @base_data. Qed.
Print Assumptions C95_data_refuted.

Example C95_hypotheses : exists y r,
  base_gauss_seidel fops 100 true None 20 (mkLimits 3 9 f_half) ex_sys ex_x0 ex_b = Ok (y, r) /\ length y = 2.
Proof. exact base_example. Qed.
