(** Model of the functions solve of the solver base classes, which return a reference to the object their own
    solve_system call returned by value. *)
From Verif Require Import Base DenseModel ScalarModel SparseModel LuModel IterModel.

(** A reference of type [const Convergence_Data&]: to a living object, or to one whose lifetime has ended. *)
Inductive reference (A : Type) := Live (v : A) | Dangling.
Arguments Live {A}. Arguments Dangling {A}.

(** Reading through a reference; undefined once the lifetime of the object has ended. *)
Definition read {A : Type} (r : reference A) : res A := match r with Live v => Ok v | Dangling => Undef end.

(** [return f(..);] in a function returning a reference, where [f] returns a value: the temporary ends with the
    return statement. *)
Definition return_temporary {A : Type} (v : A) : reference A := Dangling.

Section Base.
  Context {S : Type}.
  Variable O : sops S.
  Variables (M : nat) (dbg : bool) (stray : option nat).

  (** Solver_Iterative::solve of the Jacobi solver: solver_iterative.hpp 53-56. *)
  Definition base_jacobi fuel lim working a x b : res (list S * list S * reference (conv_data S)) :=
    do r <- jacobi_solve O M dbg stray fuel lim working a x b;
    Ok (fst r, return_temporary (snd r)).

  (** Solver_Iterative::solve of the Gauss-Seidel solver: solver_iterative.hpp 53-56. *)
  Definition base_gauss_seidel fuel lim a x b : res (list S * reference (conv_data S)) :=
    do r <- gauss_seidel_solve O M dbg stray fuel lim a x b;
    Ok (fst r, return_temporary (snd r)).

  (** Solver_Iterative::solve of the SOR solver: solver_iterative.hpp 53-56. *)
  Definition base_sor fuel lim relaxation a x b : res (list S * reference (conv_data S)) :=
    do r <- sor_solve O M dbg stray fuel lim relaxation a x b;
    Ok (fst r, return_temporary (snd r)).

  (** Direct::solve: direct.hpp 82-84. *)
  Definition base_lu (pivot : bool) (st : lu_state S) x b : res (list S * reference (conv_data S)) :=
    do r <- lu_solve O dbg pivot st x b;
    Ok (fst r, return_temporary (snd r)).
End Base.
