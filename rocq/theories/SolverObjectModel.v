(** Client code that uses one Solver object (include/solver/solver.hpp) for several systems. *)
From Verif Require Import Base ScalarModel DenseModel SparseModel LuModel IterModel.

(** The calls of client code: Solver::solve of a sparse and of a dense system (solver.hpp 53-71, 73-90), and
    factorise. [fuel] bounds the loop of the iterative solvers. *)
Inductive scall (S : Type) : Type :=
| SSparse (fuel : nat) (a : smat S) (x b : list S)
| SDense (x : list S) (b : option (list S))
| SFactorise (a : list (list S)).
Arguments SSparse {S}. Arguments SDense {S}. Arguments SFactorise {S}.

Section Object.
  Context {S : Type}.
  Variables (O : sops S) (M : nat) (dbg : bool) (stray : option nat).

  (** Solver has no member to factorise; client code has to reach into its public variant:
      std::get<std::unique_ptr<Solver_LU<0>>>(solver.solver)->factorise(..), solver.hpp 49-51. The exception
      bad_variant_access of a different alternative is Abort. *)
  Definition solver_factorise (s : solver S) (a : list (list S)) : res (solver S * bool) :=
    match s with
    | SolverLU st => do r <- factorise O dbg false st a; Ok (SolverLU (fst r), snd r)
    | SolverLUP st => do r <- factorise O dbg true st a; Ok (SolverLUP (fst r), snd r)
    | _ => Abort
    end.

  Definition solver_step (c : scall S) (s : solver S) : res (solver S) :=
    match c with
    | SSparse fuel a x b => do r <- solve_sparse O M dbg stray fuel s a x b; Ok (fst (fst r))
    | SDense x b => do r <- solve_dense O dbg s x b; Ok (fst (fst r))
    | SFactorise a => do r <- solver_factorise s a; Ok (fst r)
    end.

  Definition solver_run (cs : list (scall S)) (s : solver S) : res (solver S) := forM cs solver_step s.
End Object.
