(** The iterative solvers and the choice of a solver: src/solver/solver_fixed_point.cpp,
    src/solver/solver.cpp, include/solver/solver_fixed_point.hpp, solver_iterative.hpp, solver.hpp and
    solver_utilities.hpp.

    Simplified: the vectors of a system are distinct objects, the times of the convergence data are left
    out, std::pow(x, 2) is x * x, and the row counter of compute_residual (an int) does not overflow. *)
From Coq Require Import ZArith.
From Verif Require Import Base DenseModel ScalarModel SparseModel LuModel.

(** Convergence_Criteria: solver_utilities.hpp 152-170. *)
Record limits (S : Type) : Type := mkLimits {
  min_iterations : nat;
  max_iteration : nat;
  tolerance : S
}.
Arguments mkLimits {S}. Arguments min_iterations {S}. Arguments max_iteration {S}. Arguments tolerance {S}.

(** Solver_Type: solver_utilities.hpp 42-48. *)
Inductive solver_type : Set :=
| lower_upper_factorisation | jacobi | gauss_seidel | successive_over_relaxation | unknown.

(** Solver_Config: solver_utilities.hpp 54-77. *)
Record config (S : Type) : Type := mkConfig {
  cf_type : solver_type;
  cf_pivot : bool;
  cf_factor_tolerance : S;
  cf_minimum_iterations : nat;
  cf_maximum_iterations : nat;
  cf_convergence_tolerance : S;
  cf_relaxation : S
}.
Arguments mkConfig {S}. Arguments cf_type {S}. Arguments cf_pivot {S}. Arguments cf_factor_tolerance {S}.
Arguments cf_minimum_iterations {S}. Arguments cf_maximum_iterations {S}.
Arguments cf_convergence_tolerance {S}. Arguments cf_relaxation {S}.

(** The member of Solver, solver.hpp 49-51, with the data of each solver: the direct solvers,
    Solver_Fixed_Point_Jacobi_Data (solver_fixed_point.hpp 31-33), Solver_Data (solver_iterative.hpp 36-38),
    Solver_Fixed_Point_Sor_Data (solver_fixed_point.hpp 35-37), std::nullptr_t. *)
Inductive solver (S : Type) : Type :=
| SolverLU (st : lu_state S)
| SolverLUP (st : lu_state S)
| SolverJacobi (lim : limits S) (working : list S)
| SolverGaussSeidel (lim : limits S)
| SolverSor (lim : limits S) (relaxation : S)
| SolverNull.
Arguments SolverLU {S}. Arguments SolverLUP {S}. Arguments SolverJacobi {S}.
Arguments SolverGaussSeidel {S}. Arguments SolverSor {S}. Arguments SolverNull {S}.

Section Iter.
  Context {S : Type}.
  Variables (O : sops S) (M : nat) (dbg : bool) (stray : option nat).
  Implicit Types (a : smat S) (x w b : list S) (cd : conv_data S) (lim : limits S).

  (** is_converged: solver_utilities.hpp 163-169. *)
  Definition is_converged lim cd : bool :=
    if cd_iteration cd <? min_iterations lim then false
    else if max_iteration lim <? cd_iteration cd then true
    else if sc_lt O (tolerance lim) (cd_residual_normalised cd) then false
    else if sc_lt O (sc_mul O (sc_of_Z O 10) (tolerance lim)) (cd_residual_max_normalised cd) then false
    else true.

  (** One row of compute_residual: solver_utilities.hpp 245-254. *)
  Definition residual_row a x b (i : nat) (s : S * S) : res (S * S) :=
    do _ <- row_check dbg a i;
    do es <- row_entries stray a i;
    do r <- forM es (fun e s => do xj <- vget x (fst e); Ok (sc_add O s (sc_mul O (snd e) xj))) (sc_zero O);
    do bi <- vget b i;
    let sq := sc_mul O (sc_sub O r bi) (sc_sub O r bi) in
    Ok (sc_add O (fst s) sq, std_max O (snd s) sq).

  (** compute_residual: solver_utilities.hpp 233-258. *)
  Definition compute_residual a x b : res (S * S) :=
    do _ <- ASSERT_DEBUG dbg (negb (length x =? 0) && negb (length b =? 0));
    do _ <- ASSERT_DEBUG dbg (s_rows a =? length x);
    do _ <- ASSERT_DEBUG dbg (csize a =? length b);
    do s <- FOR (s_rows a) (residual_row a x b) (sc_zero O, sc_zero O);
    Ok (sc_sqrt O (sc_div O (fst s) (sc_of_Z O (Z.of_nat (length x)))), sc_sqrt O (snd s)).

  (** Convergence_Data::update: solver_utilities.hpp 195-209. *)
  Definition update a x b cd : res (conv_data S) :=
    do r <- compute_residual a x b;
    let r0 := if cd_iteration cd =? 0 then fst r else cd_residual_0 cd in
    let rm0 := if cd_iteration cd =? 0 then snd r else cd_residual_max_0 cd in
    Ok (mkConv (cd_converged cd) (if cd_iteration cd =? M then 0 else cd_iteration cd + 1)
          (fst r) r0 (sc_div O (fst r) r0) (snd r) rm0 (sc_div O (snd r) rm0)).

  (** One row of a sweep: solver_fixed_point.cpp 34-38, 47-51. [x] is None when x_vector and x_update are the
      same object. *)
  Definition sweep_row a (x : option (list S)) b (omega : S) (i : nat) (u : list S) : res (list S) :=
    do _ <- row_check dbg a i;
    do es <- row_entries stray a i;
    do offs <- forM es (fun e s =>
         if fst e =? i then Ok s
         else do xj <- vget (other_of u x) (fst e); Ok (sc_add O s (sc_mul O (snd e) xj))) (sc_zero O);
    do bi <- vget b i;
    do d <- s_subscript_const dbg stray a i i;
    do xi <- vget (other_of u x) i;
    vset u i (sc_add O (sc_div O (sc_mul O omega (sc_sub O bi offs)) d)
                       (sc_mul O (sc_sub O (sc_one O) omega) xi)).

  (** forward_sweep: solver_fixed_point.cpp 29-40. *)
  Definition forward_sweep a (x : option (list S)) (u : list S) b (omega : S) : res (list S) :=
    FOR (s_rows a) (sweep_row a x b omega) u.

  (** backward_sweep: solver_fixed_point.cpp 42-53. The index starts at the largest std::size_t, where the
      loop ends, when there is no row. *)
  Definition backward_sweep a (x : option (list S)) (u : list S) b (omega : S) : res (list S) :=
    forM (rev (seq 0 (s_rows a))) (sweep_row a x b omega) u.

  (** The loop of the three solve_system functions: solver_fixed_point.cpp 67-72, 87-91, 109-113. The state
      is x_vector and the working vector, [step] is the body without the update. *)
  Fixpoint solve_loop (step : list S * list S -> res (list S * list S)) (fuel : nat) lim a b
      (s : list S * list S) cd {struct fuel} : res (list S * list S * conv_data S) :=
    match fuel with
    | 0 => Diverge
    | Datatypes.S fuel' =>
        if is_converged lim cd then Ok (s, cd)
        else
          do s <- step s;
          do cd <- update a (fst s) b cd;
          solve_loop step fuel' lim a b s cd
    end.

  (** The bodies of the loops: solver_fixed_point.cpp 69-70, 89, 111. *)
  Definition jacobi_step a b (s : list S * list S) : res (list S * list S) :=
    do w <- forward_sweep a (Some (fst s)) (snd s) b (sc_one O);
    Ok (w, fst s).

  Definition gauss_seidel_step a b (s : list S * list S) : res (list S * list S) :=
    do x <- forward_sweep a None (fst s) b (sc_one O);
    Ok (x, snd s).

  (** The literal 1.5. *)
  Definition sor_factor : S := sc_div O (sc_of_Z O 3) (sc_of_Z O 2).

  Definition sor_step a b (s : list S * list S) : res (list S * list S) :=
    do x <- forward_sweep a None (fst s) b sor_factor;
    Ok (x, snd s).

  (** solve_system of the Jacobi solver: solver_fixed_point.cpp 63-74. Returns x_vector, the working vector
      and the convergence data. *)
  Definition jacobi_solve fuel lim (working : list S) a x b : res (list S * list S * conv_data S) :=
    solve_loop (jacobi_step a b) fuel lim a b (x, vresize working (s_rows a) (sc_zero O)) (conv_default O).

  (** solve_system of the Gauss-Seidel solver: solver_fixed_point.cpp 84-93. *)
  Definition gauss_seidel_solve fuel lim a x b : res (list S * conv_data S) :=
    do r <- solve_loop (gauss_seidel_step a b) fuel lim a b (x, []) (conv_default O);
    Ok (fst (fst r), snd r).

  (** solve_system of the SOR solver: solver_fixed_point.cpp 106-116. The configured relaxation is not
      used. *)
  Definition sor_solve fuel lim (relaxation : S) a x b : res (list S * conv_data S) :=
    do r <- solve_loop (sor_step a b) fuel lim a b (x, []) (conv_default O);
    Ok (fst (fst r), snd r).

  (** initialise_solver: solver_fixed_point.cpp 55-61, 76-82, 95-104. *)
  Definition limits_of (c : config S) : limits S :=
    mkLimits (cf_minimum_iterations c) (cf_maximum_iterations c) (cf_convergence_tolerance c).

  (** build_solver: solver.cpp 26-47; the constructors of the direct solvers call lu_initialise. *)
  Definition build_solver (c : config S) : res (solver S) :=
    match cf_type c with
    | lower_upper_factorisation =>
        if cf_pivot c then
          do st <- lu_initialise true (lu_default O) true (cf_pivot c) (cf_factor_tolerance c);
          Ok (SolverLUP st)
        else
          do st <- lu_initialise false (lu_default O) true (cf_pivot c) (cf_factor_tolerance c);
          Ok (SolverLU st)
    | jacobi => Ok (SolverJacobi (limits_of c) [])
    | gauss_seidel => Ok (SolverGaussSeidel (limits_of c))
    | successive_over_relaxation => Ok (SolverSor (limits_of c) (cf_relaxation c))
    | unknown => Abort
    end.

  (** Solver_Config(): solver_utilities.hpp 54-77. *)
  Definition config_default : config S :=
    mkConfig unknown true (default_relative O) 0 0 (sc_zero O) sor_factor.

  (** get_config: direct_lower_upper_factorisation.hpp 95-101, of the solver with pivoting [pivot]. *)
  Definition lu_get_config (pivot : bool) (st : lu_state S) : config S :=
    mkConfig lower_upper_factorisation pivot (lu_tolerance st) (cf_minimum_iterations config_default)
      (cf_maximum_iterations config_default) (cf_convergence_tolerance config_default) (cf_relaxation config_default).

  (** std::variant::index(): the position of the alternative held. *)
  Definition solver_index (s : solver S) : nat :=
    match s with
    | SolverLU _ => 0 | SolverLUP _ => 1 | SolverJacobi _ _ => 2 | SolverGaussSeidel _ => 3
    | SolverSor _ _ => 4 | SolverNull => 5
    end.

  (** std::get<std::unique_ptr<..>>(solver)->solve_system(..). The exception bad_variant_access of a
      different alternative is Abort. *)
  Definition get_jacobi fuel (s : solver S) a x b : res (solver S * list S * conv_data S) :=
    match s with
    | SolverJacobi lim w =>
        do r <- jacobi_solve fuel lim w a x b;
        Ok (SolverJacobi lim (snd (fst r)), fst (fst r), snd r)
    | _ => Abort
    end.
  Definition get_gauss_seidel fuel (s : solver S) a x b : res (solver S * list S * conv_data S) :=
    match s with
    | SolverGaussSeidel lim =>
        do r <- gauss_seidel_solve fuel lim a x b; Ok (s, fst r, snd r)
    | _ => Abort
    end.
  Definition get_sor fuel (s : solver S) a x b : res (solver S * list S * conv_data S) :=
    match s with
    | SolverSor lim w =>
        do r <- sor_solve fuel lim w a x b; Ok (s, fst r, snd r)
    | _ => Abort
    end.
  Definition get_lu (s : solver S) x (b : option (list S)) : res (solver S * list S * conv_data S) :=
    match s with
    | SolverLU st => do r <- lu_solve O dbg false st x b; Ok (s, fst r, snd r)
    | _ => Abort
    end.
  Definition get_lup (s : solver S) x (b : option (list S)) : res (solver S * list S * conv_data S) :=
    match s with
    | SolverLUP st => do r <- lu_solve O dbg true st x b; Ok (s, fst r, snd r)
    | _ => Abort
    end.

  (** Solver::solve of a sparse system: solver.hpp 53-71. The cases 0 and 1 fall through to 2 after writing
      a message. *)
  Definition solve_sparse fuel (s : solver S) a x b : res (solver S * list S * conv_data S) :=
    match solver_index s with
    | 0 | 1 | 2 => get_jacobi fuel s a x b
    | 3 => get_gauss_seidel fuel s a x b
    | 4 => get_sor fuel s a x b
    | _ => Abort
    end.

  (** Solver::solve of a dense system: solver.hpp 73-90. The cases 2, 3 and 4 fall through to the default. *)
  Definition solve_dense (s : solver S) x (b : option (list S)) : res (solver S * list S * conv_data S) :=
    match solver_index s with
    | 0 => get_lu s x b
    | 1 => get_lup s x b
    | _ => Abort
    end.
End Iter.
