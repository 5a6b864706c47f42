(** Model of the iterative solvers called with the constant vector as the unknown, solve_system(a, b, b):
    src/solver/solver_fixed_point.cpp. Every read of b_vector sees the current contents of x_vector. *)
From Verif Require Import Base ScalarModel SparseModel LuModel IterModel.

Section InPlace.
  Context {S : Type}.
  Variables (O : sops S) (M : nat) (dbg : bool) (stray : option nat).
  Implicit Types (a : smat S) (x : list S) (lim : limits S) (cd : conv_data S).

  (** forward_sweep(a, x, x, x, omega): solver_fixed_point.cpp 29-40. *)
  Definition own_sweep a (omega : S) x : res (list S) :=
    FOR (s_rows a) (fun i u => sweep_row O dbg stray a None u omega i u) x.

  (** The bodies of the loops: solver_fixed_point.cpp 69-70, 89, 111. *)
  Definition own_jacobi_step a (s : list S * list S) : res (list S * list S) :=
    do w <- forward_sweep O dbg stray a (Some (fst s)) (snd s) (fst s) (sc_one O);
    Ok (w, fst s).

  Definition own_gauss_seidel_step a (s : list S * list S) : res (list S * list S) :=
    do x <- own_sweep a (sc_one O) (fst s);
    Ok (x, snd s).

  Definition own_sor_step a (s : list S * list S) : res (list S * list S) :=
    do x <- own_sweep a (sor_factor O) (fst s);
    Ok (x, snd s).

  (** The loops: solver_fixed_point.cpp 67-72, 87-91, 109-113. *)
  Fixpoint own_loop (step : list S * list S -> res (list S * list S)) (fuel : nat) lim a (s : list S * list S) cd :
    res (list S * list S * conv_data S) :=
    match fuel with
    | 0 => Diverge
    | Datatypes.S fuel' =>
        if is_converged O lim cd then Ok (s, cd)
        else
          do s <- step s;
          do cd <- update O M dbg stray a (fst s) (fst s) cd;
          own_loop step fuel' lim a s cd
    end.

  (** solve_system(a, b, b) of the three solvers: solver_fixed_point.cpp 63-74, 84-93, 106-116. *)
  Definition own_jacobi fuel lim (working : list S) a x : res (list S * conv_data S) :=
    do r <- own_loop (own_jacobi_step a) fuel lim a (x, vresize working (s_rows a) (sc_zero O)) (conv_default O);
    Ok (fst (fst r), snd r).

  Definition own_gauss_seidel fuel lim a x : res (list S * conv_data S) :=
    do r <- own_loop (own_gauss_seidel_step a) fuel lim a (x, []) (conv_default O);
    Ok (fst (fst r), snd r).

  Definition own_sor fuel lim a x : res (list S * conv_data S) :=
    do r <- own_loop (own_sor_step a) fuel lim a (x, []) (conv_default O);
    Ok (fst (fst r), snd r).
End InPlace.
