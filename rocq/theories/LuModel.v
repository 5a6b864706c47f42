(** The direct solver: include/solver/direct_lower_upper_factorisation.hpp, and the convergence data of
    include/solver/solver_utilities.hpp.

    Only the dynamic specialisation ([_size] = 0) is modelled: Vector_Dense of static size has no resize, so
    solve_system of a static solver does not compile. *)
From Coq Require Import ZArith.
From Verif Require Import Base DenseModel ScalarModel.

(** Convergence_Data: solver_utilities.hpp 97-129, without the times. *)
Record conv_data (S : Type) : Type := mkConv {
  cd_converged : bool;
  cd_iteration : nat;
  cd_residual : S;
  cd_residual_0 : S;
  cd_residual_normalised : S;
  cd_residual_max : S;
  cd_residual_max_0 : S;
  cd_residual_max_normalised : S
}.
Arguments mkConv {S}. Arguments cd_converged {S}. Arguments cd_iteration {S}. Arguments cd_residual {S}.
Arguments cd_residual_0 {S}. Arguments cd_residual_normalised {S}. Arguments cd_residual_max {S}.
Arguments cd_residual_max_0 {S}. Arguments cd_residual_max_normalised {S}.

(** std::swap(v[i], v[j]). *)
Definition vswap {A : Type} (l : list A) (i j : nat) : res (list A) :=
  do x <- vget l i; do y <- vget l j; do l <- vset l i y; vset l j x.

(** The members of Direct_Lower_Upper_Factorisation: direct_lower_upper_factorisation.hpp 104-109. *)
Record lu_state (S : Type) : Type := mkLu {
  lu_factorised : bool;
  lu_tolerance : S;
  lu_matrix : list (list S);
  lu_pivots : list nat
}.
Arguments mkLu {S}. Arguments lu_factorised {S}. Arguments lu_tolerance {S}. Arguments lu_matrix {S}.
Arguments lu_pivots {S}.

Section Lu.
  Context {S : Type}.
  Variables (O : sops S) (dbg pivot : bool).
  Implicit Types (m a : list (list S)) (x b : list S) (st : lu_state S).

  (** Convergence_Data(): solver_utilities.hpp 97-129. *)
  Definition conv_default : conv_data S :=
    mkConv false 0 (sc_max O) (sc_max O) (sc_max O) (sc_max O) (sc_max O) (sc_max O).

  (** Direct_Lower_Upper_Factorisation(): direct_lower_upper_factorisation.hpp 52, 104-109. *)
  Definition lu_default : lu_state S := mkLu false (default_absolute O) [] [].

  (** initialise_solver: direct_lower_upper_factorisation.hpp 67-71; [type_ok] is "the configuration names this solver type". *)
  Definition lu_initialise (st : lu_state S) (type_ok config_pivot : bool) (factor_tolerance : S)
    : res (lu_state S) :=
    do _ <- ASSERT type_ok;
    do _ <- ASSERT (Bool.eqb config_pivot pivot);
    Ok (mkLu (lu_factorised st) factor_tolerance (lu_matrix st) (lu_pivots st)).

  (** The search for the pivot row: direct_lower_upper_factorisation.hpp 161-169. *)
  Definition lu_search m (i_row : nat) : res nat :=
    do r <- forM (seq i_row (m_cols m - i_row)) (fun i_sweep (s : S * nat) =>
         do e <- mget m i_sweep i_row;
         do g <- is_nearly_greater O dbg (sc_abs O e) (fst s) (default_relative O) (default_absolute O);
         Ok (if g then (sc_abs O e, i_sweep) else s)) (sc_zero O, i_row);
    Ok (snd r).

  (** Pivoting: direct_lower_upper_factorisation.hpp 158-176. *)
  Definition lu_pivot m (p : list nat) (i_row : nat) : res (list (list S) * list nat) :=
    if pivot then
      do i_max <- lu_search m i_row;
      if i_max =? i_row then Ok (m, p)
      else do p <- vswap p i_row i_max; do m <- vswap m i_row i_max; Ok (m, p)
    else Ok (m, p).

  (** The elimination of one row: direct_lower_upper_factorisation.hpp 183-187. *)
  Definition lu_eliminate_row m (i_row i_sweep : nat) : res (list (list S)) :=
    do e <- mget m i_sweep i_row;
    do d <- mget m i_row i_row;
    do m <- mset m i_sweep i_row (sc_div O e d);
    forM (seq (i_row + 1) (m_cols m - (i_row + 1))) (fun j m =>
      do v <- mget m i_sweep j;
      do l <- mget m i_sweep i_row;
      do u <- mget m i_row j;
      mset m i_sweep j (sc_sub O v (sc_mul O l u))) m.

  (** The decomposition loop: direct_lower_upper_factorisation.hpp 182-188. *)
  Definition lu_eliminate m (i_row : nat) : res (list (list S)) :=
    forM (seq (i_row + 1) (m_rows m - (i_row + 1))) (fun i m => lu_eliminate_row m i_row i) m.

  (** One round of the main loop: direct_lower_upper_factorisation.hpp 155-189. The first component is false once the function has returned. *)
  Definition lu_round (tolerance : S) (i_row : nat) (s : bool * list (list S) * list nat)
    : res (bool * list (list S) * list nat) :=
    let '(go, m, p) := s in
    if go then
      do mp <- lu_pivot m p i_row;
      let '(m, p) := mp in
      do d <- mget m i_row i_row;
      if sc_lt O (sc_abs O d) tolerance then Ok (false, m, p)
      else do m <- lu_eliminate m i_row; Ok (true, m, p)
    else Ok s.

  (** factorise: direct_lower_upper_factorisation.hpp 142-193. *)
  Definition factorise st a : res (lu_state S * bool) :=
    let p := if pivot then seq 0 (m_cols a) else lu_pivots st in
    do r <- FOR (m_rows a) (lu_round (lu_tolerance st)) (true, a, p);
    let '(ok, m, p) := r in
    Ok (mkLu ok (lu_tolerance st) m p, ok).

  (** The forward substitution: direct_lower_upper_factorisation.hpp 214-219. [None] for [b] is a constant vector that is the solution vector. *)
  Definition lu_forward st (b : option (list S)) x : res (list S) :=
    FOR (m_rows (lu_matrix st)) (fun i x =>
      do k <- (if pivot then vget (lu_pivots st) i else Ok i);
      do e <- vget (other_of x b) k;
      do x <- vset x i e;
      FOR i (fun j x =>
        do v <- vget x i; do l <- mget (lu_matrix st) i j; do y <- vget x j;
        vset x i (sc_sub O v (sc_mul O l y))) x) x.

  (** The backward substitution: direct_lower_upper_factorisation.hpp 221-225. The index wraps to the largest std::size_t after 0, also when the
      matrix is empty. *)
  Definition lu_backward st x : res (list S) :=
    let m := lu_matrix st in
    forM (rev (seq 0 (m_rows m))) (fun i x =>
      do x <- forM (seq (i + 1) (m_cols m - (i + 1))) (fun j x =>
           do v <- vget x i; do u <- mget m i j; do y <- vget x j;
           vset x i (sc_sub O v (sc_mul O u y))) x;
      do v <- vget x i; do d <- mget m i i; vset x i (sc_div O v d)) x.

  (** solve_system: direct_lower_upper_factorisation.hpp 203-229. Returns the solution vector and the convergence data. *)
  Definition lu_solve st x (b : option (list S)) : res (list S * conv_data S) :=
    do _ <- ASSERT_DEBUG dbg (length (other_of x b) =? m_rows (lu_matrix st));
    if lu_factorised st then
      let x := vresize x (length (other_of x b)) (sc_zero O) in
      do x <- lu_forward st b x;
      do x <- lu_backward st x;
      Ok (x, mkConv true 1 (sc_max O) (sc_max O) (sc_max O) (sc_max O) (sc_max O) (sc_max O))
    else Ok (x, conv_default).
End Lu.
