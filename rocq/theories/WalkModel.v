(** Model of loops over a sparse matrix: the macros FOR_EACH, FOR_ITER and FOR_ITER_REF (macros.hpp 177, 184, 191, 198)
    over the iterators of Matrix_Sparse. The state of a loop is the matrix and whatever else the body changes. *)
From Verif Require Import Base SparseModel DenseModel.

Section Walk.
  Context {V S : Type}.
  Variable stray : option nat.
  Implicit Types (s : smat V * S).

  (** for(it = ...; it != row.end(); ++it) body: macros.hpp 191 and 198; end() is evaluated in every round. *)
  Fixpoint elem_loop (fuel i : nat) (body : eit -> smat V * S -> res (smat V * S)) s (it : eit) : res (smat V * S) :=
    match fuel with
    | 0 => Diverge
    | Datatypes.S f =>
      do e <- row_end stray (fst s) i;
      if eit_eqb it e then Ok s
      else do s' <- body it s; elem_loop f i body s' (fst (e_incr it))
    end.

  Definition for_iter (body : eit -> smat V * S -> res (smat V * S)) (i : nat) s : res (smat V * S) :=
    do b <- row_begin (fst s) i;
    elem_loop (s_nnz (fst s) + 1) i body s b.

  (** for(auto& row : matrix) body: macros.hpp 177 and 184; begin() and end() (matrix_sparse.cpp 136-171) are evaluated
      once. *)
  Fixpoint row_loop (fuel : nat) (body : nat -> smat V * S -> res (smat V * S)) s (i e : nat) : res (smat V * S) :=
    match fuel with
    | 0 => Diverge
    | Datatypes.S f => if i =? e then Ok s else do s' <- body i s; row_loop f body s' (fst (r_incr i)) e
    end.

  Definition for_rows (body : nat -> smat V * S -> res (smat V * S)) s : res (smat V * S) :=
    row_loop (s_rows (fst s) + 1) body s 0 (s_rows (fst s)).

  (** Both loops, as in operator*= (matrix_sparse.cpp 360-361). *)
  Definition walk (body : eit -> smat V * S -> res (smat V * S)) s : res (smat V * S) := for_rows (for_iter body) s.

  (** it = row.end(); while(it != row.begin()) { --it; body }. *)
  Fixpoint back_loop (fuel i : nat) (body : eit -> smat V * S -> res (smat V * S)) s (it : eit) : res (smat V * S) :=
    match fuel with
    | 0 => Diverge
    | Datatypes.S f =>
      do b <- row_begin (fst s) i;
      if eit_eqb it b then Ok s
      else let it' := fst (e_decr it) in do s' <- body it' s; back_loop f i body s' it'
    end.

  Definition for_back (body : eit -> smat V * S -> res (smat V * S)) (i : nat) s : res (smat V * S) :=
    do e <- row_end stray (fst s) i;
    back_loop (s_nnz (fst s) + 1) i body s e.
End Walk.

(** Bodies: reading an entry, and replacing its value. *)
Definition note {V} (it : eit) (s : smat V * list (nat * nat * V)) : res (smat V * list (nat * nat * V)) :=
  do c <- i_column (fst s) it;
  do v <- deref (fst s) it;
  Ok (fst s, snd s ++ [(fst it, c, v)]).

Definition change {V} (f : nat -> nat -> V -> V) (it : eit) (s : smat V * unit) : res (smat V * unit) :=
  do c <- i_column (fst s) it;
  do v <- deref (fst s) it;
  do m <- assign (fst s) it (f (fst it) c v);
  Ok (m, tt).

(** Operators [it[n]] of row iterators (matrix_sparse.hpp 833-846: std::next copies and uses operator+=) and of element
    iterators (matrix_sparse.hpp 1042-1052): the row and the element they designate. *)
Definition r_at (i n : nat) : nat := fst (r_plus_assign i n).
Definition e_at {V} (m : smat V) (it : eit) (n : nat) : res V := deref m (fst it, snd it + n).

(** Iterator differences: matrix_sparse.hpp 1001-1003. *)
Definition e_distance (a b : eit) : nat := snd a - snd b.

(** operator*= and operator/= with a scalar that may be an element: matrix_sparse.hpp 422-425, 434-437. The loop over
    element_value is the one of vectors; [Own k] is the element at position [k] of element_value. *)
Definition s_scale_by {V} (op : V -> V -> V) (m : smat V) (x : sref V) : res (smat V) :=
  do vs <- v_scale op (vals m) x;
  Ok (mkS (rnz m) (cidx m) vs (csize m)).
