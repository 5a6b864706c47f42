(** Model of Matrix_Sparse_Row and its accessor (include/core/matrix_sparse_new.hpp), a view of one row of a
    CSR_Data object, for indices of type std::size_t.

    The row refers to the data through an iterator and two spans. They are modelled by positions: an access
    through a row object made before the arrays were changed reads the changed arrays at the old positions.
    That is what the compiled code does as long as no array is moved to new storage; when one is, every use of
    the old row object is undefined behaviour. Not modelled: the release variant of the constant
    operator[] (519-521), which does not parse. *)
From Verif Require Import Base SparseModel CsrDataModel.

(** Data members: matrix_sparse_new.hpp 550-553; the position of iter_row_offset and the common bounds of the two spans. *)
Record row := mkRow { w_row : nat; w_begin : nat; w_end : nat }.

Section Row.
  Context {V : Type}.
  Variables (vzero : V) (M : nat) (dbg : bool).
  Implicit Types (m : smat V) (r : row).

  (** Matrix_Sparse_Row(matrix, row): matrix_sparse_new.hpp 384-388. *)
  Definition w_new m (i : nat) : res row :=
    do b <- vget (rnz m) i;
    do e <- vget (rnz m) (i + 1);
    do _ <- vrange (cidx m) b e;
    do _ <- vrange (vals m) b e;
    Ok (mkRow i b e).

  (** row_offset(), size(), size_non_zero(), row(): matrix_sparse_new.hpp 425-443. *)
  Definition w_offset m r : res nat := vget (rnz m) (w_row r + 1).
  Definition w_size m r : nat := csize m.
  Definition w_size_non_zero m r : res nat :=
    do e <- vget (rnz m) (w_row r + 1);
    do b <- vget (rnz m) (w_row r);
    Ok (e - b).
  Definition w_index m r : nat := c_i_row m (w_row r, w_begin r).

  (** The two spans: matrix_sparse_new.hpp 552-553. *)
  Definition w_columns m r : res (list nat) := vrange (cidx m) (w_begin r) (w_end r).
  Definition w_values m r : res (list V) := vrange (vals m) (w_begin r) (w_end r).

  (** The elements visited from begin() to end(): matrix_sparse_new.hpp 449-483 with the iterator operations 194-263. *)
  Definition w_elements m r : res (list (nat * V)) :=
    do cs <- w_columns m r;
    do vs <- w_values m r;
    Ok (combine cs vs).

  (** at(column) const: matrix_sparse_new.hpp 491-496, which also serves at(column): 504-506. *)
  Definition w_at m r (j : nat) : res V :=
    do cs <- w_columns m r;
    do _ <- ASSERT (negb (vfind cs j =? length cs));
    do vs <- w_values m r;
    vget vs (vfind cs j).

  (** [row.at(column) = v]. *)
  Definition w_at_assign m r (j : nat) (v : V) : res (smat V) :=
    do _ <- w_at m r j;
    do cs <- w_columns m r;
    do vs <- vset (vals m) (w_begin r + vfind cs j) v;
    Ok (mkS (rnz m) (cidx m) vs (csize m)).

  (** Reading [row[column]] through the accessor: matrix_sparse_new.hpp 342-348. Without the assertion a missing element is read
      from the end of the span. *)
  Definition w_read m r (j : nat) : res V :=
    do cs <- w_columns m r;
    do _ <- ASSERT_DEBUG dbg (negb (vfind cs j =? length cs));
    do vs <- w_values m r;
    vget vs (vfind cs j).

  (** [row[column] = v] through the accessor: matrix_sparse_new.hpp 357-362. The row object is replaced. *)
  Definition w_assign m r (j : nat) (v : V) : res (smat V * row) :=
    do x <- c_insert_or_assign vzero M m (w_index m r) j v;
    let m' := fst (fst x) in
    do r' <- w_new m' (w_index m r);
    Ok (m', r').

  (** A sequence of assignments through one row object (client code). *)
  Fixpoint w_assigns (l : list (nat * V)) m r : res (smat V * row) :=
    match l with
    | [] => Ok (m, r)
    | (j, v) :: l => do x <- w_assign m r j v; w_assigns l (fst x) (snd x)
    end.
End Row.
