(** Model of several Matrix_Sparse_Row objects of one CSR_Data object (include/core/matrix_sparse_new.hpp), with the
    arrays they point into: a row object remembers the number of the array its iterator and its spans point into, and
    using one of them after that array has been replaced is undefined behaviour. A moved-from object is [None]: no
    data, no iterator, empty spans. As in RowModel.v a span into an array that was changed in place shows what is now
    there. *)
From Verif Require Import Base SparseModel CsrDataModel RowModel StorageModel.

(** Data members: matrix_sparse_new.hpp 550-553; the row of RowModel.v and the arrays of iter_row_offset, i_column and
    value. *)
Record rowobj := mkRO { ro_row : row; ro_off : nat; ro_col : nat; ro_val : nat }.

Section RowObjects.
  Context {V : Type}.
  Variables (grow : nat -> nat -> nat) (vzero : V) (M : nat) (dbg : bool).
  Implicit Types (x : @smatrix V) (o : option rowobj).

  (** The iterator and the spans may be used. *)
  Definition off_live x (r : rowobj) : bool := ro_off r =? sto_block (sm_rnz x).
  Definition span_live x (r : rowobj) : bool :=
    (ro_col r =? sto_block (sm_col x)) && (ro_val r =? sto_block (sm_val x)).

  (** Matrix_Sparse_Row(matrix, row): matrix_sparse_new.hpp 384-388. *)
  Definition ro_new x (i : nat) : res (option rowobj) :=
    do r <- w_new (sm_matrix x) i;
    Ok (Some (mkRO r (sto_block (sm_rnz x)) (sto_block (sm_col x)) (sto_block (sm_val x)))).

  (** size(): matrix_sparse_new.hpp 431, through a null pointer for a moved-from object. *)
  Definition ro_size x o : res nat :=
    match o with None => Undef | Some r => Ok (w_size (sm_matrix x) (ro_row r)) end.

  (** size_non_zero(): matrix_sparse_new.hpp 437. *)
  Definition ro_size_non_zero x o : res nat :=
    match o with
    | None => Undef
    | Some r => if off_live x r then w_size_non_zero (sm_matrix x) (ro_row r) else Undef
    end.

  (** row(): matrix_sparse_new.hpp 443. *)
  Definition ro_index x o : res nat :=
    match o with
    | None => Undef
    | Some r => if off_live x r then Ok (w_index (sm_matrix x) (ro_row r)) else Undef
    end.

  (** The elements visited from begin() to end(): matrix_sparse_new.hpp 449-483. *)
  Definition ro_elements x o : res (list (nat * V)) :=
    match o with
    | None => Ok []
    | Some r => if span_live x r then w_elements (sm_matrix x) (ro_row r) else Undef
    end.

  (** at(column): matrix_sparse_new.hpp 491-506; the message of the assertion asks for the row. *)
  Definition ro_at x o (j : nat) : res V :=
    match o with
    | None => Undef
    | Some r =>
        if span_live x r then
          do cs <- w_columns (sm_matrix x) (ro_row r);
          if vfind cs j =? length cs then do _ <- ro_index x o; Abort
          else w_at (sm_matrix x) (ro_row r) j
        else Undef
    end.

  (** insert_or_assign(data, row, column, value): matrix_sparse_data.hpp 211-238 and 256-263; [c_insert_or_assign] for
      the elements, here the arrays: resize grows the offsets, an insertion the other two. *)
  Definition sc_insert_or_assign x (i j : nat) (v : V) : res smatrix :=
    let m := sm_matrix x in
    do r <- c_insert_or_assign vzero M m i j v;
    let '(m', _, b) := r in
    let a1 := if c_size_row m <=? i then fit grow (i + 1 + 1) (sm_rnz x) else sm_rnz x in
    let a := if c_size_column m <=? j then fit grow (Nat.max (c_size_row m) (i + 1) + 1) a1 else a1 in
    if b then Ok (mkSM m' a (fit grow (length (cidx m) + 1) (sm_col x)) (fit grow (length (vals m) + 1) (sm_val x)))
    else Ok (mkSM m' a (sm_col x) (sm_val x)).

  (** [row[column] = v] through the accessor: matrix_sparse_new.hpp 357-362. *)
  Definition ro_assign x o (j : nat) (v : V) : res (smatrix * option rowobj) :=
    do i <- ro_index x o;
    do x' <- sc_insert_or_assign x i j v;
    do o' <- ro_new x' i;
    Ok (x', o').

  (** Client code with a list of row objects. *)
  Inductive rcmd :=
  | RNew (i : nat)                        (* a row object of row i, appended to the list *)
  | RCopy (k : nat)                       (* a copy of object k, appended: matrix_sparse_new.hpp 404-408 *)
  | RMove (k : nat)                       (* an object made from std::move of object k, appended: 415-419 *)
  | RMoveTo (k l : nat)                   (* object k = std::move(object l): 539-547 *)
  | RSet (k j : nat) (v : V).             (* object k [j] = v *)

  (** matrix_sparse_new.hpp 357-362, 384-419, 539-547. *)
  Definition ro_step (c : rcmd) (s : smatrix * list (option rowobj)) : res (smatrix * list (option rowobj)) :=
    let '(x, os) := s in
    match c with
    | RNew i => do o <- ro_new x i; Ok (x, os ++ [o])
    | RCopy k => do o <- vget os k; Ok (x, os ++ [o])
    | RMove k => do o <- vget os k; do os' <- vset os k None; Ok (x, os' ++ [o])
    | RMoveTo k l =>
        if k =? l then do _ <- vget os k; Ok (x, os)
        else
          do o <- vget os l;
          do os1 <- vset os k o;
          do os2 <- vset os1 l None;
          Ok (x, os2)
    | RSet k j v =>
        do o <- vget os k;
        do r <- ro_assign x o j v;
        do os' <- vset os k (snd r);
        Ok (fst r, os')
    end.

  Fixpoint ro_run (cs : list rcmd) (s : smatrix * list (option rowobj)) : res (smatrix * list (option rowobj)) :=
    match cs with
    | [] => Ok s
    | c :: cs => do s' <- ro_step c s; ro_run cs s'
    end.
End RowObjects.
Arguments rcmd : clear implicits.
