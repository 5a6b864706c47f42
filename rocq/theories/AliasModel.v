(** Model of the members of CSR_Data and Matrix_Sparse that take an index or a value by const reference, when the
    argument refers to data of the object itself: a CSR_Data object has public members, and i_column() and operator* of
    the iterators return references into the arrays. Every use of an argument reads the reference again. std::vector's
    insert reads its argument before it changes the array. References into row_offset are not modelled. *)
From Verif Require Import Base SparseModel CsrDataModel.

(** What an argument of type const std::size_t& refers to: a variable of the caller, the member columns, or an element
    of the column indices. *)
Inductive iref := RVal (k : nat) | RColumns | RColumn (p : nat).

(** What an argument of type const Scalar& (const _value_type&) refers to. *)
Inductive vref (V : Type) := VVal (v : V) | VOwn (p : nat).
Arguments VVal {V}. Arguments VOwn {V}.

Section Alias.
  Context {V : Type}.
  Variables (vzero : V) (M : nat) (dbg : bool) (stray : option nat).
  Implicit Types (m : smat V).

  (** Reading a reference; an element that is no longer there is undefined behaviour. *)
  Definition iread (r : iref) m : res nat :=
    match r with RVal k => Ok k | RColumns => Ok (csize m) | RColumn p => vget (cidx m) p end.
  Definition vread (r : vref V) m : res V :=
    match r with VVal v => Ok v | VOwn p => vget (vals m) p end.

  (** insert(data, row, column, value): matrix_sparse_data.hpp 211-238. *)
  Definition c_insert_ref m (ri rj : iref) (rv : vref V) : res (smat V * eit * bool) :=
    do i <- iread ri m;
    do m1 <- (if c_size_row m <=? i then c_resize vzero M m (i + 1) (c_size_column m) else Ok m);
    do j <- iread rj m1;
    do m2 <- (if c_size_column m1 <=? j then c_resize vzero M m1 (c_size_row m1) (j + 1) else Ok m1);
    do i2 <- iread ri m2;
    do j2 <- iread rj m2;
    do it <- c_lower_bound m2 i2 j2;
    do found <- (if fst it =? i2 then do c <- vget (cidx m2) (snd it); Ok (c =? j2) else Ok false);
    if found then Ok (m2, it, false)
    else
      do z <- vadd_range (rnz m2) (i2 + 1) (length (rnz m2)) 1;
      do ci <- vinsert (cidx m2) (snd it) j2;
      do v <- vread rv m2;
      do vs <- vinsert (vals m2) (snd it) v;
      Ok (mkS z ci vs (csize m2), (i2, snd it), true).

  (** insert(i_row, i_column, value): matrix_sparse.cpp 187-203. The iterator that is returned copies its row from the
      reference after column_index has been changed (matrix_sparse.hpp 887-889); [moved] says that this change moved the array, which
      leaves a reference into it dangling. *)
  Definition s_insert_ref (moved : bool) m (ri rj : iref) (rv : vref V) : res (smat V * eit * bool) :=
    do i <- iread ri m;
    do m1 <- (if s_rows m <=? i then s_resize vzero M m (i + 1) (csize m) else Ok m);
    do j <- iread rj m1;
    do m2 <- (if csize m1 <=? j then s_resize vzero M m1 (s_rows m1) (j + 1) else Ok m1);
    do i2 <- iread ri m2;
    do j2 <- iread rj m2;
    do it <- s_lower_bound stray m2 i2 j2;
    do _ <- row_check dbg m2 i2;
    do e <- row_end stray m2 i2;
    do new <- (if eit_eqb it e then Ok true
               else do c <- i_column m2 it; Ok (negb (c =? j2)));
    if new then
      do z <- vadd_range (rnz m2) (fst it + 1) (length (rnz m2)) 1;
      do ci <- vinsert (cidx m2) (snd it) j2;
      do v <- vread rv m2;
      do vs <- vinsert (vals m2) (snd it) v;
      let m3 := mkS z ci vs (csize m2) in
      do r <- (match ri with RColumn _ => if moved then Undef else iread ri m3 | _ => iread ri m3 end);
      Ok (m3, (r, snd it), true)
    else Ok (m2, it, false).

  (** insert_or_assign(i_row, i_column, value): matrix_sparse.cpp 209-215. *)
  Definition s_insert_or_assign_ref (moved : bool) m (ri rj : iref) (rv : vref V) : res (smat V * eit * bool) :=
    do r <- s_insert_ref moved m ri rj rv;
    let '(m', it, b) := r in
    if b then Ok r
    else
      do v <- vread rv m';
      do m'' <- assign m' it v;
      Ok (m'', it, b).

  (** Body of the column loop of resize: matrix_sparse.cpp 257-268, matrix_sparse_data.hpp 175-188. *)
  Definition resize_step_ref (rc : iref) (i : nat) (s : smat V * nat) : res (smat V * nat) :=
    do c <- iread rc (fst s);
    resize_col_step M c i s.

  (** resize(row, column): matrix_sparse.cpp 243-271, matrix_sparse_data.hpp 152-191. *)
  Definition s_resize_ref m (rr rc : iref) : res (smat V) :=
    do r <- iread rr m;
    do m1 <- (if r <? s_rows m then
                do n <- vget (rnz m) r;
                let ma := mkS (rnz m) (vresize (cidx m) n 0) (vals m) (csize m) in
                do r <- iread rr ma;
                do n <- vget (rnz m) r;
                Ok (mkS (rnz m) (cidx ma) (vresize (vals m) n vzero) (csize m))
              else Ok m);
    do r <- iread rr m1;
    do d <- (match rnz m1 with [] => Ok 0 | _ => vback (rnz m1) end);
    let m2 := mkS (vresize (rnz m1) (r + 1) d) (cidx m1) (vals m1) (csize m1) in
    do c <- iread rc m2;
    do m3 <- (if c <? csize m2 then
                do s <- FOR (s_rows m2) (resize_step_ref rc) (m2, 0);
                Ok (fst s)
              else Ok m2);
    do c <- iread rc m3;
    Ok (mkS (rnz m3) (cidx m3) (vals m3) c).
End Alias.
