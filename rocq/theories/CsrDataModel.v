(** Model of CSR_Data and its free functions (include/core/matrix_sparse_data.hpp), for indices of type
    std::size_t. The record [smat] holds row_offset, i_column, value and columns (lines 57-61). The
    ASSERT_DEBUG conditions [row >= 0] are always true for an unsigned type. An iterator is the pair of the
    position in row_offset and the common position in i_column and value. *)
From Verif Require Import Base SparseModel.

Section CsrData.
  Context {V : Type}.
  Variables (vzero : V) (M : nat).
  Implicit Types (m : smat V).

  (** i_row(data, iter_row): matrix_sparse_data.hpp 75-96. *)
  Definition c_i_row m (it : eit) : nat := fst it.

  (** size_row, size_column, size_non_zero: matrix_sparse_data.hpp 110-136. *)
  Definition c_size_row m : nat := match rnz m with [] => 0 | _ => length (rnz m) - 1 end.
  Definition c_size_column m : nat := csize m.
  Definition c_size_non_zero m : nat := length (cidx m).

  (** Body of the column loop of resize: matrix_sparse_data.hpp 175-188. *)
  Definition c_resize_step (c i : nat) (s : smat V * nat) : res (smat V * nat) :=
    let '(m, loss) := s in
    do e0 <- vget (rnz m) (i + 1);
    if e0 <? loss then Undef
    else
      let e := e0 - loss in
      do b <- vget (rnz m) i;
      do r <- vrange (cidx m) b e;
      let p := b + ubound r (dec_wrap M c) in
      do s' <- (if p =? e then Ok (m, loss)
                else
                  do ci <- verase (cidx m) p e;
                  do vs <- verase (vals m) p e;
                  Ok (mkS (rnz m) ci vs (csize m), loss + (e - p)));
      let '(m', loss') := s' in
      do z <- vsub (rnz m') (i + 1) loss';
      Ok (mkS z (cidx m') (vals m') (csize m'), loss').

  (** resize(data, row, column): matrix_sparse_data.hpp 152-191. *)
  Definition c_resize m (r c : nat) : res (smat V) :=
    do m1 <- (if r <? c_size_row m then
                do n <- vget (rnz m) r;
                Ok (mkS (rnz m) (vresize (cidx m) n 0) (vresize (vals m) n vzero) (csize m))
              else Ok m);
    do d <- (match rnz m1 with [] => Ok 0 | _ => vback (rnz m1) end);
    let m2 := mkS (vresize (rnz m1) (r + 1) d) (cidx m1) (vals m1) (csize m1) in
    do m3 <- (if c <? c_size_column m2 then
                do s <- FOR (c_size_row m2) (c_resize_step c) (m2, 0);
                Ok (fst s)
              else Ok m2);
    Ok (mkS (rnz m3) (cidx m3) (vals m3) c).

  (** lower_bound(data, row, column): matrix_sparse_data.hpp 282-330. *)
  Definition c_lower_bound m (i j : nat) : res eit :=
    if i <? c_size_row m then
      do b <- vget (rnz m) i;
      do e <- vget (rnz m) (i + 1);
      do r <- vrange (cidx m) b e;
      let p := b + lbound r j in
      Ok (if p =? e then i + 1 else i, p)
    else Ok (length (rnz m), length (cidx m)).

  (** insert(data, row, column, value): matrix_sparse_data.hpp 211-238. *)
  Definition c_insert m (i j : nat) (v : V) : res (smat V * eit * bool) :=
    do m1 <- (if c_size_row m <=? i then c_resize m (i + 1) (c_size_column m) else Ok m);
    do m2 <- (if c_size_column m1 <=? j then c_resize m1 (c_size_row m1) (j + 1) else Ok m1);
    do it <- c_lower_bound m2 i j;
    do found <- (if fst it =? i then do c <- vget (cidx m2) (snd it); Ok (c =? j) else Ok false);
    if found then Ok (m2, it, false)
    else
      do z <- vadd_range (rnz m2) (i + 1) (length (rnz m2)) 1;
      do ci <- vinsert (cidx m2) (snd it) j;
      do vs <- vinsert (vals m2) (snd it) v;
      Ok (mkS z ci vs (csize m2), (i, snd it), true).

  (** insert_or_assign(data, row, column, value): matrix_sparse_data.hpp 256-263. *)
  Definition c_insert_or_assign m (i j : nat) (v : V) : res (smat V * eit * bool) :=
    do r <- c_insert m i j v;
    let '(m', it, b) := r in
    if b then Ok r
    else
      do vs <- vset (vals m') (snd it) v;
      Ok (mkS (rnz m') (cidx m') vs (csize m'), it, b).
End CsrData.
