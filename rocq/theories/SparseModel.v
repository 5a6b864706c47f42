(** Model of Matrix_Sparse (include/core/matrix_sparse.hpp, src/core/matrix_sparse.cpp).
    [dbg] is the macro DISA_DEBUG, [M] is std::numeric_limits<std::size_t>::max().

    Simplifications.
    - Indices are natural numbers, sums of indices do not wrap (row and column counts stay below
      2^64). The one subtraction that wraps in practice, [column - 1] in resize, is modelled.
    - An element iterator holds two pointers, into column_index and element_value, that always have
      the same distance from the start of their vectors; it is modelled as the row and that
      distance. Forming the address one past the last element ([&v[v.size()]], [&*v.end()]) is
      taken to be the one-past-the-end pointer; reading through it is [Undef].
    - Calling end() on the row that end() designates reads row_non_zero one past its end (src/core/matrix_sparse.cpp 288, 302,
      325, 339 and 224). [stray = None] is the language semantics, undefined behaviour;
      [stray = Some x] describes the compiled code when that memory is readable and holds [x].
    - reserve and capacity are in StorageModel.v, operator<< is in MatrixTextModel.v. *)
From Verif Require Import Base.

(** Data members: matrix_sparse.hpp 465-469. *)
Record smat (V : Type) := mkS { rnz : list nat; cidx : list nat; vals : list V; csize : nat }.
Arguments mkS {V} _ _ _ _.
Arguments rnz {V} _.
Arguments cidx {V} _.
Arguments vals {V} _.
Arguments csize {V} _.

(** Iterator_Matrix_Sparse_Element: matrix_sparse.hpp 865-1067; row_index and the common distance
    of the two pointers. *)
Definition eit := (nat * nat)%type.

Definition eit_eqb (a b : eit) : bool := (fst a =? fst b) && (snd a =? snd b).

(** std::find on a range: position of the first element equal to [v], the length if there is none. *)
Fixpoint vfind (l : list nat) (v : nat) : nat :=
  match l with
  | [] => 0
  | x :: r => if x =? v then 0 else S (vfind r v)
  end.

(** Decrementing every element from position [k] to the end (the for loop of erase). *)
Definition vdec_from (l : list nat) (k : nat) : res (list nat) :=
  if forallb (fun x => 1 <=? x) (skipn k l)
  then Ok (firstn k l ++ map (fun x => x - 1) (skipn k l)) else Undef.

(** std::adjacent_find(begin, end) == end. *)
Fixpoint no_adjacent (l : list nat) : bool :=
  match l with
  | x :: ((y :: _) as r) => negb (x =? y) && no_adjacent r
  | _ => true
  end.

(** std::is_sorted. *)
Fixpoint is_sorted (l : list nat) : bool :=
  match l with
  | x :: ((y :: _) as r) => (x <=? y) && is_sorted r
  | _ => true
  end.

Section Sparse.
  Context {V : Type}.
  Variables (vzero : V) (vadd vmul : V -> V -> V) (vopp : V -> V).
  Variables (M : nat) (dbg : bool) (stray : option nat).
  Implicit Types (m o : smat V) (it : eit).

  (** Matrix_Sparse(): matrix_sparse.hpp 109. *)
  Definition s_default : smat V := mkS [] [] [] 0.

  (** Matrix_Sparse(row, column): matrix_sparse.hpp 116. *)
  Definition s_shape (r c : nat) : smat V := mkS (repeat 0 (r + 1)) [] [] c.

  (** empty(): matrix_sparse.hpp 237. *)
  Definition s_empty m : bool := length (rnz m) <? 2.

  (** size_row(): matrix_sparse.hpp 243-245. *)
  Definition s_rows m : nat :=
    match rnz m with
    | [] => 0
    | _ => length (rnz m) - 1
    end.

  (** size_non_zero(): matrix_sparse.hpp 257. *)
  Definition s_nnz m : nat := length (cidx m).

  (** clear(): matrix_sparse.hpp 306-311. *)
  Definition s_clear m : smat V := mkS [] [] [] 0.

  (** swap(other): matrix_sparse.hpp 354-359. *)
  Definition s_swap m o : smat V * smat V :=
    (mkS (rnz o) (cidx o) (vals o) (csize o), mkS (rnz m) (cidx m) (vals m) (csize m)).

  (** i_column() and operator*() of an element iterator: matrix_sparse.hpp 905, 933-936, 942. *)
  Definition i_column m it : res nat := vget (cidx m) (snd it).
  Definition deref m it : res V := vget (vals m) (snd it).

  (** [*iter = v]. *)
  Definition assign m it (v : V) : res (smat V) :=
    do vs <- vset (vals m) (snd it) v;
    Ok (mkS (rnz m) (cidx m) vs (csize m)).

  (** Matrix_Sparse_Row::begin(): matrix_sparse.cpp 429-432, 447-450. *)
  Definition row_begin m (i : nat) : res eit :=
    do p <- vget (rnz m) i;
    Ok (i, p).

  (** Matrix_Sparse_Row::end(): matrix_sparse.cpp 438-441, 456-459. *)
  Definition row_end m (i : nat) : res eit :=
    if i + 1 <? length (rnz m) then
      do p <- vget (rnz m) (i + 1);
      Ok (i, p)
    else
      match stray with
      | Some x => Ok (i, x)
      | None => Undef
      end.

  (** operator[](i_row): matrix_sparse.cpp 116-127, the debug check. *)
  Definition row_check m (i : nat) : res unit := ASSERT_DEBUG dbg (i <? s_rows m).

  (** find(i_row, i_column): matrix_sparse.cpp 282-303. *)
  Definition s_find m (i j : nat) : res eit :=
    if i <? s_rows m then
      do b <- vget (rnz m) i;
      do e <- vget (rnz m) (i + 1);
      do r <- vrange (cidx m) b e;
      Ok (i, b + vfind r j)
    else row_end m (s_rows m).

  (** contains(i_row, i_column): matrix_sparse.cpp 308-311. *)
  Definition s_contains m (i j : nat) : res bool :=
    do it <- s_find m i j;
    if fst it =? i then
      do e <- row_end m i;
      Ok (negb (eit_eqb it e))
    else Ok false.

  (** lower_bound(i_row, i_column): matrix_sparse.cpp 318-340. *)
  Definition s_lower_bound m (i j : nat) : res eit :=
    if i <? s_rows m then
      do b <- vget (rnz m) i;
      do e <- vget (rnz m) (i + 1);
      do r <- vrange (cidx m) b e;
      Ok (i, b + lbound r j)
    else row_end m (s_rows m).

  (** at(i_row, i_column): matrix_sparse.cpp 88-111. *)
  Definition s_at m (i j : nat) : res V :=
    do _ <- ASSERT (i <? s_rows m);
    do _ <- ASSERT (j <? csize m);
    do it <- s_lower_bound m i j;
    do c <- i_column m it;
    do _ <- ASSERT (j =? c);
    deref m it.

  (** [column - 1] on std::size_t. *)
  Definition dec_wrap (c : nat) : nat := match c with 0 => M | S k => k end.

  (** Body of the column loop of resize: matrix_sparse.cpp 257-268. *)
  Definition resize_col_step (c i : nat) (s : smat V * nat) : res (smat V * nat) :=
    let '(m, loss) := s in
    do e0 <- vget (rnz m) (i + 1);
    if e0 <? loss then Undef
    else
      let e := e0 - loss in
      do b <- vget (rnz m) i;
      do r <- vrange (cidx m) b e;
      let p := b + ubound r (dec_wrap c) in
      do s' <- (if p =? e then Ok (m, loss)
                else
                  do ci <- verase (cidx m) p e;
                  do vs <- verase (vals m) p e;
                  Ok (mkS (rnz m) ci vs (csize m), loss + (e - p)));
      let '(m', loss') := s' in
      do z <- vsub (rnz m') (i + 1) loss';
      Ok (mkS z (cidx m') (vals m') (csize m'), loss').

  (** resize(row, column): matrix_sparse.cpp 243-271. *)
  Definition s_resize m (r c : nat) : res (smat V) :=
    do m1 <- (if r <? s_rows m then
                do n <- vget (rnz m) r;
                Ok (mkS (rnz m) (vresize (cidx m) n 0) (vresize (vals m) n vzero) (csize m))
              else Ok m);
    do d <- (match rnz m1 with [] => Ok 0 | _ => vback (rnz m1) end);
    let m2 := mkS (vresize (rnz m1) (r + 1) d) (cidx m1) (vals m1) (csize m1) in
    do m3 <- (if c <? csize m2 then
                do s <- FOR (s_rows m2) (resize_col_step c) (m2, 0);
                Ok (fst s)
              else Ok m2);
    Ok (mkS (rnz m3) (cidx m3) (vals m3) c).

  (** insert(i_row, i_column, value): matrix_sparse.cpp 187-203. *)
  Definition s_insert m (i j : nat) (v : V) : res (smat V * eit * bool) :=
    do m1 <- (if s_rows m <=? i then s_resize m (i + 1) (csize m) else Ok m);
    do m2 <- (if csize m1 <=? j then s_resize m1 (s_rows m1) (j + 1) else Ok m1);
    do it <- s_lower_bound m2 i j;
    do _ <- row_check m2 i;
    do e <- row_end m2 i;
    do new <- (if eit_eqb it e then Ok true
               else do c <- i_column m2 it; Ok (negb (c =? j)));
    if new then
      do z <- vadd_range (rnz m2) (fst it + 1) (length (rnz m2)) 1;
      do ci <- vinsert (cidx m2) (snd it) j;
      do vs <- vinsert (vals m2) (snd it) v;
      Ok (mkS z ci vs (csize m2), (i, snd it), true)
    else Ok (m2, it, false).

  (** insert_or_assign(i_row, i_column, value): matrix_sparse.cpp 209-215. *)
  Definition s_insert_or_assign m (i j : nat) (v : V) : res (smat V * eit * bool) :=
    do r <- s_insert m i j v;
    let '(m', it, b) := r in
    if b then Ok r
    else do m'' <- assign m' it v; Ok (m'', it, b).

  (** Matrix_Sparse_Row::operator[](i_column), non const: matrix_sparse.hpp 575-581; the iterator to
      the referenced element. *)
  Definition s_subscript m (i j : nat) : res (smat V * eit) :=
    do _ <- row_check m i;
    do it <- s_lower_bound m i j;
    do e <- row_end m i;
    do new <- (if eit_eqb it e then Ok true
               else do c <- i_column m it; Ok (negb (c =? j)));
    if new then
      do r <- s_insert m i j vzero;
      Ok (fst (fst r), snd (fst r))
    else Ok (m, it).

  (** [matrix[i][j] = v]. *)
  Definition s_subscript_assign m (i j : nat) (v : V) : res (smat V) :=
    do r <- s_subscript m i j;
    assign (fst r) (snd r) v.

  (** [matrix[i][j] += v]. *)
  Definition s_subscript_add m (i j : nat) (v : V) : res (smat V) :=
    do r <- s_subscript m i j;
    do x <- deref (fst r) (snd r);
    assign (fst r) (snd r) (vadd x v).

  (** Matrix_Sparse_Row::operator[](i_column) const: matrix_sparse.hpp 589-593. *)
  Definition s_subscript_const m (i j : nat) : res V :=
    do _ <- row_check m i;
    do _ <- (if dbg then do c <- s_contains m i j; ASSERT c else Ok tt);
    do it <- s_find m i j;
    deref m it.

  (** The ASSERT_DEBUG condition of erase: matrix_sparse.cpp 224-226. *)
  Definition erase_check m it : res bool :=
    do ee <- row_end m (s_rows m);
    if eit_eqb it ee then Ok false
    else
      do _ <- row_check m (fst it);
      do e <- row_end m (fst it);
      if eit_eqb it e then Ok false
      else do c <- i_column m it; s_contains m (fst it) c.

  (** erase(iter_element): matrix_sparse.cpp 222-233. *)
  Definition s_erase m it : res (smat V * eit) :=
    do _ <- (if dbg then do b <- erase_check m it; ASSERT b else Ok tt);
    do z <- vdec_from (rnz m) (fst it + 1);
    do ci <- verase (cidx m) (snd it) (snd it + 1);
    do vs <- verase (vals m) (snd it) (snd it + 1);
    Ok (mkS z ci vs (csize m), it).

  (** operator*=(scalar), operator/=(scalar): matrix_sparse.hpp 422-438; [f] multiplies or divides by
      the scalar (which must not be one of the elements, see the dense case). *)
  Definition s_scale m (f : V -> V) : smat V :=
    mkS (rnz m) (cidx m) (map f (vals m)) (csize m).

  (** The entries visited by iterating over row [i]: [for(it = row.begin(); it != row.end(); ++it)]
      (matrix_sparse.hpp macros FOR_ITER, macros.hpp 191 and 198). *)
  Definition row_entries m (i : nat) : res (list (nat * V)) :=
    do b <- row_begin m i;
    do e <- row_end m i;
    do cs <- vrange (cidx m) (snd b) (snd e);
    do vs <- vrange (vals m) (snd b) (snd e);
    Ok (combine cs vs).

  (** Inner loop of matrix_arithmetic: matrix_sparse.cpp 398-412, state is the matrix and the two
      element iterators of row [i]. [other m] is the right operand: [m] itself when the operands
      alias. *)
  Fixpoint arith_row (is_add : bool) (other : smat V -> smat V) (fuel i : nat)
      (m : smat V) (it io : eit) {struct fuel} : res (smat V) :=
    match fuel with
    | 0 => Diverge
    | S fuel' =>
        do eo <- row_end (other m) i;
        if eit_eqb io eo then Ok m
        else
          do e <- row_end m i;
          do co <- i_column (other m) io;
          do case <- (if eit_eqb it e then Ok Gt
                      else do c <- i_column m it; Ok (c ?= co));
          match case with
          | Gt =>
              do x <- deref (other m) io;
              do r <- s_insert m (fst io) co (if is_add then x else vopp x);
              let '(m', it', _) := r in
              arith_row is_add other fuel' i m' (fst it', snd it' + 1) (fst io, snd io + 1)
          | Lt => arith_row is_add other fuel' i m (fst it, snd it + 1) io
          | Eq =>
              do x <- deref (other m) io;
              do y <- deref m it;
              do m' <- assign m it (vadd y (if is_add then x else vopp x));
              arith_row is_add other fuel' i m' (fst it, snd it + 1) (fst io, snd io + 1)
          end
    end.

  (** matrix_arithmetic<_is_add>(other): matrix_sparse.cpp 385-414. *)
  Definition s_arith (is_add : bool) (other : smat V -> smat V) m : res (smat V) :=
    do _ <- ASSERT_DEBUG dbg ((s_rows m =? s_rows (other m)) && (csize m =? csize (other m)));
    FOR (s_rows (other m))
        (fun i m =>
           do it <- row_begin m i;
           do io <- row_begin (other m) i;
           arith_row is_add other (s_nnz m + s_nnz (other m) + 1) i m it io) m.

  (** operator+=, operator-=: matrix_sparse.hpp 444-451, with a different matrix and with itself. *)
  Definition s_add_assign m o : res (smat V) := s_arith true (fun _ => o) m.
  Definition s_sub_assign m o : res (smat V) := s_arith false (fun _ => o) m.
  Definition s_add_self m : res (smat V) := s_arith true (fun m => m) m.
  Definition s_sub_self m : res (smat V) := s_arith false (fun m => m) m.

  (** operator+, operator-: matrix_sparse.hpp 1124-1142. *)
  Definition s_plus m o : res (smat V) :=
    do _ <- ASSERT_DEBUG dbg ((s_rows m =? s_rows o) && (csize m =? csize o));
    s_add_assign m o.
  Definition s_minus m o : res (smat V) := s_sub_assign m o.

  (** Innermost statement of operator*=: matrix_sparse.cpp 363-367. *)
  Definition mul_accumulate (i j : nat) (x : V) m : res (smat V) :=
    do c <- s_contains m i j;
    if c then s_subscript_add m i j x
    else do r <- s_insert m i j x; Ok (fst (fst r)).

  (** The loops of operator*=: matrix_sparse.cpp 360-369. [copy] holds the former entries of the left
      operand; [other m] is the right operand, [m] itself (the new contents) when they alias. *)
  Definition mul_loops (copy : smat V) (other : smat V -> smat V) m : res (smat V) :=
    FOR (s_rows copy)
        (fun i m =>
           do es <- row_entries copy i;
           forM es (fun e m =>
             do os <- row_entries (other m) (fst e);
             forM os (fun f m => mul_accumulate i (fst f) (vmul (snd e) (snd f)) m) m) m) m.

  (** operator*=(other): matrix_sparse.cpp 351-372. *)
  Definition s_mul_assign m o : res (smat V) :=
    do _ <- ASSERT_DEBUG dbg (csize m =? s_rows o);
    do fresh <- s_resize s_default (s_rows m) (csize o);
    let '(m', copy) := s_swap m fresh in
    mul_loops copy (fun _ => o) m'.

  (** [m *= m]: after the swap the right operand is the new, empty matrix. When a row of the right
      operand is read it is empty, so that reading it once before the inner loop is faithful as long
      as nothing is inserted while it is being read; nothing is. *)
  Definition s_mul_self m : res (smat V) :=
    do _ <- ASSERT_DEBUG dbg (csize m =? s_rows m);
    do fresh <- s_resize s_default (s_rows m) (csize m);
    let '(m', copy) := s_swap m fresh in
    mul_loops copy (fun m => m) m'.

  (** operator*(matrix_0, matrix_1): matrix_sparse.hpp 1150-1153. *)
  Definition s_times m o : res (smat V) := s_mul_assign m o.

  (** operator*(matrix, vector): matrix_sparse.hpp 1104-1116, for a vector of dynamic size. *)
  Definition s_mat_vec m (x : list V) : res (list V) :=
    do _ <- ASSERT_DEBUG dbg (csize m =? length x);
    mapM (fun i =>
            do es <- row_entries m i;
            forM es (fun e s => do xj <- vget x (fst e); Ok (vadd s (vmul (snd e) xj))) vzero)
         (seq 0 (s_rows m)).

  (** Matrix_Sparse(non_zero, index, value, column): matrix_sparse.cpp 43-78. [srt key l] is std::sort
      of the positions [l] by [key]; it may order equal keys in any way. *)
  Definition ctor_row (srt : (nat -> nat) -> list nat -> list nat) (i : nat) m : res (smat V) :=
    do b <- vget (rnz m) i;
    do e <- vget (rnz m) (i + 1);
    if e <? b then Undef
    else
      do cs <- vrange (cidx m) b e;
      do vs <- vrange (vals m) b e;
      let org := srt (fun k => nth k cs 0) (seq 0 (e - b)) in
      do new_value <- mapM (vget vs) org;
      do org_index <- mapM (vget cs) org;
      do _ <- ASSERT (forallb (fun c => c <? csize m) org_index);
      do _ <- ASSERT (no_adjacent org_index);
      do vs' <- vwrite (vals m) b new_value;
      do cs' <- vwrite (cidx m) b org_index;
      Ok (mkS (rnz m) cs' vs' (csize m)).

  Definition s_ctor (srt : (nat -> nat) -> list nat -> list nat)
      (nz idx : list nat) (vs : list V) (c : nat) : res (smat V) :=
    do f <- vget nz 0;
    do _ <- ASSERT (f =? 0);
    do l <- vback nz;
    do _ <- ASSERT (l =? length idx);
    do _ <- ASSERT (is_sorted nz);
    do _ <- ASSERT (length idx =? length vs);
    FOR (length nz - 1) (ctor_row srt) (mkS nz idx vs c).

  (** Operations on element iterators: operator++ 952-966, operator-- 976-990, operator-(iterator)
      1001-1003, operator+ 1010-1014, operator+= 1021-1024, operator-= 1031-1034 of matrix_sparse.hpp; each
      returns the iterator afterwards and the returned value. [column_index + offset;] and
      [this + offset;] are expressions without effect. *)
  Definition e_incr it : eit * eit := let it' := (fst it, snd it + 1) in (it', it').
  Definition e_post_incr it : eit * eit := ((fst it, snd it + 1), it).
  Definition e_decr it : eit * eit := let it' := (fst it, snd it - 1) in (it', it').
  Definition e_plus it (n : nat) : eit * eit := (it, it).
  Definition e_plus_assign it (n : nat) : eit * eit := (it, it).
  Definition e_minus_assign it (n : nat) : eit * eit := (it, it).

  (** Operations on row iterators, a row index: operator++ 745-758, operator-- 768-781, operator+
      792-795, operator- 802-805, operator+= 812-815, operator-= 822-825 of matrix_sparse.hpp. *)
  Definition r_incr (i : nat) : nat * nat := (i + 1, i + 1).
  Definition r_decr (i : nat) : nat * nat := (i - 1, i - 1).
  Definition r_plus (i n : nat) : nat * nat := (i + n, i + n).
  Definition r_minus (i n : nat) : nat * nat := (i - n, i - n).
  Definition r_plus_assign (i n : nat) : nat * nat := (i + n, i + n).
  Definition r_minus_assign (i n : nat) : nat * nat := (i - n, i - n).

  (** data(): matrix_sparse.hpp 183-187. The three results are null or the array; the first branch
      computes a tuple, drops it and leaves the function without a return statement. *)
  Definition s_data m : res (option (list nat) * option (list nat) * option (list V)) :=
    if negb (s_empty m) && (s_nnz m =? 0) then Undef
    else if s_nnz m =? 0 then Ok (Some (rnz m), None, None)
    else Ok (None, None, None).
End Sparse.
