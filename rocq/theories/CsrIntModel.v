(** CSR_Data and its free functions (include/core/matrix_sparse_data.hpp) for other index types than std::size_t: [t] is the index
    type, which is also that of the arguments (as in Matrix_Sparse of matrix_sparse_new.hpp). Types narrower than int, whose sums are
    computed in int, are left out: insert does not compile for them, as the arguments of its calls of resize (lines 222-223) then have
    two types. *)
From Coq Require Import ZArith.
From Verif Require Import Base MacroModel.

(** The signed type of the same width, std::make_signed_t: line 159. *)
Definition sg (t : ity) : ity := mkI true (i_bits t).

(** A sum or difference computed in [t]: undefined when it leaves a signed type, reduced in an unsigned one. *)
Definition t_res (t : ity) (x : Z) : res Z :=
  if i_signed t && negb ((i_min t <=? x) && (x <=? i_max t))%Z then Undef else Ok (conv t x).

(** begin() + x, and the subscript x. *)
Definition at_pos (x : Z) : res nat := if (x <? 0)%Z then Undef else Ok (Z.to_nat x).

(** The argument of vector::resize: a negative number becomes a size no vector can have, which throws. *)
Definition new_size (x : Z) : res nat := if (x <? 0)%Z then Abort else Ok (Z.to_nat x).

(** std::lower_bound and std::upper_bound. *)
Fixpoint z_lbound (l : list Z) (v : Z) : nat :=
  match l with [] => 0 | x :: r => if (x <? v)%Z then S (z_lbound r v) else 0 end.
Fixpoint z_ubound (l : list Z) (v : Z) : nat :=
  match l with [] => 0 | x :: r => if (x <=? v)%Z then S (z_ubound r v) else 0 end.

(** row_offset, i_column, value, columns: matrix_sparse_data.hpp 57-60. *)
Record zmat (V : Type) := mkZ { zoff : list Z; zcol : list Z; zval : list V; zcols : Z }.
Arguments mkZ {V}. Arguments zoff {V}. Arguments zcol {V}. Arguments zval {V}. Arguments zcols {V}.

Section CsrInt.
  Context {V : Type}.
  Variables (vzero : V) (t : ity) (dbg : bool).
  Implicit Types (m : zmat V).

  (** size_row, size_column, size_non_zero: matrix_sparse_data.hpp 110-136; sizes of vectors are converted to [t]. *)
  Definition z_rows m : Z := conv t (match zoff m with [] => 0%Z | _ => (Z.of_nat (length (zoff m)) - 1)%Z end).
  Definition z_columns m : Z := zcols m.
  Definition z_non_zero m : Z := conv t (Z.of_nat (length (zcol m))).

  (** Body of the column loop of resize: matrix_sparse_data.hpp 175-188. The sum [row + 1] does not pass size_row. The difference of
      line 185 is a ptrdiff_t, and the sum is converted to [t]. *)
  Definition z_resize_step (c : Z) (i : nat) (s : zmat V * Z) : res (zmat V * Z) :=
    let '(m, loss) := s in
    do e0 <- vget (zoff m) (i + 1);
    do e1 <- t_res t (e0 - loss)%Z;
    do e <- at_pos (conv (sg t) e1);
    do b0 <- vget (zoff m) i;
    do b <- at_pos (conv (sg t) b0);
    do c1 <- t_res t (c - 1)%Z;
    do r <- vrange (zcol m) b e;
    let p := b + z_ubound r c1 in
    do s' <- (if p =? e then Ok (m, loss)
              else
                do ci <- verase (zcol m) p e;
                do vs <- verase (zval m) p e;
                Ok (mkZ (zoff m) ci vs (zcols m), conv t (loss + (Z.of_nat e - Z.of_nat p))%Z));
    let '(m', loss') := s' in
    do x <- vget (zoff m') (i + 1);
    do y <- t_res t (x - loss')%Z;
    do z <- vset (zoff m') (i + 1) y;
    Ok (mkZ z (zcol m') (zval m') (zcols m'), loss').

  (** The rows of resize(data, row, column): matrix_sparse_data.hpp 164-169. *)
  Definition z_resize_rows m (r : Z) : res (zmat V) :=
    do m1 <- (if (r <? z_rows m)%Z then
                do k <- at_pos r;
                do n0 <- vget (zoff m) k;
                do n <- new_size n0;
                Ok (mkZ (zoff m) (vresize (zcol m) n 0%Z) (vresize (zval m) n vzero) (zcols m))
              else Ok m);
    do r1 <- t_res t (r + 1)%Z;
    do d <- (match zoff m1 with [] => Ok 0%Z | _ => vback (zoff m1) end);
    do n1 <- new_size r1;
    Ok (mkZ (vresize (zoff m1) n1 d) (zcol m1) (zval m1) (zcols m1)).

  (** resize(data, row, column): matrix_sparse_data.hpp 152-191. The index of the loop stays below size_row. *)
  Definition z_resize m (r c : Z) : res (zmat V) :=
    do _ <- ASSERT_DEBUG dbg (0 <=? r)%Z;
    do _ <- ASSERT_DEBUG dbg (0 <=? c)%Z;
    do m2 <- z_resize_rows m r;
    do m3 <- (if (c <? z_columns m2)%Z then
                do s <- FOR (Z.to_nat (z_rows m2)) (z_resize_step c) (m2, 0%Z);
                Ok (fst s)
              else Ok m2);
    Ok (mkZ (zoff m3) (zcol m3) (zval m3) c).

  (** lower_bound(data, row, column): matrix_sparse_data.hpp 282-330. *)
  Definition z_lower_bound m (i j : Z) : res (nat * nat) :=
    do _ <- ASSERT_DEBUG dbg (0 <=? i)%Z;
    do _ <- ASSERT_DEBUG dbg (0 <=? j)%Z;
    if (i <? z_rows m)%Z then
      do k <- at_pos i;
      do b0 <- vget (zoff m) k;
      do b <- at_pos b0;
      do e0 <- vget (zoff m) (k + 1);
      do e <- at_pos e0;
      do r <- vrange (zcol m) b e;
      let p := b + z_lbound r j in
      Ok (if p =? e then k + 1 else k, p)
    else Ok (length (zoff m), length (zcol m)).

  (** insert(data, row, column, value): matrix_sparse_data.hpp 211-238. *)
  Definition z_insert m (i j : Z) (v : V) : res (zmat V * (nat * nat) * bool) :=
    do _ <- ASSERT_DEBUG dbg (0 <=? i)%Z;
    do _ <- ASSERT_DEBUG dbg (0 <=? j)%Z;
    do m1 <- (if (z_rows m <=? i)%Z then do i1 <- t_res t (i + 1)%Z; z_resize m i1 (z_columns m) else Ok m);
    do m2 <- (if (z_columns m1 <=? j)%Z then do j1 <- t_res t (j + 1)%Z; z_resize m1 (z_rows m1) j1 else Ok m1);
    do k <- at_pos i;
    do _ <- (if k <=? length (zoff m2) then Ok tt else Undef);
    do it <- z_lower_bound m2 i j;
    do found <- (if fst it =? k then do c <- vget (zcol m2) (snd it); Ok (c =? j)%Z else Ok false);
    if found then Ok (m2, it, false)
    else
      do up <- mapM (fun x => t_res t (x + 1)%Z) (skipn (k + 1) (zoff m2));
      do ci <- vinsert (zcol m2) (snd it) j;
      do vs <- vinsert (zval m2) (snd it) v;
      Ok (mkZ (firstn (k + 1) (zoff m2) ++ up) ci vs (zcols m2), (k, snd it), true).
End CsrInt.
