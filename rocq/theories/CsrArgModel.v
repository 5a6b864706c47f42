(** The free functions of CSR_Data (include/core/matrix_sparse_data.hpp) called with arguments of another integral type than the index
    type, as test_matrix_sparse_data.cpp calls them: [t] is the index type, [a] the type of the arguments, _arg_index_type. Both are at
    least as wide as int: in a narrower [t] the sums are computed in int and converted back, and for a narrower [a] insert does not
    compile. Comparisons between the two types are made in the type of the usual arithmetic conversions ([less], [differ] of
    MacroModel.v). *)
From Coq Require Import ZArith.
From Verif Require Import Base MacroModel CsrIntModel.

Section CsrArg.
  Context {V : Type}.
  Variables (vzero : V) (t a : ity) (dbg : bool).
  Implicit Types (m : zmat V).

  (** std::upper_bound and std::lower_bound over entries of type [t] with a value of type [a]. *)
  Fixpoint y_ubound (l : list Z) (v : Z) : nat :=
    match l with [] => 0 | x :: r => if less a t v x then 0 else S (y_ubound r v) end.
  Fixpoint y_lbound (l : list Z) (v : Z) : nat :=
    match l with [] => 0 | x :: r => if less t a x v then S (y_lbound r v) else 0 end.

  (** Body of the column loop of resize: matrix_sparse_data.hpp 175-188; its index is of type [t], column - 1 of type [a]. *)
  Definition y_resize_step (c : Z) (i : nat) (s : zmat V * Z) : res (zmat V * Z) :=
    let '(m, loss) := s in
    do e0 <- vget (zoff m) (i + 1);
    do e1 <- t_res t (e0 - loss)%Z;
    do e <- at_pos (conv (sg t) e1);
    do b0 <- vget (zoff m) i;
    do b <- at_pos (conv (sg t) b0);
    do c1 <- t_res a (c - 1)%Z;
    do r <- vrange (zcol m) b e;
    let p := b + y_ubound r c1 in
    do s' <- (if p =? e then Ok (m, loss)
              else
                do ci <- verase (zcol m) p e;
                do vs <- verase (zval m) p e;
                Ok (mkZ (zoff m) ci vs (zcols m), conv t (loss + (Z.of_nat e - Z.of_nat p))%Z));
    let '(m', loss') := s' in
    do x <- vget (zoff m') (i + 1);
    do y <- t_res t (x - loss')%Z;
    do z <- vset (zoff m') (i + 1) y;
    Ok (mkZ z (zcol m') (zval m') (zcols m'), loss').

  (** The rows of resize(data, row, column): matrix_sparse_data.hpp 164-169. *)
  Definition y_resize_rows m (r : Z) : res (zmat V) :=
    do m1 <- (if less a t r (z_rows t m) then
                do k <- at_pos r;
                do n0 <- vget (zoff m) k;
                do n <- new_size n0;
                Ok (mkZ (zoff m) (vresize (zcol m) n 0%Z) (vresize (zval m) n vzero) (zcols m))
              else Ok m);
    do r1 <- t_res a (r + 1)%Z;
    do d <- (match zoff m1 with [] => Ok 0%Z | _ => vback (zoff m1) end);
    do n1 <- new_size r1;
    Ok (mkZ (vresize (zoff m1) n1 d) (zcol m1) (zval m1) (zcols m1)).

  (** resize(data, row, column): matrix_sparse_data.hpp 152-191. *)
  Definition y_resize m (r c : Z) : res (zmat V) :=
    do _ <- ASSERT_DEBUG dbg (0 <=? r)%Z;
    do _ <- ASSERT_DEBUG dbg (0 <=? c)%Z;
    do m2 <- y_resize_rows m r;
    do m3 <- (if less a t c (z_columns m2) then
                do s <- FOR (Z.to_nat (z_rows t m2)) (y_resize_step c) (m2, 0%Z);
                Ok (fst s)
              else Ok m2);
    Ok (mkZ (zoff m3) (zcol m3) (zval m3) (conv t c)).

  (** lower_bound(data, row, column): matrix_sparse_data.hpp 282-330; the sum row + 1 of line 293 is of type [a]. *)
  Definition y_lower_bound m (i j : Z) : res (nat * nat) :=
    do _ <- ASSERT_DEBUG dbg (0 <=? i)%Z;
    do _ <- ASSERT_DEBUG dbg (0 <=? j)%Z;
    if less a t i (z_rows t m) then
      do k <- at_pos i;
      do b0 <- vget (zoff m) k;
      do b <- at_pos b0;
      do i1 <- t_res a (i + 1)%Z;
      do k1 <- at_pos i1;
      do e0 <- vget (zoff m) k1;
      do e <- at_pos e0;
      do r <- vrange (zcol m) b e;
      let p := b + y_lbound r j in
      Ok (if p =? e then k + 1 else k, p)
    else Ok (length (zoff m), length (zcol m)).

  (** insert(data, row, column, value): matrix_sparse_data.hpp 211-238; the sizes are cast to [a] in lines 222-223. *)
  Definition y_insert m (i j : Z) (v : V) : res (zmat V * (nat * nat) * bool) :=
    do _ <- ASSERT_DEBUG dbg (0 <=? i)%Z;
    do _ <- ASSERT_DEBUG dbg (0 <=? j)%Z;
    do m1 <- (if less a t i (z_rows t m) then Ok m
              else do i1 <- t_res a (i + 1)%Z; y_resize m i1 (conv a (z_columns m)));
    do m2 <- (if less a t j (z_columns m1) then Ok m1
              else do j1 <- t_res a (j + 1)%Z; y_resize m1 (conv a (z_rows t m1)) j1);
    do k <- at_pos i;
    do _ <- (if k <=? length (zoff m2) then Ok tt else Undef);
    do it <- y_lower_bound m2 i j;
    do found <- (if fst it =? k then do c <- vget (zcol m2) (snd it); Ok (negb (differ t a c j)) else Ok false);
    if found then Ok (m2, it, false)
    else
      do up <- mapM (fun x => t_res t (x + 1)%Z) (skipn (k + 1) (zoff m2));
      do ci <- vinsert (zcol m2) (snd it) (conv t j);
      do vs <- vinsert (zval m2) (snd it) v;
      Ok (mkZ (firstn (k + 1) (zoff m2) ++ up) ci vs (zcols m2), (k, snd it), true).

  (** insert_or_assign(data, row, column, value): matrix_sparse_data.hpp 256-263. *)
  Definition y_insert_or_assign m (i j : Z) (v : V) : res (zmat V * (nat * nat) * bool) :=
    do r <- y_insert m i j v;
    let '(m', it, b) := r in
    if b then Ok r
    else
      do vs <- vset (zval m') (snd it) v;
      Ok (mkZ (zoff m') (zcol m') vs (zcols m'), it, b).
End CsrArg.
