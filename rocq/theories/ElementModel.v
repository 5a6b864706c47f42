(** Model of the elements of a sparse row and of the iterators over them
    (include/core/matrix_sparse_new.hpp 55-290), with the functions of the row object that make them (449-483).

    A pointer into an array of the matrix is a position of that array, or null. Moving a pointer outside
    the array (one past the last element is allowed) and using a null pointer are undefined behaviour.
    The functions of the row object take the address of the element an iterator of a span refers to; for the
    end of a span there is no such element. With [strict] that is undefined behaviour, as the language has it;
    without, the address is computed and nothing is read, as compilers do when the checks of the standard library
    are switched off. *)
From Verif Require Import Base SparseModel CsrDataModel RowModel.

(** A pointer into an array: the null pointer, or a position from zero to the size of the array. *)
Inductive ptr := Null | At (k : nat).

Definition p_eqb (p q : ptr) : bool :=
  match p, q with
  | Null, Null => true
  | At a, At b => a =? b
  | _, _ => false
  end.

(** [++p] and [--p] for a pointer into an array of [n] elements. *)
Definition p_inc (n : nat) (p : ptr) : res ptr :=
  match p with
  | At k => if k <? n then Ok (At (S k)) else Undef
  | Null => Undef
  end.

Definition p_dec (p : ptr) : res ptr :=
  match p with
  | At (S k) => Ok (At k)
  | _ => Undef
  end.

(** Reading and writing [*p]. *)
Definition p_read {A} (l : list A) (p : ptr) : res A :=
  match p with At k => vget l k | Null => Undef end.

Definition p_write {A} (l : list A) (p : ptr) (x : A) : res (list A) :=
  match p with At k => vset l k x | Null => Undef end.

(** Matrix_Sparse_Element: matrix_sparse_new.hpp 56-137, data members 135-136. *)
Record element := mkElement { l_col : ptr; l_val : ptr }.

(** Base_Iterator_Matrix_Sparse_Element: matrix_sparse_new.hpp 154-267, data members 265-266. *)
Record eiter := mkIter { e_col : ptr; e_val : ptr }.

(** Default constructors: matrix_sparse_new.hpp 74 and 174. *)
Definition l_default : element := mkElement Null Null.
Definition e_default : eiter := mkIter Null Null.

(** operator== and operator!= of an element: matrix_sparse_new.hpp 117-126. *)
Definition l_eqb (x y : element) : bool := p_eqb (l_col x) (l_col y) && p_eqb (l_val x) (l_val y).
Definition l_neb (x y : element) : bool := negb (l_eqb x y).

(** operator== and operator!= of an iterator: matrix_sparse_new.hpp 254-263. *)
Definition e_eqb (x y : eiter) : bool := p_eqb (e_col x) (e_col y) && p_eqb (e_val x) (e_val y).
Definition e_neb (x y : eiter) : bool := negb (e_eqb x y).

(** operator*: matrix_sparse_new.hpp 194-197. No array is read. *)
Definition e_star (x : eiter) : element := mkElement (e_col x) (e_val x).

Section Element.
  Context {V : Type}.
  Variable strict : bool.
  Implicit Types (m : smat V) (r : row) (x : eiter) (y : element).

  (** value() and i_column(): matrix_sparse_new.hpp 98-110. *)
  Definition l_value m y : res V := p_read (vals m) (l_val y).
  Definition l_column m y : res nat := p_read (cidx m) (l_col y).

  (** [element.value() = v]: matrix_sparse_new.hpp 98. *)
  Definition l_assign m y (v : V) : res (smat V) :=
    do vs <- p_write (vals m) (l_val y) v;
    Ok (mkS (rnz m) (cidx m) vs (csize m)).

  (** operator++(): matrix_sparse_new.hpp 205-209. *)
  Definition e_inc m x : res eiter :=
    do c <- p_inc (length (cidx m)) (e_col x);
    do v <- p_inc (length (vals m)) (e_val x);
    Ok (mkIter c v).

  (** operator++(int): matrix_sparse_new.hpp 217-221. The value returned and the iterator afterwards. *)
  Definition e_inc_post m x : res (eiter * eiter) := do x' <- e_inc m x; Ok (x, x').

  (** operator--(): matrix_sparse_new.hpp 229-233. *)
  Definition e_dec x : res eiter :=
    do c <- p_dec (e_col x);
    do v <- p_dec (e_val x);
    Ok (mkIter c v).

  (** operator--(int): matrix_sparse_new.hpp 241-245. The value returned and the iterator afterwards. *)
  Definition e_dec_post x : res (eiter * eiter) := do x' <- e_dec x; Ok (x, x').

  (** [&*span.begin()] and [&*span.end()] for the span of the positions from [a] to [b]. *)
  Definition span_begin (a b : nat) : res ptr := if strict && (b <=? a) then Undef else Ok (At a).
  Definition span_end (a b : nat) : res ptr := if strict then Undef else Ok (At b).

  (** begin(), cbegin(): matrix_sparse_new.hpp 449, 461-463, 475-477. *)
  Definition w_first r : res eiter :=
    do c <- span_begin (w_begin r) (w_end r);
    do v <- span_begin (w_begin r) (w_end r);
    Ok (mkIter c v).

  (** end(), cend(): matrix_sparse_new.hpp 455, 469, 483. *)
  Definition w_last r : res eiter :=
    do c <- span_end (w_begin r) (w_end r);
    do v <- span_end (w_begin r) (w_end r);
    Ok (mkIter c v).

  (** [for(; it != stop; ++it) body( *it )] in client code. A pointer moves at most the length of its array, so
      the fuel given below is enough. *)
  Fixpoint e_forward {A} (fuel : nat) (body : smat V -> element -> A -> res (smat V * A)) (stop : eiter)
    m x (acc : A) : res (smat V * A) :=
    match fuel with
    | O => Diverge
    | S fuel =>
        if e_neb x stop then
          do s <- body m (e_star x) acc;
          do x' <- e_inc (fst s) x;
          e_forward fuel body stop (fst s) x' (snd s)
        else Ok (m, acc)
    end.

  (** [while(it != stop) body( *--it )] in client code. *)
  Fixpoint e_backward {A} (fuel : nat) (body : smat V -> element -> A -> res (smat V * A)) (stop : eiter)
    m x (acc : A) : res (smat V * A) :=
    match fuel with
    | O => Diverge
    | S fuel =>
        if e_neb x stop then
          do x' <- e_dec x;
          do s <- body m (e_star x') acc;
          e_backward fuel body stop (fst s) x' (snd s)
        else Ok (m, acc)
    end.

  (** A loop body noting the column and the value, and one replacing the value by [f column value]. *)
  Definition note m y (acc : list (nat * V)) : res (smat V * list (nat * V)) :=
    do j <- l_column m y;
    do v <- l_value m y;
    Ok (m, acc ++ [(j, v)]).

  Definition change (f : nat -> V -> V) m y (_ : unit) : res (smat V * unit) :=
    do j <- l_column m y;
    do v <- l_value m y;
    do m' <- l_assign m y (f j v);
    Ok (m', tt).

  (** [for(auto e : row) ...] with the two bodies, and the first also backwards. *)
  Definition row_notes m r : res (list (nat * V)) :=
    do x <- w_first r;
    do stop <- w_last r;
    do s <- e_forward (S (length (cidx m))) note stop m x [];
    Ok (snd s).

  Definition row_notes_back m r : res (list (nat * V)) :=
    do stop <- w_first r;
    do x <- w_last r;
    do s <- e_backward (S (length (cidx m))) note stop m x [];
    Ok (snd s).

  Definition row_change (f : nat -> V -> V) m r : res (smat V) :=
    do x <- w_first r;
    do stop <- w_last r;
    do s <- e_forward (S (length (cidx m))) (change f) stop m x tt;
    Ok (fst s).
End Element.
