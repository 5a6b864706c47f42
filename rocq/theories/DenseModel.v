(** Dense vectors and matrices: include/core/vector_dense.hpp, matrix_dense.hpp and the dot product of
    vector_operators.hpp.

    A vector is the list of its elements, a matrix the list of its rows. The template sizes are passed to
    the functions that depend on them, 0 being the dynamic specialisation; a static vector has as many
    elements as its template size. Simplifications: the element type is the type of the scalars (the code
    converts through double for other element types); the elements of a static vector that a constructor
    leaves uninitialised are [junk] (the rows of a static matrix are zeroed by the constructor of the vectors). *)
From Verif Require Import Base.

(** A [const _type&] argument: another object, or an element of the vector itself. *)
Inductive sref (V : Type) : Type :=
| Ext (s : V)
| Own (k : nat).
Arguments Ext {V} s.
Arguments Own {V} k.

(** The same for a matrix. *)
Inductive mref (V : Type) : Type :=
| MExt (s : V)
| MOwn (i j : nat).
Arguments MExt {V} s.
Arguments MOwn {V} i j.

(** Static_Promoter on vectors: vector_dense.hpp 263-268. *)
Definition promote (n0 n1 : nat) : nat := if n0 =? 0 then n1 else n0.

(** Static_Promoter on matrices (vector_dense.hpp 263-268 used at matrix_dense.hpp 480, 508). *)
Definition m_promote (s0 s1 : nat * nat) : nat * nat := if fst s0 =? 0 then s1 else s0.

(** Matrix_Static_Demoter: matrix_dense.hpp 404-412. *)
Definition m_demote (s0 s1 : nat * nat) : nat * nat :=
  if (fst s0 =? 0) || (fst s1 =? 0) then (0, 0) else (fst s0, snd s1).

Section Dense.
  Context {V : Type}.
  Variables (vzero : V) (vadd vsub vmul vdiv : V -> V -> V).
  Variables (dbg : bool) (junk : nat -> V).
  Implicit Types (v w : list V) (m o : list (list V)).

  (** *** Vectors *)

  (** Vector_Dense(): vector_dense.hpp 69, 176. *)
  Definition v_default (n : nat) : list V := repeat vzero n.

  (** Vector_Dense(list): vector_dense.hpp 75-80, 182-186. *)
  Definition v_list (n : nat) (l : list V) : res (list V) :=
    if n =? 0 then vwrite (vresize [] (length l) vzero) 0 l
    else do _ <- ASSERT_DEBUG dbg (length l =? n);
         vwrite (map junk (seq 0 n)) 0 l.

  (** The loop of the lambda constructors: vector_dense.hpp 90, 195. *)
  Definition v_fill (f : nat -> res V) v : res (list V) :=
    FOR (length v) (fun i v => do x <- f i; vset v i x) v.

  (** Vector_Dense(lambda, size): vector_dense.hpp 88-91, 194-196. *)
  Definition v_lambda (n : nat) (f : nat -> res V) (size : nat) : res (list V) :=
    if n =? 0 then v_fill f (repeat vzero size)
    else do _ <- ASSERT_DEBUG dbg (size =? n);
         v_fill f (map junk (seq 0 n)).

  (** Reading a scalar argument while [v] is being changed. *)
  Definition sread (s : sref V) v : res V :=
    match s with Ext x => Ok x | Own k => vget v k end.

  (** operator*= and operator/= with a scalar: vector_dense.hpp 102-105, 114-117, 207-210, 219-222. *)
  Definition v_scale (op : V -> V -> V) v (s : sref V) : res (list V) :=
    FOR (length v) (fun i v => do x <- vget v i; do y <- sread s v; vset v i (op x y)) v.

  Definition v_mul_assign := v_scale vmul.
  Definition v_div_assign := v_scale vdiv.

  (** operator+= and operator-=: vector_dense.hpp 126-131, 140-145, 231-236, 245-250. [None] is an argument
      that is the vector itself. *)
  Definition other_of {A : Type} (this : A) (o : option A) : A := match o with Some w => w | None => this end.

  Definition v_op_assign (op : V -> V -> V) v (o : option (list V)) : res (list V) :=
    do _ <- ASSERT_DEBUG dbg (length v =? length (other_of v o));
    FOR (length v) (fun i v => do x <- vget v i; do y <- vget (other_of v o) i; vset v i (op x y)) v.

  Definition v_add_assign := v_op_assign vadd.
  Definition v_sub_assign := v_op_assign vsub.

  (** operator*(scalar, vector) and operator/(vector, scalar): vector_dense.hpp 293-296, 305-308; the vector
      is taken by value. *)
  Definition v_times (s : V) v : res (list V) := v_mul_assign v (Ext s).
  Definition v_over v (s : V) : res (list V) := v_div_assign v (Ext s).

  (** operator+ and operator-: vector_dense.hpp 318-325, 335-342. *)
  Definition v_op (op : V -> V -> V) (n0 n1 : nat) v w : res (list V) :=
    do _ <- ASSERT_DEBUG dbg (length v =? length w);
    v_lambda (promote n0 n1) (fun i => do x <- vget v i; do y <- vget w i; Ok (op x y)) (length v).

  Definition v_plus := v_op vadd.
  Definition v_minus := v_op vsub.

  (** dot_product: vector_operators.hpp 90-96; std::inner_product reads as many elements of the second
      vector as the first one has. *)
  Definition dot v w : res V :=
    do _ <- ASSERT_DEBUG dbg (length v =? length w);
    FOR (length v) (fun i s => do x <- vget v i; do y <- vget w i; Ok (vadd s (vmul x y))) vzero.

  (** *** Matrices *)

  (** size_row(): matrix_dense.hpp 108, 288. *)
  Definition m_rows m : nat := length m.

  (** size_column(): matrix_dense.hpp 114, 294; a static matrix has at least one row. *)
  Definition m_cols m : nat := match m with [] => 0 | r :: _ => length r end.

  (** size() == size(): matrix_dense.hpp 120-122, 300-302. *)
  Definition same_size m o : bool := (m_rows m =? m_rows o) && (m_cols m =? m_cols o).

  (** Element access. *)
  Definition mget m (i j : nat) : res V := do r <- vget m i; vget r j.
  Definition mset m (i j : nat) (x : V) : res (list (list V)) :=
    do r <- vget m i; do r' <- vset r j x; vset m i r'.

  (** Matrix_Dense(): matrix_dense.hpp 75, 238. *)
  Definition m_default (s : nat * nat) : list (list V) := repeat (repeat vzero (snd s)) (fst s).

  (** Matrix_Dense(list): matrix_dense.hpp 81-84, 244-251. *)
  Definition m_list (s : nat * nat) (l : list (list V)) : res (list (list V)) :=
    if fst s =? 0 then
      FOR (length l) (fun i m =>
                        do r <- vget l i;
                        do _ <- ASSERT_DEBUG dbg (length r =? m_cols l);
                        vset m i r)
          (vresize [] (length l) [])
    else vwrite (m_default s) 0 l.

  (** Matrix_Dense(lambda, row, column): matrix_dense.hpp 92-98, 259-266. *)
  Definition m_lambda (s : nat * nat) (f : nat -> nat -> res V) (r c : nat) : res (list (list V)) :=
    if fst s =? 0 then
      FOR r (fun i m =>
               do row <- vget m i;
               do m <- vset m i (vresize row c vzero);
               FOR c (fun j m => do x <- f i j; mset m i j x) m)
          (vresize [] r [])
    else do _ <- ASSERT_DEBUG dbg ((r =? fst s) && (c =? snd s));
         FOR r (fun i m => FOR c (fun j m => do x <- f i j; mset m i j x) m)
             (m_default s).

  (** resize(rows, columns): matrix_dense.hpp 279-282. *)
  Definition m_resize m (r c : nat) : list (list V) :=
    map (fun row => vresize row c vzero) (vresize m r []).

  (** resize(rows), inherited from std::vector: matrix_dense.hpp 272. *)
  Definition m_resize_rows m (r : nat) : list (list V) := vresize m r [].

  Definition mread (s : mref V) m : res V :=
    match s with MExt x => Ok x | MOwn i j => mget m i j end.

  (** operator*= and operator/= with a scalar: matrix_dense.hpp 133-136, 145-148, 313-316, 325-328; the loop
      over the elements of a row is that of the vector. *)
  Definition m_scale (op : V -> V -> V) m (s : mref V) : res (list (list V)) :=
    FOR (length m)
      (fun i m => do row <- vget m i;
                  FOR (length row)
                    (fun j m => do x <- mget m i j; do y <- mread s m; mset m i j (op x y)) m) m.

  Definition m_mul_scalar := m_scale vmul.
  Definition m_div_scalar := m_scale vdiv.

  (** operator+= and operator-=: matrix_dense.hpp 157-164, 173-180, 337-344, 353-360. *)
  Definition m_op_assign (op : V -> V -> V) m (o : option (list (list V))) : res (list (list V)) :=
    do _ <- ASSERT_DEBUG dbg (same_size m (other_of m o));
    FOR (length m)
      (fun i m => do row <- vget m i;
                  do row' <- match o with
                             | Some o => do w <- vget o i; v_op_assign op row (Some w)
                             | None => v_op_assign op row None
                             end;
                  vset m i row') m.

  Definition m_add_assign := m_op_assign vadd.
  Definition m_sub_assign := m_op_assign vsub.

  (** The loops of operator*=: matrix_dense.hpp 199-206, 380-387. *)
  Definition m_mul_loops (copy : list (list V)) (o : option (list (list V))) m : res (list (list V)) :=
    FOR (m_rows m) (fun i m =>
      FOR (m_rows (other_of m o)) (fun k m =>
        FOR (m_cols m) (fun j m =>
          do m <- (if k =? 0 then mset m i j vzero else Ok m);
          do x <- mget m i j;
          do a <- mget copy i k;
          do b <- mget (other_of m o) k j;
          mset m i j (vadd x (vmul a b))) m) m) m.

  (** operator*= with a matrix: matrix_dense.hpp 191-208 (static), 371-389 (dynamic). The local [copy] and
      the matrix are swapped before the argument is read. *)
  Definition m_mul_assign (s : nat * nat) m (o : option (list (list V))) : res (list (list V)) :=
    if fst s =? 0 then
      do _ <- ASSERT_DEBUG dbg (m_cols m =? m_rows (other_of m o));
      m_mul_loops m o (m_resize [] (m_rows m) (m_cols (other_of m o)))
    else
      do _ <- ASSERT_DEBUG dbg (same_size m (other_of m o));
      m_mul_loops m o (m_default s).

  (** operator*(scalar, matrix) and operator/(matrix, scalar): matrix_dense.hpp 427-430, 441-444. *)
  Definition m_times_scalar (s : V) m : res (list (list V)) := m_mul_scalar m (MExt s).
  Definition m_over_scalar m (s : V) : res (list (list V)) := m_div_scalar m (MExt s).

  (** operator*(matrix, vector): matrix_dense.hpp 456-465. [r] is the template row count, [n] the template
      size of the vector. The result is asked to have as many components as the matrix has columns. *)
  Definition m_vec (r n : nat) m v : res (list V) :=
    do _ <- ASSERT_DEBUG dbg (m_cols m =? length v);
    v_lambda (promote r n) (fun i => do row <- vget m i; dot row v) (m_cols m).

  (** operator+ and operator-: matrix_dense.hpp 478-490, 503-515. *)
  Definition m_op (op : V -> V -> V) (s0 s1 : nat * nat) m o : res (list (list V)) :=
    do _ <- ASSERT_DEBUG dbg (same_size m o);
    m_lambda (m_promote s0 s1) (fun i j => do x <- mget m i j; do y <- mget o i j; Ok (op x y))
             (m_rows m) (m_cols m).

  Definition m_plus := m_op vadd.
  Definition m_minus := m_op vsub.

  (** operator*(matrix, matrix): matrix_dense.hpp 528-541. *)
  Definition m_times (s0 s1 : nat * nat) m o : res (list (list V)) :=
    do _ <- ASSERT_DEBUG dbg (m_cols m =? m_rows o);
    do t <- m_lambda (m_demote s0 s1) (fun i j => mget m i j) (m_rows m) (m_cols m);
    m_mul_assign (m_demote s0 s1) t (Some o).
End Dense.
