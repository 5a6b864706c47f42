(** Dense vectors and matrices of an integral type: the templates of include/core/vector_dense.hpp, matrix_dense.hpp and
    vector_operators.hpp with an integral [_type]. Elements are the integers they denote. An operand goes through
    [Scalar] (double) wherever a parameter, a lambda or an accumulator of the code has that type.

    Left out: arguments that refer to elements of the object itself (see C47), [cross_product] and the projections, which
    do not compile for integral types (narrowing of 0.0; the factor is a double), and the maximum norm of unsigned types of
    32 bits or more, for which std::abs is ambiguous. *)
From Coq Require Import ZArith SpecFloat.
From Verif Require Import Base DenseModel ScalarModel GeometryModel MacroModel.

Definition i_fits (t : ity) (x : Z) : bool := ((i_min t <=? x) && (x <=? i_max t))%Z.

(** The value of an arithmetic expression of type [p] whose exact result is [x]. *)
Definition i_value (p : ity) (x : Z) : res Z := if i_signed p && negb (i_fits p x) then Undef else Ok (conv p x).

(** The same for operands of type [t], stored in an object of type [t]. *)
Definition i_store (t : ity) (x : Z) : res Z := do y <- i_value (promoted t) x; Ok (conv t y).

(** The operations of built-in integers on operands of type [t]. *)
Definition i_add (a b : Z) : res Z := Ok (a + b)%Z.
Definition i_sub (a b : Z) : res Z := Ok (a - b)%Z.
Definition i_mul (a b : Z) : res Z := Ok (a * b)%Z.
Definition i_quot (a b : Z) : res Z := if (b =? 0)%Z then Undef else Ok (Z.quot a b).

(** Conversion of a double: the fraction is discarded, undefined unless the type has the rest. *)
Definition d_trunc (x : f64) : option Z :=
  match x with
  | S754_zero _ => Some 0%Z
  | S754_finite s m e =>
    let a := if (0 <=? e)%Z then (Z.pos m * 2 ^ e)%Z else (Z.pos m / 2 ^ (- e))%Z in
    Some (if s then (- a)%Z else a)
  | _ => None
  end.

Definition i_of_double (t : ity) (x : f64) : res Z :=
  match d_trunc x with
  | Some z => if i_fits t z then Ok z else Undef
  | None => Undef
  end.

Section Integers.
  Variables (t : ity) (dbg : bool) (junk : nat -> Z).
  Implicit Types (v w : list Z) (m o : list (list Z)).

  (** operator*= and operator/= of a vector: vector_dense.hpp 102-105, 114-117, 207-210, 219-222; the scalar has the type
      of the elements. *)
  Definition iv_scale (op : Z -> Z -> res Z) v (s : Z) : res (list Z) :=
    FOR (length v) (fun i v => do x <- vget v i; do y <- op x s; do z <- i_store t y; vset v i z) v.

  (** operator+= and operator-= of vectors: vector_dense.hpp 126-131, 140-145, 231-236, 245-250. *)
  Definition iv_op_assign (op : Z -> Z -> res Z) v w : res (list Z) :=
    do _ <- ASSERT_DEBUG dbg (length v =? length w);
    FOR (length v) (fun i v => do x <- vget v i; do y <- vget w i; do z <- op x y; do z <- i_store t z; vset v i z) v.

  (** operator+ and operator- of vectors: vector_dense.hpp 318-325, 335-342; std::function<_type> converts the sum. *)
  Definition iv_op (op : Z -> Z -> res Z) (n0 n1 : nat) v w : res (list Z) :=
    do _ <- ASSERT_DEBUG dbg (length v =? length w);
    v_lambda 0%Z dbg junk (promote n0 n1)
      (fun i => do x <- vget v i; do y <- vget w i; do z <- op x y; i_store t z) (length v).

  (** dot_product: vector_operators.hpp 90-96; the products are integers, the sum is a double. *)
  Definition i_dot v w : res f64 :=
    do _ <- ASSERT_DEBUG dbg (length v =? length w);
    FOR (length v) (fun i s => do x <- vget v i; do y <- vget w i; do z <- i_value (promoted t) (x * y);
                               Ok (sc_add fops s (f_of_Z z))) (sc_zero fops).

  (** mean: vector_operators.hpp 76-80. *)
  Definition i_mean (n : nat) v : res f64 := mean fops dbg n (map f_of_Z v).

  (** std::abs of an element; the most negative value has no absolute value. *)
  Definition i_abs (x : Z) : res Z := let p := promoted t in if i_fits p (Z.abs x) then Ok (Z.abs x) else Undef.

  (** The lambda of std::max_element: the elements are compared as doubles. *)
  Definition i_max_element (x : Z) v : Z :=
    fold_left (fun a b => if sc_lt fops (sc_abs fops (f_of_Z a)) (sc_abs fops (f_of_Z b)) then b else a) v x.

  (** lp_norm: vector_operators.hpp 46-68; all norms but the maximum norm convert the elements first. *)
  Definition i_norm (power : f64 -> nat -> f64) (root : nat -> f64 -> f64) (p : nat) v : res f64 :=
    match p, v with
    | 0, [] => Undef
    | 0, x :: r => do a <- i_abs (i_max_element x r); Ok (f_of_Z a)
    | _, _ => lp_norm fops power root p (map f_of_Z v)
    end.

  (** unit: vector_operators.hpp 104-109; operator*= takes an element, so the factor is converted. *)
  Definition i_unit v : res (list Z) :=
    do l <- i_norm (fun x _ => x) (fun _ x => x) 2 v;
    do c <- i_of_double t (if sc_inf_recip fops l then sc_zero fops else sc_div fops (sc_one fops) l);
    iv_scale i_mul v c.

  (** angle: vector_operators.hpp 120-128; the result has the type of the elements. *)
  Definition i_angle (arccos : f64 -> f64) (pi : f64) (radians : bool) v w : res Z :=
    do _ <- ASSERT_DEBUG dbg (length v =? length w);
    do _ <- ASSERT_DEBUG dbg ((length v =? 2) || (length v =? 3));
    do a <- i_unit v;
    do b <- i_unit w;
    do d <- i_dot a b;
    let minus_one := sc_sub fops (sc_zero fops) (sc_one fops) in
    i_of_double t (sc_div fops (arccos (clamp fops d minus_one (sc_one fops)))
                     (if radians then sc_one fops else sc_div fops pi (f_of_Z 180))).

  (** The lambda constructor of a matrix: matrix_dense.hpp 92-98, 259-266; the lambda is a std::function<Scalar>, so an
      integer it returns is converted to a double and back. *)
  Definition im_lambda (s : nat * nat) (f : nat -> nat -> res Z) (r c : nat) : res (list (list Z)) :=
    m_lambda 0%Z dbg s (fun i j => do x <- f i j; i_of_double t (f_of_Z x)) r c.

  (** operator*= and operator/= of a matrix: matrix_dense.hpp 133-136, 145-148, 313-316, 325-328; the scalar is a double and
      is converted for every row. *)
  Definition im_scale (op : Z -> Z -> res Z) m (s : f64) : res (list (list Z)) :=
    FOR (length m) (fun i m => do row <- vget m i; do c <- i_of_double t s; do row <- iv_scale op row c; vset m i row) m.

  (** operator+= and operator-= of matrices: matrix_dense.hpp 157-164, 173-180, 337-344, 353-360. *)
  Definition im_op_assign (op : Z -> Z -> res Z) m o : res (list (list Z)) :=
    do _ <- ASSERT_DEBUG dbg (same_size m o);
    FOR (length m) (fun i m => do row <- vget m i; do w <- vget o i; do row <- iv_op_assign op row w; vset m i row) m.

  (** operator+ and operator- of matrices: matrix_dense.hpp 478-490, 503-515. *)
  Definition im_op (op : Z -> Z -> res Z) (s0 s1 : nat * nat) m o : res (list (list Z)) :=
    do _ <- ASSERT_DEBUG dbg (same_size m o);
    im_lambda (m_promote s0 s1)
      (fun i j => do x <- mget m i j; do y <- mget o i j; do z <- op x y; i_value (promoted t) z) (m_rows m) (m_cols m).

  (** operator* of a matrix and a vector: matrix_dense.hpp 456-465; std::function<_type> converts the inner product. *)
  Definition im_vec (s : nat * nat) (n : nat) m v : res (list Z) :=
    do _ <- ASSERT_DEBUG dbg (m_cols m =? length v);
    v_lambda 0%Z dbg junk (promote (fst s) n)
      (fun i => do row <- vget m i; do d <- i_dot row v; i_of_double t d) (m_cols m).

  (** The loops of operator*= with another matrix: matrix_dense.hpp 199-206, 380-387. *)
  Definition im_mul_loops (copy : list (list Z)) o m : res (list (list Z)) :=
    FOR (m_rows m) (fun i m =>
      FOR (m_rows o) (fun k m =>
        FOR (m_cols m) (fun j m =>
          do m <- (if k =? 0 then mset m i j 0%Z else Ok m);
          do a <- mget copy i k;
          do b <- mget o k j;
          do z <- i_value (promoted t) (a * b);
          do x <- mget m i j;
          do y <- i_store t (x + z);
          mset m i j y) m) m) m.

  (** operator*= with another matrix: matrix_dense.hpp 191-208, 371-389. *)
  Definition im_mul_assign (s : nat * nat) m o : res (list (list Z)) :=
    if fst s =? 0 then
      do _ <- ASSERT_DEBUG dbg (m_cols m =? m_rows o);
      im_mul_loops m o (m_resize 0%Z [] (m_rows m) (m_cols o))
    else
      do _ <- ASSERT_DEBUG dbg (same_size m o);
      im_mul_loops m o (m_default 0%Z s).

  (** operator* of two matrices: matrix_dense.hpp 528-541. *)
  Definition im_times (s0 s1 : nat * nat) m o : res (list (list Z)) :=
    do _ <- ASSERT_DEBUG dbg (m_cols m =? m_rows o);
    do c <- im_lambda (m_demote s0 s1) (fun i j => mget m i j) (m_rows m) (m_cols m);
    im_mul_assign (m_demote s0 s1) c o.
End Integers.
