(** More operations on vectors and matrices of floats: sums, products of matrices, angles and cross products, of
    include/core/vector_dense.hpp, matrix_dense.hpp and vector_operators.hpp with [_type] = float. Sums and differences of
    vectors are [v_op] and [v_op_assign] of [DenseModel] with [s_add] and [s_sub]: their lambda is a std::function<_type>,
    so nothing is converted (vector_dense.hpp 88-91, 126-144, 194-196, 231-249, 319-345). *)
From Coq Require Import ZArith SpecFloat.
From Verif Require Import Base DenseModel ScalarModel GeometryModel SingleModel.

Section Operations.
  Variables (dbg : bool) (junk : nat -> f32).
  Implicit Types (v w : list f32) (m o : list (list f32)).

  (** operator+ and operator- of matrices: matrix_dense.hpp 478-490, 503-515; the elements pass through doubles. *)
  Definition sm_op (op : f32 -> f32 -> f32) (s0 s1 : nat * nat) m o : res (list (list f32)) :=
    do _ <- ASSERT_DEBUG dbg (same_size m o);
    sm_lambda dbg (m_promote s0 s1) (fun i j => do x <- mget m i j; do y <- mget o i j; Ok (op x y)) (m_rows m) (m_cols m).

  (** operator* of matrices: matrix_dense.hpp 528-541; the copy passes through doubles, operator*= (191-208, 371-389) sums in
      floats. *)
  Definition sm_times (s0 s1 : nat * nat) m o : res (list (list f32)) :=
    do _ <- ASSERT_DEBUG dbg (m_cols m =? m_rows o);
    do t <- sm_lambda dbg (m_demote s0 s1) (fun i j => mget m i j) (m_rows m) (m_cols m);
    m_mul_assign s_zero s_add s_mul dbg (m_demote s0 s1) t (Some o).

  (** angle: vector_operators.hpp 120-128; the unit vectors are floats, their product and the angle are doubles, and the
      result is converted. *)
  Definition s_angle (arccos : f64 -> f64) (pi : f64) (radians : bool) v w : res f32 :=
    do _ <- size_2_or_3 dbg v w;
    do a <- s_unit v;
    do b <- s_unit w;
    do d <- s_dot dbg a b;
    Ok (narrow (sc_div fops (arccos (clamp fops d (sc_sub fops (sc_zero fops) (sc_one fops)) (sc_one fops)))
                            (if radians then sc_one fops else sc_div fops pi (sc_of_Z fops 180)))).

  (** cross_product: vector_operators.hpp 138-152; all in floats. *)
  Definition s_cross (n0 n1 : nat) v w : res (list f32) :=
    do _ <- size_2_or_3 dbg v w;
    let minor i j := do a <- vget v i; do b <- vget w j; do c <- vget v j; do d <- vget w i;
                     Ok (s_sub (s_mul a b) (s_mul c d)) in
    if length v =? 2 then
      do z <- minor 0 1;
      v_list s_zero dbg junk (promote n0 n1) [s_zero; s_zero; z]
    else
      do x <- minor 1 2; do y <- minor 2 0; do z <- minor 0 1;
      v_list s_zero dbg junk (promote n0 n1) [x; y; z].
End Operations.
