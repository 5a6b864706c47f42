(** Dense vectors and matrices of floats (IEEE binary32): the templates of include/core/vector_dense.hpp, matrix_dense.hpp
    and vector_operators.hpp with [_type] = float. An operand is converted to or from [Scalar] (double) wherever a parameter,
    a lambda, an accumulator or a result of the code has that type.

    Sums, products of matrices, angles and cross products are in [SingleOps]. Left out: arguments that refer to elements of
    the object itself (see C47), and the projections, which do not compile for floats (the factor of the product is a
    double). *)
From Coq Require Import ZArith SpecFloat.
From Verif Require Import Base DenseModel ScalarModel GeometryModel.

(** 24 significant bits, exponents up to 128. *)
Definition f32 := spec_float.

(** The operations of floats: each is rounded to nearest, ties to even. *)
Definition s_add : f32 -> f32 -> f32 := SFadd 24 128.
Definition s_sub : f32 -> f32 -> f32 := SFsub 24 128.
Definition s_mul : f32 -> f32 -> f32 := SFmul 24 128.
Definition s_div : f32 -> f32 -> f32 := SFdiv 24 128.

(** The conversions between floats and doubles. *)
Definition convert (prec emax : Z) (x : spec_float) : spec_float :=
  match x with
  | S754_finite s m e => binary_normalize prec emax (if s then Zneg m else Zpos m) e s
  | _ => x
  end.
Definition widen : f32 -> f64 := convert 53 1024.
Definition narrow : f64 -> f32 := convert 24 128.

Section Singles.
  Variables (dbg : bool) (junk : nat -> f32).
  Implicit Types (v w : list f32) (m : list (list f32)).

  Definition s_zero : f32 := S754_zero false.

  (** operator*= and operator/= of a vector: vector_dense.hpp 102-105, 114-117, 207-210, 219-222; the scalar has the type
      of the elements. *)
  Definition sv_scale (op : f32 -> f32 -> f32) v (c : f32) : res (list f32) := v_scale op v (Ext c).

  (** dot_product: vector_operators.hpp 90-96; the products are floats, the sum is a double. *)
  Definition s_dot v w : res f64 :=
    do _ <- ASSERT_DEBUG dbg (length v =? length w);
    FOR (length v) (fun i s => do x <- vget v i; do y <- vget w i; Ok (sc_add fops s (widen (s_mul x y)))) (sc_zero fops).

  (** mean: vector_operators.hpp 76-80. *)
  Definition s_mean (n : nat) v : res f64 := mean fops dbg n (map widen v).

  (** The lambda of std::max_element: the elements are compared as doubles. *)
  Definition s_max_element (x : f32) v : f32 :=
    fold_left (fun a b => if sc_lt fops (sc_abs fops (widen a)) (sc_abs fops (widen b)) then b else a) v x.

  (** lp_norm: vector_operators.hpp 46-68; all norms but the maximum norm convert the elements first. *)
  Definition s_norm (power : f64 -> nat -> f64) (root : nat -> f64 -> f64) (p : nat) v : res f64 :=
    match p, v with
    | 0, [] => Undef
    | 0, x :: r => Ok (widen (SFabs (s_max_element x r)))
    | _, _ => lp_norm fops power root p (map widen v)
    end.

  (** unit: vector_operators.hpp 104-109; the inverse is a double, the test is made on the double, and operator*= takes a
      float. *)
  Definition s_unit v : res (list f32) :=
    do l <- s_norm (fun x _ => x) (fun _ x => x) 2 v;
    sv_scale s_mul v (narrow (if sc_inf_recip fops l then sc_zero fops else sc_div fops (sc_one fops) l)).

  (** operator*= and operator/= of a matrix: matrix_dense.hpp 133-136, 145-148, 313-316, 325-328; the scalar is a double and
      is converted for every row. *)
  Definition sm_scale (op : f32 -> f32 -> f32) m (s : f64) : res (list (list f32)) :=
    FOR (length m) (fun i m => do row <- vget m i; do row <- sv_scale op row (narrow s); vset m i row) m.

  (** The lambda constructor of a matrix: matrix_dense.hpp 92-98, 259-266; the lambda is a std::function<Scalar>, so a float
      it returns is converted to a double and back. *)
  Definition sm_lambda (s : nat * nat) (f : nat -> nat -> res f32) (r c : nat) : res (list (list f32)) :=
    m_lambda s_zero dbg s (fun i j => do x <- f i j; Ok (narrow (widen x))) r c.

  (** operator* of a matrix and a vector: matrix_dense.hpp 456-465; std::function<_type> converts the inner product. *)
  Definition sm_vec (s : nat * nat) (n : nat) m v : res (list f32) :=
    do _ <- ASSERT_DEBUG dbg (m_cols m =? length v);
    v_lambda s_zero dbg junk (promote (fst s) n)
      (fun i => do row <- vget m i; do d <- s_dot row v; Ok (narrow d)) (m_cols m).
End Singles.
