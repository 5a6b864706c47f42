(** Scalars: include/core/scalar.hpp and the operations of [double] used elsewhere. *)
From Coq Require Import ZArith SpecFloat.
From Verif Require Import Base.

(** The operations of the scalar type. [sc_inf_recip x] is std::isinf(1.0 / x); it is kept apart from the
    division because the reals and the rationals have no infinity. *)
Record sops (S : Type) : Type := mkOps {
  sc_zero : S;
  sc_one : S;
  sc_add : S -> S -> S;
  sc_sub : S -> S -> S;
  sc_mul : S -> S -> S;
  sc_div : S -> S -> S;
  sc_abs : S -> S;
  sc_sqrt : S -> S;
  sc_lt : S -> S -> bool;
  sc_le : S -> S -> bool;
  sc_eq : S -> S -> bool;
  sc_inf_recip : S -> bool;
  sc_of_Z : Z -> S;
  sc_eps : S;      (** scalar_epsilon: scalar.hpp 40. *)
  sc_max : S       (** scalar_max: scalar.hpp 43. *)
}.
Arguments sc_zero {S}. Arguments sc_one {S}. Arguments sc_add {S}. Arguments sc_sub {S}.
Arguments sc_mul {S}. Arguments sc_div {S}. Arguments sc_abs {S}. Arguments sc_sqrt {S}.
Arguments sc_lt {S}. Arguments sc_le {S}. Arguments sc_eq {S}. Arguments sc_inf_recip {S}.
Arguments sc_of_Z {S}. Arguments sc_eps {S}. Arguments sc_max {S}.

Section Compare.
  Context {S : Type}.
  Variables (O : sops S) (dbg : bool).

  (** default_absolute, default_relative: scalar.hpp 46-51. *)
  Definition default_absolute : S := sc_mul O (sc_of_Z O 64) (sc_eps O).
  Definition default_relative : S := sc_mul O (sc_of_Z O 65536) (sc_eps O).

  (** std::min, std::max. *)
  Definition std_min (a b : S) : S := if sc_lt O b a then b else a.
  Definition std_max (a b : S) : S := if sc_lt O a b then b else a.

  (** is_nearly_equal: scalar.hpp 80-92. *)
  Definition is_nearly_equal (a b rel abs : S) : res bool :=
    do _ <- ASSERT_DEBUG dbg (sc_le O (sc_eps O) rel);
    do _ <- ASSERT_DEBUG dbg (sc_le O rel (sc_one O));
    if sc_eq O a b then Ok true
    else Ok (sc_lt O (sc_abs O (sc_sub O a b))
                     (std_max abs (sc_mul O rel (std_min (sc_add O (sc_abs O a) (sc_abs O b)) (sc_max O))))).

  (** is_nearly_greater_equal: scalar.hpp 102-106. The right operand of || is not evaluated when the left
      one holds. *)
  Definition is_nearly_greater_equal (a b rel abs : S) : res bool :=
    if sc_lt O b a then Ok true else is_nearly_equal a b rel abs.

  (** is_nearly_less_equal: scalar.hpp 116-120. *)
  Definition is_nearly_less_equal (a b rel abs : S) : res bool :=
    if sc_lt O a b then Ok true else is_nearly_equal a b rel abs.

  (** is_nearly_greater: scalar.hpp 137-141. *)
  Definition is_nearly_greater (a b rel abs : S) : res bool :=
    do r <- is_nearly_less_equal a b rel abs; Ok (negb r).

  (** is_nearly_less: scalar.hpp 158-162. *)
  Definition is_nearly_less (a b rel abs : S) : res bool :=
    do r <- is_nearly_greater_equal a b rel abs; Ok (negb r).
End Compare.

(** IEEE 754 double precision, round to nearest even. *)
Definition f64 := spec_float.

Definition f_inf (x : f64) : bool := match x with S754_infinity _ => true | _ => false end.

(** Conversion of an integer. *)
Definition f_of_Z (n : Z) : f64 := binary_normalize 53 1024 n 0 false.

Definition fops : sops f64 := mkOps f64
  (S754_zero false) (f_of_Z 1)
  (SFadd 53 1024) (SFsub 53 1024) (SFmul 53 1024) (SFdiv 53 1024) SFabs (SFsqrt 53 1024)
  SFltb SFleb SFeqb
  (fun x => f_inf (SFdiv 53 1024 (f_of_Z 1) x))
  f_of_Z
  (S754_finite false 4503599627370496 (-104))
  (S754_finite false 9007199254740991 971).
