(** Norms and geometric operations: include/core/vector_operators.hpp. *)
From Coq Require Import ZArith.
From Verif Require Import Base DenseModel ScalarModel.

Section Geometry.
  Context {S : Type}.
  Variables (O : sops S) (dbg : bool) (junk : nat -> S).
  (** [power x p] is std::pow(x, p), [root p x] is std::cbrt(x) or
      std::pow(x, 1.0 / p); [arccos], [pi] are std::acos and std::numbers::pi. *)
  Variables (power : S -> nat -> S) (root : nat -> S -> S) (arccos : S -> S) (pi : S).
  Implicit Types (v w : list S).

  (** std::accumulate(begin, end, 0.0, f). *)
  Definition accumulate (f : S -> S -> S) v : S := fold_left f v (sc_zero O).

  (** std::max_element with the comparison |a| < |b|: the first of the largest elements. *)
  Definition max_element (x : S) v : S :=
    fold_left (fun a b => if sc_lt O (sc_abs O a) (sc_abs O b) then b else a) v x.

  (** lp_norm: vector_operators.hpp 46-68. *)
  Definition lp_norm (p : nat) v : res S :=
    match p with
    | 0 => match v with
           | [] => Undef
           | x :: r => Ok (sc_abs O (max_element x r))
           end
    | 1 => Ok (accumulate (fun a b => sc_add O a (sc_abs O b)) v)
    | 2 => Ok (sc_sqrt O (accumulate (fun a b => sc_add O a (sc_mul O b b)) v))
    | 3 => Ok (root 3 (accumulate (fun a b => let abs_b := sc_abs O b in
             sc_add O a (sc_mul O (sc_mul O abs_b abs_b) abs_b)) v))
    | _ => Ok (root p (accumulate (fun a b => sc_add O a (power (if Nat.even p then b else sc_abs O b) p)) v))
    end.

  (** mean: vector_operators.hpp 76-80; [n] is the template size. *)
  Definition mean (n : nat) v : res S :=
    do _ <- ASSERT_DEBUG dbg (negb (n =? 0) || negb (length v =? 0));
    Ok (sc_div O (accumulate (sc_add O) v) (sc_of_Z O (Z.of_nat (length v)))).

  Definition g_dot := dot (sc_zero O) (sc_add O) (sc_mul O) dbg.

  (** unit: vector_operators.hpp 104-109. *)
  Definition unit_vector v : res (list S) :=
    do l <- lp_norm 2 v;
    v_scale (sc_mul O) v (Ext (if sc_inf_recip O l then sc_zero O else sc_div O (sc_one O) l)).

  (** std::clamp. *)
  Definition clamp (x lo hi : S) : S := if sc_lt O x lo then lo else if sc_lt O hi x then hi else x.

  (** The assertions on the sizes: vector_operators.hpp 122-125, 141-144. *)
  Definition size_2_or_3 v w : res Datatypes.unit :=
    do _ <- ASSERT_DEBUG dbg (length v =? length w);
    ASSERT_DEBUG dbg ((length v =? 2) || (length v =? 3)).

  (** angle: vector_operators.hpp 120-128. *)
  Definition angle (radians : bool) v w : res S :=
    do _ <- size_2_or_3 v w;
    do a <- unit_vector v;
    do b <- unit_vector w;
    do d <- g_dot a b;
    let minus_one := sc_sub O (sc_zero O) (sc_one O) in
    Ok (sc_div O (arccos (clamp d minus_one (sc_one O)))
                 (if radians then sc_one O else sc_div O pi (sc_of_Z O 180))).

  (** cross_product: vector_operators.hpp 138-152; the braces call the constructor from a list. *)
  Definition cross_product (n0 n1 : nat) v w : res (list S) :=
    do _ <- size_2_or_3 v w;
    let minor i j := do a <- vget v i; do b <- vget w j; do c <- vget v j; do d <- vget w i;
                     Ok (sc_sub O (sc_mul O a b) (sc_mul O c d)) in
    if length v =? 2 then
      do z <- minor 0 1;
      v_list (sc_zero O) dbg junk (promote n0 n1) [sc_zero O; sc_zero O; z]
    else
      do x <- minor 1 2; do y <- minor 2 0; do z <- minor 0 1;
      v_list (sc_zero O) dbg junk (promote n0 n1) [x; y; z].

  (** projection_tangent: vector_operators.hpp 161-170. *)
  Definition projection_tangent (n0 n1 : nat) v w : res (list S) :=
    do l <- lp_norm 2 w;
    do _ <- ASSERT_DEBUG dbg (negb (sc_eq O l (sc_zero O)));
    do _ <- ASSERT_DEBUG dbg (length v =? length w);
    do d <- g_dot v w;
    do t <- v_lambda (sc_zero O) dbg junk (promote n0 n1) (fun i => vget w i) (length w);
    v_times (sc_mul O) d t.

  (** projection_orthogonal: vector_operators.hpp 180-188. *)
  Definition projection_orthogonal (n0 n1 : nat) v w : res (list S) :=
    do _ <- ASSERT_DEBUG dbg (length v =? length w);
    do a <- v_lambda (sc_zero O) dbg junk (promote n0 n1) (fun i => vget v i) (length w);
    do t <- projection_tangent n0 n1 v w;
    v_minus (sc_zero O) (sc_sub O) dbg junk (promote n0 n1) (promote n0 n1) a t.
End Geometry.
