(** C127: approximate comparisons measured in real numbers (core/scalar.hpp). [number] is a finite double, [relative]
    a relative tolerance between 0 and 1 that passes the asserts, [f_real] the value of a double. *)
From Coq Require Import Reals Lra SpecFloat.
From Verif Require Import Base ScalarModel ScalarFacts FloatFacts PropFloatLemmas PropNormLemmas PropCloseLemmas.
Local Open Scope R_scope.

(** scalar_max is the largest finite double, the epsilon is the distance from 1 to the next double, and the default
    tolerances are 2^-46 and 2^-36. *)
Theorem C127_limits : number (sc_max fops) /\ number (sc_eps fops) /\ f_real (sc_eps fops) = / 2 ^ 52 /\
  (forall x, number x -> Rabs (f_real x) <= f_real (sc_max fops)) /\
  (forall x, number x -> 1 < f_real x -> 1 + / 2 ^ 52 <= f_real x) /\
  (exists x, number x /\ f_real x = 1 + / 2 ^ 52) /\
  f_real (default_absolute fops) = / 2 ^ 46 /\ f_real (default_relative fops) = / 2 ^ 36.
Proof. exact limits. Qed.
Print Assumptions C127_limits.

(** Up to a few units of roundoff the answer tells whether the distance is below the larger of the absolute tolerance
    and the relative tolerance times the sum of the magnitudes. Different numbers far apart are never called equal, and
    numbers called different are different and not much closer than the tolerance. *)
Theorem C127_meaning : forall dbg a b rel abs, number a -> number b -> relative dbg rel -> number abs ->
  Rabs (f_real a) + Rabs (f_real b) <= f_limit ->
  let T := Rmax (f_real abs) (f_real rel * (Rabs (f_real a) + Rabs (f_real b))) in
  let D := Rabs (f_real a - f_real b) in
  exists e, is_nearly_equal fops dbg a b rel abs = Ok e /\
    (e = true -> D <= (1 + f_u) ^ 4 * T + 2 * f_eta) /\
    (e = false -> T <= (1 + f_u) ^ 5 * D + 2 * f_eta /\ D <> 0).
Proof. exact nearly_meaning. Qed.
Print Assumptions C127_meaning.

(** Compared with zero only the absolute tolerance counts, exactly. *)
Theorem C127_zero : forall dbg x rel abs, number x -> relative dbg rel -> number abs ->
  exists e, is_nearly_equal fops dbg x (S754_zero false) rel abs = Ok e /\
    (e = true <-> f_real x = 0 \/ Rabs (f_real x) < f_real abs).
Proof. exact nearly_zero. Qed.
Print Assumptions C127_zero.

(** An infinity is nearly equal to itself and to nothing else, whatever the tolerances. *)
Theorem C127_infinite : forall dbg x s rel abs, tol_ok dbg rel ->
  exists e, is_nearly_equal fops dbg (S754_infinity s) x rel abs = Ok e /\ (e = true <-> x = S754_infinity s).
Proof. exact nearly_infinite. Qed.
Print Assumptions C127_infinite.

(** Larger tolerances accept more; here the sum of the magnitudes may overflow. *)
Theorem C127_monotone : forall dbg a b rel rel' abs abs', number a -> number b -> relative dbg rel -> relative dbg rel' ->
  number abs -> number abs' -> f_real rel <= f_real rel' -> f_real abs <= f_real abs' ->
  is_nearly_equal fops dbg a b rel abs = Ok true -> is_nearly_equal fops dbg a b rel' abs' = Ok true.
Proof. exact nearly_monotone. Qed.
Print Assumptions C127_monotone.

(** Changing both signs changes no answer and exchanges less with greater. *)
Theorem C127_opposite : forall dbg a b rel abs,
  is_nearly_equal fops dbg (SFopp a) (SFopp b) rel abs = is_nearly_equal fops dbg a b rel abs /\
  is_nearly_less fops dbg (SFopp a) (SFopp b) rel abs = is_nearly_greater fops dbg a b rel abs.
Proof. exact (fun dbg a b rel abs => conj (nearly_opposite dbg a b rel abs) (less_opposite dbg a b rel abs)). Qed.
Print Assumptions C127_opposite.

(** Near equality is no equivalence: it is not transitive, even with the default tolerances. *)
Theorem C127_not_transitive : exists a b c : f64, number a /\ number b /\ number c /\
  (forall dbg, is_nearly_equal fops dbg a b (default_relative fops) (default_absolute fops) = Ok true) /\
  (forall dbg, is_nearly_equal fops dbg b c (default_relative fops) (default_absolute fops) = Ok true) /\
  (forall dbg, is_nearly_equal fops dbg a c (default_relative fops) (default_absolute fops) = Ok false).
Proof. exact not_transitive. Qed.
Print Assumptions C127_not_transitive.

Example C127_hypotheses :
  number near1 /\ number near2 /\ number near3 /\ (forall dbg, relative dbg (default_relative fops)) /\
  number (default_absolute fops) /\
  is_nearly_equal fops true near1 near2 (default_relative fops) (default_absolute fops) = Ok true /\
  is_nearly_equal fops true near1 near3 (default_relative fops) (default_absolute fops) = Ok false /\
  is_nearly_equal fops true near1 (S754_zero false) (default_relative fops) (default_absolute fops) = Ok false /\
  is_nearly_equal fops true (S754_infinity false) (sc_max fops) (default_relative fops) (default_absolute fops) = Ok false /\
  is_nearly_equal fops true (sc_max fops) (sc_max fops) (default_relative fops) (default_absolute fops) = Ok true.
Proof.
  split; [|split; [|split; [|split; [exact default_relative_ok|split; [exact default_absolute_number|]]]]];
    repeat split; vm_compute; reflexivity.
Qed.
