(** Properties C50, C51: approximate comparisons of double precision numbers. [is_num x] is "x is not NaN";
    [tol_ok dbg rel] says that in debug builds the relative tolerance is in [epsilon, 1] as asserted; [SFltb]
    and [SFeqb] are the IEEE comparisons of the standard library. *)
From Coq Require Import ZArith SpecFloat.
From Verif Require Import Base ScalarModel ScalarFacts.

(** ** C50 *)

Theorem C50_equal_sym : forall dbg a b rel abs,
  is_nearly_equal fops dbg a b rel abs = is_nearly_equal fops dbg b a rel abs.
Proof. exact nearly_equal_sym. Qed.
Print Assumptions C50_equal_sym.

Theorem C50_equal_refl : forall dbg a rel abs, tol_ok dbg rel -> is_num a ->
  is_nearly_equal fops dbg a a rel abs = Ok true.
Proof. exact nearly_refl. Qed.
Print Assumptions C50_equal_refl.

Theorem C50_less_greater : forall dbg a b rel abs,
  is_nearly_less fops dbg a b rel abs = is_nearly_greater fops dbg b a rel abs.
Proof. exact nearly_swap. Qed.
Print Assumptions C50_less_greater.

Theorem C50_trichotomy : forall dbg a b rel abs, tol_ok dbg rel -> is_num a -> is_num b ->
  exists l e g,
    is_nearly_less fops dbg a b rel abs = Ok l /\
    is_nearly_equal fops dbg a b rel abs = Ok e /\
    is_nearly_greater fops dbg a b rel abs = Ok g /\
    is_nearly_less_equal fops dbg a b rel abs = Ok (l || e) /\
    is_nearly_greater_equal fops dbg a b rel abs = Ok (g || e) /\
    ((l = true /\ e = false /\ g = false) \/ (l = false /\ e = true /\ g = false) \/
     (l = false /\ e = false /\ g = true)) /\
    (l = true -> SFltb a b = true) /\ (g = true -> SFltb b a = true) /\ (SFeqb a b = true -> e = true).
Proof. exact nearly_coherent. Qed.
Print Assumptions C50_trichotomy.

Example C50_hypotheses :
  tol_ok true (default_relative fops) /\ is_num (f_of_Z 1) /\ is_num (S754_infinity true) /\
  is_nearly_less fops true (f_of_Z 1) (f_of_Z 2) (default_relative fops) (default_absolute fops) = Ok true /\
  is_nearly_equal fops true (f_of_Z 1000000000000000) (f_of_Z 1000000000000001)
    (default_relative fops) (default_absolute fops) = Ok true /\
  is_nearly_greater fops true (f_of_Z 1) (S754_infinity true) (default_relative fops) (default_absolute fops) =
    Ok true.
Proof.
  split; [apply default_tol_ok|]. split; [intro H; vm_compute in H; discriminate|].
  split; [discriminate|]. repeat split; vm_compute; reflexivity.
Qed.

(** ** C51
    Full statement: no approximate order comparison with NaN is true. The strict ones are always true because
    they negate the weak ones. *)

Theorem C51_nan_refuted : forall dbg x rel abs, tol_ok dbg rel ->
  is_nearly_less fops dbg S754_nan x rel abs = Ok true /\
  is_nearly_less fops dbg x S754_nan rel abs = Ok true /\
  is_nearly_greater fops dbg S754_nan x rel abs = Ok true /\
  is_nearly_greater fops dbg x S754_nan rel abs = Ok true.
Proof. exact nearly_nan_order. Qed.
Print Assumptions C51_nan_refuted.

(** What holds: the weak comparisons and is_nearly_equal with NaN are false. *)
Theorem C51_nan_weak_partial : forall dbg x rel abs, tol_ok dbg rel ->
  is_nearly_less_equal fops dbg S754_nan x rel abs = Ok false /\
  is_nearly_less_equal fops dbg x S754_nan rel abs = Ok false /\
  is_nearly_greater_equal fops dbg S754_nan x rel abs = Ok false /\
  is_nearly_greater_equal fops dbg x S754_nan rel abs = Ok false.
Proof. exact nearly_nan_weak. Qed.
Print Assumptions C51_nan_weak_partial.

Theorem C51_nan_equal_partial : forall dbg x rel abs, tol_ok dbg rel ->
  is_nearly_equal fops dbg S754_nan x rel abs = Ok false /\
  is_nearly_equal fops dbg x S754_nan rel abs = Ok false.
Proof. exact nearly_nan. Qed.
Print Assumptions C51_nan_equal_partial.

Example C51_hypotheses :
  tol_ok true (default_relative fops) /\
  is_nearly_less fops true S754_nan (f_of_Z 1) (default_relative fops) (default_absolute fops) = Ok true /\
  is_nearly_greater fops true S754_nan (f_of_Z 1) (default_relative fops) (default_absolute fops) = Ok true.
Proof. split; [apply default_tol_ok|]. split; vm_compute; reflexivity. Qed.
