(** Property C96: the laws of matrix algebra for the sparse operators +, * and the product with a vector.
    [same_matrix m1 m2]: equal sizes, and equal in every field when there is a row. *)
From Coq Require Import ZArith Ring_theory.
From Verif Require Import Base SparseModel SparseSpec ScalarModel PropSparseLemmas PropIterLemmas SparseAlgebra PropAlgebraLemmas.

(** ** C96 *)
Theorem C96_product_associative : forall {V} (vzero vone : V) vadd vmul M dbg stray,
  semi_ring_theory vzero vone vadd vmul eq -> forall m o p : smat V,
  swf m -> swf o -> swf p -> csize m = s_rows o -> csize o = s_rows p ->
  exists mo op l r, s_times vzero vadd vmul M dbg stray m o = Ok mo /\ s_times vzero vadd vmul M dbg stray o p = Ok op /\
    s_times vzero vadd vmul M dbg stray mo p = Ok l /\ s_times vzero vadd vmul M dbg stray m op = Ok r /\ same_matrix l r.
Proof. exact @times_assoc. Qed.
Print Assumptions C96_product_associative.

Theorem C96_left_distributive : forall {V} (vzero vone : V) vadd vmul vopp M dbg stray,
  semi_ring_theory vzero vone vadd vmul eq -> forall m o p : smat V,
  swf m -> swf o -> swf p -> csize m = s_rows o -> s_rows o = s_rows p -> csize o = csize p ->
  exists op mo mp l r, s_plus vzero vadd vopp M dbg stray o p = Ok op /\ s_times vzero vadd vmul M dbg stray m o = Ok mo /\
    s_times vzero vadd vmul M dbg stray m p = Ok mp /\ s_times vzero vadd vmul M dbg stray m op = Ok l /\
    s_plus vzero vadd vopp M dbg stray mo mp = Ok r /\ same_matrix l r.
Proof. exact @times_plus. Qed.
Print Assumptions C96_left_distributive.

Theorem C96_right_distributive : forall {V} (vzero vone : V) vadd vmul vopp M dbg stray,
  semi_ring_theory vzero vone vadd vmul eq -> forall m o p : smat V,
  swf m -> swf o -> swf p -> s_rows m = s_rows o -> csize m = csize o -> csize m = s_rows p ->
  exists mo mp op l r, s_plus vzero vadd vopp M dbg stray m o = Ok mo /\ s_times vzero vadd vmul M dbg stray m p = Ok mp /\
    s_times vzero vadd vmul M dbg stray o p = Ok op /\ s_times vzero vadd vmul M dbg stray mo p = Ok l /\
    s_plus vzero vadd vopp M dbg stray mp op = Ok r /\ same_matrix l r.
Proof. exact @plus_times. Qed.
Print Assumptions C96_right_distributive.

Theorem C96_sum_commutative : forall {V} (vzero vone : V) vadd vmul vopp M dbg stray,
  semi_ring_theory vzero vone vadd vmul eq -> forall m o : smat V,
  swf m -> swf o -> s_rows m = s_rows o -> csize m = csize o ->
  exists l r, s_plus vzero vadd vopp M dbg stray m o = Ok l /\ s_plus vzero vadd vopp M dbg stray o m = Ok r /\
    same_matrix l r.
Proof. exact @plus_comm. Qed.
Print Assumptions C96_sum_commutative.

Theorem C96_sum_associative : forall {V} (vzero vone : V) vadd vmul vopp M dbg stray,
  semi_ring_theory vzero vone vadd vmul eq -> forall m o p : smat V,
  swf m -> swf o -> swf p -> s_rows m = s_rows o -> s_rows o = s_rows p -> csize m = csize o -> csize o = csize p ->
  exists mo op l r, s_plus vzero vadd vopp M dbg stray m o = Ok mo /\ s_plus vzero vadd vopp M dbg stray o p = Ok op /\
    s_plus vzero vadd vopp M dbg stray mo p = Ok l /\ s_plus vzero vadd vopp M dbg stray m op = Ok r /\ same_matrix l r.
Proof. exact @plus_assoc. Qed.
Print Assumptions C96_sum_associative.

(** A product applied to a vector is the composition. *)
Theorem C96_product_vector : forall {V} (vzero vone : V) vadd vmul M dbg stray,
  semi_ring_theory vzero vone vadd vmul eq -> forall (m o : smat V) x,
  swf m -> swf o -> csize m = s_rows o -> length x = csize o ->
  exists mo ox y, s_times vzero vadd vmul M dbg stray m o = Ok mo /\ s_mat_vec vzero vadd vmul dbg stray o x = Ok ox /\
    s_mat_vec vzero vadd vmul dbg stray mo x = Ok y /\ s_mat_vec vzero vadd vmul dbg stray m ox = Ok y.
Proof. exact @times_vec. Qed.
Print Assumptions C96_product_vector.

Theorem C96_sum_vector : forall {V} (vzero vone : V) vadd vmul vopp M dbg stray,
  semi_ring_theory vzero vone vadd vmul eq -> forall (m o : smat V) x,
  swf m -> swf o -> s_rows m = s_rows o -> csize m = csize o -> length x = csize o ->
  exists mo mx ox y, s_plus vzero vadd vopp M dbg stray m o = Ok mo /\ s_mat_vec vzero vadd vmul dbg stray m x = Ok mx /\
    s_mat_vec vzero vadd vmul dbg stray o x = Ok ox /\ s_mat_vec vzero vadd vmul dbg stray mo x = Ok y /\
    length y = s_rows m /\ forall i, i < s_rows m -> nth i y vzero = vadd (nth i mx vzero) (nth i ox vzero).
Proof. exact @plus_vec. Qed.
Print Assumptions C96_sum_vector.

(** In doubles, the element type of the code, the sum is not associative. *)
Theorem C96_doubles_refuted : forall vopp M dbg stray, exists a b c l r mo op,
  swf a /\ swf b /\ swf c /\
  s_plus (sc_zero fops) (sc_add fops) vopp M dbg stray a b = Ok mo /\
  s_plus (sc_zero fops) (sc_add fops) vopp M dbg stray b c = Ok op /\
  s_plus (sc_zero fops) (sc_add fops) vopp M dbg stray mo c = Ok l /\
  s_plus (sc_zero fops) (sc_add fops) vopp M dbg stray a op = Ok r /\ ~ same_matrix l r.
Proof. exact doubles_assoc. Qed.
Print Assumptions C96_doubles_refuted.

Example C96_hypotheses : swf ex_mat /\ csize ex_mat = s_rows ex_mat /\ semi_ring_theory 0%Z 1%Z Z.add Z.mul eq /\
  s_plus 0%Z Z.add Z.opp 100 true None ex_mat ex_mat = Ok (mkS [0; 2; 3; 4] [0; 2; 1; 0] [2; 4; 6; 8]%Z 3) /\
  s_mat_vec 0%Z Z.add Z.mul true None ex_mat [1; 2; 3]%Z = Ok [7; 6; 4]%Z.
Proof.
  split; [exact ex_swf|]. split; [reflexivity|]. split; [exact Z_semi_ring|]. split; vm_compute; reflexivity.
Qed.
