(** Property C129: the laws of the arithmetic on dense vectors and matrices. [same] says that two computations end normally with
    the same result; [is_vec] and [is_mat] give the components of lists. The sizes of the templates are 0 (dynamic objects). *)
From Coq Require Import ZArith Reals Lra Lia List SpecFloat Ring_theory.
From Verif Require Import Base DenseModel DenseFacts ScalarModel FloatFacts SparseAlgebra IterFloat PropSparseLemmas PropDenseLemmas PropLawsLemmas.
Import ListNotations.

(** ** Exact arithmetic: any commutative semi-ring. *)

Theorem C129_product : forall {V} (vzero vone : V) vadd vmul dbg, semi_ring_theory vzero vone vadd vmul eq ->
  forall r k l c A a B b C g, is_mat r k A a -> is_mat k l B b -> is_mat l c C g ->
  (r = 0 -> k = 0) -> (k = 0 -> l = 0) -> (l = 0 -> c = 0) ->
  let times := m_times vzero vadd vmul dbg (0, 0) (0, 0) in
  same (do p <- times A B; times p C) (do q <- times B C; times A q).
Proof. exact @law_product. Qed.
Print Assumptions C129_product.

Theorem C129_product_vector : forall {V} (vzero vone : V) vadd vmul dbg junk, semi_ring_theory vzero vone vadd vmul eq ->
  forall n A a B b x f, is_mat n n A a -> is_mat n n B b -> is_vec n x f ->
  let times := m_times vzero vadd vmul dbg (0, 0) (0, 0) in
  let act := m_vec vzero vadd vmul dbg junk 0 0 in
  same (do p <- times A B; act p x) (do y <- act B x; act A y).
Proof. exact @law_act. Qed.
Print Assumptions C129_product_vector.

Theorem C129_distributes_left : forall {V} (vzero vone : V) vadd vmul dbg, semi_ring_theory vzero vone vadd vmul eq ->
  forall r k c A a B b C g, is_mat r k A a -> is_mat k c B b -> is_mat k c C g -> (r = 0 -> k = 0) -> (k = 0 -> c = 0) ->
  let times := m_times vzero vadd vmul dbg (0, 0) (0, 0) in
  let plus := m_plus vzero vadd dbg (0, 0) (0, 0) in
  same (do s <- plus B C; times A s) (do p <- times A B; do q <- times A C; plus p q).
Proof. exact @law_left. Qed.
Print Assumptions C129_distributes_left.

Theorem C129_distributes_right : forall {V} (vzero vone : V) vadd vmul dbg, semi_ring_theory vzero vone vadd vmul eq ->
  forall r k c A a B b C g, is_mat r k A a -> is_mat r k B b -> is_mat k c C g -> (r = 0 -> k = 0) -> (k = 0 -> c = 0) ->
  let times := m_times vzero vadd vmul dbg (0, 0) (0, 0) in
  let plus := m_plus vzero vadd dbg (0, 0) (0, 0) in
  same (do s <- plus A B; times s C) (do p <- times A C; do q <- times B C; plus p q).
Proof. exact @law_right. Qed.
Print Assumptions C129_distributes_right.

Theorem C129_scalars : forall {V} (vzero vone : V) vadd vmul dbg, semi_ring_theory vzero vone vadd vmul eq ->
  forall r k c A a B b s, is_mat r k A a -> is_mat k c B b -> (r = 0 -> k = 0) -> (k = 0 -> c = 0) ->
  let times := m_times vzero vadd vmul dbg (0, 0) (0, 0) in
  let scale := m_times_scalar vmul in
  same (do p <- times A B; scale s p) (do q <- scale s A; times q B) /\
  same (do p <- times A B; scale s p) (do q <- scale s B; times A q).
Proof. exact @law_scale. Qed.
Print Assumptions C129_scalars.

Theorem C129_transposed : forall {V} (vzero vone : V) vadd vmul dbg, semi_ring_theory vzero vone vadd vmul eq ->
  forall r k c A a B b A' B' X Y, is_mat r k A a -> is_mat k c B b ->
  is_mat k r A' (fun i j => a j i) -> is_mat c k B' (fun i j => b j i) -> (r = 0 <-> k = 0) -> (k = 0 <-> c = 0) ->
  m_times vzero vadd vmul dbg (0, 0) (0, 0) A B = Ok X -> m_times vzero vadd vmul dbg (0, 0) (0, 0) B' A' = Ok Y ->
  exists h, is_mat r c X h /\ is_mat c r Y (fun i j => h j i).
Proof. exact @law_commuted. Qed.
Print Assumptions C129_transposed.

Theorem C129_linear : forall {V} (vzero vone : V) vadd vmul dbg junk, semi_ring_theory vzero vone vadd vmul eq ->
  forall n A a B b x f y g s, is_mat n n A a -> is_mat n n B b -> is_vec n x f -> is_vec n y g ->
  let act := m_vec vzero vadd vmul dbg junk 0 0 in
  let vplus := v_plus vzero vadd dbg junk 0 0 in
  same (do z <- vplus x y; act A z) (do p <- act A x; do q <- act A y; vplus p q) /\
  same (do z <- v_times vmul s x; act A z) (do p <- act A x; v_times vmul s p) /\
  same (do C <- m_plus vzero vadd dbg (0, 0) (0, 0) A B; act C x) (do p <- act A x; do q <- act B x; vplus p q) /\
  same (do C <- m_times_scalar vmul s A; act C x) (do p <- act A x; v_times vmul s p).
Proof. exact @law_linear. Qed.
Print Assumptions C129_linear.

Theorem C129_dot : forall {V} (vzero vone : V) vadd vmul dbg junk, semi_ring_theory vzero vone vadd vmul eq ->
  forall n x f y g z h s, is_vec n x f -> is_vec n y g -> is_vec n z h ->
  let vdot := dot vzero vadd vmul dbg in
  same (vdot x y) (vdot y x) /\
  same (do w <- v_plus vzero vadd dbg junk 0 0 x y; vdot w z) (do p <- vdot x z; do q <- vdot y z; Ok (vadd p q)) /\
  same (do w <- v_times vmul s x; vdot w z) (do p <- vdot x z; Ok (vmul s p)).
Proof. exact @law_dot. Qed.
Print Assumptions C129_dot.

Example C129_hypotheses : semi_ring_theory 0%Z 1%Z Z.add Z.mul eq /\
  is_mat 2 2 [[1; 2]; [3; 4]]%Z (fun i j => nth j (nth i [[1; 2]; [3; 4]]%Z []) 0%Z) /\
  is_mat 2 1 [[5]; [6]]%Z (fun i j => nth j (nth i [[5]; [6]]%Z []) 0%Z) /\
  is_mat 1 3 [[1; 0; 7]]%Z (fun i j => nth j (nth i [[1; 0; 7]]%Z []) 0%Z) /\
  let times := m_times 0%Z Z.add Z.mul true (0, 0) (0, 0) in
  (do p <- times [[1; 2]; [3; 4]]%Z [[5]; [6]]%Z; times p [[1; 0; 7]]%Z) = Ok [[17; 0; 119]; [39; 0; 273]]%Z /\
  (do q <- times [[5]; [6]]%Z [[1; 0; 7]]%Z; times [[1; 2]; [3; 4]]%Z q) = Ok [[17; 0; 119]; [39; 0; 273]]%Z /\
  is_mat 1 2 [[5; 6]]%Z (fun i j => nth i (nth j [[5]; [6]]%Z []) 0%Z) /\
  is_vec 2 [8; 9]%Z (fun i => nth i [8; 9]%Z 0%Z) /\
  (do y <- m_vec 0%Z Z.add Z.mul true (fun _ => 0%Z) 0 0 [[1; 2]; [3; 4]]%Z [8; 9]%Z;
   m_vec 0%Z Z.add Z.mul true (fun _ => 0%Z) 0 0 [[0; 1]; [1; 1]]%Z y) = Ok [60; 86]%Z.
Proof.
  split; [exact Z_semi_ring|]. do 3 (split; [apply (is_mat_list 0%Z); repeat constructor|]). split; [reflexivity|]. split; [reflexivity|].
  split; [|split; [exact (is_vec_list 0%Z [8; 9]%Z)|reflexivity]].
  split; [reflexivity|]. intros [|i] Hi; [|lia]. eexists. split; [reflexivity|]. split; [reflexivity|].
  intros [|[|j]] Hj; [reflexivity..|lia].
Qed.

(** ** Doubles: what survives rounding, bit for bit. *)

Theorem C129_commutes : forall dbg junk n v f w g, is_vec n v f -> is_vec n w g ->
  let add := SFadd 53 1024 in let mul := SFmul 53 1024 in let zero := S754_zero false in
  same (v_plus zero add dbg junk 0 0 v w) (v_plus zero add dbg junk 0 0 w v) /\
  same (dot zero add mul dbg v w) (dot zero add mul dbg w v).
Proof. exact double_commutes. Qed.
Print Assumptions C129_commutes.

Theorem C129_matrix_commutes : forall dbg r c m f o g, is_mat r c m f -> is_mat r c o g ->
  let plus := m_plus (S754_zero false) (SFadd 53 1024) dbg (0, 0) (0, 0) in same (plus m o) (plus o m).
Proof. exact double_matrix_commutes. Qed.
Print Assumptions C129_matrix_commutes.

(** One is the unit, for infinities, zeros of either sign and not-a-numbers as well. *)
Theorem C129_unit : forall v, Forall f_valid v ->
  v_times (SFmul 53 1024) (f_of_Z 1) v = Ok v /\ v_over (SFdiv 53 1024) v (f_of_Z 1) = Ok v.
Proof. exact double_unit. Qed.
Print Assumptions C129_unit.

(** Multiplying by a power of two is exact and undone by dividing, as long as no component overflows or becomes subnormal. *)
Theorem C129_powers_of_two : forall p k v, power_of_two p k -> Forall (fun a => scalable a k) v ->
  exists w, v_times (SFmul 53 1024) p v = Ok w /\ v_over (SFdiv 53 1024) w p = Ok v /\
    Forall2 (fun a b => f_finite b = true /\ f_real b = f_real a * powerRZ 2 k)%R v w.
Proof. exact double_scaled. Qed.
Print Assumptions C129_powers_of_two.

Theorem C129_cancels : forall dbg junk v, Forall (fun a => f_finite a = true) v ->
  v_minus (S754_zero false) (SFsub 53 1024) dbg junk 0 0 v v = Ok (repeat (S754_zero false) (length v)).
Proof. exact double_cancel. Qed.
Print Assumptions C129_cancels.

Example C129_double_hypotheses :
  Forall f_valid [S754_zero true; S754_infinity true; S754_nan; f_of_Z 3] /\
  power_of_two (f_of_Z 1) 0 /\ Forall (fun a => scalable a 0) [f_of_Z 3; S754_zero true] /\
  v_minus (S754_zero false) (SFsub 53 1024) true (fun _ => S754_nan) 0 0 [f_of_Z 3; S754_zero true] [f_of_Z 3; S754_zero true] =
    Ok [S754_zero false; S754_zero false] /\
  v_minus (S754_zero false) (SFsub 53 1024) true (fun _ => S754_nan) 0 0 [S754_infinity true] [S754_infinity true] = Ok [S754_nan].
Proof. exact double_examples. Qed.

(** What does not survive: the order of a sum, and dividing and multiplying by 10. *)
Theorem C129_order_matters :
  let plus := v_plus (S754_zero false) (SFadd 53 1024) true (fun _ => S754_nan) 0 0 in
  let x := [f_of_Z (2 ^ 53)] in let y := [f_of_Z 1] in
  (do p <- plus x y; plus p y) = Ok [f_of_Z (2 ^ 53)] /\
  (do q <- plus y y; plus x q) = Ok [f_of_Z (2 ^ 53 + 2)] /\ f_of_Z (2 ^ 53) <> f_of_Z (2 ^ 53 + 2).
Proof. exact order_matters. Qed.
Print Assumptions C129_order_matters.

Theorem C129_tenths : exists w,
  v_times (SFmul 53 1024) (SFdiv 53 1024 (f_of_Z 1) (f_of_Z 10)) [f_of_Z 3] = Ok w /\ v_over (SFdiv 53 1024) [f_of_Z 3] (f_of_Z 10) <> Ok w.
Proof. exact tenths. Qed.
Print Assumptions C129_tenths.
