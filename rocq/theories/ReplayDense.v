(** The unit tests of vectors, dense matrices and scalars, run on the model: test/core/test_vector_dense.cpp,
    test/core/test_vector_operators.cpp, test/core/test_matrix_dense.cpp, test/core/test_scalar.cpp.

    Every expectation of those tests is stated, in double precision. A death test is [Abort]. EXPECT_DOUBLE_EQ
    is [double_eq]. The test of the angles takes std::acos(0.0) to be half of std::numbers::pi; the test of the
    norms takes the roots on both sides to be the same function, and only compares their arguments.

    The body of the macro NEARLY_EQUAL_TESTS begins with a comment whose line is continued to the end of the
    macro, so nothing is left of it once it is preprocessed, and the test of is_nearly_equal checks nothing. It
    is run here as it was meant ([equality_tests]). *)
From Coq Require Import ZArith SpecFloat.
From Verif Require Import Base DenseModel ScalarModel GeometryModel.

(** A number of the tests: [a] divided by [b], rounded. *)
Definition lit (a b : Z) : f64 := SFdiv 53 1024 (f_of_Z a) (f_of_Z b).
Definition num (a : Z) : f64 := f_of_Z a.
Definition nums (l : list Z) : list f64 := map f_of_Z l.
Definition numss (l : list (list Z)) : list (list f64) := map nums l.

(** The position of a double among the doubles, as in AlmostEquals of googletest. *)
Definition place (x : f64) : option Z :=
  match x with
  | S754_zero _ => Some 0%Z
  | S754_finite s m e => Some ((if s then Z.opp else fun z => z) ((e + 1074) * 4503599627370496 + Zpos m)%Z)
  | _ => None
  end.

(** EXPECT_DOUBLE_EQ: at most four units in the last place apart. *)
Definition double_eq (x y : f64) : bool :=
  match place x, place y with
  | Some a, Some b => (Z.abs (a - b) <=? 4)%Z
  | _, _ => false
  end.

(** EXPECT_NEAR. *)
Definition near (x y tol : f64) : bool := SFleb (SFabs (SFsub 53 1024 x y)) tol.

Fixpoint all2 {A B : Type} (f : A -> B -> bool) (l : list A) (k : list B) : bool :=
  match l, k with
  | [], [] => true
  | a :: l, b :: k => f a b && all2 f l k
  | _, _ => false
  end.

Definition is_num (r : res f64) (x : f64) : bool := match r with Ok y => double_eq y x | _ => false end.
Definition is_v (r : res (list f64)) (l : list f64) : bool := match r with Ok v => all2 double_eq v l | _ => false end.
Definition is_m (r : res (list (list f64))) (l : list (list f64)) : bool :=
  match r with Ok m => all2 (all2 double_eq) m l | _ => false end.
Definition dies {A : Type} (r : res A) : bool := match r with Abort => true | _ => false end.
Definition all (l : list bool) : bool := forallb (fun b => b) l.

(** What an array of static size holds before it is set. *)
Definition left_over (k : nat) : f64 := S754_nan.

Notation zero := (S754_zero false).
Notation fadd := (SFadd 53 1024).
Notation fsub := (SFsub 53 1024).
Notation fmul := (SFmul 53 1024).
Notation fdiv := (SFdiv 53 1024).
Notation vlist := (v_list zero true left_over).
Notation vlambda := (v_lambda zero true left_over).
Notation vplus := (v_plus zero fadd true left_over).
Notation vminus := (v_minus zero fsub true left_over).
Notation vaddto := (v_add_assign fadd true).
Notation vsubto := (v_sub_assign fsub true).
Notation mlist := (m_list zero true).
Notation mlambda := (m_lambda zero true).
Notation maddto := (m_add_assign fadd true).
Notation msubto := (m_sub_assign fsub true).
Notation mmulto := (m_mul_assign zero fadd fmul true).
Notation mplus := (m_plus zero fadd true).
Notation mminus := (m_minus zero fsub true).
Notation mtimes := (m_times zero fadd fmul true).
Notation mvec := (m_vec zero fadd fmul true left_over).

(** *** test/core/test_vector_dense.cpp *)

(** constructors_initialiser_lists: test_vector_dense.cpp 33-47. *)
Example vector_lists :
  all [ is_v (vlist 0 (nums [1; 3; 4; -8]%Z)) (nums [1; 3; 4; -8]%Z);
        is_v (vlist 3 (nums [-34; 56; 23]%Z)) (nums [-34; 56; 23]%Z);
        dies (vlist 4 (nums [-34; 56; 23]%Z)) ] = true.
Proof. vm_compute. reflexivity. Qed.

(** constructors_lambda: test_vector_dense.cpp 49-62. *)
Definition scaled (s : Z) (i : nat) : res f64 := Ok (fmul (num s) (f_of_Z (Z.of_nat i))).
Example vector_lambdas :
  all [ is_v (vlambda 0 (scaled 2) 3) (nums [0; 2; 4]%Z);
        is_v (vlambda 3 (scaled (-3)) 3) (nums [0; -3; -6]%Z);
        dies (vlambda 3 (scaled (-3)) 2) ] = true.
Proof. vm_compute. reflexivity. Qed.

(** scalar_multiplication_assignment, scalar_division_assignment: test_vector_dense.cpp 68-79, 81-92. *)
Example vector_scaling_assignment :
  all [ is_v (v_mul_assign fmul (nums [1; 2; 3]%Z) (Ext (num (-3)))) (nums [-3; -6; -9]%Z);
        is_v (v_mul_assign fmul (nums [3; -5]%Z) (Ext (num 4))) (nums [12; -20]%Z);
        is_v (v_div_assign fdiv (nums [3; 6; -5]%Z) (Ext (num 3))) [num 1; num 2; lit (-5) 3];
        is_v (v_div_assign fdiv (nums [3; -5]%Z) (Ext (num 4))) [lit 3 4; lit (-5) 4] ] = true.
Proof. vm_compute. reflexivity. Qed.

(** vector_addition_assignment: test_vector_dense.cpp 94-120; the sizes of the vectors are part of the lists. *)
Example vector_addition_assignment :
  let d0 := nums [1; 2; 3]%Z in let d1 := nums [-1; -2; -3]%Z in
  let s0 := nums [4; 5; 6]%Z in let s1 := nums [-4; -5; -6]%Z in
  let d2 := v_default zero 0 in let s2 := v_default zero 2 in
  all [ is_v (vaddto d0 (Some d1)) (nums [0; 0; 0]%Z);
        is_v (vaddto s0 (Some d1)) (nums [3; 3; 3]%Z);
        is_v (vaddto d0 (Some s1)) (nums [-3; -3; -3]%Z);
        is_v (vaddto s0 (Some s1)) (nums [0; 0; 0]%Z);
        dies (vaddto (nums [-3; -3; -3]%Z) (Some d2));
        dies (vaddto (nums [0; 0; 0]%Z) (Some d2));
        dies (vaddto (nums [-3; -3; -3]%Z) (Some s2));
        dies (vaddto (nums [0; 0; 0]%Z) (Some s2)) ] = true.
Proof. vm_compute. reflexivity. Qed.

(** vector_subtraction_assignment: test_vector_dense.cpp 122-148. *)
Example vector_subtraction_assignment :
  let d0 := nums [-1; -2; -3]%Z in let d1 := nums [-1; -2; -3]%Z in
  let s0 := nums [-4; -5; -6]%Z in let s1 := nums [-4; -5; -6]%Z in
  let d2 := v_default zero 0 in let s2 := v_default zero 2 in
  all [ is_v (vsubto d0 (Some d1)) (nums [0; 0; 0]%Z);
        is_v (vsubto s0 (Some d1)) (nums [-3; -3; -3]%Z);
        is_v (vsubto d0 (Some s1)) (nums [3; 3; 3]%Z);
        is_v (vsubto s0 (Some s1)) (nums [0; 0; 0]%Z);
        dies (vsubto (nums [3; 3; 3]%Z) (Some d2));
        dies (vsubto (nums [0; 0; 0]%Z) (Some d2));
        dies (vsubto (nums [3; 3; 3]%Z) (Some s2));
        dies (vsubto (nums [0; 0; 0]%Z) (Some s2)) ] = true.
Proof. vm_compute. reflexivity. Qed.

(** scalar_multiplication, scalar_division: test_vector_dense.cpp 154-165, 167-178. *)
Example vector_scaling :
  all [ is_v (v_times fmul (num (-3)) (nums [1; 2; 3]%Z)) (nums [-3; -6; -9]%Z);
        is_v (v_times fmul (num 4) (nums [3; -5]%Z)) (nums [12; -20]%Z);
        is_v (v_over fdiv (nums [3; 6; -5]%Z) (num 3)) [num 1; num 2; lit (-5) 3];
        is_v (v_over fdiv (nums [3; -5]%Z) (num 4)) [lit 3 4; lit (-5) 4] ] = true.
Proof. vm_compute. reflexivity. Qed.

(** vector_addition: test_vector_dense.cpp 180-201. *)
Example vector_addition :
  let d0 := nums [1; 2; 3]%Z in let d1 := nums [-1; -2; -3]%Z in
  let s0 := nums [4; 5; 6]%Z in let s1 := nums [-4; -5; -6]%Z in
  let d2 := v_default zero 0 in let s2 := v_default zero 2 in
  all [ is_v (vplus 0 0 d0 d1) (nums [0; 0; 0]%Z);
        is_v (vplus 3 0 s0 d1) (nums [3; 3; 3]%Z);
        is_v (vplus 0 3 d0 s1) (nums [-3; -3; -3]%Z);
        is_v (vplus 3 3 s0 s1) (nums [0; 0; 0]%Z);
        dies (vplus 0 0 d0 d2); dies (vplus 3 0 s0 d2);
        dies (vplus 0 2 d0 s2); dies (vplus 3 2 s0 s2) ] = true.
Proof. vm_compute. reflexivity. Qed.

(** vector_subtraction: test_vector_dense.cpp 203-224. *)
Example vector_subtraction :
  let d0 := nums [-1; -2; -3]%Z in let d1 := nums [-1; -2; -3]%Z in
  let s0 := nums [-4; -5; -6]%Z in let s1 := nums [-4; -5; -6]%Z in
  let d2 := v_default zero 0 in let s2 := v_default zero 2 in
  all [ is_v (vminus 0 0 d0 d1) (nums [0; 0; 0]%Z);
        is_v (vminus 3 0 s0 d1) (nums [-3; -3; -3]%Z);
        is_v (vminus 0 3 d0 s1) (nums [3; 3; 3]%Z);
        is_v (vminus 3 3 s0 s1) (nums [0; 0; 0]%Z);
        dies (vminus 0 0 d0 d2); dies (vminus 3 0 s0 d2);
        dies (vminus 0 2 d0 s2); dies (vminus 3 2 s0 s2) ] = true.
Proof. vm_compute. reflexivity. Qed.

(** *** test/core/test_vector_operators.cpp *)

(** std::pow(x, 4), which is exact on the numbers of the test. *)
Definition power_of (x : f64) (p : nat) : f64 := Nat.iter p (fmul x) (num 1).
Definition same_root (p : nat) (x : f64) : f64 := x.
Notation norm := (lp_norm fops power_of same_root).

(** lp_norm: test_vector_operators.cpp 29-43. *)
Example norms :
  let d := nums [1; -2; 3; -4]%Z in let s := nums [1; 2; -3; 4]%Z in
  all [ is_num (norm 0 d) (num 4); is_num (norm 0 s) (num 4);
        is_num (norm 1 d) (num 10); is_num (norm 1 s) (num 10);
        is_num (norm 2 d) (SFsqrt 53 1024 (num (1 + 4 + 9 + 16)));
        is_num (norm 2 s) (SFsqrt 53 1024 (num (1 + 4 + 9 + 16)));
        is_num (norm 3 d) (num (1 + 8 + 27 + 64)); is_num (norm 3 s) (num (1 + 8 + 27 + 64));
        is_num (norm 4 d) (num (1 + 16 + 81 + 256)); is_num (norm 4 s) (num (1 + 16 + 81 + 256)) ] = true.
Proof. vm_compute. reflexivity. Qed.

(** mean: test_vector_operators.cpp 45-53. *)
Example means :
  all [ is_num (mean fops true 0 (nums [1; -2; 3; 4]%Z)) (lit 6 4);
        is_num (mean fops true 4 (nums [1; -2; 3; -4]%Z)) (lit (-2) 4);
        dies (mean fops true 0 (v_default zero 0)) ] = true.
Proof. vm_compute. reflexivity. Qed.

(** dot_product: test_vector_operators.cpp 55-74. *)
Notation dot_of := (g_dot fops true).
Example dot_products :
  all [ is_num (dot_of (nums [1; 0; 0]%Z) (nums [0; 1; 0]%Z)) (num 0);
        is_num (dot_of (nums [1; 0; 0]%Z) (nums [1; 0; 0]%Z)) (num 1);
        is_num (dot_of (nums [1; 0; 0]%Z) (nums [0; 1; 0]%Z)) (num 0);
        is_num (dot_of (nums [1; 2; 5]%Z) (nums [-2; -1; 6]%Z)) (num 26);
        is_num (dot_of (nums [1; 2; 5]%Z) (nums [4; -3; 7]%Z)) (num 33);
        is_num (dot_of (nums [4; -3; 7]%Z) (nums [1; -2; 2]%Z)) (num 24);
        dies (dot_of (nums [1; 2; 5]%Z) (nums [1; 2]%Z));
        dies (dot_of (nums [4; -3; 7]%Z) (nums [1; 2]%Z)) ] = true.
Proof. vm_compute. reflexivity. Qed.

(** unit: test_vector_operators.cpp 76-102. The second part makes zeros of a vector with one component that is
    the smallest normal number: its square is zero. *)
Notation unit_of := (unit_vector fops power_of same_root).
Definition root14 : f64 := SFsqrt 53 1024 (num 14).
Definition smallest_normal : f64 := S754_finite false 4503599627370496 (-1074).
Definition with_component (i : nat) (v : list f64) : res (list f64) :=
  do v <- v_mul_assign fmul v (Ext zero); do v <- vset v i smallest_normal; unit_of v.
Example units :
  all [ is_v (unit_of (nums [1; -2; 3]%Z)) (map (fun a => fdiv (num a) root14) [1; -2; 3]%Z);
        is_v (unit_of (nums [-1; 2; -3]%Z)) (map (fun a => fdiv (num a) root14) [-1; 2; -3]%Z);
        is_v (do v <- unit_of (nums [1; -2; 3]%Z); with_component 1 v) (nums [0; 0; 0]%Z);
        is_v (do v <- unit_of (nums [-1; 2; -3]%Z); with_component 2 v) (nums [0; 0; 0]%Z) ] = true.
Proof. vm_compute. reflexivity. Qed.

(** angle: test_vector_operators.cpp 104-127. *)
Definition number_pi : f64 := S754_finite false 7074237752028440 (-51).
Definition arccos_of (x : f64) : f64 := if SFeqb x zero then fmul (lit 1 2) number_pi else S754_nan.
Notation angle_of := (angle fops true power_of same_root arccos_of number_pi).
Notation cross_of := (cross_product fops true left_over).
Example angles :
  let d0 := nums [1; 0; 0]%Z in let d1 := nums [0; 1; 0]%Z in
  let s0 := nums [1; 0; 0]%Z in let s1 := nums [0; 0; 1]%Z in
  all [ is_num (angle_of true d0 d1) (fmul (lit 1 2) number_pi); is_num (angle_of false d0 d1) (num 90);
        is_num (angle_of true s0 s1) (fmul (lit 1 2) number_pi); is_num (angle_of false s0 s1) (num 90);
        is_num (angle_of true d0 s1) (fmul (lit 1 2) number_pi); is_num (angle_of false s1 d1) (num 90);
        dies (cross_of 0 3 (v_default zero 0) (v_default zero 3));
        dies (cross_of 4 4 (v_default zero 4) (v_default zero 4)) ] = true.
Proof. vm_compute. reflexivity. Qed.

(** cross_product: test_vector_operators.cpp 129-162. *)
Example cross_products :
  let d0 := nums [1; 0; 0]%Z in let d1 := nums [0; 0; 1]%Z in
  let s0 := nums [0; 1; 0]%Z in let s1 := nums [0; 0; 1]%Z in
  all [ is_v (cross_of 0 0 d0 d1) (nums [0; -1; 0]%Z); is_v (cross_of 3 3 s0 s1) (nums [1; 0; 0]%Z);
        is_v (cross_of 0 0 d1 d0) (nums [0; 1; 0]%Z); is_v (cross_of 3 3 s1 s0) (nums [-1; 0; 0]%Z);
        is_v (cross_of 0 3 d0 s0) (nums [0; 0; 1]%Z);
        dies (cross_of 0 0 d0 (nums [1; 2]%Z)); dies (cross_of 3 0 s0 (nums [1; 2]%Z));
        dies (cross_of 4 4 (v_default zero 4) (v_default zero 4)) ] = true.
Proof. vm_compute. reflexivity. Qed.

(** tangent_projection: test_vector_operators.cpp 164-183. *)
Notation tangent := (projection_tangent fops true left_over power_of same_root).
Notation orthogonal := (projection_orthogonal fops true left_over power_of same_root).
Definition half_root : f64 := fdiv (num 1) (SFsqrt 53 1024 (num 2)).
Example tangents :
  let d := nums [4; -2; 3]%Z in let s := nums [-1; -2; -3]%Z in
  all [ is_v (tangent 0 0 d (nums [1; 0; 0]%Z)) (nums [4; 0; 0]%Z);
        is_v (tangent 3 3 s [num 0; half_root; half_root]) [num 0; lit (-5) 2; lit (-5) 2];
        dies (tangent 0 0 d (nums [1; 2]%Z)); dies (tangent 3 2 s (nums [1; 2]%Z)) ] = true.
Proof. vm_compute. reflexivity. Qed.

(** orthogonal_projection: test_vector_operators.cpp 185-202; the second component of the second result is only
    expected to be near, and is not within four units in the last place. *)
Definition ten_epsilon : f64 := fmul (S754_finite false 4503599627370496 (-104)) (num 10).
Example orthogonals :
  let d := nums [4; -2; 3]%Z in let s := nums [-1; -2; -3]%Z in
  all [ is_v (orthogonal 0 0 d (nums [1; 0; 0]%Z)) (nums [0; -2; 3]%Z);
        match orthogonal 3 3 s [num 0; half_root; half_root] with
        | Ok [x; y; z] => double_eq x (num (-1)) && near y (lit 1 2) ten_epsilon && double_eq z (lit (-1) 2)
        | _ => false
        end;
        dies (orthogonal 0 0 d (nums [1; 2]%Z)); dies (orthogonal 3 2 s (nums [1; 2]%Z)) ] = true.
Proof. vm_compute. reflexivity. Qed.

(** *** test/core/test_matrix_dense.cpp *)

(** constructors_initialiser_lists: test_matrix_dense.cpp 33-46. *)
Example matrix_lists :
  all [ is_m (mlist (0, 0) (numss [[1; 2]; [3; 4]]%Z)) (numss [[1; 2]; [3; 4]]%Z);
        is_m (mlist (2, 2) (numss [[5; 6]; [7; 8]]%Z)) (numss [[5; 6]; [7; 8]]%Z) ] = true.
Proof. vm_compute. reflexivity. Qed.

(** constructors_lambda: test_matrix_dense.cpp 48-78. *)
Definition cell (s : Z) (i j : nat) : res f64 :=
  Ok (fadd (fadd (fmul (num (Z.of_nat i)) (num 2)) (num s)) (num (Z.of_nat j))).
Example matrix_lambdas :
  all [ is_m (mlambda (0, 0) (cell 0) 2 2) (numss [[0; 1]; [2; 3]]%Z);
        is_m (mlambda (2, 2) (cell 4) 2 2) (numss [[4; 5]; [6; 7]]%Z);
        dies (mlambda (2, 2) (cell 4) 1 2); dies (mlambda (2, 2) (cell 4) 2 1) ] = true.
Proof. vm_compute. reflexivity. Qed.

(** size_row_column_size_resize: test_matrix_dense.cpp 84-111. *)
Example matrix_sizes :
  let sizes (m : list (list f64)) := (m_rows m, m_cols m, map (@length f64) m) in
  let d := m_default zero (0, 0) in let d1 := m_resize_rows d 1 in
  sizes d = (0, 0, []) /\ sizes (m_default zero (2, 2)) = (2, 2, [2; 2])
  /\ sizes d1 = (1, 0, [0]) /\ sizes (m_resize zero d1 3 2) = (3, 2, [2; 2; 2]).
Proof. repeat split. Qed.

Definition to9 : list (list Z) := [[1; 2; 3]; [4; 5; 6]; [7; 8; 9]]%Z.
Definition to90 : list (list Z) := [[10; 20; 30]; [40; 50; 60]; [70; 80; 90]]%Z.
Definition mapped (f : f64 -> f64) (m : list (list f64)) : list (list f64) := map (map f) m.
Definition bind_m (r : res (list (list f64))) (f : list (list f64) -> list bool) : bool :=
  match r with Ok m => all (f m) | _ => false end.

(** scalar_matrix_multiplication_assignment: test_matrix_dense.cpp 117-142. *)
Example matrix_scaling_assignment :
  bind_m (m_mul_scalar fmul (numss to9) (MExt (num (-10)))) (fun d =>
    [ all2 (all2 double_eq) d (mapped (fmul (num (-1))) (numss to90));
      bind_m (m_mul_scalar fmul (numss to90) (MExt (lit 1 10))) (fun s =>
        [ all2 (all2 double_eq) (mapped (fmul (lit (-1) 10)) d) s ]) ]) = true.
Proof. vm_compute. reflexivity. Qed.

(** scalar_matrix_division_assignment: test_matrix_dense.cpp 144-169. *)
Example matrix_division_assignment :
  bind_m (m_div_scalar fdiv (numss to90) (MExt (num (-10)))) (fun s =>
    [ all2 (all2 double_eq) (mapped (fmul (num (-1))) (numss to9)) s;
      bind_m (m_div_scalar fdiv (numss to9) (MExt (lit 1 10))) (fun d =>
        [ all2 (all2 double_eq) d (mapped (fmul (num (-10))) s) ]) ]) = true.
Proof. vm_compute. reflexivity. Qed.

Definition wide : list (list f64) := m_default zero (2, 3).
Definition none : list (list f64) := m_default zero (0, 0).

(** matrix_matrix_addition_assignment: test_matrix_dense.cpp 171-205. *)
Example matrix_addition_assignment :
  let d0 := numss [[1; 2]; [3; 4]]%Z in let d1 := numss [[4; 3]; [2; 1]]%Z in
  let s0 := numss [[10; 20]; [30; 40]]%Z in let s1 := numss [[40; 30]; [20; 10]]%Z in
  bind_m (maddto d0 (Some d1)) (fun d0 =>
    [ is_m (Ok d0) (numss [[5; 5]; [5; 5]]%Z);
      bind_m (maddto s0 (Some s1)) (fun s0 =>
        [ is_m (Ok s0) (numss [[50; 50]; [50; 50]]%Z);
          is_m (maddto d1 (Some s0)) (numss [[54; 53]; [52; 51]]%Z);
          is_m (maddto s1 (Some d0)) (numss [[45; 35]; [25; 15]]%Z) ]);
      dies (maddto d0 (Some none)); dies (maddto d0 (Some wide)) ]) = true.
Proof. vm_compute. reflexivity. Qed.

(** matrix_matrix_subtraction_assignment: test_matrix_dense.cpp 207-241. *)
Example matrix_subtraction_assignment :
  let d0 := numss [[1; 2]; [3; 4]]%Z in let d1 := numss [[2; 2]; [3; 3]]%Z in
  let s0 := numss [[10; 20]; [30; 40]]%Z in let s1 := numss [[20; 20]; [30; 30]]%Z in
  bind_m (msubto d0 (Some d1)) (fun d0 =>
    [ is_m (Ok d0) (numss [[-1; 0]; [0; 1]]%Z);
      bind_m (msubto s0 (Some s1)) (fun s0 =>
        [ is_m (Ok s0) (numss [[-10; 0]; [0; 10]]%Z);
          is_m (msubto d1 (Some s0)) (numss [[12; 2]; [3; -7]]%Z);
          is_m (msubto s1 (Some d0)) (numss [[21; 20]; [30; 29]]%Z) ]);
      dies (msubto d0 (Some none)); dies (msubto d0 (Some wide)) ]) = true.
Proof. vm_compute. reflexivity. Qed.

Definition tall : list (list f64) := numss [[1; 2]; [3; 4]; [5; 6]]%Z.
Definition long : list (list f64) := numss [[7; 8; 9; 10]; [11; 12; 13; 14]]%Z.
Definition tall_long : list (list f64) := numss [[29; 32; 35; 38]; [65; 72; 79; 86]; [101; 112; 123; 134]]%Z.
Definition ab : list (list f64) := numss [[19; 22]; [43; 50]]%Z.

(** matrix_matrix_multiplication_assignment: test_matrix_dense.cpp 243-299. *)
Example matrix_product_assignment :
  let a := numss [[1; 2]; [3; 4]]%Z in let b := numss [[5; 6]; [7; 8]]%Z in
  let one := m_resize zero tall_long 1 1 in
  all [ is_m (mmulto (0, 0) a (Some b)) ab; is_m (mmulto (2, 2) a (Some b)) ab;
        is_m (mmulto (0, 0) tall (Some long)) tall_long;
        dies (mmulto (0, 0) long (Some wide)); dies (mmulto (0, 0) long (Some one));
        dies (mmulto (2, 2) ab (Some wide)); dies (mmulto (2, 2) ab (Some one)) ] = true.
Proof. vm_compute. reflexivity. Qed.

(** scalar_matrix_multiplication, scalar_matrix_division: test_matrix_dense.cpp 305-330, 332-357. *)
Example matrix_scaling :
  all [ is_m (m_times_scalar fmul (num (-10)) (numss to9)) (mapped (fmul (num (-1))) (numss to90));
        is_m (m_times_scalar fmul (lit 1 10) (numss to90)) (numss to9);
        is_m (m_over_scalar fdiv (numss to90) (num (-10))) (mapped (fmul (num (-1))) (numss to9)) ] = true.
Proof. vm_compute. reflexivity. Qed.

(** matrix_vector_multiplication: test_matrix_dense.cpp 359-391. *)
Example matrix_vector :
  let d := numss [[1; 2]; [3; 4]]%Z in let s := numss [[10; 20]; [30; 40]]%Z in
  let dv := nums [-1; 2]%Z in let sv := nums [-10; 20]%Z in
  let no := v_default zero 0 in let three := v_default zero 3 in let square := m_default zero (3, 3) in
  all [ is_v (mvec 0 0 d dv) (nums [3; 5]%Z); is_v (mvec 2 2 s sv) (nums [300; 500]%Z);
        is_v (mvec 0 2 d sv) (nums [30; 50]%Z); is_v (mvec 2 0 s dv) (nums [30; 50]%Z);
        dies (mvec 0 0 none dv); dies (mvec 0 2 none sv);
        dies (mvec 3 0 square dv); dies (mvec 3 2 square sv);
        dies (mvec 0 0 d no); dies (mvec 0 3 d three);
        dies (mvec 2 0 s no); dies (mvec 2 3 s three) ] = true.
Proof. vm_compute. reflexivity. Qed.

(** matrix_matrix_addition: test_matrix_dense.cpp 393-427. *)
Example matrix_addition :
  let d0 := numss [[1; 2]; [3; 4]]%Z in let d1 := numss [[4; 3]; [2; 1]]%Z in
  let s0 := numss [[10; 20]; [30; 40]]%Z in let s1 := numss [[40; 30]; [20; 10]]%Z in
  all [ is_m (mplus (0, 0) (0, 0) d0 d1) (numss [[5; 5]; [5; 5]]%Z);
        is_m (mplus (2, 2) (2, 2) s0 s1) (numss [[50; 50]; [50; 50]]%Z);
        is_m (mplus (0, 0) (2, 2) d1 s0) (numss [[14; 23]; [32; 41]]%Z);
        is_m (mplus (2, 2) (0, 0) s1 d0) (numss [[41; 32]; [23; 14]]%Z);
        dies (mplus (0, 0) (0, 0) d0 none); dies (mplus (0, 0) (2, 3) d0 wide) ] = true.
Proof. vm_compute. reflexivity. Qed.

(** matrix_matrix_subtraction: test_matrix_dense.cpp 429-463. *)
Example matrix_subtraction :
  let d0 := numss [[1; 2]; [3; 4]]%Z in let d1 := numss [[4; 3]; [2; 1]]%Z in
  let s0 := numss [[10; 20]; [30; 40]]%Z in let s1 := numss [[40; 30]; [20; 10]]%Z in
  all [ is_m (mminus (0, 0) (0, 0) d0 d1) (numss [[-3; -1]; [1; 3]]%Z);
        is_m (mminus (2, 2) (2, 2) s0 s1) (numss [[-30; -10]; [10; 30]]%Z);
        is_m (mminus (0, 0) (2, 2) d1 s0) (numss [[-6; -17]; [-28; -39]]%Z);
        is_m (mminus (2, 2) (0, 0) s1 d0) (numss [[39; 28]; [17; 6]]%Z);
        dies (mminus (0, 0) (0, 0) d0 none); dies (mminus (0, 0) (2, 3) d0 wide) ] = true.
Proof. vm_compute. reflexivity. Qed.

(** matrix_matrix_multiplication: test_matrix_dense.cpp 465-524. *)
Example matrix_product :
  let a := numss [[1; 2]; [3; 4]]%Z in let b := numss [[5; 6]; [7; 8]]%Z in
  let one := m_resize zero tall 1 1 in
  all [ is_m (mtimes (0, 0) (0, 0) a b) ab; is_m (mtimes (2, 2) (2, 2) a b) ab;
        is_m (mtimes (0, 0) (2, 2) a b) ab; is_m (mtimes (2, 2) (0, 0) a b) ab;
        is_m (mtimes (0, 0) (0, 0) tall long) tall_long;
        dies (mtimes (0, 0) (2, 3) long wide); dies (mtimes (0, 0) (0, 0) long one);
        dies (mtimes (2, 2) (2, 3) a wide); dies (mtimes (2, 2) (0, 0) a one) ] = true.
Proof. vm_compute. reflexivity. Qed.

(** *** test/core/test_scalar.cpp *)

Notation rel := (default_relative fops).
Notation abs := (default_absolute fops).
Notation eps := (sc_eps fops).
Notation top := (sc_max fops).
Definition holds (r : res bool) (b : bool) : bool := match r with Ok c => Bool.eqb c b | _ => false end.
Notation equal x y := (is_nearly_equal fops true x y rel abs).

(** is_nearly_greater_equal, is_nearly_less_equal: test_scalar.cpp 73-81, 83-91, after the macro. *)
Example scalar_tests :
  let near_ten s := fmul (num s) (fsub (num 1) (fmul rel eps)) in
  all [ holds (is_nearly_greater_equal fops true (num 10) (near_ten 10%Z) rel abs) true;
        holds (is_nearly_greater_equal fops true (fmul (num (-1)) (num 10)) (near_ten 10%Z) rel abs) false;
        holds (is_nearly_less_equal fops true (num (-10)) (near_ten (-10)%Z) rel abs) true;
        holds (is_nearly_less_equal fops true (fmul (num (-1)) (num (-10))) (near_ten (-10)%Z) rel abs) false ] = true.
Proof. vm_compute. reflexivity. Qed.

(** What the macro NEARLY_EQUAL_TESTS was to check: test_scalar.cpp 34-59. *)
Example equality_tests :
  let a := fmul (lit 51 100) top in
  let t0 := num 10 in let t1 := fmul t0 (fsub (num 1) (fmul rel eps)) in
  let u0 := num (-10) in let u1 := fmul u0 (fadd (num 1) (fmul rel eps)) in
  all [ holds (equal a (fmul top (fsub (fadd (lit 51 100) rel) eps))) true;
        holds (equal a (fmul top (fadd (lit 51 100) rel))) false;
        holds (equal t0 t1) true;
        holds (equal t0 (fadd t1 (fmul (fmul (lit 3 2) (fadd t0 t1)) rel))) false;
        holds (equal u0 u1) true;
        holds (equal u0 (fsub u1 (fmul (fmul (lit 3 2) (fadd u0 u1)) rel))) false;
        holds (equal zero abs) false;
        holds (equal zero (fsub abs eps)) true ] = true.
Proof. vm_compute. reflexivity. Qed.
