(** The unit tests of the solvers, run on the model: test/solver/test_direct.cpp, test/solver/test_solver_utilities.cpp and
    test/solver/test_solver.cpp, in double precision; see ReplayDense.v. The times of the convergence data are not part of the
    model. The test of the iterative solvers expects nothing; what is stated is after how many of the 1000 iterations allowed the three
    solvers stop, with the residual asked for, on a grid of 3 by 3. The 10 by 10 of the test is run when this file is compiled, but is
    not a theorem: it takes the checker of the compiled files too long. The test heat (170-216) is commented out. *)
From Coq Require Import ZArith SpecFloat.
From Verif Require Import Base DenseModel ScalarModel SparseModel LuModel IterModel ReplayDense.

Definition m0 : nat := 1000.

(** *** test/solver/test_direct.cpp *)

(** The fixture: test_direct.cpp 30-47. *)
Definition fixture (pivot : bool) : res (lu_state f64) :=
  lu_initialise pivot (lu_default fops) true pivot (cf_factor_tolerance (config_default fops)).

(** lower_upper_factorisation_initialise: test_direct.cpp 49-68. *)
Definition configured (pivot : bool) : res (config f64) :=
  do st <- fixture pivot; do st <- lu_initialise pivot st true pivot (num 5); Ok (lu_get_config fops pivot st).
Example direct_initialise :
  (exists c, configured false = Ok c /\ cf_type c = lower_upper_factorisation /\ cf_pivot c = false /\ cf_factor_tolerance c = num 5)
  /\ (exists c, configured true = Ok c /\ cf_type c = lower_upper_factorisation /\ cf_pivot c = true /\ cf_factor_tolerance c = num 5).
Proof. split; eexists; (split; [vm_compute; reflexivity | repeat split]). Qed.

(** lower_upper_factorisation_death_test: test_direct.cpp 70-95. *)
Definition sample : list (list f64) := numss [[2; 7; 6]; [9; 5; 1]; [4; 3; 8]]%Z.
Definition solved (pivot : bool) (a : list (list f64)) (x b : list f64) : res (bool * list f64 * conv_data f64) :=
  do st <- fixture pivot;
  do f <- factorise fops true pivot st a;
  do r <- lu_solve fops true pivot (fst f) x (Some b);
  Ok (snd f, fst r, snd r).
Example direct_deaths :
  let made pivot type_ok config_pivot := lu_initialise pivot (lu_default fops) type_ok config_pivot (default_relative fops) in
  all [ dies (made true true false); dies (made false true true);
        dies (made false false false); dies (made true false true);
        dies (solved false sample (nums [0; 0; 0]%Z) (nums [6; 2]%Z));
        dies (solved true sample (nums [0; 0; 0]%Z) (nums [6; 2]%Z)) ] = true.
Proof. vm_compute. reflexivity. Qed.

(** lower_upper_factorisation_not_factorised: test_direct.cpp 97-108. *)
Definition refused (r : res (bool * list f64 * conv_data f64)) : bool :=
  match r with Ok (f, _, d) => negb f && negb (cd_converged d) | _ => false end.
Example direct_not_factorised :
  let a := numss [[0; 0; 0]; [9; 5; 1]; [4; 3; 8]]%Z in
  all [ refused (solved false a (nums [0; 0; 0]%Z) (nums [6; 2; 7]%Z));
        refused (solved true a (nums [0; 0; 0]%Z) (nums [6; 2; 7]%Z)) ] = true.
Proof. vm_compute. reflexivity. Qed.

(** lower_upper_factorise_solve: test_direct.cpp 110-136; 0.04166666666666696, 0.16666666666666657, 0.7916666666666667. *)
Definition dec (m k : positive) : f64 := SFdiv 53 1024 (S754_finite false m 0) (f_of_Z (Zpos k)).
Definition expected : list f64 :=
  [dec 4166666666666696 100000000000000000; dec 16666666666666657 100000000000000000; dec 7916666666666667 10000000000000000].
Definition accepted (r : res (bool * list f64 * conv_data f64)) : bool :=
  match r with
  | Ok (f, x, d) => f && cd_converged d && (cd_iteration d =? 1)
                    && all2 (fun a b => near a b (default_absolute fops)) expected x
  | _ => false
  end.
Example direct_solve :
  all [ accepted (solved false sample (nums [0; 0; 0]%Z) (nums [6; 2; 7]%Z));
        accepted (solved true sample (nums [0; 0; 0]%Z) (nums [6; 2; 7]%Z)) ] = true.
Proof. vm_compute. reflexivity. Qed.

(** *** test/solver/test_solver_utilities.cpp *)

(** [matrix[i][j] = v] for a list of elements. *)
Definition filled (m : smat f64) (l : list (nat * nat * f64)) : res (smat f64) :=
  forM l (fun e m => s_subscript_assign (S754_zero false) m0 true None m (fst (fst e)) (snd (fst e)) (snd e)) m.
Definition halves : res (smat f64) := filled (s_shape 5 5) (map (fun i => (i, i, lit 1 2)) (seq 0 5)).
Definition twos : list f64 := vresize [] 5 (num 2).
Notation residual := (compute_residual fops true None).

(** compute_residual: test_solver_utilities.cpp 104-130. *)
Definition is_pair (r : res (f64 * f64)) (x y : f64) : bool :=
  match r with Ok (a, b) => double_eq a x && double_eq b y | _ => false end.
Example residuals :
  let b := nums [2; 0; 3; 0; 2]%Z in
  all [ is_pair (do m <- halves; residual m twos (nums [3; -1; 3; -1; 3]%Z)) (num 2) (num 2);
        is_pair (do m <- halves; residual m twos b) (SFsqrt 53 1024 (lit 8 5)) (num 2);
        dies (residual (s_shape 5 2) twos b); dies (residual (s_shape 1 5) twos b);
        dies (residual (s_shape 1 1) [] b); dies (residual (s_shape 1 1) twos []) ] = true.
Proof. vm_compute. reflexivity. Qed.

(** update_convergence: test_solver_utilities.cpp 28-74. Here the expectations are equalities. *)
Example updates :
  exists m r0 rm0 r rm d1 d2,
    halves = Ok m
    /\ cd_iteration (conv_default fops) = 0
    /\ residual m twos (nums [3; -1; 3; -1; 3]%Z) = Ok (r0, rm0)
    /\ update fops m0 true None m twos (nums [3; -1; 3; -1; 3]%Z) (conv_default fops) = Ok d1
    /\ cd_iteration d1 = 1 /\ cd_residual d1 = r0 /\ cd_residual_max d1 = rm0
    /\ cd_residual_0 d1 = r0 /\ cd_residual_max_0 d1 = rm0
    /\ cd_residual_normalised d1 = num 1 /\ cd_residual_max_normalised d1 = num 1
    /\ residual m twos (nums [2; 0; 3; 0; 2]%Z) = Ok (r, rm)
    /\ update fops m0 true None m twos (nums [2; 0; 3; 0; 2]%Z) d1 = Ok d2
    /\ cd_iteration d2 = 2 /\ cd_residual d2 = r /\ cd_residual_max d2 = rm
    /\ cd_residual_0 d2 = r0 /\ cd_residual_max_0 d2 = rm0
    /\ cd_residual_normalised d2 = SFdiv 53 1024 r r0 /\ cd_residual_max_normalised d2 = SFdiv 53 1024 rm rm0.
Proof.
  do 7 eexists.
  split; [vm_compute; reflexivity|]. split; [reflexivity|]. split; [vm_compute; reflexivity|].
  split; [vm_compute; reflexivity|]. do 7 (split; [vm_compute; reflexivity|]). split; [vm_compute; reflexivity|].
  split; [vm_compute; reflexivity|]. do 6 (split; [vm_compute; reflexivity|]). vm_compute; reflexivity.
Qed.

(** is_converged: test_solver_utilities.cpp 76-102. *)
Definition million : f64 := lit 1 1000000.
Definition criteria : limits f64 := mkLimits 10 100 million.
Definition data (n : nat) (r rm : f64) : conv_data f64 :=
  let top := sc_max fops in
  mkConv false n top top (SFmul 53 1024 million r) top top (SFmul 53 1024 million rm).
Example convergence :
  is_converged fops criteria (data 5 (lit 1 10) (lit 1 10)) = false
  /\ is_converged fops criteria (data 101 (num 10) (num 100)) = true
  /\ is_converged fops criteria (data 50 (lit 1 10) (num 2)) = true.
Proof. vm_compute. auto. Qed.

(** *** test/solver/test_solver.cpp *)

(** SetUp(10): test_solver.cpp 74-110. *)
Definition grid_row (n i : nat) : list (nat * nat * f64) :=
  (if i + n <? n * n then [(i, i + n, num (-1))] else [])
  ++ (if i mod n =? 0 then [] else [(i, i - 1, num (-1))])
  ++ [(i, i, num 4)]
  ++ (if (i + 1) mod n =? 0 then [] else [(i, i + 1, num (-1))])
  ++ (if n <=? i then [(i, i - n, num (-1))] else []).
Definition grid (n : nat) : res (smat f64) := filled (s_shape (n * n) (n * n)) (flat_map (grid_row n) (seq 0 (n * n))).

(** iterative_solver_test: test_solver.cpp 218-248. *)
Definition run (t : solver_type) (n : nat) : res (nat * f64) :=
  let c := mkConfig t true (default_relative fops) 0 1000 (lit 1 100000) (lit 3 2) in
  do a <- grid n;
  do s <- build_solver fops c;
  do r <- solve_sparse fops 2000 true None 1002 s a (vresize [] (n * n) (num 10)) (vresize [] (n * n) (num 1));
  Ok (cd_iteration (snd r), cd_residual_normalised (snd r)).
Definition stops (r : res (nat * f64)) (n : nat) : bool :=
  match r with Ok (k, x) => (k =? n) && SFleb x (lit 1 100000) | _ => false end.
Example iterative :
  all [ stops (run jacobi 3) 35; stops (run gauss_seidel 3) 19; stops (run successive_over_relaxation 3) 19 ] = true.
Proof. vm_compute. reflexivity. Qed.
(* On the grid of the test: 236, 122 and 36 iterations. *)
Eval vm_compute in
  all [ stops (run jacobi 10) 236; stops (run gauss_seidel 10) 122; stops (run successive_over_relaxation 10) 36 ].
