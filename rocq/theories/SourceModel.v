(** The Laplace problem with a source of the library's test of the solvers: test/solver/test_solver.cpp 112-164. *)
From Coq Require Import ZArith List.
From Verif Require Import Base DenseModel ScalarModel GraphModel SparseModel SparseSpec SparseSeq.
Import ListNotations.

Section Source.
  Context {S : Type}.
  Variable O : sops S.
  Notation "x + y" := (sc_add O x y). Notation "x * y" := (sc_mul O x y).
  Notation "x - y" := (sc_sub O x y). Notation "x / y" := (sc_div O x y).
  Let lit (z : Z) : S := sc_of_Z O z.

  (** co_ordinate: test_solver.cpp 112-115. The sizes are those of which n * n is an int. *)
  Definition co_ordinate (i n : nat) : S * S :=
    let delta_x := sc_one O / lit (Z.of_nat (n - 1)) in
    (lit (Z.of_nat (i mod n)) * delta_x, lit (Z.of_nat (i / n)) * delta_x).

  (** source: test_solver.cpp 117-125. *)
  Definition source (i n : nat) : S :=
    let '(x, y) := co_ordinate i n in
    let squared_x := x * x in
    let squared_y := y * y in
    lit (-2) * ((sc_one O - lit 6 * squared_x) * squared_y * (squared_y - sc_one O)
                + (lit 6 * squared_y - sc_one O) * squared_x * (sc_one O - squared_x)).

  (** analytical_solution: test_solver.cpp 127-132. *)
  Definition analytical_solution (i n : nat) : S :=
    let '(x, y) := co_ordinate i n in
    let squared_x := x * x in
    let squared_y := y * y in
    (squared_x - squared_x * squared_x) * (squared_y * squared_y - squared_y).

  (** The test for a node of the boundary: test_solver.cpp 150. *)
  Definition on_boundary (n i : nat) : bool :=
    ((i mod n =? 0) || ((i + 1) mod n =? 0) || (i <? n) || (n * n - n <=? i))%nat.

  (** 1 / delta_x^2: test_solver.cpp 144-145. *)
  Definition inverse_square (n : nat) : S :=
    let delta_x := sc_one O / (lit (Z.of_nat n) - sc_one O) in sc_one O / (delta_x * delta_x).

  (** What one row of the matrix is given: test_solver.cpp 150-161. The loop over the elements of a row of the boundary (151) finds
      none in a fixture that is new: the row has not been written. *)
  Definition source_row (n i : nat) : list (sop S) :=
    let c := inverse_square n in
    if on_boundary n i then [OSubscript i i (sc_one O)]
    else (if (i + n <? n * n)%nat then [OSubscript i (i + n)%nat (lit (-1) * c)] else [])
      ++ (if (i mod n =? 0)%nat then [] else [OSubscript i (i - 1)%nat (lit (-1) * c)])
      ++ [OSubscript i i (lit 4 * c)]
      ++ (if ((i + 1) mod n =? 0)%nat then [] else [OSubscript i (i + 1)%nat (lit (-1) * c)])
      ++ (if (n <=? i)%nat then [OSubscript i (i - n)%nat (lit (-1) * c)] else []).

  (** construct_2D_laplace_source, the matrix: test_solver.cpp 134-163. *)
  Definition source_matrix (n : nat) : list (sop S) :=
    OResize (n * n)%nat (n * n)%nat :: flat_map (source_row n) (seq 0 (n * n)%nat).

  (** The right hand side: test_solver.cpp 142, 148, 154. [b] is what the member held before, and k = 1 (138). *)
  Definition source_b (n : nat) (b : list S) : res (list S) :=
    FOR (n * n)%nat (fun i b =>
      do b <- vset b i (source i n / sc_one O);
      if on_boundary n i then vset b i (analytical_solution i n) else Ok b) (vresize b (n * n)%nat (sc_zero O)).

  (** The start: test_solver.cpp 141, 153. *)
  Definition source_x (n : nat) (x : list S) : res (list S) :=
    FOR (n * n)%nat (fun i x => if on_boundary n i then vset x i (analytical_solution i n) else Ok x) (vresize x (n * n)%nat (sc_zero O)).
End Source.
