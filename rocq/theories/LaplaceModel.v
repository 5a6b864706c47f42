(** The class Laplace_2D of the library's tests: test/solver/laplace_2d.h 34-129. It fills a matrix and two vectors it is given. *)
From Coq Require Import ZArith List.
From Verif Require Import Base DenseModel ScalarModel SparseModel SparseSpec WalkModel.
Import ListNotations.

Section Laplace.
  Context {S : Type}.
  Variable O : sops S.
  Notation "x + y" := (sc_add O x y). Notation "x * y" := (sc_mul O x y).
  Notation "x - y" := (sc_sub O x y). Notation "x / y" := (sc_div O x y).
  Let lit (z : Z) : S := sc_of_Z O z.

  (** co_ordinate: laplace_2d.h 94-98. The sizes are ints, so that the conversions to and from int change nothing. *)
  Definition l_co_ordinate (i n : nat) : S * S :=
    let delta_x := sc_one O / (lit (Z.of_nat n) - sc_one O) in
    (lit (Z.of_nat (i mod n)) * delta_x, lit (Z.of_nat (i / n)) * delta_x).

  (** source: laplace_2d.h 106-114. *)
  Definition l_source (i n : nat) : S :=
    let '(x, y) := l_co_ordinate i n in
    let squared_x := x * x in
    let squared_y := y * y in
    lit (-2) * ((sc_one O - lit 6 * squared_x) * squared_y * (squared_y - sc_one O)
                + (lit 6 * squared_y - sc_one O) * squared_x * (sc_one O - squared_x)).

  (** analytical_solution: laplace_2d.h 123-128. *)
  Definition l_solution (i n : nat) : S :=
    let '(x, y) := l_co_ordinate i n in
    let squared_x := x * x in
    let squared_y := y * y in
    (squared_x - squared_x * squared_x) * (squared_y * squared_y - squared_y).

  (** The test for a node of the boundary: laplace_2d.h 79-80. *)
  Definition l_boundary (nodes n i : nat) : bool :=
    ((i mod n =? 0) || ((i + 1) mod n =? 0) || (i <? n) || (nodes - n <=? i))%nat.

  (** delta_x_squared: laplace_2d.h 71-72. *)
  Definition l_inverse_square (n : nat) : S :=
    let delta_x := sc_one O / (lit (Z.of_nat n) - sc_one O) in sc_one O / (delta_x * delta_x).

  (** The places of a row inside, with what is written there: laplace_2d.h 85-89. *)
  Definition l_row (nodes n i : nat) : list (nat * S) :=
    let c := l_inverse_square n in
    (if (i + n <? nodes)%nat then [((i + n)%nat, lit (-1) * c)] else [])
      ++ (if (i mod n =? 0)%nat then [] else [((i - 1)%nat, lit (-1) * c)])
      ++ [(i, lit 4 * c)]
      ++ (if ((i + 1) mod n =? 0)%nat then [] else [((i + 1)%nat, lit (-1) * c)])
      ++ (if (n <=? i)%nat then [((i - n)%nat, lit (-1) * c)] else []).

  Section Both.
    Context {A : Type}.
    Variables (dbg : bool) (rows cols : A -> nat) (scaled : A -> res A) (clear_row : nat -> A -> res A) (write : nat -> nat -> S -> A -> res A).

    (** construct_laplace_2d for a matrix type: laplace_2d.h 61-92. sqrt of an int below 2^31 is correctly rounded, and cut off to the
        largest integer whose square is not larger: [Nat.sqrt]. *)
    Definition construct (a : A) (b x : list S) : res (A * list S * list S) :=
      do _ <- ASSERT_DEBUG dbg (rows a =? cols a)%nat;
      do _ <- ASSERT_DEBUG dbg (rows a =? length b)%nat;
      do _ <- ASSERT_DEBUG dbg (rows a =? length x)%nat;
      let nodes := length b in
      do _ <- ASSERT_DEBUG dbg (9 <=? nodes)%nat;
      let n := Nat.sqrt nodes in
      do a <- scaled a;
      FOR nodes (fun i s =>
        let '(a, b, x) := s in
        do b <- vset b i (l_source i n);
        do x <- vset x i (l_solution i n);
        if l_boundary nodes n i then
          do a <- clear_row i a;
          do a <- write i i (sc_one O) a;
          do b <- vset b i (l_solution i n);
          Ok (a, b, x)
        else
          do a <- forM (l_row nodes n i) (fun p a => write i (fst p) (snd p) a) a;
          Ok (a, b, x)) (a, b, x).
  End Both.

  (** With a Matrix_Sparse. *)
  Definition construct_sparse (M : nat) (dbg : bool) (stray : option nat) : smat S -> list S -> list S -> res (smat S * list S * list S) :=
    construct dbg s_rows csize
      (fun a => Ok (s_scale a (fun v => v * lit 0)))
      (fun i a => do s <- for_iter stray (change (fun _ _ _ => lit 0)) i (a, tt); Ok (fst s))
      (fun i j v a => s_subscript_assign (sc_zero O) M dbg stray a i j v).

  (** With a Matrix_Dense of dynamic size. *)
  Definition construct_dense (dbg : bool) : list (list S) -> list S -> list S -> res (list (list S) * list S * list S) :=
    construct dbg m_rows m_cols
      (fun a => m_scale (sc_mul O) a (MExt (lit 0)))
      (fun i a => do row <- vget a i; FOR (length row) (fun j a => mset a i j (lit 0)) a)
      (fun i j v a => mset a i j v).
End Laplace.
