(** The unit tests of sparse matrices (test/core/test_matrix_sparse.cpp) replayed on the model with integers for the
    values; see ReplayGraph.v. *)
From Coq Require Import ZArith QArith.
From Verif Require Import Base SparseModel StorageModel.
Local Open Scope nat_scope.

(** Stands for the largest std::size_t. *)
Definition top : nat := 1000.

(** std::sort of a few positions by their key. *)
Fixpoint by_key_insert (key : nat -> nat) (x : nat) (l : list nat) : list nat :=
  match l with
  | [] => [x]
  | y :: r => if key x <=? key y then x :: l else y :: by_key_insert key x r
  end.
Definition by_key (key : nat -> nat) (l : list nat) : list nat := fold_right (by_key_insert key) [] l.

Definition ctor (nz idx : list nat) (vs : list Z) (c : nat) : res (smat Z) := s_ctor by_key nz idx vs c.
Definition get (m : smat Z) (i j : nat) : res Z :=
  do r <- s_subscript 0%Z top true None m i j; deref (fst r) (snd r).
Definition gets (r : res (smat Z)) (l : list (nat * nat)) : res (list Z) :=
  do m <- r; mapM (fun p => get m (fst p) (snd p)) l.
Definition shape (r : res (smat Z)) : res (nat * nat * nat) := do m <- r; Ok (s_rows m, csize m, s_nnz m).
Definition resized (r : res (smat Z)) (a b : nat) : res (smat Z) := do m <- r; s_resize 0%Z top m a b.
Definition put (r : res (smat Z)) (i j : nat) (v : Z) : res (smat Z) := do m <- r; s_subscript_assign 0%Z top true None m i j v.

(** The matrix used by most tests: 0 1 0 2 0 / 4 0 3 5 0 / 0 0 0 0 0 / 0 0 0 7 6. *)
Definition sample : res (smat Z) := ctor [0; 2; 5; 5; 7] [1; 3; 2; 0; 3; 4; 3] [1; 2; 3; 4; 5; 6; 7]%Z 5.

(** 33-60: constructors. (62-73, assignment, is the copy of a value.) *)
Example constructors :
  shape (Ok (s_shape 2 4)) = Ok (2, 4, 0) /\ shape sample = Ok (4, 5, 7) /\
  gets sample [(0, 1); (0, 3); (1, 0); (1, 2); (1, 3); (3, 3); (3, 4)] = Ok [1; 2; 4; 3; 5; 7; 6]%Z /\
  shape (ctor [0; 2; 3] [1; 0; 0] [1; 2; 3]%Z 2) = Ok (2, 2, 3) /\
  ctor [0; 2; 3] [1; 0; 0; 1] [1; 2; 3; 4]%Z 2 = Abort /\ ctor [0; 2; 3] [1; 0; 0] [1; 2; 3; 4]%Z 2 = Abort /\
  ctor [1; 2; 3] [1; 0; 0] [1; 2; 3]%Z 2 = Abort /\ ctor [2; 0; 3] [1; 0; 0] [1; 2; 3]%Z 2 = Abort /\
  ctor [0; 2; 3] [1; 0; 2] [1; 2; 3]%Z 2 = Abort /\ ctor [0; 2; 3] [1; 1; 0] [1; 2; 3]%Z 2 = Abort.
Proof. vm_compute. auto 15. Qed.

(** 79-93: at; the reference it returns is written through by operator[], to the same element. *)
Example at_test :
  (do m <- sample; s_at None m 3 4) = Ok 6%Z /\
  (do m <- put sample 3 4 (-10)%Z; s_at None m 3 4) = Ok (-10)%Z /\
  (do m <- sample; s_at None m 10 4) = Abort /\ (do m <- sample; s_at None m 0 6) = Abort /\
  (do m <- sample; s_at None m 10 2) = Abort.
Proof. vm_compute. auto 10. Qed.

(** 95-109: operator_subscript. *)
Example subscript_test :
  let m := put (ctor [0; 1; 2] [0; 1] [1; 2]%Z 2) 0 1 3%Z in
  gets (ctor [0; 1; 2] [0; 1] [1; 2]%Z 2) [(0, 0); (1, 1)] = Ok [1; 2]%Z /\
  (do m <- m; mapM (fun p => s_subscript_const true None m (fst p) (snd p)) [(0, 0); (0, 1); (1, 1)]) = Ok [1; 3; 2]%Z /\
  (do m <- m; s_subscript_const true None m 1 0) = Abort.
Proof. vm_compute. auto. Qed.

(** 115-143: begin, end. *)
Example first_and_last_row :
  let m := ctor [0; 1; 2] [1; 1] [1; 2]%Z 2 in
  gets m [(0, 1); (1, 1)] = Ok [1; 2]%Z /\
  (do m <- m; row_begin m 0) = Ok (0, 0) /\ (do m <- m; do it <- row_begin m 0; i_column m it) = Ok 1 /\
  (do m <- m; row_begin m (fst (r_minus (s_rows m) 1))) = Ok (1, 1) /\
  (do m <- m; do it <- row_begin m 1; i_column m it) = Ok 1.
Proof. vm_compute. auto 10. Qed.

(** 149-183: empty, size. *)
Example empty_and_size :
  let a := resized (Ok (s_default)) 0 2 in let b := resized a 1 0 in let c := resized b 2 2 in
  s_empty (V := Z) s_default = true /\ shape (Ok s_default) = Ok (0, 0, 0) /\
  (do m <- a; Ok (s_empty m)) = Ok true /\ (do m <- b; Ok (s_empty m)) = Ok false /\ (do m <- c; Ok (s_empty m)) = Ok false /\
  shape (put (resized (Ok s_default) 7 6) 0 5 1%Z) = Ok (7, 6, 1) /\
  (do m <- put (resized (Ok s_default) 7 6) 0 5 1%Z; Ok (s_empty m)) = Ok false.
Proof. vm_compute. auto 10. Qed.

(** 185-226: reserve, shrink_to_fit, clear; clear keeps the arrays. *)
Example clear_test : (do m <- put (resized (Ok s_default) 7 6) 0 5 1%Z; Ok (s_empty (s_clear m), s_rows (s_clear m), csize (s_clear m), s_nnz (s_clear m))) =
  Ok (true, 0, 0, 0).
Proof. reflexivity. Qed.

Example reserve_test :
  (do x <- sm_reserve (fun _ n => n) top top (mkSM (s_default (V := Z)) (mkStore 0 0) (mkStore 0 0) (mkStore 0 0)) 10 40; Ok (sm_capacity x)) = Ok (11, 40).
Proof. reflexivity. Qed.

(** libstdc++ grows to twice the size or to what is needed; resize(5, 30) fits the offsets that were reserved. *)
Definition doubled (c n : nat) : nat := Nat.max (2 * c) n.
Definition bare : smatrix := mkSM (s_default (V := Z)) (mkStore 0 0) (mkStore 0 0) (mkStore 0 0).

Example shrink_test :
  (do x <- sm_reserve doubled top top bare 10 40;
   do m <- s_resize 0%Z top (sm_matrix x) 5 30;
   do r <- sm_insert doubled top 0%Z None true (mkSM m (fit doubled 6 (sm_rnz x)) (sm_col x) (sm_val x)) 4 8 10%Z;
   let y := fst r in
   Ok (sm_capacity x, sm_capacity (mkSM (sm_matrix y) (v_shrink true (length (rnz (sm_matrix y))) (sm_rnz y))
     (v_shrink true (length (cidx (sm_matrix y))) (sm_col y)) (v_shrink true (length (vals (sm_matrix y))) (sm_val y))))) =
  Ok ((11, 40), (6, 1)).
Proof. vm_compute. reflexivity. Qed.

Example capacity_after_clear :
  (do m <- s_resize 0%Z top (sm_matrix bare) 7 6;
   do r <- sm_insert doubled top 0%Z None true (mkSM m (fit doubled 8 (sm_rnz bare)) (sm_col bare) (sm_val bare)) 0 5 1%Z;
   Ok (sm_capacity (mkSM (s_clear (sm_matrix (fst r))) (sm_rnz (fst r)) (sm_col (fst r)) (sm_val (fst r))))) = Ok (8, 1).
Proof. vm_compute. reflexivity. Qed.

(** 228-326: insert, insert_or_assign: the flag and the value under the returned iterator, then the matrix. *)
Definition inserted (r : res (smat Z)) (i j : nat) (v : Z) : res (Z * bool) :=
  do m <- r; do x <- s_insert 0%Z top true None m i j v; do y <- deref (fst (fst x)) (snd (fst x)); Ok (y, snd x).
Definition after (r : res (smat Z)) (i j : nat) (v : Z) : res (smat Z) :=
  do m <- r; do x <- s_insert 0%Z top true None m i j v; Ok (fst (fst x)).

Example insert_test :
  let m0 := resized (Ok s_default) 5 5 in let m1 := after m0 3 2 1%Z in let m2 := after m1 3 1 3%Z in let m3 := after m2 2 1 4%Z in
  let m4 := after m3 2 4 5%Z in let m5 := after m4 4 0 8%Z in let m6 := after m5 4 4 (-5)%Z in let m7 := after m6 3 2 2%Z in
  let m8 := after m7 6 2 10%Z in let m9 := after m8 2 6 50%Z in
  let all := [(2, 1); (2, 4); (3, 1); (3, 2); (4, 0); (4, 4)] in
  shape m1 = Ok (5, 5, 1) /\ gets m1 [(3, 2)] = Ok [1]%Z /\
  inserted m1 3 1 3%Z = Ok (3%Z, true) /\ shape m2 = Ok (5, 5, 2) /\ gets m2 [(3, 1); (3, 2)] = Ok [3; 1]%Z /\
  inserted m2 2 1 4%Z = Ok (4%Z, true) /\ shape m3 = Ok (5, 5, 3) /\
  inserted m3 2 4 5%Z = Ok (5%Z, true) /\ shape m4 = Ok (5, 5, 4) /\
  inserted m4 4 0 8%Z = Ok (8%Z, true) /\ shape m5 = Ok (5, 5, 5) /\
  inserted m5 4 4 (-5)%Z = Ok ((-5)%Z, true) /\ shape m6 = Ok (5, 5, 6) /\ gets m6 all = Ok [4; 5; 3; 1; 8; -5]%Z /\
  inserted m6 3 2 2%Z = Ok (1%Z, false) /\ shape m7 = Ok (5, 5, 6) /\ gets m7 all = Ok [4; 5; 3; 1; 8; -5]%Z /\
  inserted m7 6 2 10%Z = Ok (10%Z, true) /\ shape m8 = Ok (7, 5, 7) /\ gets m8 [(6, 2)] = Ok [10]%Z /\
  inserted m8 2 6 50%Z = Ok (50%Z, true) /\ shape m9 = Ok (7, 7, 8) /\ gets m9 [(2, 6)] = Ok [50]%Z /\
  (do m <- m9; do x <- s_insert_or_assign 0%Z top true None m 2 6 (-50)%Z; do y <- deref (fst (fst x)) (snd (fst x));
   Ok (y, snd x, s_nnz (fst (fst x)))) = Ok ((-50)%Z, false, 8) /\
  (do m <- m9; do x <- s_insert_or_assign 0%Z top true None m 2 6 (-50)%Z;
   mapM (row_entries None (fst (fst x))) (seq 0 (s_rows (fst (fst x))))) =
    Ok [[]; []; [(1, 4%Z); (4, 5%Z); (6, (-50)%Z)]; [(1, 3%Z); (2, 1%Z)]; [(0, 8%Z); (4, (-5)%Z)]; []; [(2, 10%Z)]].
Proof. vm_compute. auto 30. Qed.

(** 328-343: erase. The debug check reads the end of the row past the last one beyond the offsets; [x] is what is found
    there. *)
Example erase_test : forall x, In x [0; 1; 2; 3; 17; 999] ->
  let m := ctor [0; 2; 3] [1; 0; 0] [1; 2; 3]%Z 2 in
  let r := do m <- m; do it <- s_find (Some x) m 0 1; s_erase true (Some x) m it in
  let m' := do p <- r; Ok (fst p) in
  shape m' = Ok (2, 2, 2) /\ (do p <- r; do e <- row_end (Some x) (fst p) 0; Ok (eit_eqb (snd p) e)) = Ok true /\
  (do p <- r; deref (fst p) (snd p)) = Ok 3%Z /\ gets m' [(0, 0); (1, 0)] = Ok [2; 3]%Z /\
  (do m <- m'; do it <- s_find (Some x) m 3 0; s_erase true (Some x) m it) = Abort /\
  (do m <- m'; do it <- s_find (Some x) m 0 2; s_erase true (Some x) m it) = Abort /\
  (do m <- m'; do it <- s_find (Some x) m 1 1; s_erase true (Some x) m it) = Abort.
Proof. intros x [<-|[<-|[<-|[<-|[<-|[<-|[]]]]]]]; vm_compute; auto 10. Qed.

(** 345-408: resize. *)
Example resize_test :
  shape (resized (Ok s_default) 5 9) = Ok (5, 9, 0) /\
  shape (resized sample 3 5) = Ok (3, 5, 5) /\
  shape (resized sample 4 2) = Ok (4, 2, 2) /\ gets (resized sample 4 2) [(0, 1); (1, 0)] = Ok [1; 4]%Z /\
  shape (resized sample 2 8) = Ok (2, 8, 5) /\
  gets (resized sample 2 8) [(0, 1); (0, 3); (1, 0); (1, 2); (1, 3)] = Ok [1; 2; 4; 3; 5]%Z /\
  shape (resized sample 10 2) = Ok (10, 2, 2) /\ gets (resized sample 10 2) [(0, 1); (1, 0)] = Ok [1; 4]%Z /\
  shape (resized sample 1 2) = Ok (1, 2, 1) /\ gets (resized sample 1 2) [(0, 1)] = Ok [1]%Z /\
  shape (resized sample 0 0) = Ok (0, 0, 0).
Proof. vm_compute. auto 15. Qed.

(** 410-426: swap. *)
Example swap_test :
  let r := do a <- ctor [0; 1; 2] [1; 0] [1; 2]%Z 2; do b <- ctor [0; 1; 2; 3] [1; 0; 1] [3; 4; 5]%Z 3; Ok (s_swap a b) in
  let a := do p <- r; Ok (fst p) in let b := do p <- r; Ok (snd p) in
  shape a = Ok (3, 3, 3) /\ shape b = Ok (2, 2, 2) /\ gets a [(0, 1); (1, 0); (2, 1)] = Ok [3; 4; 5]%Z /\
  gets b [(0, 1); (1, 0)] = Ok [1; 2]%Z.
Proof. vm_compute. auto. Qed.

(** 432-466: find; the last expectation reads past the offsets on both sides. *)
Definition three : res (smat Z) := ctor [0; 1; 3; 3] [1; 0; 2] [3; 4; 5]%Z 3.
Definition found (look : smat Z -> nat -> nat -> res eit) (i j : nat) : res (nat * nat) :=
  do m <- three; do it <- look m i j; do c <- i_column m it; Ok (fst it, c).
Definition nowhere (look : smat Z -> nat -> nat -> res eit) (i j : nat) : res bool :=
  do m <- three; do it <- look m i j; do e <- row_end None m i; Ok (eit_eqb it e).

Example find_test :
  let f := s_find (V := Z) None in
  nowhere f 0 0 = Ok true /\ found f 0 1 = Ok (0, 1) /\ nowhere f 0 2 = Ok true /\
  found f 1 0 = Ok (1, 0) /\ nowhere f 1 1 = Ok true /\ found f 1 2 = Ok (1, 2) /\
  nowhere f 2 1 = Ok true /\ nowhere f 2 2 = Ok true /\ nowhere f 2 3 = Ok true /\
  forall x, (do m <- three; s_find (Some x) m 3 3) = (do m <- three; row_end (Some x) m (s_rows m)).
Proof. vm_compute. auto 15. Qed.

(** 468-481: contains. *)
Example contains_test :
  (do m <- ctor [0; 1; 2; 3] [1; 2; 1] [3; 4; 5]%Z 3; mapM (fun p => s_contains None m (fst p) (snd p)) [(0, 1); (1, 2); (0, 0); (2, 0)]) =
    Ok [true; true; false; false] /\
  (do m <- ctor [0; 0; 0] [] [] 2; mapM (fun p => s_contains None m (fst p) (snd p)) [(0, 0); (0, 1); (1, 0); (1, 1)]) =
    Ok [false; false; false; false].
Proof. vm_compute. auto. Qed.

(** 483-517: lower_bound. *)
Example lower_bound_test :
  let f := s_lower_bound (V := Z) None in
  found f 0 0 = Ok (0, 1) /\ found f 0 1 = Ok (0, 1) /\ nowhere f 0 2 = Ok true /\ found f 1 0 = Ok (1, 0) /\
  found f 1 1 = Ok (1, 2) /\ found f 1 2 = Ok (1, 2) /\ nowhere f 2 0 = Ok true /\
  forall x, (do m <- three; s_lower_bound (Some x) m 3 3) = (do m <- three; row_end (Some x) m (s_rows m)).
Proof. vm_compute. auto 10. Qed.

(** 523-545 and 641-663: scaling; division is over the rationals, where the test compares doubles up to rounding. *)
Example scaling :
  let m := ctor [0; 1; 3; 3] [1; 0; 2] [3; -4; 5]%Z 3 in
  let t := do m <- m; Ok (s_scale m (fun x => (x * -10)%Z)) in
  shape t = Ok (3, 3, 3) /\ gets t [(0, 1); (1, 0); (1, 2)] = Ok [-30; 40; -50]%Z.
Proof. vm_compute. auto. Qed.

Example division :
  let q := s_ctor by_key [0; 1; 3; 3] [1; 0; 2] [3; -4 # 1; 5]%Q 3 in
  (do m <- q; Ok (vals (s_scale m (fun x => Qred (x / (-10 # 1)))))) = Ok [-3 # 10; 2 # 5; -1 # 2]%Q /\
  (do m <- q; Ok (vals (s_scale m (fun x => Qred (x / (10 # 1)))))) = Ok [3 # 10; -2 # 5; 1 # 2]%Q.
Proof. vm_compute. auto. Qed.

(** 547-589 and 690-754: addition and subtraction. *)
Definition one3 : res (smat Z) := ctor [0; 1; 2; 3] [0; 1; 2] [1; 1; 1]%Z 3.
Definition anti : res (smat Z) := ctor [0; 1; 2; 3] [2; 1; 0] [3; -4; 5]%Z 3.
Definition wider : res (smat Z) := ctor [0; 1; 2; 3] [2; 1; 0] [3; -4; 5]%Z 4.
Definition cells : list (nat * nat) := [(0, 0); (0, 2); (1, 1); (2, 0); (2, 2)].

Example addition :
  let a := do m <- anti; do o <- one3; s_add_assign 0%Z Z.add Z.opp top true None m o in
  let b := do o <- one3; do m <- anti; s_plus 0%Z Z.add Z.opp top true None o m in
  shape a = Ok (3, 3, 5) /\ gets a cells = Ok [1; 3; -3; 5; 1]%Z /\ shape b = Ok (3, 3, 5) /\ gets b cells = Ok [1; 3; -3; 5; 1]%Z /\
  (do m <- a; do o <- wider; s_add_assign 0%Z Z.add Z.opp top true None m o) = Abort /\
  (do m <- anti; do o <- wider; s_plus 0%Z Z.add Z.opp top true None m o) = Abort.
Proof. vm_compute. auto 10. Qed.

Example subtraction :
  let a := do m <- anti; do o <- one3; s_sub_assign 0%Z Z.add Z.opp top true None m o in
  let b := do m <- anti; do o <- one3; s_minus 0%Z Z.add Z.opp top true None m o in
  shape a = Ok (3, 3, 5) /\ gets a cells = Ok [-1; 3; -5; 5; -1]%Z /\ shape b = Ok (3, 3, 5) /\ gets b cells = Ok [-1; 3; -5; 5; -1]%Z /\
  (do m <- a; do o <- wider; s_sub_assign 0%Z Z.add Z.opp top true None m o) = Abort /\
  (do m <- anti; do o <- wider; s_minus 0%Z Z.add Z.opp top true None m o) = Abort.
Proof. vm_compute. auto 10. Qed.

(** 591-635 and 756-808: products. *)
Example products :
  let a := ctor [0; 2; 3; 4; 6; 7] [0; 2; 2; 0; 1; 4; 3] [1; 2; -7; 4; 3; -9; 5]%Z 5 in
  let b := ctor [0; 2; 4; 5; 6; 7] [1; 4; 0; 3; 1; 4; 2] [6; 9; 1; -8; 6; 5; -7]%Z 5 in
  let c := ctor [0; 2; 3; 4; 6] [0; 2; 0; 1; 1; 2] [2; 8; -6; -3; 4; 7]%Z 3 in
  let d := ctor [0; 1; 2; 3] [0; 1; 0] [6; 4; -5]%Z 2 in
  let p := do a <- a; do b <- b; s_times 0%Z Z.add Z.mul top true None a b in
  let q := do c <- c; do d <- d; s_mul_assign 0%Z Z.add Z.mul top true None c d in
  shape p = Ok (5, 5, 9) /\
  gets p [(0, 1); (0, 4); (1, 1); (2, 1); (2, 4); (3, 0); (3, 2); (3, 3); (4, 4)] = Ok [18; 9; -42; 24; 36; 3; 63; -24; 25]%Z /\
  (do a <- a; do b <- b; s_mul_assign 0%Z Z.add Z.mul top true None a b) = p /\
  (do c <- c; do d <- d; s_times 0%Z Z.add Z.mul top true None c d) = q /\
  shape q = Ok (4, 2, 5) /\ gets q [(0, 0); (1, 0); (2, 1); (3, 0); (3, 1)] = Ok [-28; -36; -12; -35; 16]%Z /\
  (do c <- c; s_mul_self 0%Z Z.add Z.mul top true None c) = Abort /\
  (do c <- c; s_times 0%Z Z.add Z.mul top true None c c) = Abort.
Proof. vm_compute. auto 10. Qed.

(** 665-688: matrix_vector_multiplication. *)
Example matrix_vector :
  let m := ctor [0; 1; 4] [1; 0; 1; 2] [3; -4; 5; -2]%Z 3 in
  (do m <- m; s_mat_vec 0%Z Z.add Z.mul true None m [-1; 2; 3]%Z) = Ok [6; 8]%Z /\
  (do m <- resized m 3 3; s_mat_vec 0%Z Z.add Z.mul true None m [-10; 20; -30]%Z) = Ok [60; 200; 0]%Z /\
  s_mat_vec 0%Z Z.add Z.mul true None s_default [-1; 2; 3]%Z = Abort /\
  s_mat_vec 0%Z Z.add Z.mul true None s_default [0; 0]%Z = Abort /\
  (do m <- resized m 3 3; s_mat_vec 0%Z Z.add Z.mul true None m [0; 0]%Z) = Abort.
Proof. vm_compute. auto 10. Qed.
