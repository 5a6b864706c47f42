(** The unit tests of CSR_Data and of the rows and elements of the new sparse matrix, run on the model:
    test/core/test_matrix_sparse_data.cpp and test/core/test_matrix_sparse_new.cpp, with integers for the values; see
    ReplayGraph.v.

    The first of these tests writes past the end of an array ([size_test]). Comparing with the end of a row needs the lenient
    reading of the row object ([strict] = false, see ElementModel.v). Left out: the default constructor of the iterator (104-108), of which nothing is expected, and the tests
    that are commented out (from 347 on). *)
From Coq Require Import ZArith.
From Verif Require Import Base MacroModel SparseModel CsrDataModel CsrIntModel RowModel ElementModel.
Local Open Scope nat_scope.

(** Stands for the largest std::size_t. *)
Definition top : nat := 1000.
Definition shape (m : smat Z) : nat * nat * nat := (c_size_row m, c_size_column m, c_size_non_zero m).
Definition resized (m : smat Z) (r c : nat) : res (smat Z) := c_resize 0%Z top m r c.
Definition empty : smat Z := mkS [] [] [] 0.
Definition data : smat Z := mkS [0; 2; 5; 5; 7] [1; 3; 0; 2; 3; 3; 4] [1; 2; 3; 4; 5; 6; 7]%Z 5.

(** *** test/core/test_matrix_sparse_data.cpp *)

(** size: 27-40. The array row_offset has eight elements; the test writes to row_offset[8]. *)
Example size_test :
  shape empty = (0, 0, 0)
  /\ exists m, resized empty 7 6 = Ok m
     /\ let m' := mkS (rnz m) (cidx m ++ [3]) (vals m ++ [1%Z]) (csize m) in
        length (rnz m') = 8 /\ vset (rnz m') 8 1 = Undef /\ shape m' = (7, 6, 1).
Proof. split; [reflexivity|]. eexists. vm_compute. auto. Qed.

(** resize: 42-156. The negative arguments are those of the type int, with indices of the same type. *)
Example resize_test :
  z_resize 0%Z int_t true (mkZ [] [] [] 0%Z) (-1) 1 = Abort /\ z_resize 0%Z int_t true (mkZ [] [] [] 0%Z) 1 (-1) = Abort
  /\ (do m <- resized empty 5 9; Ok (shape m)) = Ok (5, 9, 0)
  /\ (do m <- resized data 3 5; Ok (shape m)) = Ok (3, 5, 5)
  /\ resized data 4 2 = Ok (mkS [0; 1; 2; 2; 2] [1; 0] [1; 3]%Z 2)
  /\ resized data 2 8 = Ok (mkS [0; 2; 5] [1; 3; 0; 2; 3] [1; 2; 3; 4; 5]%Z 8)
  /\ resized data 10 2 = Ok (mkS [0; 1; 2; 2; 2; 2; 2; 2; 2; 2; 2] [1; 0] [1; 3]%Z 2)
  /\ resized data 1 2 = Ok (mkS [0; 1] [1] [1%Z] 2)
  /\ (do m <- resized data 0 0; Ok (shape m)) = Ok (0, 0, 0).
Proof. vm_compute. auto 20. Qed.

(** insert: 158-285. After each call: whether an element was inserted, the sizes, *iter_row, i_row, *iter_column, *iter_value. *)
Definition seen (r : res (smat Z * eit * bool)) : res (bool * (nat * nat * nat) * list nat * Z) :=
  do x <- r;
  let '(m, it, b) := x in
  do o <- vget (rnz m) (fst it); do c <- vget (cidx m) (snd it); do v <- vget (vals m) (snd it);
  Ok (b, shape m, [o; c_i_row m it; c], v).
Definition inserted (m : res (smat Z)) (i j : nat) (v : Z) : res (smat Z * eit * bool) :=
  do m <- m; c_insert 0%Z top m i j v.
Definition after (r : res (smat Z * eit * bool)) : res (smat Z) := do x <- r; Ok (fst (fst x)).
Example insert_test :
  let start := mkZ [0; 0; 0; 0; 0; 0]%Z [] ([] : list Z) 5%Z in
  let r1 := inserted (resized empty 5 5) 3 2 1%Z in
  let r2 := inserted (after r1) 3 1 3%Z in
  let r3 := inserted (after r2) 2 1 4%Z in
  let r4 := inserted (after r3) 2 4 5%Z in
  let r5 := inserted (after r4) 4 0 8%Z in
  let r6 := inserted (after r5) 4 4 (-5)%Z in
  let r7 := inserted (after r6) 3 2 (-5)%Z in
  let r8 := inserted (after r7) 6 2 10%Z in
  let r9 := inserted (after r8) 2 6 50%Z in
  z_insert 0%Z int_t true start (-1) 1 1%Z = Abort /\ z_insert 0%Z int_t true start 1 (-1) 1%Z = Abort
  /\ seen r1 = Ok (true, (5, 5, 1), [0; 3; 2], 1%Z)
  /\ seen r2 = Ok (true, (5, 5, 2), [0; 3; 1], 3%Z)
  /\ seen r3 = Ok (true, (5, 5, 3), [0; 2; 1], 4%Z)
  /\ seen r4 = Ok (true, (5, 5, 4), [0; 2; 4], 5%Z)
  /\ seen r5 = Ok (true, (5, 5, 5), [4; 4; 0], 8%Z)
  /\ seen r6 = Ok (true, (5, 5, 6), [4; 4; 4], (-5)%Z)
  /\ seen r7 = Ok (false, (5, 5, 6), [2; 3; 2], 1%Z)
  /\ seen r8 = Ok (true, (7, 5, 7), [6; 6; 2], 10%Z)
  /\ seen r9 = Ok (true, (7, 7, 8), [0; 2; 6], 50%Z)
  /\ after r9 = Ok (mkS [0; 0; 0; 3; 5; 7; 7; 8] [1; 4; 6; 1; 2; 0; 4; 2] [4; 5; 50; 3; 1; 8; -5; 10]%Z 7).
Proof. vm_compute. auto 20. Qed.

(** insert_or_assign: 287-326. *)
Definition assigned (m : res (smat Z)) (i j : nat) (v : Z) : res (smat Z * eit * bool) :=
  do m <- m; c_insert_or_assign 0%Z top m i j v.
Definition told (r : res (smat Z * eit * bool)) : res (bool * Z * (nat * nat * nat)) :=
  do x <- r; let '(m, it, b) := x in do v <- vget (vals m) (snd it); Ok (b, v, shape m).
Definition found (m : res (smat Z)) (i j : nat) : res Z :=
  do m <- m; do it <- c_lower_bound m i j; vget (vals m) (snd it).
Example insert_or_assign_test :
  let r1 := assigned (resized empty 3 3) 1 1 5%Z in
  let r2 := assigned (after r1) 1 1 7%Z in
  let r3 := assigned (after r2) 4 1 3%Z in
  let r4 := assigned (after r3) 2 4 9%Z in
  told r1 = Ok (true, 5%Z, (3, 3, 1)) /\ told r2 = Ok (false, 7%Z, (3, 3, 1))
  /\ told r3 = Ok (true, 3%Z, (5, 3, 2)) /\ told r4 = Ok (true, 9%Z, (5, 5, 3))
  /\ found (after r4) 1 1 = Ok 7%Z /\ found (after r4) 4 1 = Ok 3%Z /\ found (after r4) 2 4 = Ok 9%Z.
Proof. vm_compute. auto 20. Qed.

(** lower_bound: 328-383. *)
Definition bounds : smat Z := mkS [0; 1; 3; 3] [1; 0; 2] [3; 4; 5]%Z 3.
Definition stars (i j : nat) : res (nat * nat * Z) :=
  do it <- c_lower_bound bounds i j;
  do o <- vget (rnz bounds) (fst it); do c <- vget (cidx bounds) (snd it); do v <- vget (vals bounds) (snd it);
  Ok (o, c, v).
Example lower_bound_test :
  let z := mkZ [0; 1; 3; 3]%Z [1; 0; 2]%Z [3; 4; 5]%Z 3%Z in
  z_lower_bound int_t true z (-1) 1 = Abort /\ z_lower_bound int_t true z 1 (-1) = Abort
  /\ stars 0 0 = Ok (0, 1, 3%Z) /\ stars 0 1 = Ok (0, 1, 3%Z) /\ stars 0 2 = Ok (1, 0, 4%Z)
  /\ stars 1 0 = Ok (1, 0, 4%Z) /\ stars 1 1 = Ok (1, 2, 5%Z) /\ stars 1 2 = Ok (1, 2, 5%Z)
  /\ (forall j, j < 3 -> c_lower_bound bounds 2 j = Ok (length (rnz bounds) - 1, length (cidx bounds)))
  /\ length (vals bounds) = length (cidx bounds)
  /\ c_lower_bound bounds 3 0 = Ok (length (rnz bounds), length (cidx bounds))
  /\ stars 0 3 = Ok (1, 0, 4%Z).
Proof. vm_compute. repeat split; auto. Qed.

(** *** test/core/test_matrix_sparse_new.cpp *)

(** The elements: 49-86. The member of the fixture and another variable are an array of two elements each; 314, 271 and 628 stand for 3.14, 2.71 and
    6.28. *)
Example element_test :
  let m := mkS [] [5; 6] [314; 271]%Z 0 in
  let e := mkElement (At 0) (At 0) in let d := mkElement (At 1) (At 1) in
  l_column m e = Ok 5 /\ l_value m e = Ok 314%Z
  /\ l_eqb e (mkElement (At 0) (At 0)) = true /\ l_eqb e d = false
  /\ l_neb e (mkElement (At 0) (At 0)) = false /\ l_neb e d = true
  /\ (do m <- l_assign m e 628%Z; l_value m e) = Ok 628%Z.
Proof. vm_compute. auto 10. Qed.

(** The iterators: 110-165, of both kinds. *)
Definition five : smat Z := mkS [] [0; 1; 2; 3; 4] [1; 2; 3; 4; 5]%Z 0.
Definition shows (x : res eiter) : res (nat * Z) :=
  do x <- x; do j <- l_column five (e_star x); do v <- l_value five (e_star x); Ok (j, v).
Definition inc (x : res eiter) : res eiter := do x <- x; e_inc five x.
Definition inc_post (x : res eiter) : res eiter := do x <- x; do r <- e_inc_post five x; Ok (snd r).
Definition dec (x : res eiter) : res eiter := do x <- x; e_dec x.
Definition dec_post (x : res eiter) : res eiter := do x <- x; do r <- e_dec_post x; Ok (snd r).
Example element_iterator_test :
  let x0 := Ok (mkIter (At 0) (At 0)) in
  shows x0 = Ok (0, 1%Z)
  /\ shows (inc x0) = Ok (1, 2%Z) /\ shows (inc_post (inc x0)) = Ok (2, 3%Z)
  /\ shows (dec (inc_post (inc x0))) = Ok (1, 2%Z) /\ shows (dec_post (dec (inc_post (inc x0)))) = Ok (0, 1%Z)
  /\ e_eqb (mkIter (At 0) (At 0)) (mkIter (At 0) (At 0)) = true
  /\ e_neb (mkIter (At 0) (At 0)) (mkIter (At 1) (At 1)) = true.
Proof. vm_compute. auto 10. Qed.

(** The fixture of the rows: 171-181. *)
Definition rows : smat Z := mkS [0; 2; 2; 5; 7] [0; 2; 1; 3; 4; 0; 2] [1; 2; 3; 4; 5; 6; 7]%Z 6.
Definition row_facts (m : smat Z) (i : nat) : res (nat * nat * nat) :=
  do r <- w_new m i; do o <- w_offset m r; do n <- w_size_non_zero m r; Ok (o, n, w_index m r).

(** constructor_and_row_indexing: 183-207. *)
Example row_indexing :
  row_facts rows 0 = Ok (2, 2, 0) /\ row_facts rows 1 = Ok (2, 0, 1) /\ row_facts rows 2 = Ok (5, 3, 2)
  /\ row_facts rows 3 = Ok (7, 2, 3).
Proof. vm_compute. auto. Qed.

(** iterators, const_iterators: 209-226, 228-245. *)
Example row_iterators :
  (do r <- w_new rows 2; row_notes false rows r) = Ok [(1, 3%Z); (3, 4%Z); (4, 5%Z)]
  /\ (do r <- w_new rows 2; do x <- w_first false r; do stop <- w_last false r;
      do x <- e_inc rows x; do x <- e_inc rows x; do x <- e_inc rows x; Ok (e_eqb x stop)) = Ok true.
Proof. vm_compute. auto. Qed.

(** at, const_as, subscript_operators, const_subscript_operators: 247-296. *)
Example row_access :
  let at_ j := do r <- w_new rows 2; w_at rows r j in let sub j := do r <- w_new rows 2; w_read true rows r j in
  at_ 1 = Ok 3%Z /\ at_ 3 = Ok 4%Z /\ at_ 4 = Ok 5%Z /\ at_ 0 = Abort /\ at_ 2 = Abort /\ at_ 5 = Abort
  /\ sub 1 = Ok 3%Z /\ sub 3 = Ok 4%Z /\ sub 4 = Ok 5%Z /\ sub 0 = Abort /\ sub 2 = Abort /\ sub 5 = Abort.
Proof. vm_compute. auto 20. Qed.

(** sparse_accessor: 298-333. *)
Example row_accessor :
  exists r m1 r1 m2 r2,
    w_new rows 2 = Ok r /\ w_read true rows r 1 = Ok 3%Z /\ w_read true rows r 0 = Abort
    /\ w_assign 0%Z top rows r 3 10%Z = Ok (m1, r1) /\ w_read true m1 r1 3 = Ok 10%Z
    /\ w_assign 0%Z top m1 r1 2 8%Z = Ok (m2, r2) /\ w_read true m2 r2 2 = Ok 8%Z
    /\ w_offset m2 r2 = Ok 6 /\ w_size_non_zero m2 r2 = Ok 4
    /\ vback (rnz rows) = Ok 7 /\ vback (rnz m2) = Ok 8
    /\ row_notes false m2 r2 = Ok [(1, 3%Z); (2, 8%Z); (3, 10%Z); (4, 5%Z)].
Proof. do 5 eexists. vm_compute. auto 20. Qed.

(** empty_row: 335-345. *)
Example row_empty :
  row_facts rows 1 = Ok (2, 0, 1)
  /\ (do r <- w_new rows 1; do x <- w_first false r; do stop <- w_last false r; Ok (e_eqb x stop)) = Ok true
  /\ (do r <- w_new rows 1; w_at rows r 0) = Abort.
Proof. vm_compute. auto. Qed.
