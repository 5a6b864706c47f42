(** C137: the free functions of CSR_Data with arguments of another integral type than the index type. *)
From Coq Require Import ZArith List Lia.
From Verif Require Import Base SparseModel SparseSpec CsrDataModel MacroModel PropMacroLemmas CsrIntModel PropCsrIntLemmas CsrArgModel PropCsrArgLemmas.
Import ListNotations.

(** As long as rows and columns fit into both types, the calls compute what they compute with indices without bounds, whatever the
    signs and widths of the two types, in both build modes. *)
Theorem C137_resize {V} (vzero : V) t a dbg : (32 <= i_bits t)%Z -> (32 <= i_bits a)%Z -> forall M (m : smat V) r c m',
  swf m -> room t m -> (Z.of_nat (csize m) <= i_max t)%Z ->
  (Z.of_nat r + 1 <= i_max t)%Z -> (Z.of_nat r + 1 <= i_max a)%Z -> (Z.of_nat c <= i_max t)%Z -> (Z.of_nat c <= i_max a)%Z -> 0 < c ->
  c_resize vzero M m r c = Ok m' -> y_resize vzero t a dbg (zof m) (Z.of_nat r) (Z.of_nat c) = Ok (zof m') /\ room t m'.
Proof. exact (arg_resize vzero t a dbg). Qed.
Print Assumptions C137_resize.

Theorem C137_insert {V} (vzero : V) t a dbg : (32 <= i_bits t)%Z -> (32 <= i_bits a)%Z -> forall M (m : smat V) i j v m' it b,
  swf m -> room t m -> (Z.of_nat (csize m) <= i_max t)%Z ->
  (Z.of_nat i + 2 <= i_max t)%Z -> (Z.of_nat j + 1 <= i_max t)%Z -> (Z.of_nat i + 2 <= i_max a)%Z -> (Z.of_nat j + 1 <= i_max a)%Z ->
  (s_rows m <= i -> (Z.of_nat (csize m) <= i_max a)%Z) -> (csize m <= j -> (Z.of_nat (s_rows m) + 1 <= i_max a)%Z) ->
  (Z.of_nat (length (cidx m)) < i_max (sg t))%Z -> c_insert vzero M m i j v = Ok (m', it, b) ->
  y_insert vzero t a dbg (zof m) (Z.of_nat i) (Z.of_nat j) v = Ok (zof m', it, b).
Proof. exact (arg_insert vzero t a dbg). Qed.
Print Assumptions C137_insert.

Theorem C137_insert_or_assign {V} (vzero : V) t a dbg : (32 <= i_bits t)%Z -> (32 <= i_bits a)%Z -> forall M (m : smat V) i j v m' it b,
  swf m -> room t m -> (Z.of_nat (csize m) <= i_max t)%Z ->
  (Z.of_nat i + 2 <= i_max t)%Z -> (Z.of_nat j + 1 <= i_max t)%Z -> (Z.of_nat i + 2 <= i_max a)%Z -> (Z.of_nat j + 1 <= i_max a)%Z ->
  (s_rows m <= i -> (Z.of_nat (csize m) <= i_max a)%Z) -> (csize m <= j -> (Z.of_nat (s_rows m) + 1 <= i_max a)%Z) ->
  (Z.of_nat (length (cidx m)) < i_max (sg t))%Z -> c_insert_or_assign vzero M m i j v = Ok (m', it, b) ->
  y_insert_or_assign vzero t a dbg (zof m) (Z.of_nat i) (Z.of_nat j) v = Ok (zof m', it, b).
Proof. exact (arg_insert_or_assign vzero t a dbg). Qed.
Print Assumptions C137_insert_or_assign.

Theorem C137_lower_bound {V} t a dbg : (32 <= i_bits t)%Z -> (32 <= i_bits a)%Z -> forall (m : smat V) i j it,
  swf m -> (Z.of_nat (length (rnz m)) <= i_max t)%Z -> (Z.of_nat (csize m) <= i_max t)%Z ->
  (Z.of_nat i + 1 <= i_max a)%Z -> (Z.of_nat j <= i_max a)%Z -> c_lower_bound m i j = Ok it ->
  y_lower_bound t a dbg (zof m) (Z.of_nat i) (Z.of_nat j) = Ok it.
Proof. exact (arg_lower_bound t a dbg). Qed.
Print Assumptions C137_lower_bound.

(** Indices of type std::size_t and arguments of type int, as in the calls of test_matrix_sparse_data.cpp 42-383. *)
Example C137_example :
  let m := mkS [0; 2; 2; 5; 7] [0; 2; 0; 1; 3; 1; 2] [1%Z; 2%Z; 3%Z; 4%Z; 5%Z; 6%Z; 7%Z] 4 in
  swf m /\ room size_t m /\
  y_resize 0%Z size_t int_t true (zof m) 3%Z 2%Z = Ok (mkZ [0%Z; 1%Z; 1%Z; 3%Z] [0%Z; 0%Z; 1%Z] [1%Z; 3%Z; 4%Z] 2%Z) /\
  y_insert 0%Z size_t int_t true (zof m) 5%Z 4%Z 9%Z =
    Ok (mkZ [0%Z; 2%Z; 2%Z; 5%Z; 7%Z; 7%Z; 8%Z] [0%Z; 2%Z; 0%Z; 1%Z; 3%Z; 1%Z; 2%Z; 4%Z]
          [1%Z; 2%Z; 3%Z; 4%Z; 5%Z; 6%Z; 7%Z; 9%Z] 5%Z, (5, 7), true) /\
  y_insert_or_assign 0%Z size_t int_t true (zof m) 2%Z 1%Z 9%Z =
    Ok (mkZ [0%Z; 2%Z; 2%Z; 5%Z; 7%Z] [0%Z; 2%Z; 0%Z; 1%Z; 3%Z; 1%Z; 2%Z] [1%Z; 2%Z; 3%Z; 9%Z; 5%Z; 6%Z; 7%Z] 4%Z, (2, 3), false) /\
  y_lower_bound size_t int_t true (zof m) 2%Z 2%Z = Ok (2, 4).
Proof.
  split; [|split; [|repeat split; vm_compute; reflexivity]].
  - exists [[(0, 1%Z); (2, 2%Z)]; []; [(0, 3%Z); (1, 4%Z); (3, 5%Z)]; [(1, 6%Z); (2, 7%Z)]]. split; [repeat split; auto; left; reflexivity|].
    intros i Hi. destruct i as [|[|[|[|i]]]]; cbn in *; try lia; (split; [repeat (constructor; auto; try lia)|intros j Hj; cbn in Hj; lia]).
  - split; [vm_compute; discriminate|]. intros x Hx. cbn in Hx. repeat (destruct Hx as [<-|Hx]; [vm_compute; discriminate|]). destruct Hx.
Qed.

(** With arguments of the index type this is the model of C131, for every matrix and every argument of the type. *)
Theorem C137_same_type {V} (vzero : V) t dbg : (32 <= i_bits t)%Z -> forall (m : zmat V) i j v, fit_mat t m -> fits t i -> fits t j ->
  y_resize vzero t t dbg m i j = z_resize vzero t dbg m i j /\
  y_lower_bound t t dbg m i j = z_lower_bound t dbg m i j /\
  y_insert vzero t t dbg m i j v = z_insert vzero t dbg m i j v.
Proof. exact (same_type vzero t dbg). Qed.
Print Assumptions C137_same_type.

Example C137_same_type_example :
  let m := mkZ [0%Z; 1%Z; 2%Z] [1%Z; 0%Z] [5%Z; 6%Z] 2%Z in
  fit_mat int_t m /\ fits int_t 1 /\ fits int_t (-1) /\ y_resize 0%Z int_t int_t false m 1%Z (-1)%Z = Ok (mkZ [0%Z; 0%Z] [] [] (-1)%Z).
Proof.
  assert (F : forall x, (-1 <= x <= 2)%Z -> fits int_t x) by (intros x Hx; split; cbn; lia).
  split; [split; [apply F; cbn; lia|intros x [<-|[<-|[]]]; apply F; lia]|]. split; [apply F; lia|]. split; [apply F; lia|]. vm_compute. reflexivity.
Qed.

(** Resizing to no columns, in general: upper_bound is asked for the value of -1 converted to the type of the arguments and from there
    to the type of the comparison, and keeps the entries up to it. *)
Theorem C137_no_columns {V} (vzero : V) t a dbg : (32 <= i_bits t)%Z -> (32 <= i_bits a)%Z -> forall (m : smat V) r,
  swf m -> room t m -> (Z.of_nat (csize m) <= i_max t)%Z -> (Z.of_nat r + 1 <= i_max t)%Z -> (Z.of_nat r + 1 <= i_max a)%Z ->
  exists m', y_resize vzero t a dbg (zof m) (Z.of_nat r) 0%Z = Ok (zof m') /\ csize m' = 0 /\ s_rows m' = r /\
    forall p q x, stored m' p q x <-> stored m p q x /\ p < r /\ (Z.of_nat q <= conv (common a t) (conv a (-1)))%Z.
Proof. exact (arg_no_columns vzero t a dbg). Qed.
Print Assumptions C137_no_columns.

Theorem C137_no_columns_signed {V} (vzero : V) t a dbg : (32 <= i_bits t)%Z -> (32 <= i_bits a)%Z -> forall (m : smat V) r,
  i_signed t = true -> i_signed a = true -> swf m -> room t m -> (Z.of_nat (csize m) <= i_max t)%Z ->
  (Z.of_nat r + 1 <= i_max t)%Z -> (Z.of_nat r + 1 <= i_max a)%Z ->
  exists m', y_resize vzero t a dbg (zof m) (Z.of_nat r) 0%Z = Ok (zof m') /\ csize m' = 0 /\ s_rows m' = r /\
    forall p q x, ~ stored m' p q x.
Proof. exact (no_columns_none vzero t a dbg). Qed.
Print Assumptions C137_no_columns_signed.

(** With an unsigned index type and arguments not wider than it, or with unsigned arguments, every entry of the remaining rows stays in
    a matrix without columns. *)
Theorem C137_no_columns_refuted {V} (vzero : V) t a dbg : (32 <= i_bits t)%Z -> (32 <= i_bits a)%Z -> forall (m : smat V) r,
  i_signed t = false /\ (i_bits a <= i_bits t)%Z \/ i_signed a = false ->
  swf m -> room t m -> (Z.of_nat (csize m) <= i_max t)%Z -> (Z.of_nat (csize m) <= i_max a)%Z ->
  (Z.of_nat r + 1 <= i_max t)%Z -> (Z.of_nat r + 1 <= i_max a)%Z ->
  exists m', y_resize vzero t a dbg (zof m) (Z.of_nat r) 0%Z = Ok (zof m') /\ csize m' = 0 /\
    forall p q x, stored m' p q x <-> stored m p q x /\ p < r.
Proof. exact (no_columns_all vzero t a dbg). Qed.
Print Assumptions C137_no_columns_refuted.

(** std::size_t with int, int with unsigned, long with int, unsigned with long; and columns beyond the type of the arguments. *)
Example C137_no_columns_example :
  let m := mkS [0; 1; 2] [0; 1] [5%Z; 6%Z] 2 in
  let kept := Ok (mkZ [0%Z; 1%Z; 2%Z] [0%Z; 1%Z] [5%Z; 6%Z] 0%Z) in
  let gone := Ok (mkZ [0%Z; 0%Z; 0%Z] [] [] 0%Z) in
  swf m /\ room size_t m /\ room int_t m /\
  y_resize 0%Z size_t int_t true (zof m) 2%Z 0%Z = kept /\ y_resize 0%Z int_t (mkI false 32) true (zof m) 2%Z 0%Z = kept /\
  y_resize 0%Z (mkI true 64) int_t true (zof m) 2%Z 0%Z = gone /\ y_resize 0%Z (mkI false 32) (mkI true 64) true (zof m) 2%Z 0%Z = gone /\
  y_resize 0%Z size_t (mkI false 32) true (mkZ [0%Z; 2%Z] [4294967295%Z; 4294967296%Z] [5%Z; 6%Z] 4294967300%Z) 1%Z 0%Z =
    Ok (mkZ [0%Z; 1%Z] [4294967295%Z] [5%Z] 0%Z).
Proof.
  split; [|split; [|split; [|repeat split; vm_compute; reflexivity]]].
  - exists [[(0, 5%Z)]; [(1, 6%Z)]]. split; [repeat split; auto; left; reflexivity|].
    intros i Hi. destruct i as [|[|i]]; cbn in *; [| |lia]; (split; [repeat constructor|intros j [<-|[]]; lia]).
  - split; [vm_compute; discriminate|]. intros x Hx. cbn in Hx. repeat (destruct Hx as [<-|Hx]; [vm_compute; discriminate|]). destruct Hx.
  - split; [vm_compute; discriminate|]. intros x Hx. cbn in Hx. repeat (destruct Hx as [<-|Hx]; [vm_compute; discriminate|]). destruct Hx.
Qed.

(** insert casts the number of columns to the type of the arguments when the row is new. When that loses bits, every entry outside the
    columns that remain is lost, without a word, in both build modes. *)
Theorem C137_truncated_refuted {V} (vzero : V) t a dbg : (32 <= i_bits t)%Z -> (32 <= i_bits a)%Z -> forall (m : smat V) i j v c1,
  swf m -> room t m -> (Z.of_nat (csize m) <= i_max t)%Z ->
  (Z.of_nat i + 2 <= i_max t)%Z -> (Z.of_nat i + 2 <= i_max a)%Z -> (Z.of_nat (length (cidx m)) < i_max (sg t))%Z ->
  s_rows m <= i -> conv a (Z.of_nat (csize m)) = Z.of_nat c1 -> c1 < csize m -> j < c1 ->
  exists m' it, y_insert vzero t a dbg (zof m) (Z.of_nat i) (Z.of_nat j) v = Ok (zof m', it, true) /\
    csize m' = c1 /\ forall p q x, stored m' p q x <-> stored m p q x /\ q < c1 \/ p = i /\ q = j /\ x = v.
Proof. exact (arg_truncated vzero t a dbg). Qed.
Print Assumptions C137_truncated_refuted.

(** The number of rows likewise, when the column is new. *)
Theorem C137_rows_truncated_refuted {V} (vzero : V) t a dbg : (32 <= i_bits t)%Z -> (32 <= i_bits a)%Z -> forall (m : smat V) i j v r1,
  swf m -> room t m -> (Z.of_nat (csize m) <= i_max t)%Z ->
  (Z.of_nat i + 2 <= i_max t)%Z -> (Z.of_nat j + 1 <= i_max t)%Z -> (Z.of_nat i + 2 <= i_max a)%Z -> (Z.of_nat j + 1 <= i_max a)%Z ->
  (Z.of_nat (length (cidx m)) < i_max (sg t))%Z -> csize m <= j -> conv a (Z.of_nat (s_rows m)) = Z.of_nat r1 ->
  (Z.of_nat r1 + 1 <= i_max a)%Z -> r1 < s_rows m -> i < r1 ->
  exists m' it, y_insert vzero t a dbg (zof m) (Z.of_nat i) (Z.of_nat j) v = Ok (zof m', it, true) /\
    s_rows m' = r1 /\ forall p q x, stored m' p q x <-> stored m p q x /\ p < r1 \/ p = i /\ q = j /\ x = v.
Proof. exact (arg_rows_truncated vzero t a dbg). Qed.
Print Assumptions C137_rows_truncated_refuted.

(** One row, 2^32 + 5 columns, an entry in column 7: insert(data, 1, 2, 9.0) with int arguments loses it. With 2^31 + 5 columns the cast
    gives a negative number: the debug build stops, and in the release build the matrix then has 2^64 - 2^31 + 5 columns. *)
Example C137_truncated_example : forall K, Z.of_nat K = 4294967301%Z ->
  let m := mkS [0; 2] [0; 7] [5%Z; 6%Z] K in
  swf m /\ room size_t m /\ s_rows m <= 1 /\ conv int_t (Z.of_nat (csize m)) = Z.of_nat 5 /\ 5 < csize m /\ stored m 0 7 6%Z /\
  y_insert 0%Z size_t int_t true (mkZ [0%Z; 2%Z] [0%Z; 7%Z] [5%Z; 6%Z] 4294967301%Z) 1%Z 2%Z 9%Z =
    Ok (mkZ [0%Z; 1%Z; 2%Z] [0%Z; 2%Z] [5%Z; 9%Z] 5%Z, (1, 1), true) /\
  y_insert 0%Z size_t size_t true (mkZ [0%Z; 2%Z] [0%Z; 7%Z] [5%Z; 6%Z] 4294967301%Z) 1%Z 2%Z 9%Z =
    Ok (mkZ [0%Z; 2%Z; 3%Z] [0%Z; 7%Z; 2%Z] [5%Z; 6%Z; 9%Z] 4294967301%Z, (1, 2), true) /\
  y_insert 0%Z size_t int_t true (mkZ [0%Z; 2%Z] [0%Z; 7%Z] [5%Z; 6%Z] 2147483653%Z) 1%Z 2%Z 9%Z = Abort /\
  y_insert 0%Z size_t int_t false (mkZ [0%Z; 2%Z] [0%Z; 7%Z] [5%Z; 6%Z] 2147483653%Z) 1%Z 2%Z 9%Z =
    Ok (mkZ [0%Z; 2%Z; 3%Z] [0%Z; 7%Z; 2%Z] [5%Z; 6%Z; 9%Z] 18446744071562067973%Z, (1, 2), true).
Proof.
  intros K HK. cbn [csize]. split; [|split; [|split; [|split; [|split; [|split; [|repeat split; vm_compute; reflexivity]]]]]].
  - exists [[(0, 5%Z); (7, 6%Z)]]. split; [repeat split; auto; left; reflexivity|]. cbn [csize].
    intros i Hi. destruct i as [|i]; cbn [length] in Hi; [|lia]. split; [repeat (constructor; auto; try (cbn; lia))|].
    intros j Hj. cbn [nth map fst In] in Hj. lia.
  - split; [vm_compute; discriminate|]. intros x Hx. cbn in Hx. repeat (destruct Hx as [<-|Hx]; [vm_compute; discriminate|]). destruct Hx.
  - cbn. lia.
  - rewrite HK. vm_compute. reflexivity.
  - lia.
  - split; [cbn; lia|]. exists 1. cbn. auto.
Qed.

(** When the cast gives a negative number the debug build always stops. *)
Theorem C137_wrapped_debug {V} (vzero : V) t a : (32 <= i_bits t)%Z -> (32 <= i_bits a)%Z -> forall (m : smat V) i j v,
  room t m -> (Z.of_nat i + 1 <= i_max a)%Z -> s_rows m <= i -> (conv a (Z.of_nat (csize m)) < 0)%Z ->
  y_insert vzero t a true (zof m) (Z.of_nat i) (Z.of_nat j) v = Abort.
Proof. exact (arg_wrapped_debug vzero t a). Qed.
Print Assumptions C137_wrapped_debug.

Theorem C137_negative_debug {V} (vzero : V) t a (m : zmat V) i j v : (i < 0 \/ j < 0)%Z ->
  y_insert vzero t a true m i j v = Abort /\ y_resize vzero t a true m i j = Abort /\ y_lower_bound t a true m i j = Abort.
Proof. exact (arg_negative_debug vzero t a m i j v). Qed.
Print Assumptions C137_negative_debug.

(** In the release build a negative row is a large one when the comparison is unsigned: lower_bound then finds nothing, resize to -1 rows
    removes all row offsets and keeps all entries, and resize to fewer throws. *)
Theorem C137_negative_row {V} t a : (32 <= i_bits t)%Z -> (32 <= i_bits a)%Z -> forall (m : zmat V) i j,
  i_signed (common a t) = false -> fits a i -> (i < 0)%Z -> (0 <= z_rows t m <= i_max (sg t))%Z ->
  y_lower_bound t a false m i j = Ok (length (zoff m), length (zcol m)).
Proof. exact (arg_negative_row_found t a). Qed.
Print Assumptions C137_negative_row.

Theorem C137_negative_rows_refuted {V} (vzero : V) t a : (32 <= i_bits t)%Z -> (32 <= i_bits a)%Z -> forall (m : smat V) r c,
  i_signed (common a t) = false -> fits a r -> (r < 0)%Z -> (Z.of_nat (length (rnz m)) <= i_max (sg t))%Z -> csize m <= c ->
  (Z.of_nat c <= i_max t)%Z -> (Z.of_nat c <= i_max a)%Z ->
  y_resize vzero t a false (zof m) r (Z.of_nat c) =
    if (r =? -1)%Z then Ok (mkZ [] (map Z.of_nat (cidx m)) (vals m) (Z.of_nat c)) else Abort.
Proof. exact (arg_negative_rows vzero t a). Qed.
Print Assumptions C137_negative_rows_refuted.

(** The last row a signed type can name, in a matrix with more rows: row + 1 is undefined. *)
Theorem C137_last_row_refuted {V} t a dbg : (32 <= i_bits t)%Z -> (32 <= i_bits a)%Z -> forall (m : smat V) j it,
  i_signed a = true -> (Z.of_nat (length (rnz m)) <= i_max t)%Z -> (i_max a < Z.of_nat (s_rows m))%Z ->
  c_lower_bound m (Z.to_nat (i_max a)) j = Ok it -> y_lower_bound t a dbg (zof m) (i_max a) (Z.of_nat j) = Undef.
Proof. exact (arg_last_row t a dbg). Qed.
Print Assumptions C137_last_row_refuted.

Example C137_negative_example :
  let m := mkS [0; 1; 2] [0; 1] [5%Z; 6%Z] 2 in
  common int_t size_t = size_t /\ fits int_t (-1) /\ (0 <= z_rows size_t (zof m) <= i_max (sg size_t))%Z /\
  y_lower_bound size_t int_t false (zof m) (-1)%Z 0%Z = Ok (3, 2) /\ y_lower_bound size_t int_t true (zof m) (-1)%Z 0%Z = Abort /\
  y_lower_bound int_t int_t false (zof m) (-1)%Z 0%Z = Undef /\
  y_resize 0%Z size_t int_t false (zof m) (-1)%Z 2%Z = Ok (mkZ [] [0%Z; 1%Z] [5%Z; 6%Z] 2%Z) /\
  y_resize 0%Z size_t int_t false (zof m) (-2)%Z 2%Z = Abort /\
  y_insert 0%Z size_t int_t false (zof m) (-1)%Z 0%Z 9%Z = Undef.
Proof. split; [reflexivity|]. split; [split; cbn; lia|]. split; [vm_compute; split; discriminate|]. repeat split; vm_compute; reflexivity. Qed.
