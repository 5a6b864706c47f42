(** C131: CSR_Data with other index types than std::size_t. *)
From Coq Require Import ZArith List Lia.
From Verif Require Import Base SparseModel SparseSpec CsrDataModel MacroModel CsrIntModel PropCsrIntLemmas.
Import ListNotations.

(** Nothing depends on the type as long as everything fits into it: resize, insert and lower_bound compute what they compute with
    indices without bounds, for signed and unsigned types, in both build modes. For resize to zero columns this needs an unsigned type
    whose largest value stands for [M]. *)
Theorem C131_resize {V} (vzero : V) t dbg M m r c m' : (1 <= i_bits t)%Z -> room t m ->
  (0 < c \/ i_signed t = false /\ Z.of_nat M = i_max t) -> (Z.of_nat c <= i_max t)%Z -> (Z.of_nat r + 1 <= i_max t)%Z ->
  c_resize vzero M m r c = Ok m' -> z_resize vzero t dbg (zof m) (Z.of_nat r) (Z.of_nat c) = Ok (zof m') /\ room t m'.
Proof. exact (resize_same vzero t dbg M m r c m'). Qed.
Print Assumptions C131_resize.

Theorem C131_insert {V} (vzero : V) t dbg M m i j v m' it b : (1 <= i_bits t)%Z -> room t m -> swf m ->
  (Z.of_nat (csize m) <= i_max t)%Z -> (Z.of_nat i + 2 <= i_max t)%Z -> (Z.of_nat j + 1 <= i_max t)%Z ->
  (Z.of_nat (length (cidx m)) < i_max (sg t))%Z -> c_insert vzero M m i j v = Ok (m', it, b) ->
  z_insert vzero t dbg (zof m) (Z.of_nat i) (Z.of_nat j) v = Ok (zof m', it, b).
Proof. exact (insert_same vzero t dbg M m i j v m' it b). Qed.
Print Assumptions C131_insert.

Theorem C131_lower_bound {V} t dbg (m : smat V) i j it : (1 <= i_bits t)%Z -> (Z.of_nat (length (rnz m)) <= i_max t)%Z ->
  c_lower_bound m i j = Ok it -> z_lower_bound t dbg (zof m) (Z.of_nat i) (Z.of_nat j) = Ok it.
Proof. exact (lower_bound_same t dbg m i j it). Qed.
Print Assumptions C131_lower_bound.

(** The matrix of test_matrix_sparse_new.cpp 174, CSR_Data<double, int>. *)
Example C131_same_example :
  let m := mkS [0; 2; 2; 5; 7] [0; 2; 0; 1; 3; 1; 2] [1%Z; 2%Z; 3%Z; 4%Z; 5%Z; 6%Z; 7%Z] 4 in
  room int_t m /\
  z_resize 0%Z int_t true (zof m) 3%Z 2%Z = Ok (mkZ [0%Z; 1%Z; 1%Z; 3%Z] [0%Z; 0%Z; 1%Z] [1%Z; 3%Z; 4%Z] 2%Z) /\
  z_insert 0%Z int_t true (zof m) 1%Z 5%Z 9%Z =
    Ok (mkZ [0%Z; 2%Z; 3%Z; 6%Z; 8%Z] [0%Z; 2%Z; 5%Z; 0%Z; 1%Z; 3%Z; 1%Z; 2%Z] [1%Z; 2%Z; 9%Z; 3%Z; 4%Z; 5%Z; 6%Z; 7%Z] 6%Z, (1, 2), true).
Proof.
  split; [|split; vm_compute; reflexivity]. split; [vm_compute; discriminate|]. intros x Hx.
  cbn in Hx. repeat (destruct Hx as [<-|Hx]; [vm_compute; discriminate|]). destruct Hx.
Qed.

(** With a signed type resize to zero columns does what it says: no entry is left. *)
Theorem C131_no_columns_signed {V} (vzero : V) t dbg m r : (1 <= i_bits t)%Z -> i_signed t = true -> swf m -> room t m ->
  (Z.of_nat r + 1 <= i_max t)%Z ->
  z_resize vzero t dbg (zof m) (Z.of_nat r) 0%Z = Ok (mkZ (repeat 0%Z (r + 1)) [] [] 0%Z).
Proof. exact (resize_none_signed vzero t dbg m r). Qed.
Print Assumptions C131_no_columns_signed.

(** With any unsigned type the same call keeps every entry of the remaining rows in a matrix without columns. *)
Theorem C131_no_columns_refuted {V} (vzero : V) t dbg m r : (1 <= i_bits t)%Z -> i_signed t = false -> swf m -> room t m ->
  (Z.of_nat r + 1 <= i_max t)%Z -> (Z.of_nat (csize m) <= i_max t)%Z ->
  exists m', z_resize vzero t dbg (zof m) (Z.of_nat r) 0%Z = Ok (zof m') /\ csize m' = 0 /\
    forall p q x, stored m' p q x <-> stored m p q x /\ p < r.
Proof. exact (resize_none_unsigned vzero t dbg m r). Qed.
Print Assumptions C131_no_columns_refuted.

Example C131_no_columns_example :
  let m := mkS [0; 1; 2] [0; 1] [5%Z; 6%Z] 2 in
  swf m /\ room int_t m /\ room (mkI false 32) m /\
  z_resize 0%Z int_t true (zof m) 2%Z 0%Z = Ok (mkZ [0%Z; 0%Z; 0%Z] [] [] 0%Z) /\
  z_resize 0%Z (mkI false 32) true (zof m) 2%Z 0%Z = Ok (mkZ [0%Z; 1%Z; 2%Z] [0%Z; 1%Z] [5%Z; 6%Z] 0%Z).
Proof.
  split; [|split; [|split; [|split; vm_compute; reflexivity]]].
  - exists [[(0, 5%Z)]; [(1, 6%Z)]]. split; [repeat split; auto; left; reflexivity|].
    intros i Hi. destruct i as [|[|i]]; cbn in *; [| |lia]; (split; [repeat constructor|intros j [<-|[]]; lia]).
  - split; [vm_compute; discriminate|]. intros x Hx. cbn in Hx. repeat (destruct Hx as [<-|Hx]; [vm_compute; discriminate|]). destruct Hx.
  - split; [vm_compute; discriminate|]. intros x Hx. cbn in Hx. repeat (destruct Hx as [<-|Hx]; [vm_compute; discriminate|]). destruct Hx.
Qed.

(** Negative indices: the debug build stops; in the release build a negative row is undefined, and a negative column is stored at the
    front of its row. *)
Theorem C131_negative_debug {V} (vzero : V) t m i j v : (i < 0 \/ j < 0)%Z ->
  z_insert vzero t true m i j v = Abort /\ z_resize vzero t true m i j = Abort /\ z_lower_bound t true m i j = Abort.
Proof. exact (negative_debug vzero t m i j v). Qed.
Print Assumptions C131_negative_debug.

(** The members of CSR_Data are public: an offset set to a negative number stops resize, in both build modes, before anything is read
    outside the arrays. *)
Theorem C131_negative_offset {V} (vzero : V) t dbg (m : zmat V) r c : (0 <= r < z_rows t m)%Z -> (nth (Z.to_nat r) (zoff m) 0 < 0)%Z ->
  z_resize vzero t dbg m r c = Abort.
Proof. exact (negative_offset vzero t dbg m r c). Qed.
Print Assumptions C131_negative_offset.

Example C131_negative_offset_example :
  let m := mkZ [0%Z; (-1)%Z; 1%Z] [0%Z] [5%Z] 2%Z in
  (0 <= 1 < z_rows int_t m)%Z /\ (nth (Z.to_nat 1) (zoff m) 0 < 0)%Z /\ z_resize 0%Z int_t false m 1%Z 2%Z = Abort /\
  z_resize 0%Z int_t false (mkZ [0%Z; 0%Z; 1%Z] [0%Z] [5%Z] 2%Z) 1%Z 2%Z = Ok (mkZ [0%Z; 0%Z] [] [] 2%Z).
Proof. split; [vm_compute; split; [discriminate|reflexivity]|]. repeat split; vm_compute; reflexivity. Qed.

Theorem C131_negative_row_refuted {V} (vzero : V) t m i j v : (1 <= i_bits t)%Z -> (Z.of_nat (length (rnz m)) <= i_max t)%Z ->
  (i < 0)%Z -> (j < Z.of_nat (csize m))%Z -> z_insert vzero t false (zof m) i j v = Undef.
Proof. exact (negative_row vzero t m i j v). Qed.
Print Assumptions C131_negative_row_refuted.

Theorem C131_negative_column_refuted {V} (vzero : V) t m i j v : (1 <= i_bits t)%Z -> swf m ->
  (Z.of_nat (length (rnz m)) <= i_max t)%Z -> (Z.of_nat (length (cidx m)) < i_max t)%Z -> i < s_rows m -> (j < 0)%Z ->
  exists m' : zmat V, z_insert vzero t false (zof m) (Z.of_nat i) j v = Ok (m', (i, nth i (rnz m) 0), true) /\
    zcol m' = list_insert (map Z.of_nat (cidx m)) (nth i (rnz m) 0) j /\ zcols m' = Z.of_nat (csize m).
Proof. exact (negative_column vzero t m i j v). Qed.
Print Assumptions C131_negative_column_refuted.

(** A matrix as full as the index type can count: one entry more is undefined for a signed type, and for an unsigned one it returns a
    matrix whose last offset is zero. *)
Theorem C131_too_many_refuted {V} (vzero : V) t dbg m i j v : (1 <= i_bits t)%Z -> swf m -> (Z.of_nat (length (rnz m)) <= i_max t)%Z ->
  i < s_rows m -> j < csize m -> (forall x, ~ stored m i j x) -> Z.of_nat (length (cidx m)) = i_max t ->
  (i_signed t = true -> z_insert vzero t dbg (zof m) (Z.of_nat i) (Z.of_nat j) v = Undef) /\
  (i_signed t = false -> exists (m' : zmat V) it, z_insert vzero t dbg (zof m) (Z.of_nat i) (Z.of_nat j) v = Ok (m', it, true) /\
     last (zoff m') 1%Z = 0%Z /\ Z.of_nat (length (zcol m')) = (i_max t + 1)%Z).
Proof. exact (insert_too_many vzero t dbg m i j v). Qed.
Print Assumptions C131_too_many_refuted.

(** An unsigned type: the casts of resize to the signed type of the same width make it undefined as soon as the first row holds more
    than half of what the type can count. *)
Theorem C131_half_refuted {V} (vzero : V) t dbg m r c : (1 <= i_bits t)%Z -> i_signed t = false -> swf m ->
  (Z.of_nat (length (rnz m)) <= i_max t)%Z -> 0 < s_rows m -> s_rows m <= r -> (Z.of_nat r + 1 <= i_max t)%Z -> c < csize m ->
  (i_max (sg t) < Z.of_nat (nth 1 (rnz m) 0%nat) <= i_max t)%Z ->
  z_resize vzero t dbg (zof m) (Z.of_nat r) (Z.of_nat c) = Undef.
Proof. exact (resize_half vzero t dbg m r c). Qed.
Print Assumptions C131_half_refuted.

(** The numbers of rows, columns and entries are reported as they are when they fit into the type. *)
Theorem C131_sizes {V} t (m : smat V) : (1 <= i_bits t)%Z -> (Z.of_nat (length (rnz m)) <= i_max t)%Z ->
  (Z.of_nat (length (cidx m)) <= i_max t)%Z ->
  z_rows t (zof m) = Z.of_nat (s_rows m) /\ z_columns (zof m) = Z.of_nat (csize m) /\ z_non_zero t (zof m) = Z.of_nat (length (cidx m)).
Proof. exact (sizes_same t m). Qed.
Print Assumptions C131_sizes.

(** One entry more than the type can count, which is where [C131_too_many_refuted] leads: the number reported is the least one of the
    type, zero or negative. *)
Theorem C131_sizes_refuted {V} t (m : zmat V) : (1 <= i_bits t)%Z -> Z.of_nat (length (zcol m)) = (i_max t + 1)%Z ->
  z_non_zero t m = i_min t.
Proof. exact (sizes_wrong t m). Qed.
Print Assumptions C131_sizes_refuted.

Example C131_sizes_example : let m := mkS [0; 2; 3] [0; 1; 1] [5%Z; 6%Z; 7%Z] 2 in
  z_rows (mkI false 2) (zof m) = 2%Z /\ z_non_zero (mkI false 2) (zof m) = 3%Z /\ z_non_zero (mkI true 3) (zof m) = 3%Z /\
  z_non_zero (mkI false 2) (mkZ [0%Z; 2%Z; 0%Z] [0%Z; 1%Z; 0%Z; 1%Z] [5%Z; 6%Z; 9%Z; 7%Z] 2%Z) = 0%Z /\
  z_non_zero (mkI true 3) (mkZ [0%Z; 2%Z; 0%Z] [0%Z; 1%Z; 0%Z; 1%Z] [5%Z; 6%Z; 9%Z; 7%Z] 2%Z) = (-4)%Z.
Proof. repeat split; vm_compute; reflexivity. Qed.

(** Types of two and three bits, so that the matrices can be written down: signed up to 3, unsigned up to 3 and up to 7. *)
Example C131_limits_example :
  let m := mkS [0; 2; 3] [0; 1; 1] [5%Z; 6%Z; 7%Z] 2 in
  swf m /\
  z_insert 0%Z (mkI true 3) true (zof m) 1%Z 0%Z 9%Z = Undef /\
  z_insert 0%Z (mkI false 2) true (zof m) 1%Z 0%Z 9%Z = Ok (mkZ [0%Z; 2%Z; 0%Z] [0%Z; 1%Z; 0%Z; 1%Z] [5%Z; 6%Z; 9%Z; 7%Z] 2%Z, (1, 2), true) /\
  z_resize 0%Z (mkI false 2) true (zof m) 2%Z 1%Z = Undef /\
  z_resize 0%Z (mkI false 3) true (zof m) 2%Z 1%Z = Ok (mkZ [0%Z; 1%Z; 1%Z] [0%Z] [5%Z] 1%Z) /\
  z_insert 0%Z (mkI true 4) false (zof m) 1%Z (-2)%Z 9%Z = Ok (mkZ [0%Z; 2%Z; 4%Z] [0%Z; 1%Z; (-2)%Z; 1%Z] [5%Z; 6%Z; 9%Z; 7%Z] 2%Z, (1, 2), true) /\
  z_insert 0%Z (mkI true 4) false (zof m) (-1)%Z 0%Z 9%Z = Undef /\
  z_insert 0%Z (mkI true 4) true (zof m) (-1)%Z 0%Z 9%Z = Abort.
Proof.
  split; [|repeat split; vm_compute; reflexivity]. exists [[(0, 5%Z); (1, 6%Z)]; [(1, 7%Z)]]. split; [repeat split; auto; left; reflexivity|].
  intros i Hi. destruct i as [|[|i]]; cbn in *; [| |lia]; (split; [repeat constructor|]); intros j Hj; cbn in Hj; lia.
Qed.
