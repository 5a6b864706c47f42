(** Property theorems about sparse matrices (C32 to C42, C66). *)
From Coq Require Import ZArith Ring_theory.
From Verif Require Import Base ListFacts Csr SparseModel SparseSpec SparseFacts SparseUpdate SparseInsert
  SparseSeq SparseArith SparseMul SparseCtor PropSparseLemmas.

(** ** C32 *)
(** Full statement: the same without the assumption about erase. It cannot be dropped: in a debug build erase
    evaluates [end()->end()], see the next theorem. [stray] is what that read yields. *)
Theorem C32_finite_map_partial : forall V (vzero : V) M dbg stray (os : list (sop V)),
  apres os amat_default ->
  (forall i j, In (OErase i j) os -> dbg = true -> stray <> None) ->
  exists m, run_ops vzero M dbg stray os s_default = Ok m /\ holds m (aops os amat_default) /\
    reads dbg stray m (aops os amat_default).
Proof. exact @finite_map. Qed.
Print Assumptions C32_finite_map_partial.

(** A debug build reads the offsets one past their end in every call of erase. *)
Theorem C32_erase_debug_refuted : forall V (m : smat V) it, swf m -> s_erase true None m it = Undef.
Proof. exact @erase_debug. Qed.
Print Assumptions C32_erase_debug_refuted.

Example C32_hypotheses : apres ex_ops amat_default /\
  run_ops 0%Z 100 false None ex_ops s_default = Ok ex_mat /\
  run_ops 0%Z 100 true None ex_ops s_default = Undef.
Proof. split; [exact ex_pre|]. split; [exact ex_run|vm_compute; reflexivity]. Qed.

(** ** C33 *)
(** Full statement: as for C32, without the assumption about erase. *)
Theorem C33_storage_partial : forall V (vzero : V) M dbg stray (os : list (sop V)),
  apres os amat_default ->
  (forall i j, In (OErase i j) os -> dbg = true -> stray <> None) ->
  exists m, run_ops vzero M dbg stray os s_default = Ok m /\ csr_invariant m /\
    forall i, i < s_rows m -> exists es, row_entries stray m i = Ok es /\ StronglySorted lt (map fst es) /\
      (forall j, In j (map fst es) -> j < csize m) /\ forall j v, In (j, v) es <-> stored m i j v.
Proof. exact @storage. Qed.
Print Assumptions C33_storage_partial.

Example C33_hypotheses : apres ex_ops amat_default /\ row_entries None ex_mat 0 = Ok [(0, 1%Z); (2, 2%Z)].
Proof. split; [exact ex_pre|reflexivity]. Qed.

(** erase in a debug build evaluates end()->end(), which is read past the offsets: undefined for every matrix and every iterator. *)
Theorem C33_erase_debug_refuted : forall V (m : smat V) it, swf m -> s_erase true None m it = Undef.
Proof. exact @erase_debug. Qed.
Print Assumptions C33_erase_debug_refuted.

(** Where that read gives some number, the ends are refused. *)
Theorem C33_erase_ends_partial : forall V (m : smat V) x, swf m ->
  s_erase true (Some x) m (s_rows m, x) = Abort /\
  (forall i, i < s_rows m -> s_erase true (Some x) m (i, nth (i + 1) (rnz m) 0) = Abort).
Proof. exact @erase_ends. Qed.
Print Assumptions C33_erase_ends_partial.

Example C33_erase_hypotheses : swf ex_mat /\ 1 < s_rows ex_mat /\ nth (1 + 1) (rnz ex_mat) 0 = 3 /\
  s_erase true (Some 7) ex_mat (0, 1) = Ok (mkS [0; 1; 2; 3] [0; 1; 0] [1; 3; 4]%Z 3, (0, 1)).
Proof. split; [exact ex_swf|]. split; [cbn; lia|]. split; reflexivity. Qed.

(** ** C34 *)
(** What at does in every case. Full statement: [Abort] also in the last case. *)
Theorem C34_at_partial : forall V stray (m : smat V) i j, swf m ->
  (forall v, stored m i j v -> s_at stray m i j = Ok v) /\
  (s_rows m <= i \/ csize m <= j -> s_at stray m i j = Abort) /\
  (i < s_rows m -> j < csize m -> (forall v, ~ stored m i j v) ->
     ((exists j' v, j < j' /\ stored m i j' v) -> s_at stray m i j = Abort) /\
     ((forall j' v, j < j' -> ~ stored m i j' v) ->
        s_at stray m i j =
          match nth_error (cidx m) (nth (i + 1) (rnz m) 0), nth_error (vals m) (nth (i + 1) (rnz m) 0) with
          | Some c, Some v => if j =? c then Ok v else Abort
          | _, _ => Undef
          end)).
Proof. exact @at_cases. Qed.
Print Assumptions C34_at_partial.

(** at(0, 1) returns the value stored at (1, 1). *)
Theorem C34_at_other_entry_refuted : exists m : smat Z, swf m /\ (forall v, ~ stored m 0 1 v) /\
  (forall stray, s_at stray m 0 1 = Ok 7%Z) /\ stored m 1 1 7%Z.
Proof. exact at_wrong. Qed.
Print Assumptions C34_at_other_entry_refuted.

(** at(0, 1) reads past the end of the columns. *)
Theorem C34_at_out_of_range_refuted : exists m : smat Z, swf m /\ 0 < s_rows m /\ 1 < csize m /\
  (forall v, ~ stored m 0 1 v) /\ forall stray, s_at stray m 0 1 = Undef.
Proof. exact at_undefined. Qed.
Print Assumptions C34_at_out_of_range_refuted.

Example C34_hypotheses : swf ex_mat /\ s_at None ex_mat 0 2 = Ok 2%Z /\ s_at None ex_mat 0 1 = Abort /\
  s_at None ex_mat 1 2 = Abort /\ s_at None ex_mat 2 1 = Undef.
Proof. split; [exact ex_swf|]. repeat split. Qed.

(** ** C35 *)
(** Full statement: for every [c]. *)
Theorem C35_resize_partial : forall V (vzero : V) M (m : smat V) r c, swf m -> csize m = 0 \/ 0 < c ->
  exists m', s_resize vzero M m r c = Ok m' /\ swf m' /\ s_rows m' = r /\ csize m' = c /\
    forall i j v, stored m' i j v <-> stored m i j v /\ i < r /\ j < c.
Proof. exact @resize_drops. Qed.
Print Assumptions C35_resize_partial.

(** Resizing to no columns keeps every entry of the remaining rows. *)
Theorem C35_resize_zero_columns_refuted : forall V (vzero : V) M (m : smat V) r,
  swf m -> 0 < csize m -> csize m <= M ->
  exists m', s_resize vzero M m r 0 = Ok m' /\ csize m' = 0 /\
    forall i j v, stored m' i j v <-> stored m i j v /\ i < r.
Proof. exact @resize_keeps. Qed.
Print Assumptions C35_resize_zero_columns_refuted.

Theorem C35_resize_refuted : exists (m m' : smat Z), swf m /\ s_resize 0%Z 100 m 3 0 = Ok m' /\
  csize m' = 0 /\ stored m' 0 2 2%Z.
Proof. exact resize_zero_keeps. Qed.
Print Assumptions C35_resize_refuted.

Example C35_hypotheses : swf ex_mat /\ 0 < csize ex_mat /\ csize ex_mat <= 100 /\
  s_resize 0%Z 100 ex_mat 2 2 = Ok (mkS [0; 1; 2] [0; 1] [1; 3]%Z 2).
Proof. split; [exact ex_swf|]. split; [cbn; lia|]. split; [cbn; lia|vm_compute; reflexivity]. Qed.

(** ** C36 *)
(** Full statement: for every row index. *)
Theorem C36_lookup_partial : forall V stray (m : smat V) i j, swf m -> i < s_rows m ->
  (exists it, s_find stray m i j = Ok it) /\ (exists it, s_lower_bound stray m i j = Ok it) /\
  (exists b, s_contains stray m i j = Ok b /\ (b = true <-> exists v, stored m i j v)).
Proof. exact @lookups. Qed.
Print Assumptions C36_lookup_partial.

(** For any other row, if the read past the offsets yields [x] then contains is false and find, lower_bound
    agree with end()->end(). *)
Theorem C36_lookup_past_partial : forall V stray (m : smat V) i j x, swf m -> s_rows m <= i -> stray = Some x ->
  s_find stray m i j = Ok (s_rows m, x) /\ s_lower_bound stray m i j = Ok (s_rows m, x) /\
  s_contains stray m i j = Ok false.
Proof. exact @lookups_past. Qed.
Print Assumptions C36_lookup_past_partial.

(** That read is undefined behaviour, for every matrix. *)
Theorem C36_lookup_refuted : forall V (m : smat V) i j, swf m -> s_rows m <= i ->
  s_find None m i j = Undef /\ s_lower_bound None m i j = Undef /\ s_contains None m i j = Undef.
Proof. exact @lookups_undefined. Qed.
Print Assumptions C36_lookup_refuted.

Example C36_hypotheses : swf ex_mat /\ 1 < s_rows ex_mat /\ s_rows ex_mat <= 3 /\
  s_contains None ex_mat 1 1 = Ok true /\ s_contains None ex_mat 1 2 = Ok false.
Proof. split; [exact ex_swf|]. split; [cbn; lia|]. split; [cbn; lia|]. split; reflexivity. Qed.

(** ** C37 *)
Theorem C37_constructor : forall V srt nz idx (vs : list V) c, sorts srt -> nz <> [] ->
  (describes nz idx vs c /\
   exists m, s_ctor srt nz idx vs c = Ok m /\ swf m /\ s_rows m = length nz - 1 /\ csize m = c /\
     forall i j v, stored m i j v <->
       i + 1 < length nz /\ exists k, nth i nz 0 <= k < nth (i + 1) nz 0 /\
         nth_error idx k = Some j /\ nth_error vs k = Some v) \/
  (~ describes nz idx vs c /\ s_ctor srt nz idx vs c = Abort).
Proof. exact @ctor_main. Qed.
Print Assumptions C37_constructor.

Example C37_hypotheses : sorts insertion_by /\
  s_ctor insertion_by [0; 2; 3; 4] [2; 0; 1; 0] [2; 1; 3; 4]%Z 3 = Ok ex_mat /\
  s_ctor insertion_by [0; 2; 3; 4] [2; 2; 1; 0] [2; 1; 3; 4]%Z 3 = Abort.
Proof. split; [exact insertion_sorts|]. split; vm_compute; reflexivity. Qed.

(** ** C38 *)
Theorem C38_addition : forall V (vzero : V) vadd vopp M dbg stray (m o : smat V),
  swf m -> swf o -> s_rows m = s_rows o -> csize m = csize o ->
  exists m', s_plus vzero vadd vopp M dbg stray m o = Ok m' /\
    s_add_assign vzero vadd vopp M dbg stray m o = Ok m' /\ swf m' /\
    s_rows m' = s_rows m /\ csize m' = csize m /\
    (forall i j v, stored m' i j v <->
       (stored m i j v /\ (forall w, ~ stored o i j w)) \/
       (stored o i j v /\ (forall w, ~ stored m i j w)) \/
       (exists a b : V, stored m i j a /\ stored o i j b /\ v = vadd a b)).
Proof. exact @plus_ok. Qed.
Print Assumptions C38_addition.

Theorem C38_subtraction : forall V (vzero : V) vadd vopp M dbg stray (m o : smat V),
  swf m -> swf o -> s_rows m = s_rows o -> csize m = csize o ->
  exists m', s_minus vzero vadd vopp M dbg stray m o = Ok m' /\
    s_sub_assign vzero vadd vopp M dbg stray m o = Ok m' /\ swf m' /\
    s_rows m' = s_rows m /\ csize m' = csize m /\
    (forall i j v, stored m' i j v <->
       (stored m i j v /\ (forall w, ~ stored o i j w)) \/
       (exists b, stored o i j b /\ (forall w, ~ stored m i j w) /\ v = vopp b) \/
       (exists a b : V, stored m i j a /\ stored o i j b /\ v = vadd a (vopp b))).
Proof. exact @minus_ok. Qed.
Print Assumptions C38_subtraction.

(** A += A and A -= A. *)
Theorem C38_self : forall V (vzero : V) vadd vopp M dbg stray (m : smat V), swf m ->
  (exists m', s_add_self vzero vadd vopp M dbg stray m = Ok m' /\ swf m' /\
    s_rows m' = s_rows m /\ csize m' = csize m /\
    (forall i j v, stored m' i j v <-> exists a : V, stored m i j a /\ v = vadd a a)) /\
  (exists m', s_sub_self vzero vadd vopp M dbg stray m = Ok m' /\ swf m' /\
    s_rows m' = s_rows m /\ csize m' = csize m /\
    (forall i j v, stored m' i j v <-> exists a : V, stored m i j a /\ v = vadd a (vopp a))).
Proof. exact @self_ok. Qed.
Print Assumptions C38_self.

Example C38_hypotheses : swf ex_mat /\ s_rows ex_mat = s_rows ex_mat /\
  s_minus 0%Z Z.add Z.opp 100 true None ex_mat (mkS [0; 2; 2; 2] [1; 2] [6; 2]%Z 3) =
    Ok (mkS [0; 3; 4; 5] [0; 1; 2; 1; 0] [1; -6; 0; 3; 4]%Z 3).
Proof. split; [exact ex_swf|]. split; [reflexivity|vm_compute; reflexivity]. Qed.

(** ** C39 *)
(** The terms of entry (i, j), in ascending order of the inner index, are those with both factors stored. *)
Theorem C39_product : forall V (vzero : V) vadd vmul M dbg stray (m o : smat V),
  swf m -> swf o -> csize m = s_rows o ->
  exists m', s_times vzero vadd vmul M dbg stray m o = Ok m' /\ swf m' /\
    s_rows m' = s_rows m /\ csize m' = csize o /\
    forall i j, exists ts : list (nat * (V * V)),
      StronglySorted lt (map fst ts) /\
      (forall k a b, In (k, (a, b)) ts <-> stored m i k a /\ stored o k j b) /\
      (forall v, stored m' i j v <->
         exists t r, map (fun t => vmul (fst (snd t)) (snd (snd t))) ts = t :: r /\
                     v = fold_left vadd r t).
Proof. exact @mul_spec. Qed.
Print Assumptions C39_product.

(** Over every commutative semi ring, with absent entries read as zero. *)
Theorem C39_product_ring : forall V (vzero : V) vadd vmul M dbg stray (vone : V) (m o : smat V) f g,
  semi_ring_theory vzero vone vadd vmul eq ->
  swf m -> swf o -> csize m = s_rows o -> represents vzero m f -> represents vzero o g ->
  exists m', s_times vzero vadd vmul M dbg stray m o = Ok m' /\
    represents vzero m' (fun i j => big_sum vzero vadd (csize m) (fun k => vmul (f i k) (g k j))).
Proof. exact @mul_ring. Qed.
Print Assumptions C39_product_ring.

Example C39_hypotheses : swf ex_mat /\ csize ex_mat = s_rows ex_mat /\
  semi_ring_theory 0%Z 1%Z Z.add Z.mul eq /\
  represents 0%Z ex_mat
    (fun i j => match i, j with 0, 0 => 1%Z | 0, 2 => 2%Z | 1, 1 => 3%Z | 2, 0 => 4%Z | _, _ => 0%Z end) /\
  s_times 0%Z Z.add Z.mul 100 true None ex_mat ex_mat =
    Ok (mkS [0; 2; 3; 5] [0; 2; 1; 0; 2] [9; 2; 9; 4; 8]%Z 3).
Proof.
  split; [exact ex_swf|]. split; [reflexivity|]. split; [exact Z_semi_ring|].
  split; [exact ex_represents|vm_compute; reflexivity].
Qed.

(** ** C40 *)
(** A *= A always gives the zero matrix. *)
Theorem C40_self_product_zero_refuted : forall V (vzero : V) vadd vmul M dbg stray (m : smat V),
  swf m -> csize m = s_rows m ->
  exists m', s_mul_self vzero vadd vmul M dbg stray m = Ok m' /\ s_rows m' = s_rows m /\
    csize m' = csize m /\ forall i j v, ~ stored m' i j v.
Proof. exact @mul_self_zero. Qed.
Print Assumptions C40_self_product_zero_refuted.

(** The debug build refuses a matrix that is not square. *)
Theorem C40_self_product_shape : forall V (vzero : V) vadd vmul M dbg stray (m : smat V),
  csize m <> s_rows m -> dbg = true -> s_mul_self vzero vadd vmul M dbg stray m = Abort.
Proof. exact @mul_self_shape. Qed.
Print Assumptions C40_self_product_shape.

Example C40_shape_example : let m := mkS [0; 1] [1] [5%Z] 2 in swf m /\ csize m <> s_rows m.
Proof.
  split; [|discriminate]. exists [[(1, 5%Z)]]. split; [split; [left; reflexivity|auto]|].
  intros [|i] Hi; cbn in *; [|lia]. split; [repeat constructor|]. intros j [<-|[]]. lia.
Qed.

Theorem C40_self_product_refuted : exists (m m1 m2 : smat Z), swf m /\ csize m = s_rows m /\
  (forall M dbg stray, s_mul_self 0%Z Z.add Z.mul M dbg stray m = Ok m1 /\
                       s_times 0%Z Z.add Z.mul M dbg stray m m = Ok m2) /\
  stored m2 0 0 9%Z /\ (forall i j v, ~ stored m1 i j v).
Proof. exact mul_self_differs. Qed.
Print Assumptions C40_self_product_refuted.

Example C40_hypotheses : swf ex_mat /\ csize ex_mat = s_rows ex_mat.
Proof. split; [exact ex_swf|reflexivity]. Qed.

(** ** C41 *)
Theorem C41_mat_vec : forall V (vzero : V) vadd vmul dbg stray (m : smat V) x, swf m -> length x = csize m ->
  exists y, s_mat_vec vzero vadd vmul dbg stray m x = Ok y /\ length y = s_rows m /\
    forall i, i < s_rows m -> exists es, StronglySorted lt (map fst es) /\
      (forall j v, In (j, v) es <-> stored m i j v) /\
      nth_error y i = Some (fold_left (fun s e => vadd s (vmul (snd e) (nth (fst e) x vzero))) es vzero).
Proof. exact @mat_vec_spec. Qed.
Print Assumptions C41_mat_vec.

Example C41_hypotheses : swf ex_mat /\ length [5; 6; 7]%Z = csize ex_mat /\
  s_mat_vec 0%Z Z.add Z.mul true None ex_mat [5; 6; 7]%Z = Ok [19; 18; 20]%Z.
Proof. split; [exact ex_swf|]. split; reflexivity. Qed.

(** ** C42 *)
(** What does hold: ++, -- and, for row iterators, += and -=. The pair is the iterator afterwards and the
    returned one. Full statement: also + and - (leaving the iterator unchanged), and += and -= on element iterators. *)
Theorem C42_iterators_partial :
  (forall it, snd (e_incr it) = (fst it, snd it + 1) /\ fst (e_incr it) = snd (e_incr it) /\
              fst (e_post_incr it) = (fst it, snd it + 1) /\ snd (e_post_incr it) = it /\
              fst (e_decr (fst (e_incr it))) = it) /\
  (forall i, fst (r_incr i) = i + 1 /\ snd (r_incr i) = i + 1 /\ fst (r_decr (i + 1)) = i /\ snd (r_decr (i + 1)) = i) /\
  (forall i n, fst (r_plus_assign i n) = i + n /\ snd (r_plus_assign i n) = i + n /\
               fst (r_minus_assign (i + n) n) = i /\ snd (r_minus_assign (i + n) n) = i /\
               snd (r_plus i n) = i + n /\ snd (r_minus (i + n) n) = i).
Proof. exact iterators. Qed.
Print Assumptions C42_iterators_partial.

(** [it + n] and [it += n] on element iterators do not move, for any offset. *)
Theorem C42_element_plus_refuted : forall it n, 0 < n ->
  snd (e_plus it n) <> (fst it, snd it + n) /\ fst (e_plus_assign it n) <> (fst it, snd it + n) /\
  fst (e_minus_assign (fst it, snd it + n) n) <> it.
Proof. exact element_plus. Qed.
Print Assumptions C42_element_plus_refuted.

(** [it + n] and [it - n] on row iterators move [it] itself. *)
Theorem C42_row_plus_refuted : forall i n, 0 < n -> fst (r_plus i n) <> i /\ fst (r_minus (i + n) n) <> i + n.
Proof. exact row_plus. Qed.
Print Assumptions C42_row_plus_refuted.

Example C42_hypotheses : 0 < 2 /\ e_plus (1, 4) 2 = ((1, 4), (1, 4)) /\ r_plus 1 2 = (3, 3).
Proof. split; [lia|]. split; reflexivity. Qed.

(** ** C66 *)
(** With entries data() returns three null pointers, without entries but with rows it has no return value. *)
Theorem C66_data_refuted : forall V (m : smat V), swf m -> 0 < s_nnz m -> s_data m = Ok (None, None, None).
Proof. exact @data_null. Qed.
Print Assumptions C66_data_refuted.

Theorem C66_data_undefined_refuted : forall V (m : smat V), 0 < s_rows m -> s_nnz m = 0 -> s_data m = Undef.
Proof. exact @data_undefined. Qed.
Print Assumptions C66_data_undefined_refuted.

(** empty() means no rows; only then data() returns the one array there is, and a run without a return value needs rows and no
    entries. *)
Theorem C66_data_empty : forall V (m : smat V), swf m ->
  (s_empty m = true <-> s_rows m = 0) /\
  (s_rows m = 0 -> s_data m = Ok (Some (rnz m), None, None) /\ (rnz m = [] \/ rnz m = [0])) /\
  (s_data m = Undef <-> 0 < s_rows m /\ s_nnz m = 0).
Proof. exact @data_empty. Qed.
Print Assumptions C66_data_empty.

(** The constructor from a shape: so many rows and columns and no element. *)
Theorem C66_shape : forall V r c, swf (@s_shape V r c) /\ s_rows (@s_shape V r c) = r /\ csize (@s_shape V r c) = c /\
  s_nnz (@s_shape V r c) = 0 /\ (forall i j v, ~ stored (@s_shape V r c) i j v).
Proof. exact @shape_ok. Qed.
Print Assumptions C66_shape.

Example C66_hypotheses : swf ex_mat /\ 0 < s_nnz ex_mat /\ 0 < s_rows (@s_shape Z 2 2) /\ s_nnz (@s_shape Z 2 2) = 0 /\
  s_rows (@s_shape Z 0 3) = 0 /\ s_data (@s_shape Z 0 3) = Ok (Some [0], None, None).
Proof. split; [exact ex_swf|]. split; [cbn; lia|]. split; [cbn; lia|]. repeat split. Qed.
