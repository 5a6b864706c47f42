(** Loops over a sparse matrix (C100), scaling a sparse matrix by one of its own elements (C47), subscripts and
    differences of iterators (C42). [before] is row-major order; [at_position m p q k] says that the entry at row [p] and
    column [q] lies at position [k] of the arrays. *)
From Coq Require Import ZArith.
From Verif Require Import Base SparseModel SparseSpec DenseModel WalkModel PropWalkLemmas PropSparseLemmas.

(** ** C100 *)
(** The nested loops visit every entry once, in row-major order, and leave the matrix unchanged. *)
Theorem C100_visits : forall V stray (m : smat V), swf m ->
  exists l, walk stray note (m, []) = Ok (m, l) /\ StronglySorted before l /\
    (forall i j v, In (i, j, v) l <-> stored m i j v) /\ length l = s_nnz m.
Proof. exact @visits. Qed.
Print Assumptions C100_visits.

(** One row forwards, and backwards with the decrement. *)
Theorem C100_row : forall V stray (m : smat V) i, swf m -> i < s_rows m ->
  exists l, for_iter stray note i (m, []) = Ok (m, l) /\ StronglySorted before l /\
    (forall i' j v, In (i', j, v) l <-> i' = i /\ stored m i j v) /\
    for_back stray note i (m, []) = Ok (m, rev l).
Proof. exact @row_visits. Qed.
Print Assumptions C100_row.

(** Assigning through the iterator during the loops changes every value once and nothing else. *)
Theorem C100_assign : forall V stray (f : nat -> nat -> V -> V) (m : smat V), swf m ->
  exists m', walk stray (change f) (m, tt) = Ok (m', tt) /\ swf m' /\ s_rows m' = s_rows m /\ csize m' = csize m /\
    forall i j v, stored m' i j v <-> exists w, stored m i j w /\ v = f i j w.
Proof. exact @walk_change. Qed.
Print Assumptions C100_assign.

(** The model writes loops that only read row [i] as a fold over [row_entries]: the same outcome, errors included. *)
Theorem C100_row_entries : forall V stray (m : smat V) i S (g : nat -> V -> S -> res S) s, swf m -> i < s_rows m ->
  for_iter stray (fun it st => do c <- i_column (fst st) it; do v <- deref (fst st) it;
                               do x <- g c v (snd st); Ok (fst st, x)) i (m, s) =
  do es <- row_entries stray m i;
  do x <- forM es (fun cv st => g (fst cv) (snd cv) st) s;
  Ok (m, x).
Proof. exact @row_entries_loop. Qed.
Print Assumptions C100_row_entries.

Example C100_hypotheses : swf ex_mat /\
  walk None note (ex_mat, []) = Ok (ex_mat, [(0, 0, 1%Z); (0, 2, 2%Z); (1, 1, 3%Z); (2, 0, 4%Z)]) /\
  for_back None note 0 (ex_mat, []) = Ok (ex_mat, [(0, 2, 2%Z); (0, 0, 1%Z)]) /\
  walk None (change (fun i j v => (v * 10 + Z.of_nat i)%Z)) (ex_mat, tt) =
    Ok (mkS [0; 2; 3; 4] [0; 2; 1; 0] [10; 20; 31; 42]%Z 3, tt).
Proof. split; [exact ex_swf|]. split; [reflexivity|]. split; reflexivity. Qed.

(** ** C47 *)
(** Full statement: the same for a reference to any element. It holds for the last one. *)
Theorem C47_scale_sparse_partial : forall V (op : V -> V -> V) (m : smat V) (s : sref V) x, swf m ->
  s = Ext x \/
  (exists p q k, s = Own k /\ at_position m p q k /\ stored m p q x /\
                 forall i j v, stored m i j v -> i < p \/ (i = p /\ j <= q)) ->
  exists m', s_scale_by op m s = Ok m' /\
    forall i j v, stored m' i j v <-> exists w, stored m i j w /\ v = op w x.
Proof. exact @scale_sparse. Qed.
Print Assumptions C47_scale_sparse_partial.

(** The entries after the one referred to are scaled by its new value. *)
Theorem C47_scale_sparse_own_refuted : forall V (op : V -> V -> V) (m : smat V) p q x k,
  swf m -> stored m p q x -> at_position m p q k ->
  exists m', s_scale_by op m (Own k) = Ok m' /\
    forall i j v, stored m' i j v <-> exists w, stored m i j w /\
      v = op w (if (i <? p) || ((i =? p) && (j <=? q)) then x else op x x).
Proof. exact @scale_own. Qed.
Print Assumptions C47_scale_sparse_own_refuted.

(** diag(2, 3) scaled by its first element should be diag(4, 6). *)
Theorem C47_scale_sparse_witness_refuted : exists (m m' : smat Z), swf m /\ stored m 0 0 2%Z /\ at_position m 0 0 0 /\
  s_scale_by Z.mul m (Own 0) = Ok m' /\ stored m 1 1 3%Z /\ stored m' 1 1 12%Z /\ ~ stored m' 1 1 6%Z.
Proof. exact scale_own_witness. Qed.
Print Assumptions C47_scale_sparse_witness_refuted.

Example C47_sparse_hypotheses : swf ex_mat /\ at_position ex_mat 2 0 3 /\
  s_scale_by Z.mul ex_mat (Own 3) = Ok (mkS [0; 2; 3; 4] [0; 2; 1; 0] [4; 8; 12; 16]%Z 3).
Proof. split; [exact ex_swf|]. split; [repeat split; cbn; lia|reflexivity]. Qed.

(** ** C42 *)
(** [it[n]] and the difference of element iterators. Full statement: see C42_iterators_partial. *)
Theorem C42_subscript_partial : forall V stray (m : smat V) i, swf m -> i < s_rows m ->
  exists b e es, row_begin m i = Ok b /\ row_end stray m i = Ok e /\ row_entries stray m i = Ok es /\
    e_distance e b = length es /\ fst b = i /\
    (forall n j v, nth_error es n = Some (j, v) -> e_at m b n = Ok v /\ i_column m (fst b, snd b + n) = Ok j) /\
    (forall n, r_at i n = i + n).
Proof. exact @subscripts. Qed.
Print Assumptions C42_subscript_partial.

Example C42_subscript_hypotheses : swf ex_mat /\ 0 < s_rows ex_mat /\ e_at ex_mat (0, 0) 1 = Ok 2%Z.
Proof. split; [exact ex_swf|]. split; [cbn; lia|reflexivity]. Qed.
