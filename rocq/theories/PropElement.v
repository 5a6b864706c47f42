(** Elements of a sparse row and the iterators over them. *)
From Coq Require Import ZArith.
From Verif Require Import Base SparseModel SparseSpec CsrDataModel RowModel PropSparseLemmas PropRowLemmas ElementModel PropElementLemmas.

(** A loop over a row meets exactly the stored elements of that row, in ascending column, and a loop backwards in descending. *)
Theorem C113_visits : forall V (m : smat V) i, swf m -> i < s_rows m ->
  exists r l, w_new m i = Ok r /\ row_notes false m r = Ok l /\ row_notes_back false m r = Ok (rev l) /\
    StronglySorted lt (map fst l) /\ (forall j v, In (j, v) l <-> stored m i j v).
Proof. exact @visits. Qed.
Print Assumptions C113_visits.

(** A loop writing through the elements changes exactly the values of its row, and no structure. *)
Theorem C113_changes : forall V (f : nat -> V -> V) (m : smat V) i, swf m -> i < s_rows m ->
  exists r m', w_new m i = Ok r /\ row_change false f m r = Ok m' /\ swf m' /\
    rnz m' = rnz m /\ cidx m' = cidx m /\ csize m' = csize m /\
    (forall a j w, stored m' a j w <-> exists v, stored m a j v /\ w = if a =? i then f j v else v).
Proof. exact @changes. Qed.
Print Assumptions C113_changes.

Example C113_hypotheses : swf ex_mat /\ 0 < s_rows ex_mat /\
  row_notes false ex_mat (mkRow 0 0 2) = Ok [(0, 1%Z); (2, 2%Z)] /\
  row_notes_back false ex_mat (mkRow 0 0 2) = Ok [(2, 2%Z); (0, 1%Z)] /\
  option_map (vals (V := Z)) (match row_change false (fun _ v => (10 * v)%Z) ex_mat (mkRow 0 0 2) with Ok m => Some m | _ => None end) =
    Some ([10; 20; 3; 4]%Z).
Proof. split; [exact ex_swf|]. repeat split. cbn. lia. Qed.

(** Incrementing moves to a different iterator and decrementing undoes it; the postfix forms return the old iterator. *)
Theorem C113_increment : forall V (m : smat V) x y, length (vals m) = length (cidx m) ->
  e_inc m x = Ok y -> e_dec y = Ok x /\ x <> y /\ e_neb x y = true /\
    e_inc_post m x = Ok (x, y) /\ e_dec_post y = Ok (y, x).
Proof. exact steps. Qed.
Print Assumptions C113_increment.

Theorem C113_decrement : forall V (m : smat V) x y k, k <= length (cidx m) -> length (vals m) = length (cidx m) ->
  x = at_position k -> e_dec x = Ok y -> e_inc m y = Ok x.
Proof. exact steps_back. Qed.
Print Assumptions C113_decrement.

Example C113_step_hypotheses : length (vals ex_mat) = length (cidx ex_mat) /\
  e_inc ex_mat (at_position 1) = Ok (at_position 2) /\ e_inc ex_mat (at_position 4) = Undef /\
  e_dec (at_position 2) = Ok (at_position 1) /\ e_dec (at_position 0) = Undef.
Proof. repeat split. Qed.

(** Two iterators compare equal exactly when they are the same, and so do the elements they refer to. *)
Theorem C113_equality : forall x y : eiter,
  (e_eqb x y = true <-> x = y) /\ (e_neb x y = true <-> x <> y) /\
  l_eqb (e_star x) (e_star y) = e_eqb x y /\ l_neb (e_star x) (e_star y) = e_neb x y.
Proof. exact equality. Qed.
Print Assumptions C113_equality.

(** Default iterators are equal, and cannot be moved, read or written. *)
Theorem C113_default : forall V (m : smat V),
  e_eqb e_default e_default = true /\ e_star e_default = l_default /\
  l_value m l_default = Undef /\ l_column m l_default = Undef /\
  (forall v, l_assign m l_default v = Undef) /\ e_inc m e_default = Undef /\ e_dec e_default = Undef.
Proof. exact default_iterator. Qed.
Print Assumptions C113_default.

(** An element reads the column its first pointer refers to, and the value its second one does. *)
Theorem C113_reads : forall V (m : smat V) (p q : nat),
  (forall j, nth_error (cidx m) p = Some j -> l_column m (mkElement (At p) (At q)) = Ok j) /\
  (forall v, nth_error (vals m) q = Some v -> l_value m (mkElement (At p) (At q)) = Ok v) /\
  (length (cidx m) <= p -> l_column m (mkElement (At p) (At q)) = Undef) /\
  (length (vals m) <= q -> l_value m (mkElement (At p) (At q)) = Undef).
Proof. exact @reads. Qed.
Print Assumptions C113_reads.

Example C113_reads_hypotheses : nth_error (cidx ex_mat) 1 = Some 2 /\ nth_error (vals ex_mat) 3 = Some 4%Z.
Proof. split; reflexivity. Qed.

(** Assignment through an element writes the one value its second pointer refers to; the first plays no part. *)
Theorem C113_assign : forall V (m : smat V) (c : ptr) k v, k < length (vals m) ->
  exists m', l_assign m (mkElement c (At k)) v = Ok m' /\ l_value m' (mkElement c (At k)) = Ok v /\
    l_column m' (mkElement c (At k)) = l_column m (mkElement c (At k)) /\
    (forall i, i <> k -> nth_error (vals m') i = nth_error (vals m) i) /\ length (vals m') = length (vals m) /\
    rnz m' = rnz m /\ cidx m' = cidx m /\ csize m' = csize m.
Proof. exact @assign. Qed.
Print Assumptions C113_assign.

Example C113_assign_hypotheses : 3 < length (vals ex_mat) /\
  l_column ex_mat (mkElement (At 1) (At 3)) = Ok 2 /\ l_value ex_mat (mkElement (At 1) (At 3)) = Ok 4%Z.
Proof. split; [cbn; lia|split; reflexivity]. Qed.

(** As the language has it, end() of every row is undefined, and with it every loop over a row: it takes the address of an
    element past the end of the span. *)
Theorem C113_end_refuted : forall V (m : smat V) i r, w_new m i = Ok r ->
  w_last true r = Undef /\ row_notes true m r = Undef.
Proof. exact @strict_end. Qed.
Print Assumptions C113_end_refuted.

Example C113_end_hypotheses : w_new ex_mat 0 = Ok (mkRow 0 0 2).
Proof. reflexivity. Qed.
