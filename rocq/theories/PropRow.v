(** Property theorems about the rows of CSR_Data (C79-C82). *)
From Coq Require Import ZArith.
From Verif Require Import Base ListFacts Csr SparseModel SparseSpec CsrDataModel RowModel PropSparseLemmas
  PropRowLemmas.

(** ** C79 *)
Theorem C79_row_view : forall V dbg (m : smat V) i, swf m -> i < s_rows m ->
  exists r l, w_new m i = Ok r /\ w_index m r = i /\ w_size m r = csize m /\
    w_elements m r = Ok l /\ StronglySorted lt (map fst l) /\
    (forall j v, In (j, v) l <-> stored m i j v) /\ w_size_non_zero m r = Ok (length l) /\
    (forall j v, stored m i j v -> w_at m r j = Ok v /\ w_read dbg m r j = Ok v) /\
    (forall j, (forall v, ~ stored m i j v) -> w_at m r j = Abort).
Proof. exact row_view. Qed.
Print Assumptions C79_row_view.

(** row_offset() counts the elements up to the end of the row. *)
Theorem C79_offset : forall V (m : smat V) i, swf m -> i < s_rows m ->
  exists r rows, w_new m i = Ok r /\ length rows = i + 1 /\
    (forall k, k <= i -> exists rk, w_new m k = Ok rk /\ w_elements m rk = Ok (nth k rows [])) /\
    w_offset m r = Ok (length (concat rows)).
Proof. exact row_offsets. Qed.
Print Assumptions C79_offset.

Example C79_hypotheses : swf ex_mat /\ 0 < s_rows ex_mat /\
  w_new ex_mat 0 = Ok (mkRow 0 0 2) /\ w_elements ex_mat (mkRow 0 0 2) = Ok [(0, 1%Z); (2, 2%Z)] /\
  w_at ex_mat (mkRow 0 0 2) 2 = Ok 2%Z /\ w_at ex_mat (mkRow 0 0 2) 1 = Abort.
Proof. split; [exact ex_swf|]. cbn. auto. Qed.

(** ** C80 *)
Theorem C80_row_assignments : forall V (vzero : V) M l (m : smat V) i r, swf m -> w_new m i = Ok r ->
  exists m' r', w_assigns vzero M l m r = Ok (m', r') /\ csr_invariant m' /\ swf m' /\
    w_new m' i = Ok r' /\ s_rows m' = s_rows m /\
    csize m' = fold_left Nat.max (map (fun x => fst x + 1) l) (csize m) /\
    (forall i' j w, i' <> i -> (stored m' i' j w <-> stored m i' j w)) /\
    (forall j w, stored m' i j w <->
       last_assigned l j = Some w \/ last_assigned l j = None /\ stored m i j w).
Proof. exact row_assigns. Qed.
Print Assumptions C80_row_assignments.

Example C80_hypotheses : swf ex_mat /\ w_new ex_mat 0 = Ok (mkRow 0 0 2) /\
  w_assigns 0%Z 100 [(1, 7%Z); (0, 9%Z); (4, 5%Z); (1, 8%Z)] ex_mat (mkRow 0 0 2) =
    Ok (mkS [0; 4; 5; 6] [0; 1; 2; 4; 1; 0] [9; 8; 2; 5; 3; 4]%Z 5, mkRow 0 0 4).
Proof. split; [exact ex_swf|]. split; reflexivity. Qed.

(** ** C81: an assignment through one row object leaves the other row objects of the matrix showing
    their rows. It does not when the assignment inserts an element. *)
Theorem C81_other_rows_valid_refuted : exists (m m' : smat Z) r1 r1' r2, swf m /\
  w_new m 0 = Ok r1 /\ w_new m 1 = Ok r2 /\ w_assign 0%Z 100 m r1 1 7%Z = Ok (m', r1') /\ swf m' /\
  w_elements m r2 = Ok [(1, 3%Z)] /\ stored m' 1 1 3%Z /\ w_elements m' r2 = Ok [(2, 2%Z)].
Proof. exact row_others_differ. Qed.
Print Assumptions C81_other_rows_valid_refuted.

(** It does when the element was there, whichever of the two assignments is used. *)
Theorem C81_overwrite_partial : forall V (vzero : V) M (m : smat V) i r j v, swf m -> w_new m i = Ok r ->
  (exists w, stored m i j w) ->
  exists m', w_assign vzero M m r j v = Ok (m', r) /\ w_at_assign m r j v = Ok m' /\ swf m' /\
    (forall k, w_new m' k = w_new m k) /\
    (forall k r', w_new m k = Ok r' -> k <> i -> w_elements m' r' = w_elements m r') /\
    (forall j' w, stored m' i j' w <-> (j' = j /\ w = v) \/ (stored m i j' w /\ j' <> j)).
Proof. exact row_overwrite. Qed.
Print Assumptions C81_overwrite_partial.

Example C81_hypotheses : swf ex_mat /\ w_new ex_mat 0 = Ok (mkRow 0 0 2) /\ (exists w, stored ex_mat 0 2 w) /\
  w_assign 0%Z 100 ex_mat (mkRow 0 0 2) 2 7%Z = Ok (mkS [0; 2; 3; 4] [0; 2; 1; 0] [1; 7; 3; 4]%Z 3, mkRow 0 0 2).
Proof.
  split; [exact ex_swf|]. split; [reflexivity|]. split; [|reflexivity].
  exists 2%Z. split; [cbn; lia|]. exists 1. split; [cbn; lia|]. auto.
Qed.

(** ** C82: reading a missing element through operator[] is reported. Not in a release build. *)
Theorem C82_missing_read_reported_refuted : exists (m : smat Z) r, swf m /\ w_new m 0 = Ok r /\
  (forall v, ~ stored m 0 1 v) /\ w_read false m r 1 = Undef.
Proof. exact row_read_release. Qed.
Print Assumptions C82_missing_read_reported_refuted.

(** Every outcome of a read. *)
Theorem C82_read_outcomes_partial : forall V dbg (m : smat V) i r j, swf m -> w_new m i = Ok r ->
  (w_read dbg m r j = Abort <-> dbg = true /\ forall v, ~ stored m i j v) /\
  (w_read dbg m r j = Undef <-> dbg = false /\ forall v, ~ stored m i j v) /\
  (forall v, w_read dbg m r j = Ok v <-> stored m i j v).
Proof. exact row_read. Qed.
Print Assumptions C82_read_outcomes_partial.

Example C82_hypotheses : swf ex_mat /\ w_new ex_mat 1 = Ok (mkRow 1 2 3) /\
  w_read true ex_mat (mkRow 1 2 3) 1 = Ok 3%Z /\ w_read true ex_mat (mkRow 1 2 3) 0 = Abort /\
  w_read false ex_mat (mkRow 1 2 3) 0 = Undef.
Proof. split; [exact ex_swf|]. cbn. auto. Qed.
