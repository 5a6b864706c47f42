(** C105. Arguments by const reference that refer to the data of the object itself. *)
From Coq Require Import ZArith.
From Verif Require Import Base SparseModel SparseSpec CsrDataModel AliasModel PropAliasLemmas.
Local Open Scope nat_scope.

(** What the arguments refer to: the element at the position of the iterator, and the number of columns. *)
Theorem C105_references : forall (V : Type) (m : smat V),
  iread RColumns m = Ok (csize m) /\
  (forall p c, iread (RColumn p) m = Ok c <-> nth_error (cidx m) p = Some c) /\
  (forall p v, vread (VOwn p) m = Ok v <-> nth_error (vals m) p = Some v) /\
  (forall k, iread (RVal k) m = Ok k) /\ (forall v, vread (VVal v) m = Ok v).
Proof. exact @references. Qed.
Print Assumptions C105_references.

(** insert of CSR_Data, as if its arguments were passed by value: when no index refers to the member columns, or no
    column is appended. *)
Theorem C105_csr_insert : forall (V : Type) (vzero : V) M (m : smat V) ri rj rv i j v,
  iread ri m = Ok i -> iread rj m = Ok j -> vread rv m = Ok v ->
  (ri <> RColumns /\ rj <> RColumns) \/ j < csize m ->
  c_insert_ref vzero M m ri rj rv = c_insert vzero M m i j v.
Proof. exact @csr_insert_ref. Qed.
Print Assumptions C105_csr_insert.

(** Appending a column with the member columns itself as the column index stores one column too far, outside the
    matrix, whatever the matrix, the row and the value. *)
Theorem C105_csr_columns_refuted : forall (V : Type) (vzero : V) M (m : smat V) i rv v, swf m -> vread rv m = Ok v ->
  exists m' it, c_insert_ref vzero M m (RVal i) RColumns rv = Ok (m', it, true) /\
    csize m' = csize m + 1 /\ stored m' i (csize m + 1) v /\ ~ stored m' i (csize m) v /\ ~ swf m'.
Proof. exact @columns_insert. Qed.
Print Assumptions C105_csr_columns_refuted.

(** insert of Matrix_Sparse: the matrix, the flag and the position are as if the arguments were passed by value. So is
    the row of the iterator returned, unless the row index is a reference into the column indices and an element was
    inserted: then it is what the reference holds afterwards, or undefined when the array has been moved. *)
Theorem C105_insert : forall (V : Type) (vzero : V) M dbg stray (m : smat V) ri rj rv i j v, swf m ->
  iread ri m = Ok i -> iread rj m = Ok j -> vread rv m = Ok v -> (ri <> RColumns /\ rj <> RColumns) \/ j < csize m ->
  exists m' q b, s_insert vzero M dbg stray m i j v = Ok (m', (i, q), b) /\
    ((forall p, ri <> RColumn p) \/ b = false -> forall moved, s_insert_ref vzero M dbg stray moved m ri rj rv = Ok (m', (i, q), b)) /\
    (forall p, ri = RColumn p -> b = true ->
      s_insert_ref vzero M dbg stray true m ri rj rv = Undef /\
      exists r, s_insert_ref vzero M dbg stray false m ri rj rv = Ok (m', (r, q), true) /\
        nth_error (cidx m') p = Some r /\ (p < q -> r = i)).
Proof. exact @insert_ref. Qed.
Print Assumptions C105_insert.

Theorem C105_insert_or_assign : forall (V : Type) (vzero : V) M dbg stray moved (m : smat V) ri rj rv i j v, swf m ->
  iread ri m = Ok i -> iread rj m = Ok j -> vread rv m = Ok v -> (ri <> RColumns /\ rj <> RColumns) \/ j < csize m ->
  (forall p, ri <> RColumn p) \/ (exists w, stored m i j w) ->
  s_insert_or_assign_ref vzero M dbg stray moved m ri rj rv = s_insert_or_assign vzero M dbg stray m i j v.
Proof. exact @insert_or_assign_ref. Qed.
Print Assumptions C105_insert_or_assign.

(** A 2 x 2 matrix with the one entry (1, 0). *)
Definition low : smat Z := mkS [0; 0; 1] [0] [5%Z] 2.

(** The iterator returned by insert(it.i_column(), 1, 7), with it at the entry (1, 0), is at row 1, where the element
    was inserted in row 0; when the array is moved it is undefined. *)
Theorem C105_insert_row_refuted : swf low /\ iread (RColumn 0) low = Ok 0 /\
  s_insert 0%Z 100 false None low 0 1 7%Z = Ok (mkS [0; 1; 2] [1; 0] [7; 5]%Z 2, (0, 0), true) /\
  s_insert_ref 0%Z 100 false None false low (RColumn 0) (RVal 1) (VVal 7%Z) = Ok (mkS [0; 1; 2] [1; 0] [7; 5]%Z 2, (1, 0), true) /\
  s_insert_ref 0%Z 100 false None true low (RColumn 0) (RVal 1) (VVal 7%Z) = Undef.
Proof. exact low_insert. Qed.
Print Assumptions C105_insert_row_refuted.

(** resize, as if its arguments were passed by value: an element of the column indices referred to must not be discarded
    with the rows that are removed, and the reference to the new number of columns must not be one into the column
    indices when columns are removed. *)
Theorem C105_resize : forall (V : Type) (vzero : V) M (m : smat V) rr rc r c, swf m ->
  iread rr m = Ok r -> iread rc m = Ok c ->
  (forall p, rr = RColumn p -> s_rows m <= r \/ p < nth r (rnz m) 0) ->
  (forall p, rc = RColumn p -> s_rows m <= r \/ p < nth r (rnz m) 0) ->
  (forall p, rc = RColumn p -> csize m <= c) ->
  s_resize_ref vzero M m rr rc = s_resize vzero M m r c.
Proof. exact @resize_ref. Qed.
Print Assumptions C105_resize.

(** A 2 x 3 matrix with the entries (0, 1) and (1, 0). *)
Definition crossed : smat Z := mkS [0; 1; 2] [1; 0] [5; 6]%Z 3.

(** resize(2, it.i_column()), with it at the entry (0, 1), makes a matrix of 0 columns that still holds the entry
    (1, 0). *)
Theorem C105_resize_refuted : swf crossed /\ iread (RColumn 0) crossed = Ok 1 /\
  s_resize 0%Z 100 crossed 2 1 = Ok (mkS [0; 0; 1] [0] [6%Z] 1) /\
  s_resize_ref 0%Z 100 crossed (RVal 2) (RColumn 0) = Ok (mkS [0; 0; 1] [0] [6%Z] 0) /\
  ~ swf (mkS [0; 0; 1] [0] [6%Z] 0).
Proof. exact crossed_resize. Qed.
Print Assumptions C105_resize_refuted.

Example crossed_meets : swf crossed /\ iread (RColumn 1) crossed = Ok 0 /\ iread RColumns crossed = Ok 3 /\
  iread (RVal 2) crossed = Ok 2 /\ vread (VOwn 1) crossed = Ok 6%Z /\
  (RColumn 1 <> RColumns /\ RVal 2 <> RColumns) /\ 2 < csize crossed.
Proof. split; [exact (proj1 C105_resize_refuted)|]. repeat split; try discriminate. cbn. lia. Qed.

(** insert(it.i_column(), 2, *it), with it at the entry (1, 0): the value 6 at (0, 2). *)
Example crossed_insert :
  s_insert_ref 0%Z 100 false None false crossed (RColumn 1) (RVal 2) (VOwn 1) =
    Ok (mkS [0; 2; 3] [1; 2; 0] [5; 6; 6]%Z 3, (2, 1), true) /\
  s_insert_ref 0%Z 100 false None false crossed (RVal 0) (RVal 2) (VOwn 1) =
    Ok (mkS [0; 2; 3] [1; 2; 0] [5; 6; 6]%Z 3, (0, 1), true) /\
  s_insert_ref 0%Z 100 false None false crossed (RColumn 0) (RVal 2) (VOwn 1) =
    Ok (mkS [0; 1; 3] [1; 0; 2] [5; 6; 6]%Z 3, (1, 2), true) /\
  s_insert_or_assign_ref 0%Z 100 false None true crossed (RColumn 0) (RVal 0) (VOwn 0) =
    Ok (mkS [0; 1; 2] [1; 0] [5; 5]%Z 3, (1, 1), false).
Proof. repeat split. Qed.

(** insert(data, 0, data.columns, 9): the entry (0, 4) of a matrix of 4 columns. *)
Example crossed_columns :
  c_insert_ref 0%Z 100 crossed (RVal 0) RColumns (VVal 9%Z) = Ok (mkS [0; 2; 3] [1; 4; 0] [5; 9; 6]%Z 4, (0, 1), true) /\
  c_insert_ref 0%Z 100 crossed (RVal 0) (RVal 3) (VVal 9%Z) = Ok (mkS [0; 2; 3] [1; 3; 0] [5; 9; 6]%Z 4, (0, 1), true).
Proof. split; reflexivity. Qed.

(** resize(it.i_column(), 3) with it at the entry (0, 1) keeps the first row. *)
Example crossed_resize_example :
  s_resize_ref 0%Z 100 crossed (RColumn 0) RColumns = Ok (mkS [0; 1] [1] [5%Z] 3) /\
  (forall p, RColumn 0 = RColumn p -> s_rows crossed <= 1 \/ p < nth 1 (rnz crossed) 0).
Proof. split; [reflexivity|]. intros p E. injection E as <-. right. cbn. lia. Qed.
