(** Specification vocabulary for sparse matrices. Nothing here refers to how an operation is
    computed. *)
From Verif Require Import Base Csr SparseModel.

Section SparseSpec.
  Context {V : Type}.
  Implicit Types (m : smat V) (rs : list (list (nat * V))).

  (** [v] is stored at row [i] and column [j]: some position of the slice of row [i] holds them. *)
  Definition stored m (i j : nat) (v : V) : Prop :=
    i < s_rows m /\
    exists k, nth i (rnz m) 0 <= k < nth (i + 1) (rnz m) 0 /\
      nth_error (cidx m) k = Some j /\ nth_error (vals m) k = Some v.

  (** The arrays of [m] are the compressed form of the rows [rs] of (column, value) pairs. *)
  Definition srepr m rs : Prop :=
    (rnz m = psum 0 rs \/ (rnz m = [] /\ rs = [])) /\
    cidx m = map fst (concat rs) /\ vals m = map snd (concat rs).

  (** Each row is strictly ascending in the column and inside [c] columns. *)
  Definition srows_ok (c : nat) rs : Prop :=
    forall i, i < length rs ->
      StronglySorted lt (map fst (nth i rs [])) /\
      (forall j, In j (map fst (nth i rs [])) -> j < c).

  (** A sparse matrix as left behind by the library (see the theorems on operation sequences). *)
  Definition swf m : Prop := exists rs, srepr m rs /\ srows_ok (csize m) rs.

  (** The compressed storage invariant on the arrays themselves. *)
  Definition csr_invariant m : Prop :=
    (rnz m = [] /\ cidx m = [] /\ vals m = [] \/
     rnz m <> [] /\ nth 0 (rnz m) 0 = 0 /\ last (rnz m) 0 = length (cidx m)) /\
    length (cidx m) = length (vals m) /\
    (forall i, i < s_rows m -> nth i (rnz m) 0 <= nth (i + 1) (rnz m) 0) /\
    (forall i k, i < s_rows m -> nth i (rnz m) 0 <= k < nth (i + 1) (rnz m) 0 ->
       nth k (cidx m) 0 < csize m /\
       (k + 1 < nth (i + 1) (rnz m) 0 -> nth k (cidx m) 0 < nth (k + 1) (cidx m) 0)).

  (** Finite maps from (row, column) to values with a shape. *)
  Record amat := mkA { arows : nat; acols : nat; aget : nat -> nat -> option V }.

  Definition amat_default : amat := mkA 0 0 (fun _ _ => None).

  Definition aupd (f : nat -> nat -> option V) (i j : nat) (x : option V) : nat -> nat -> option V :=
    fun i' j' => if (i' =? i) && (j' =? j) then x else f i' j'.

  (** The operations of client code. *)
  Inductive sop :=
  | OInsert (i j : nat) (v : V)          (* matrix.insert(i, j, v) *)
  | OAssign (i j : nat) (v : V)          (* matrix.insert_or_assign(i, j, v) *)
  | OSubscript (i j : nat) (v : V)       (* matrix[i][j] = v *)
  | OErase (i j : nat)                   (* matrix.erase(matrix.find(i, j)) *)
  | OResize (r c : nat)                  (* matrix.resize(r, c) *)
  | OClear                               (* matrix.clear() *)
  | OScale (f : V -> V).                 (* matrix *= scalar, matrix /= scalar *)

  (** Effect on the finite map. *)
  Definition aop (o : sop) (a : amat) : amat :=
    match o with
    | OInsert i j v =>
        mkA (Nat.max (arows a) (i + 1)) (Nat.max (acols a) (j + 1))
            (match aget a i j with Some _ => aget a | None => aupd (aget a) i j (Some v) end)
    | OAssign i j v =>
        mkA (Nat.max (arows a) (i + 1)) (Nat.max (acols a) (j + 1)) (aupd (aget a) i j (Some v))
    | OSubscript i j v =>
        mkA (arows a) (Nat.max (acols a) (j + 1)) (aupd (aget a) i j (Some v))
    | OErase i j => mkA (arows a) (acols a) (aupd (aget a) i j None)
    | OResize r c =>
        mkA r c (fun i j => if (i <? r) && (j <? c) then aget a i j else None)
    | OClear => amat_default
    | OScale f => mkA (arows a) (acols a) (fun i j => option_map f (aget a i j))
    end.

  (** The documented preconditions: subscript an existing row, erase an existing entry. Resizing to
      no columns is excluded when there are columns (see C35). *)
  Definition apre (o : sop) (a : amat) : Prop :=
    match o with
    | OSubscript i _ _ => i < arows a
    | OErase i j => aget a i j <> None
    | OResize _ c => acols a = 0 \/ 0 < c
    | _ => True
    end.

  Fixpoint aops (os : list sop) (a : amat) : amat :=
    match os with
    | [] => a
    | o :: r => aops r (aop o a)
    end.

  Fixpoint apres (os : list sop) (a : amat) : Prop :=
    match os with
    | [] => True
    | o :: r => apre o a /\ apres r (aop o a)
    end.

  (** Number of places of the shape where the map is defined. *)
  Definition acount (a : amat) : nat :=
    length (filter (fun p => match aget a (fst p) (snd p) with Some _ => true | None => false end)
                   (list_prod (seq 0 (arows a)) (seq 0 (acols a)))).

  (** A matrix holds a finite map. *)
  Definition holds m (a : amat) : Prop :=
    s_rows m = arows a /\ csize m = acols a /\
    forall i j v, stored m i j v <-> aget a i j = Some v.

  (** Running client code. *)
  Section Run.
    Variables (vzero : V) (M : nat) (dbg : bool) (stray : option nat).

    Definition run_op (o : sop) m : res (smat V) :=
      match o with
      | OInsert i j v => do r <- s_insert vzero M dbg stray m i j v; Ok (fst (fst r))
      | OAssign i j v => do r <- s_insert_or_assign vzero M dbg stray m i j v; Ok (fst (fst r))
      | OSubscript i j v => s_subscript_assign vzero M dbg stray m i j v
      | OErase i j => do it <- s_find stray m i j; do r <- s_erase dbg stray m it; Ok (fst r)
      | OResize r c => s_resize vzero M m r c
      | OClear => Ok (s_clear m)
      | OScale f => Ok (s_scale m f)
      end.

    Fixpoint run_ops (os : list sop) m : res (smat V) :=
      match os with
      | [] => Ok m
      | o :: r => do m' <- run_op o m; run_ops r m'
      end.
  End Run.
End SparseSpec.
Arguments amat : clear implicits.
Arguments sop : clear implicits.
