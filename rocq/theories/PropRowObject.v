(** C106. Several row objects of one CSR_Data object: made, copied, moved and assigned through in any order. *)
From Coq Require Import ZArith.
From Verif Require Import Base SparseModel SparseSpec CsrDataModel RowModel PropSparseLemmas StorageModel RowObjectModel
  PropRowObjectLemmas.

(** [arun] is what the client expects: the matrix is a finite map, a row object is the index of its row and whether it is
    up to date, or nothing once moved from. An assignment through any object, up to date or not, sets the element of its
    row and brings the object up to date; one that inserts an element puts the other objects out of date. Every object
    reports its row, the number of columns and the number of elements; one that is up to date shows the elements. One moved from
    shows none, and asking it anything else is undefined. *)
Theorem C106_programs : forall (V : Type) grow (vzero : V) M cs (x : smatrix) (a : amat V) t',
  swf (sm_matrix x) -> length (rnz (sm_matrix x)) <= sto_cap (sm_rnz x) -> holds (sm_matrix x) a ->
  arun cs (a, []) = Some t' ->
  exists x' os, ro_run grow vzero M cs (x, []) = Ok (x', os) /\ csr_invariant (sm_matrix x') /\ holds (sm_matrix x') (fst t') /\
    length os = length (snd t') /\
    forall k o w, nth_error os k = Some o -> nth_error (snd t') k = Some w ->
      match w with
      | None =>
          ro_index x' o = Undef /\ ro_size x' o = Undef /\ ro_size_non_zero x' o = Undef /\ ro_elements x' o = Ok [] /\
          forall j, ro_at x' o j = Undef
      | Some (i, f) =>
          ro_index x' o = Ok i /\ ro_size x' o = Ok (acols (fst t')) /\
          exists l, StronglySorted lt (map fst l) /\ (forall j v, In (j, v) l <-> aget (fst t') i j = Some v) /\
            ro_size_non_zero x' o = Ok (length l) /\
            (f = true -> ro_elements x' o = Ok l /\
               forall j, ro_at x' o j = match aget (fst t') i j with Some v => Ok v | None => Abort end)
      end.
Proof. exact @programs. Qed.
Print Assumptions C106_programs.

(** When an insertion through one object finds one of the two arrays full, no other object can be read any more. *)
Theorem C106_moved_array : forall (V : Type) grow (vzero : V) M (x : smatrix) o i j v r,
  swf (sm_matrix x) -> (forall w, ~ stored (sm_matrix x) i j w) ->
  (length (cidx (sm_matrix x)) = sto_cap (sm_col x) /\ ro_col r = sto_block (sm_col x) \/
   length (vals (sm_matrix x)) = sto_cap (sm_val x) /\ ro_val r = sto_block (sm_val x)) ->
  ro_index x o = Ok i ->
  forall x' o', ro_assign grow vzero M x o j v = Ok (x', o') ->
  ro_elements x' (Some r) = Undef /\ forall j', ro_at x' (Some r) j' = Undef.
Proof. exact @moved_array. Qed.
Print Assumptions C106_moved_array.

(** When an insertion elsewhere adds a row beyond the room of the offsets, an object cannot tell its row any more, nor be
    assigned through. *)
Theorem C106_moved_offsets : forall (V : Type) grow (vzero : V) M (x : smatrix) i j v r,
  swf (sm_matrix x) -> c_size_row (sm_matrix x) <= i -> sto_cap (sm_rnz x) < i + 2 -> ro_off r = sto_block (sm_rnz x) ->
  exists x', sc_insert_or_assign grow vzero M x i j v = Ok x' /\
    ro_index x' (Some r) = Undef /\ ro_size_non_zero x' (Some r) = Undef /\
    forall k u, ro_assign grow vzero M x' (Some r) k u = Undef.
Proof. exact @moved_offsets. Qed.
Print Assumptions C106_moved_offsets.

(** A 2 x 2 matrix with the entries (0, 0) and (1, 1), in arrays without room. *)
Definition full : @smatrix Z := mkSM (mkS [0; 1; 2] [0; 1] [5; 6]%Z 2) (mkStore 3 0) (mkStore 2 0) (mkStore 2 0).
Definition full_map : amat Z :=
  mkA 2 2 (fun i j => if (i =? 0) && (j =? 0) then Some 5%Z else if (i =? 1) && (j =? 1) then Some 6%Z else None).

Example C106_moved_offsets_hypotheses : swf (sm_matrix full) /\ c_size_row (sm_matrix full) <= 2 /\ sto_cap (sm_rnz full) < 2 + 2 /\
  exists r, ro_new full 0 = Ok (Some r) /\ ro_off r = sto_block (sm_rnz full).
Proof. split; [exact (proj1 full_meets)|]. split; [cbn; lia|]. split; [cbn; lia|]. eexists. split; reflexivity. Qed.

(** Objects of rows 0, 1 and a copy of the first; the insertion through the first puts the others out of date; the
    assignment through the copy is right all the same and brings it up to date. *)
Definition three : list (rcmd Z) := [RNew 0; RNew 1; RCopy 0; RSet 0 1 7%Z; RSet 2 3 8%Z; RMove 1].

Example full_meets : swf (sm_matrix full) /\ length (rnz (sm_matrix full)) <= sto_cap (sm_rnz full) /\
  holds (sm_matrix full) full_map.
Proof. exact full_meets. Qed.

Example three_runs :
  (exists a, arun three (full_map, []) = Some (a, [Some (0, false); None; Some (0, true); Some (1, false)])) /\
  ro_run (fun c n => 2 * n) 0%Z 100 three (full, []) =
    Ok (mkSM (mkS [0; 3; 4] [0; 1; 3; 1] [5; 7; 8; 6]%Z 4) (mkStore 3 0) (mkStore 6 1) (mkStore 6 1),
        [Some (mkRO (mkRow 0 0 2) 0 1 1); None; Some (mkRO (mkRow 0 0 3) 0 1 1); Some (mkRO (mkRow 1 1 2) 0 0 0)]).
Proof. split; [eexists; reflexivity|reflexivity]. Qed.

(** The object of row 1 points into the arrays that were replaced. *)
Example three_moved : forall x' o', ro_assign (fun c n => 2 * n) 0%Z 100 full (Some (mkRO (mkRow 0 0 1) 0 0 0)) 1 7%Z = Ok (x', o') ->
  ro_elements x' (Some (mkRO (mkRow 1 1 2) 0 0 0)) = Undef.
Proof.
  intros x' o' E. refine (proj1 (C106_moved_array Z _ 0%Z 100 full _ 0 1 7%Z (mkRO (mkRow 1 1 2) 0 0 0) _ _ _ _ x' o' E)); try reflexivity.
  - exact (proj1 full_meets).
  - intros w Hw. apply (proj2 (proj2 full_meets)) in Hw. discriminate.
  - left. split; reflexivity.
Qed.
