(** Property theorems about CSR_Data (C43). *)
From Coq Require Import ZArith.
From Verif Require Import Base ListFacts Csr SparseModel SparseSpec SparseFacts SparseSeq CsrDataModel CsrData
  PropSparseLemmas PropCsrDataLemmas.

(** ** C43 *)
Theorem C43_csr_data : forall V (vzero : V) M (os : list (cop V)), apres (map as_sop os) amat_default ->
  exists m, run_cops vzero M os s_default = Ok m /\ csr_invariant m /\
    holds m (aops (map as_sop os) amat_default) /\
    c_size_row m = arows (aops (map as_sop os) amat_default) /\
    c_size_column m = acols (aops (map as_sop os) amat_default) /\
    c_size_non_zero m = acount (aops (map as_sop os) amat_default).
Proof. exact @csr_data. Qed.
Print Assumptions C43_csr_data.

(** The iterator and the flag returned by insert. *)
Theorem C43_csr_data_insert : forall V (vzero : V) M (m : smat V) i j v, swf m ->
  exists m' it b, c_insert vzero M m i j v = Ok (m', it, b) /\
    c_i_row m' it = i /\ nth_error (cidx m') (snd it) = Some j /\
    (b = false <-> exists w, stored m i j w) /\
    (forall w, stored m i j w -> nth_error (vals m') (snd it) = Some w) /\
    (b = true -> nth_error (vals m') (snd it) = Some v).
Proof. exact @csr_insert_result. Qed.
Print Assumptions C43_csr_data_insert.

(** lower_bound, for every row. *)
Theorem C43_csr_data_lower_bound : forall V (m : smat V) i j, swf m ->
  (s_rows m <= i -> c_lower_bound m i j = Ok (length (rnz m), length (cidx m))) /\
  (i < s_rows m -> exists it, c_lower_bound m i j = Ok it /\
     nth i (rnz m) 0 <= snd it <= nth (i + 1) (rnz m) 0 /\
     fst it = (if snd it <? nth (i + 1) (rnz m) 0 then i else i + 1) /\
     (forall k, nth i (rnz m) 0 <= k < snd it -> nth k (cidx m) 0 < j) /\
     (forall k, snd it <= k < nth (i + 1) (rnz m) 0 -> j <= nth k (cidx m) 0)).
Proof. exact @csr_lower_bound. Qed.
Print Assumptions C43_csr_data_lower_bound.

Example C43_hypotheses : apres (map as_sop ex_cops) amat_default /\
  run_cops 0%Z 100 ex_cops s_default = Ok ex_mat /\ swf ex_mat /\
  c_lower_bound ex_mat 0 1 = Ok (0, 1) /\ c_lower_bound ex_mat 1 2 = Ok (2, 3) /\
  c_lower_bound ex_mat 7 0 = Ok (4, 4).
Proof. split; [exact ex_cpre|]. split; [vm_compute; reflexivity|]. split; [exact ex_swf|]. auto. Qed.
