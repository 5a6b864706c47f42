(** Example values for the theorems about CSR_Data. *)
From Coq Require Import ZArith.
From Verif Require Import Base SparseModel SparseSpec CsrDataModel CsrData.

Definition ex_cops : list (cop Z) :=
  [CInsert 2 0 4%Z; CInsert 0 2 9%Z; CAssign 0 2 2%Z; CInsert 0 0 1%Z; CInsert 1 1 3%Z; CResize 5 4;
   CAssign 4 3 8%Z; CInsert 1 1 6%Z; CResize 3 3].

Lemma ex_cpre : apres (map as_sop ex_cops) amat_default.
Proof. repeat split; cbn; try lia; auto; right; lia. Qed.
