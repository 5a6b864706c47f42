(** Combinations and witnesses used by PropAccess.v. *)
From Coq Require Import String Ascii.
From Verif Require Import Base ListFacts Csr GraphModel GraphSpec GraphFacts GraphSeq PropGraphLemmas
  SubgraphModel GraphAccess TextModel TextFacts.

Lemma mixed_well_formed : well_formed false (mkG [1; 12; 0; 0] [0; 2; 3; 3; 3; 3; 3; 3; 3; 3; 3; 3; 3; 4]).
Proof.
  apply (of_rows_well_formed false [[1; 12]; [0]; []; []; []; []; []; []; []; []; []; []; [0]]).
  apply rows_okb_ok. reflexivity.
Qed.

Lemma access_example :
  let g := mkG [1; 0; 2; 1; 3; 2] [0; 1; 3; 5; 6] in
  well_formed false g /\ g_at false g 1 = Ok [0; 2] /\ g_at false g 4 = Abort /\
  subscript false g 4 = Undef /\ g_back true g = Ok [2].
Proof. split; [apply path4_well_formed|repeat split; reflexivity]. Qed.
