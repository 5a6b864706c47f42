(** Property C94: the stream operator of the sparse matrix. [spaced w l]: the items of [l], each followed by a
    space; [readable show]: [show] writes different elements differently, without space and line feed. *)
From Coq Require Import String Ascii.
From Verif Require Import Base SparseModel SparseSpec TextModel MatrixTextModel PropTextLemmas.

(** ** C94 *)
Theorem C94_matrix_text : forall {V} (show : V -> text) (m : smat V) o,
  write_matrix show m o = Ok (o ++ newline ++ spaced decimal (rnz m) ++ newline ++ spaced decimal (cidx m) ++ newline ++
                              spaced show (vals m) ++ newline).
Proof. exact @write_matrix_ok. Qed.
Print Assumptions C94_matrix_text.

(** Full statement: also [csize m1 = csize m2], false by the theorem below. *)
Theorem C94_text_determines_entries_partial : forall {V} (show : V -> text) (m1 m2 : smat V), readable show ->
  write_matrix show m1 [] = write_matrix show m2 [] ->
  s_rows m1 = s_rows m2 /\ forall i j v, stored m1 i j v <-> stored m2 i j v.
Proof. exact @matrix_text_entries. Qed.
Print Assumptions C94_text_determines_entries_partial.

Theorem C94_columns_lost_refuted : forall {V} (show : V -> text) (v : V), exists m1 m2 : smat V,
  swf m1 /\ swf m2 /\ csize m1 <> csize m2 /\ stored m1 0 1 v /\ forall o, write_matrix show m1 o = write_matrix show m2 o.
Proof. exact @columns_lost. Qed.
Print Assumptions C94_columns_lost_refuted.

Example C94_hypotheses : readable decimal /\
  write_matrix decimal (mkS [0; 2; 2; 3] [0; 12; 3] [7; 10; 1] 13) [] =
  Ok (newline ++ chars "0 2 2 3 " ++ newline ++ chars "0 12 3 " ++ newline ++ chars "7 10 1 " ++ newline).
Proof. split; [exact readable_decimal|exact text_example]. Qed.
