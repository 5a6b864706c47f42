(** Model of the stream operator of the sparse matrix; [show] writes one element (operator<<(std::ostream&, double),
    whose digits are not modelled). *)
From Coq Require Import String Ascii.
From Verif Require Import Base SparseModel TextModel.

Section Write.
  Context {V : Type}.
  Variable show : V -> text.

  (** FOR_EACH(x, l) stream << x << " ": matrix_sparse.hpp 1165, 1167, 1169. *)
  Definition write_items {A} (w : A -> text) (l : list A) (o : text) : res text :=
    forM l (fun x o => Ok (o ++ w x ++ chars " ")) o.

  (** operator<<(stream, matrix): matrix_sparse.hpp 1163-1172. *)
  Definition write_matrix (m : smat V) (o : text) : res text :=
    do o1 <- write_items decimal (rnz m) (o ++ newline);
    do o2 <- write_items decimal (cidx m) (o1 ++ newline);
    do o3 <- write_items show (vals m) (o2 ++ newline);
    Ok (o3 ++ newline).
End Write.
