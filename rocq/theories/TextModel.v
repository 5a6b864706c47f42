(** Model of the stream operators of the graphs. A stream is the list of the characters written to it. *)
From Coq Require Import String Ascii DecimalString.
From Verif Require Import Base GraphModel SubgraphModel.

Definition text := list ascii.
Definition chars (s : string) : text := list_ascii_of_string s.

(** operator<<(std::ostream&, std::size_t) with the default flags: decimal digits. *)
Definition decimal (n : nat) : text := chars (NilEmpty.string_of_uint (Nat.to_uint n)).

(** The line feed "\n". *)
Definition newline : text := ["010"%char].

(** The loop over one adjacency: adjacency_graph.hpp 631-633, adjacency_subgraph.cpp 236-238. *)
Definition write_row (r : list nat) (o : text) : res text :=
  do o1 <- forM r (fun v o =>
             do b <- vback r;
             Ok (o ++ decimal v ++ (if negb (v =? b) then chars ", " else []))) o;
  Ok (if is_nil r then o1 ++ chars "." else o1).

(** operator<<(ostream, graph): adjacency_graph.hpp 627-636. *)
Definition write_graph (dbg : bool) (g : graph) (o : text) : res text :=
  FOR (size_vertex g) (fun i o =>
    let o := if negb (i =? 0) then o ++ newline else o in
    do r <- subscript dbg g i;
    write_row r o) o.

(** operator<<(ostream, subgraph): adjacency_subgraph.cpp 232-245. *)
Definition write_subgraph (dbg : bool) (s : subgraph) (o : text) : res text :=
  do o1 <- write_graph dbg (s_graph s) o;
  FOR (sub_size s) (fun i o =>
    do a <- local_global dbg s i;
    do l <- vertex_level dbg s i;
    Ok (o ++ newline ++ decimal i ++ chars " -> " ++ decimal a ++ chars " (" ++ decimal l ++ chars ")")) o1.
