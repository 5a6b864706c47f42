(** Specification vocabulary for graphs. Nothing here refers to how an operation is computed. *)
From Verif Require Import Base Csr GraphModel.

(** The adjacency lists stored in the two arrays of a graph. *)
Definition row (g : graph) (i : nat) : list nat :=
  slice (adj g) (nth i (off g) 0) (nth (i + 1) (off g) 0).

Definition rows (g : graph) : list (list nat) := map (row g) (seq 0 (size_vertex g)).

(** [v] occurs in [graph[u]]. *)
Definition edge (g : graph) (u v : nat) : Prop :=
  u < size_vertex g /\ In v (row g u).

(** The arrays of [g] are the compressed form of the list of rows [rs]. *)
Definition repr (g : graph) (rs : list (list nat)) : Prop :=
  (off g = psum 0 rs /\ adj g = concat rs) \/ (g = graph_default /\ rs = []).

(** Adjacency lists are ascending, name existing vertices, contain no self loop, and for an
    undirected graph adjacency is symmetric. *)
Definition rows_ok (d : bool) (rs : list (list nat)) : Prop :=
  forall i, i < length rs ->
    StronglySorted lt (nth i rs []) /\
    (forall j, In j (nth i rs []) -> j < length rs /\ j <> i) /\
    (d = false -> forall j, In j (nth i rs []) -> In i (nth j rs [])).

(** A graph as left behind by the library (see the theorems on reachable graphs). *)
Definition well_formed (d : bool) (g : graph) : Prop :=
  exists rs, repr g rs /\ rows_ok d rs.

(** Two edges are the same edge of a directed / undirected graph. *)
Definition same_edge (d : bool) (e f : nat * nat) : bool :=
  ((fst e =? fst f) && (snd e =? snd f)) ||
  (negb d && (fst e =? snd f) && (snd e =? fst f)).

(** Membership in a list of edges. *)
Definition mem_edge (d : bool) (e : nat * nat) (es : list (nat * nat)) : bool :=
  existsb (same_edge d e) es.

(** The different edges of a list, in order of first occurrence. *)
Definition distinct_edges (d : bool) (es : list (nat * nat)) : list (nat * nat) :=
  fold_left (fun acc e => if mem_edge d e acc then acc else acc ++ [e]) es [].

(** One more than the largest vertex mentioned in a list of edges. *)
Definition vertex_bound (es : list (nat * nat)) : nat :=
  fold_right (fun e m => Nat.max (Nat.max (fst e) (snd e) + 1) m) 0 es.

(** A walk of [k] edges along a relation. *)
Inductive walk (E : nat -> nat -> Prop) : nat -> nat -> nat -> Prop :=
| walk_0 u : walk E 0 u u
| walk_S k u v w : walk E k u v -> E v w -> walk E (S k) u w.

(** [dist E u v k]: the shortest walk from [u] to [v] has [k] edges. *)
Definition dist (E : nat -> nat -> Prop) (u v k : nat) : Prop :=
  walk E k u v /\ forall m, walk E m u v -> k <= m.

(** Distance from a set of sources. *)
Definition dist_from (E : nat -> nat -> Prop) (src : nat -> Prop) (v k : nat) : Prop :=
  (exists s, src s /\ walk E k s v) /\ forall s m, src s -> walk E m s v -> k <= m.

Definition reachable (E : nat -> nat -> Prop) (u v : nat) : Prop := exists k, walk E k u v.

(** Every vertex is reachable from every other. *)
Definition connected (g : graph) : Prop :=
  forall u v, u < size_vertex g -> v < size_vertex g -> reachable (edge g) u v.

(** A vector is a permutation of 0 .. n-1. *)
Definition is_perm (n : nat) (p : list nat) : Prop := Permutation p (seq 0 n).

(** Number of vertices below [i] that are not deleted. *)
Definition rank (del : nat -> bool) (i : nat) : nat :=
  length (filter (fun j => negb (del j)) (seq 0 i)).

(** Graphs that client code can build with the modifying members, each called within its documented
    precondition (no self loop, a permutation). *)
Inductive reachable_graph (M : nat) (strict dbg d : bool) : graph -> Prop :=
| reach_default : reachable_graph M strict dbg d graph_default
| reach_insert g g' b e : reachable_graph M strict dbg d g -> fst e <> snd e ->
    insert dbg d g e = Ok (g', b) -> reachable_graph M strict dbg d g'
| reach_resize g g' n : reachable_graph M strict dbg d g ->
    resize strict g n = Ok g' -> reachable_graph M strict dbg d g'
| reach_erase_if g g' del : reachable_graph M strict dbg d g ->
    erase_if M del g = Ok g' -> reachable_graph M strict dbg d g'
| reach_reorder g g' h p : reachable_graph M strict dbg d g -> is_perm (size_vertex g) p ->
    reorder dbg g p = Ok (g', h) -> reachable_graph M strict dbg d g'
| reach_clear g : reachable_graph M strict dbg d g -> reachable_graph M strict dbg d (g_clear g).
