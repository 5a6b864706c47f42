(** Property C133: numbering the equations anew, solving directly, and reading the solution back. [rearranged n r p A A']: equation
    [i] and unknown [j] of [A] are equation [r i] and unknown [p j] of [A']; [renumbered_matrix n p] is the case [r = p].
    [read_back dbg n p A st']: for every right-hand side, lu_solve on the renumbered one reports convergence, the solution read at
    the numbers [p i] solves the system of [A], and nothing else does. [stencil g d A]: [d] on the diagonal, -1 for each edge of
    [g], 0 elsewhere. *)
From Coq Require Import ZArith Reals Lra Lia Field QArith Qcanon.
From Verif Require Import Base GraphModel GraphSpec DenseModel DenseFacts ScalarModel GeometryReal LuModel LuFacts LuReal TraversalModel
  ReorderModel Ordering OrderingSpec Envelope Energy PropGraphLemmas PropReorderLemmas PropLuLemmas PropIterLemmas PropNumberingLemmas
  PropLuAlgebraLemmas PropTreeLemmas PropSuccessLemmas PropChainLemmas PropPipelineLemmas.
Close Scope Q_scope. Close Scope Qc_scope. Open Scope nat_scope.

(** ** C133: over any field, with or without pivoting, equations and unknowns numbered anew independently. *)
Theorem C133_rearranged : forall {S} (O : sops S) (opp inv : S -> S),
  field_theory (sc_zero O) (sc_one O) (sc_add O) (sc_mul O) (sc_sub O) opp (sc_div O) inv eq ->
  forall dbg n pivot st a' A A' r p, tol_default O dbg -> is_perm n r -> is_perm n p -> rearranged n r p A A' ->
  factor_of O dbg n pivot st a' A' -> forall b' B B' x, is_vec n b' B' -> renumbered n r B B' ->
  exists x' z, lu_solve O dbg pivot st x (Some b') = Ok (x', solved O) /\ is_vec n x' z /\
    solves O n A (fun i => z (nth i p 0)) B /\
    forall w, solves O n A w B -> forall i, i < n -> w i = z (nth i p 0).
Proof. exact @rearranged_solved. Qed.
Print Assumptions C133_rearranged.

(** Whether the solver without pivoting accepts a matrix does depend on the numbering. *)
Theorem C133_refusal_depends_on_numbering :
  rearranged 2 [1; 0] [1; 0] (fun i j => nth j (nth i [[q 0; q 1]; [q 1; q 1]] []) (q 0))
    (fun i j => nth j (nth i [[q 1; q 1]; [q 1; q 0]] []) (q 0)) /\
  (exists st, factorise qops true false (lu_default qops) [[q 0; q 1]; [q 1; q 1]] = Ok (st, false)) /\
  (exists st, factorise qops true false (lu_default qops) [[q 1; q 1]; [q 1; q 0]] = Ok (st, true)).
Proof. exact refusal_depends. Qed.
Print Assumptions C133_refusal_depends_on_numbering.

(** A positive definite matrix on a connected graph, numbered by cuthill_mckee: the solver without pivoting accepts it, the pivots
    are at least the smallest value of the quadratic form, the factors stay in the band of the levels, and the solution can be
    read back. *)
Theorem C133_graph : forall dbg sortf M g s D w A l st, well_formed false g -> sorts_by_second sortf -> size_vertex g <= M ->
  s < size_vertex g -> (forall v, v < size_vertex g -> dist (edge g) s v (D v)) ->
  (forall u v, edge g u v -> D u <= D v -> two_levels (size_vertex g) D (D u) (D v) <= w) ->
  (forall u v, u < size_vertex g -> v < size_vertex g -> u <> v -> ~ edge g u v -> A u v = 0%R) ->
  symmetric (size_vertex g) A ->
  (forall e, (l * rsum (size_vertex g) (fun i => e i * e i) <= energy (size_vertex g) A e)%R) -> (0 < lu_tolerance st <= l)%R ->
  exists p, cuthill_mckee sortf M dbg g s = Ok p /\ is_perm (size_vertex g) p /\
  forall a' A', is_mat (size_vertex g) (size_vertex g) a' A' -> renumbered_matrix (size_vertex g) p A A' ->
  exists st' F, factorise rops dbg false st a' = Ok (st', true) /\ is_mat (size_vertex g) (size_vertex g) (lu_matrix st') F /\
    (forall i, i < size_vertex g -> (l <= F i i)%R) /\
    (forall i j, i < size_vertex g -> j < size_vertex g -> i <> j -> i + w <= j \/ j + w <= i -> F i j = 0%R) /\
    read_back dbg (size_vertex g) p A st'.
Proof. exact graph_pipeline. Qed.
Print Assumptions C133_graph.

(** The grid of create_graph_structured with 4 on the diagonal: from any vertex the search for a start, the numbering, the
    factorisation with a new solver (for n < 2^25) and the solve all succeed; the band is 2 n - 1 and no pivot is below
    16 / (n + 1)^2. *)
Theorem C133_grid : forall dbg n g A sortf M s st, 2 <= n -> create_graph_structured dbg false n = Ok g -> stencil g 4 A ->
  sorts_by_second sortf -> n * n <= M -> s < n * n -> (0 < lu_tolerance st <= 16 / (INR n + 1) ^ 2)%R ->
  exists c p, pseudo_peripheral_vertex M dbg g s = Ok c /\ cuthill_mckee sortf M dbg g c = Ok p /\ is_perm (n * n) p /\
  forall a' A', is_mat (n * n) (n * n) a' A' -> renumbered_matrix (n * n) p A A' ->
  exists st' F, factorise rops dbg false st a' = Ok (st', true) /\ is_mat (n * n) (n * n) (lu_matrix st') F /\
    (forall i, i < n * n -> (16 / (INR n + 1) ^ 2 <= F i i)%R) /\
    (forall i j, i < n * n -> j < n * n -> i + (2 * n - 1) <= j \/ j + (2 * n - 1) <= i -> F i j = 0%R) /\
    read_back dbg (n * n) p A st'.
Proof. exact grid_pipeline. Qed.
Print Assumptions C133_grid.

Theorem C133_default_tolerance : forall n, n < 2 ^ 25 -> (0 < lu_tolerance (lu_default rops) <= 16 / (INR n + 1) ^ 2)%R.
Proof. exact default_room. Qed.
Print Assumptions C133_default_tolerance.

(** The two by two grid, searched from vertex 1 and numbered from 2: that numbering maps its matrix to itself. The numbering by rows
    and columns exchanged shows a matrix that does change: (4 -1; 1 3) becomes (3 1; -1 4). *)
Example C133_hypotheses : let g := mkG [1; 2; 0; 3; 0; 3; 1; 2] [0; 2; 4; 6; 8] in
  let a := [[4; -1; -1; 0]; [-1; 4; 0; -1]; [-1; 0; 4; -1]; [0; -1; -1; 4]]%R in
  let A := fun i j => nth j (nth i a []) 0%R in
  create_graph_structured true false 2 = Ok g /\ stencil g 4 A /\ sorts_by_second pair_sort /\
  pseudo_peripheral_vertex 100 true g 1 = Ok 2 /\ cuthill_mckee pair_sort 100 true g 2 = Ok [1; 3; 0; 2] /\
  renumbered_matrix 4 [1; 3; 0; 2] A A /\ is_mat 4 4 a A /\
  (exists st, factorise qops true true (lu_default qops) [[q 3; q 1]; [q (-1); q 4]] = Ok (st, true) /\
     rearranged 2 [1; 0] [1; 0] (fun i j => nth j (nth i [[q 4; q (-1)]; [q 1; q 3]] []) (q 0))
       (fun i j => nth j (nth i [[q 3; q 1]; [q (-1); q 4]] []) (q 0)) /\
     exists z d, lu_solve qops true true st [] (Some [q 7; q 2]) = Ok (z, d) /\ map this z = [2; 1]%Q).
Proof.
  cbv zeta. split; [reflexivity|]. split; [|split; [exact pair_sort_sorts|split; [reflexivity|split; [reflexivity|split; [|split]]]]].
  - set (g := mkG _ _). intros i j Hi Hj.
    assert (E : forall i j, i < 4 -> edge g i j <-> In j (row g i)) by (intros u v Hu; split; [intros (_ & H); exact H|intro H; split; auto]).
    destruct i as [|[|[|[|i]]]], j as [|[|[|[|j]]]]; cbn in Hi, Hj; try lia; rewrite E by lia; cbn -[IZR Ropp];
      (split; [|split]); intros; try lia; try reflexivity; exfalso; intuition lia.
  - intros [|[|[|[|i]]]] [|[|[|[|j]]]] Hi Hj; try lia; reflexivity.
  - split; [reflexivity|]. intros [|[|[|[|i]]]] Hi; try lia; (eexists; split; [reflexivity|split; [reflexivity|]]);
      intros [|[|[|[|j]]]] Hj; try lia; reflexivity.
  - eexists. split; [vm_compute; reflexivity|]. split; [intros [|[|i]] [|[|j]] Hi Hj; try lia; reflexivity|].
    eexists. eexists. split; [vm_compute; reflexivity|]. vm_compute. reflexivity.
Qed.
