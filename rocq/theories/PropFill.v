(** Property C116: where the factors of the direct solver are zero. A profile is given by the functions [lo] (the first column
    of a row) and [hi] (the first row of a column); [profile] and [two_levels] are those of C83 and C84. *)
From Coq Require Import ZArith Reals Lra Field SpecFloat QArith Qcanon.
From Verif Require Import Base GraphModel GraphSpec DenseModel DenseFacts ScalarModel GeometryReal LuModel LuFacts LuReal FloatFacts
  TraversalModel ReorderModel Ordering OrderingSpec Envelope PropGraphLemmas PropReorderLemmas PropLuLemmas PropFillLemmas.
Local Open Scope nat_scope.

(** ** C116: without pivoting the factors fill nothing outside the profile of the matrix. *)
Theorem C116_profile : forall {S} (O : sops S) (opp inv : S -> S),
  field_theory (sc_zero O) (sc_one O) (sc_add O) (sc_mul O) (sc_sub O) opp (sc_div O) inv eq ->
  forall dbg n, tol_default O dbg -> forall st a A st' (lo hi : nat -> nat),
  is_mat n n a A -> factorise O dbg false st a = Ok (st', true) ->
  (forall i j, i < n -> j < n -> j < lo i \/ i < hi j -> A i j = sc_zero O) ->
  exists g, is_mat n n (lu_matrix st') g /\ forall i j, i < n -> j < n -> j < lo i \/ i < hi j -> g i j = sc_zero O.
Proof. exact @profile_field. Qed.
Print Assumptions C116_profile.

(** In double precision too, unless an element of the factors is infinite or not a number. *)
Theorem C116_profile_double : forall dbg n st a (A : nat -> nat -> f64) st' g (lo hi : nat -> nat),
  is_mat n n a A -> factorise fops dbg false st a = Ok (st', true) -> is_mat n n (lu_matrix st') g ->
  (forall i j, i < n -> j < n -> f_finite (g i j) = true) ->
  (forall i j, i < n -> j < n -> j < lo i \/ i < hi j -> f_zero (A i j)) ->
  forall i j, i < n -> j < n -> j < lo i \/ i < hi j -> f_zero (g i j).
Proof. exact profile_double. Qed.
Print Assumptions C116_profile_double.

(** A matrix with the pattern of a graph: the factors have no more elements below (or above) the diagonal than the profile of
    the graph. *)
Theorem C116_graph_profile : forall {S} (O : sops S) (opp inv : S -> S),
  field_theory (sc_zero O) (sc_one O) (sc_add O) (sc_mul O) (sc_sub O) opp (sc_div O) inv eq ->
  forall dbg h, tol_default O dbg -> forall st a A st', well_formed false h ->
  is_mat (size_vertex h) (size_vertex h) a A ->
  (forall i j, i < size_vertex h -> j < size_vertex h -> i <> j -> ~ edge h i j -> A i j = sc_zero O) ->
  factorise O dbg false st a = Ok (st', true) ->
  exists g, is_mat (size_vertex h) (size_vertex h) (lu_matrix st') g /\
    forall l, NoDup l ->
      (forall e, In e l -> snd e < fst e < size_vertex h /\
         (g (fst e) (snd e) <> sc_zero O \/ g (snd e) (fst e) <> sc_zero O)) ->
      length l <= profile h.
Proof. exact @fill_profile. Qed.
Print Assumptions C116_graph_profile.

(** A matrix numbered by cuthill_mckee: the factors stay within the sizes of two adjacent levels of the diagonal. *)
Theorem C116_cuthill_mckee_band : forall {S} (O : sops S) (opp inv : S -> S),
  field_theory (sc_zero O) (sc_one O) (sc_add O) (sc_mul O) (sc_sub O) opp (sc_div O) inv eq ->
  forall dbg sortf M g s D w, tol_default O dbg -> forall st a A st' p, well_formed false g -> sorts_by_second sortf ->
  size_vertex g <= M -> s < size_vertex g -> (forall v, v < size_vertex g -> dist (edge g) s v (D v)) ->
  (forall u v, edge g u v -> D u <= D v -> two_levels (size_vertex g) D (D u) (D v) <= w) ->
  cuthill_mckee sortf M dbg g s = Ok p ->
  is_mat (size_vertex g) (size_vertex g) a A ->
  (forall u v, u < size_vertex g -> v < size_vertex g -> u <> v -> ~ edge g u v -> A (nth u p 0) (nth v p 0) = sc_zero O) ->
  factorise O dbg false st a = Ok (st', true) ->
  exists F, is_mat (size_vertex g) (size_vertex g) (lu_matrix st') F /\
    forall i j, i < size_vertex g -> j < size_vertex g -> i <> j -> i + w <= j \/ j + w <= i -> F i j = sc_zero O.
Proof. exact @fill_band. Qed.
Print Assumptions C116_cuthill_mckee_band.

(** Pivoting leaves the profile. *)
Theorem C116_pivoting_refuted : exists st',
  factorise qops true true (lu_default qops) [[q 1; q 1; q 0]; [q 2; q 1; q 1]; [q 0; q 1; q 1]] = Ok (st', true) /\
  map (map this) (lu_matrix st') = [[inject_Z 2; inject_Z 1; inject_Z 1]; [inject_Z 0; inject_Z 1; inject_Z 1]; [1 # 2; 1 # 2; -1 # 1]]%Q.
Proof. exact pivoting_fills. Qed.
Print Assumptions C116_pivoting_refuted.

(** With pivoting, of a matrix with [p] diagonals below and [q] above the main one, the upper factor has at most [p + q]
    diagonals above the main one and each column of the lower factor at most [p] elements below it. *)
Theorem C116_pivoting_band_partial : forall dbg n p q st a (A : nat -> nat -> R) st',
  is_mat n n a A -> factorise rops dbg true st a = Ok (st', true) ->
  (forall i j, i < n -> j < n -> i + q < j \/ j + p < i -> A i j = 0%R) ->
  exists g, is_mat n n (lu_matrix st') g /\ (forall i j, i < n -> j < n -> i + p + q < j -> g i j = 0%R) /\
    forall c, c < n -> exists l, length l <= p /\ forall i, c < i -> i < n -> g i c <> 0%R -> In i l.
Proof. exact band_pivot_R. Qed.
Print Assumptions C116_pivoting_band_partial.

(** The star with centre 0 and leaf 1 first, its matrix and the factors: full below row 1, empty before. *)
Example C116_hypotheses :
  let a := [[q 4; q 1; q 0; q 0]; [q 1; q 4; q 1; q 1]; [q 0; q 1; q 4; q 0]; [q 0; q 1; q 0; q 4]] in
  let h := mkG [1; 0; 2; 3; 1; 1] [0; 1; 4; 5; 6] in
  well_formed false h /\ profile h = 4 /\
  (forall i j, i < 4 -> j < 4 -> i <> j -> ~ edge h i j -> nth j (nth i a []) (q 0) = q 0) /\
  (exists st', factorise qops true false (lu_default qops) a = Ok (st', true) /\
     map (map this) (lu_matrix st') =
       [[4#1; 1#1; 0#1; 0#1]; [1#4; 15#4; 1#1; 1#1]; [0#1; 4#15; 56#15; -4#15]; [0#1; 4#15; -1#14; 26#7]]%Q) /\
  (exists st', factorise fops true false (lu_default fops)
       [[f_of_Z 4; f_of_Z 1; f_of_Z 0]; [f_of_Z 1; f_of_Z 4; f_of_Z 1]; [f_of_Z 0; f_of_Z 1; f_of_Z 4]] = Ok (st', true) /\
     nth 2 (nth 0 (lu_matrix st') []) (f_of_Z 7) = S754_zero false).
Proof.
  cbv zeta. split; [|split; [reflexivity|split; [|split]]].
  - apply (of_rows_well_formed false [[1]; [0; 2; 3]; [1]; [1]]). apply rows_okb_ok. reflexivity.
  - intros i j Hi Hj Hne He. destruct i as [|[|[|[|i]]]]; [| | | |lia]; destruct j as [|[|[|[|j]]]]; try lia; try reflexivity;
      exfalso; apply He; (split; [cbn; lia|vm_compute; tauto]).
  - eexists. split; vm_compute; reflexivity.
  - eexists. split; vm_compute; reflexivity.
Qed.
