(** Property C117: the sweeps of the fixed point solvers and the numbering of the equations. [renumbered n p f f']: entry
    [i] of [f] is entry [p i] of [f']; [renumbered_matrix] the same for rows and columns. A list of rows in the first argument of
    [forM] is the order in which [sweep_row] visits them; [forward_sweep] visits 0, 1, ... and [backward_sweep] the reverse. *)
From Coq Require Import ZArith Field SpecFloat QArith Qcanon.
From Verif Require Import Base GraphModel GraphSpec DenseModel DenseFacts ScalarModel SparseModel SparseSpec IterModel IterFacts IterLoop
  IterField ReorderModel Colouring PropGraphLemmas PropReorderLemmas PropLuLemmas PropIterLemmas PropNumberingLemmas.
Local Open Scope nat_scope.

(** ** C117: the rows of one colour may be visited in any order. No law of arithmetic is used, so this holds for doubles, bit
    for bit. *)
Theorem C117_colour_order : forall {S} (O : sops S) dbg stray n a b x w (c : nat -> nat) l l',
  square_system n a b -> length x = n ->
  (forall i j v, i < n -> stored a i j v -> j <> i -> c i <> c j) ->
  is_perm n l -> is_perm n l' ->
  StronglySorted (fun i j => c i <= c j) l -> StronglySorted (fun i j => c i <= c j) l' ->
  exists x', forM l (sweep_row O dbg stray a None b w) x = Ok x' /\ forM l' (sweep_row O dbg stray a None b w) x = Ok x' /\
    length x' = n.
Proof. exact @colour_order. Qed.
Print Assumptions C117_colour_order.

(** A matrix numbered by greedy_multicolouring: the sweep is the same in every order that visits the colours one after the
    other. *)
Theorem C117_greedy : forall {S} (O : sops S) dbg stray g p,
  well_formed false g -> greedy_multicolouring dbg g = Ok p -> (exists u v, edge g u v) ->
  exists c, (forall u v, edge g u v -> c u <> c v) /\ (forall v, v < size_vertex g -> colour_rule g c v) /\
  forall a b x w, square_system (size_vertex g) a b -> length x = size_vertex g ->
    (forall u v e, u < size_vertex g -> v < size_vertex g -> stored a (nth u p 0) (nth v p 0) e -> u = v \/ edge g u v) ->
    forall l, is_perm (size_vertex g) l -> StronglySorted (fun u v => c u <= c v) l ->
      forM (map (fun u => nth u p 0) l) (sweep_row O dbg stray a None b w) x = forward_sweep O dbg stray a None x b w.
Proof. exact @greedy_sweep. Qed.
Print Assumptions C117_greedy.

(** The Jacobi solver does not depend on the numbering: every iterate of the renumbered system is the renumbered iterate. *)
Theorem C117_jacobi : forall {S} (O : sops S) (opp inv : S -> S) dbg stray,
  field_theory (sc_zero O) (sc_one O) (sc_add O) (sc_mul O) (sc_sub O) opp (sc_div O) inv eq ->
  forall n p a A a' A' b h b' h', is_perm n p ->
  sparse_square (sc_zero O) n a A -> sparse_square (sc_zero O) n a' A' -> is_vec n b h -> is_vec n b' h' ->
  (forall i, i < n -> A i i <> sc_zero O) -> renumbered_matrix n p A A' -> renumbered n p h h' ->
  forall x f x' f' u u', is_vec n x f -> is_vec n x' f' -> renumbered n p f f' -> length u = n -> length u' = n ->
  forall k, exists y z y' z' t t', times (jacobi_step O dbg stray a b) k (x, u) = Ok (y, t) /\
    times (jacobi_step O dbg stray a' b') k (x', u') = Ok (y', t') /\
    is_vec n y z /\ is_vec n y' z' /\ renumbered n p z z' /\ length t = n /\ length t' = n.
Proof. exact @jacobi_renumber. Qed.
Print Assumptions C117_jacobi.

(** A sweep in place of the renumbered system visits the equations of the first system in the order of their new numbers. *)
Theorem C117_in_place : forall {S} (O : sops S) (opp inv : S -> S) dbg stray,
  field_theory (sc_zero O) (sc_one O) (sc_add O) (sc_mul O) (sc_sub O) opp (sc_div O) inv eq ->
  forall n p a A a' A' b h b' h' w x f x' f', is_perm n p ->
  sparse_square (sc_zero O) n a A -> sparse_square (sc_zero O) n a' A' -> is_vec n b h -> is_vec n b' h' ->
  (forall i, i < n -> A i i <> sc_zero O) -> renumbered_matrix n p A A' -> renumbered n p h h' ->
  is_vec n x f -> is_vec n x' f' -> renumbered n p f f' ->
  exists y z y' z' l, is_perm n l /\ (forall k, k < n -> nth (nth k l 0) p 0 = k) /\
    forM l (sweep_row O dbg stray a None b w) x = Ok y /\
    forward_sweep O dbg stray a' None x' b' w = Ok y' /\
    is_vec n y z /\ is_vec n y' z' /\ renumbered n p z z'.
Proof. exact @seidel_renumber. Qed.
Print Assumptions C117_in_place.

(** The descending sweep is the ascending sweep of the mirrored system. *)
Theorem C117_mirror : forall {S} (O : sops S) (opp inv : S -> S) dbg stray,
  field_theory (sc_zero O) (sc_one O) (sc_add O) (sc_mul O) (sc_sub O) opp (sc_div O) inv eq ->
  forall n a A a' A' b h b' h' w x f x' f',
  sparse_square (sc_zero O) n a A -> sparse_square (sc_zero O) n a' A' -> is_vec n b h -> is_vec n b' h' ->
  (forall i, i < n -> A i i <> sc_zero O) ->
  (forall i j, i < n -> j < n -> A' i j = A (n - 1 - i) (n - 1 - j)) -> (forall i, i < n -> h' i = h (n - 1 - i)) ->
  is_vec n x f -> is_vec n x' f' -> (forall i, i < n -> f' i = f (n - 1 - i)) ->
  exists y, backward_sweep O dbg stray a None x b w = Ok y /\ forward_sweep O dbg stray a' None x' b' w = Ok (rev y).
Proof. exact @seidel_mirror. Qed.
Print Assumptions C117_mirror.

(** The sweep in place does depend on the numbering: the equations x + y = 1 and x + 2 y = 1, exchanged. *)
Theorem C117_numbering_matters :
  let A := fun i j => lookup (q 0) (nth i (two_rows (q 1) (q 1) (q 1) (q 2)) []) j in
  let A' := fun i j => lookup (q 0) (nth i (two_rows (q 2) (q 1) (q 1) (q 1)) []) j in
  renumbered_matrix 2 [1; 0] A A' /\
  (exists z, forward_sweep qops true None (two (q 1) (q 1) (q 1) (q 2)) None [q 0; q 0] [q 1; q 1] (q 1) = Ok z /\
     map this z = [1 # 1; 0 # 1]%Q) /\
  (exists z, forward_sweep qops true None (two (q 2) (q 1) (q 1) (q 1)) None [q 0; q 0] [q 1; q 1] (q 1) = Ok z /\
     map this z = [1 # 2; 1 # 2]%Q).
Proof. exact seidel_numbering_matters. Qed.
Print Assumptions C117_numbering_matters.

(** Unknowns 0 and 1 have one colour, 2 the other; rows 1, 0, 2 give the same doubles as rows 0, 1, 2 but rows 2, 1, 0 do not. A
    graph and its greedy numbering. *)
Example C117_hypotheses :
  let c := fun i => if i =? 2 then 1 else 0 in let b := [fz 1; fz 2; fz 3] in let x := [fz 7; fz 8; fz 9] in
  square_system 3 vee b /\ (forall i j v, i < 3 -> stored vee i j v -> j <> i -> c i <> c j) /\
  is_perm 3 [1; 0; 2] /\ StronglySorted (fun i j => c i <= c j) [1; 0; 2] /\
  forM [1; 0; 2] (sweep_row fops true None vee None b (fz 1)) x = forward_sweep fops true None vee None x b (fz 1) /\
  forM [2; 1; 0] (sweep_row fops true None vee None b (fz 1)) x <> forward_sweep fops true None vee None x b (fz 1) /\
  (let g := mkG [1; 0; 3; 3; 1; 2] [0; 1; 3; 4; 6] in well_formed false g /\ greedy_multicolouring true g = Ok [0; 2; 1; 3] /\
   edge g 0 1) /\
  (let A := fun i j => lookup (q 0) (nth i (two_rows (q 1) (q 1) (q 1) (q 2)) []) j in
   let A' := fun i j => lookup (q 0) (nth i (two_rows (q 2) (q 1) (q 1) (q 1)) []) j in
   sparse_square (q 0) 2 (two (q 1) (q 1) (q 1) (q 2)) A /\ sparse_square (q 0) 2 (two (q 2) (q 1) (q 1) (q 1)) A' /\
   renumbered_matrix 2 [1; 0] A A' /\ renumbered 2 [1; 0] (fun i => q (Z.of_nat i)) (fun i => q (1 - Z.of_nat i)) /\
   forall i, i < 2 -> A i i <> q 0).
Proof.
  cbv zeta. split; [exact vee_system|]. split; [|split; [|split; [|split; [|split; [|split]]]]].
  - intros i j v Hi Hs Hne. destruct (vee_stored i j v Hs) as [|[[H1 ->]|[-> H1]]]; [contradiction| |].
    + destruct (Nat.eqb_spec i 2); cbn; lia.
    + destruct (Nat.eqb_spec j 2); cbn; lia.
  - unfold is_perm. cbn. apply perm_swap.
  - repeat constructor.
  - vm_compute. reflexivity.
  - vm_compute. discriminate.
  - split; [apply (of_rows_well_formed false [[1]; [0; 3]; [3]; [1; 2]]), rows_okb_ok; reflexivity|]. split; [vm_compute; reflexivity|].
    split; [cbn; lia|cbn; auto].
  - split; [apply two_square|]. split; [apply two_square|]. split; [|split].
    + intros [|[|i]] [|[|j]] Hi Hj; try lia; reflexivity.
    + intros [|[|i]] Hi; try lia; reflexivity.
    + intros [|[|i]] Hi H; try lia; apply (f_equal this) in H; discriminate.
Qed.
