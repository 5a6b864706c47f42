(** Property C132: the sweeps of the fixed point solvers as splittings of the matrix. [sweep] is one sweep, descending when [back]
    and into another vector when [other]; [renewed back other i j] says that row [i] already finds the new value of component [j];
    [iterate m k] is what the solver [m] holds after [k] sweeps and [run_method m] its solve_system. *)
From Coq Require Import ZArith Reals Lra Field QArith Qcanon.
From Verif Require Import Base DenseModel DenseFacts ScalarModel GeometryReal SparseModel SparseSpec SparseMul LuModel LuReal IterModel IterField IterReal
  PropLuLemmas PropIterLemmas PropOddLemmas PropSplitLemmas.
Close Scope Q_scope. Close Scope Qc_scope. Open Scope nat_scope.

(** ** C132: the values after a sweep are the only ones with A_ii z_i + w sum_(new j) A_ij z_j =
    w (h_i - sum_(old j <> i) A_ij f_j) + (1 - w) A_ii f_i. *)
Theorem C132_splitting : forall {S} (O : sops S) (opp inv : S -> S) dbg stray,
  field_theory (sc_zero O) (sc_one O) (sc_add O) (sc_mul O) (sc_sub O) opp (sc_div O) inv eq ->
  forall n a A b h back other u x f w, sparse_square (sc_zero O) n a A -> is_vec n b h -> is_vec n x f -> length u = n ->
  (forall i, i < n -> A i i <> sc_zero O) ->
  exists x' z, sweep O dbg stray back other a u x b w = Ok x' /\ is_vec n x' z /\
    splitting O n A h w (renewed back other) f z /\
    forall z', splitting O n A h w (renewed back other) f z' -> forall i, i < n -> z' i = z i.
Proof. exact @sweep_splitting. Qed.
Print Assumptions C132_splitting.

(** Systems with one matrix may be superposed before or after a sweep. *)
Theorem C132_superposition : forall {S} (O : sops S) (opp inv : S -> S) dbg stray,
  field_theory (sc_zero O) (sc_one O) (sc_add O) (sc_mul O) (sc_sub O) opp (sc_div O) inv eq ->
  forall n a A b h b' k b'' back other u u' u'' x f y g t w c e, sparse_square (sc_zero O) n a A ->
  (forall i, i < n -> A i i <> sc_zero O) -> is_vec n b h -> is_vec n b' k ->
  is_vec n b'' (fun i => sc_add O (sc_mul O c (h i)) (sc_mul O e (k i))) ->
  is_vec n x f -> is_vec n y g -> is_vec n t (fun i => sc_add O (sc_mul O c (f i)) (sc_mul O e (g i))) ->
  length u = n -> length u' = n -> length u'' = n ->
  exists x' f' y' g' t', sweep O dbg stray back other a u x b w = Ok x' /\ sweep O dbg stray back other a u' y b' w = Ok y' /\
    sweep O dbg stray back other a u'' t b'' w = Ok t' /\ is_vec n x' f' /\ is_vec n y' g' /\
    is_vec n t' (fun i => sc_add O (sc_mul O c (f' i)) (sc_mul O e (g' i))).
Proof. exact @sweep_lin. Qed.
Print Assumptions C132_superposition.

(** The same after any number of sweeps of each solver. *)
Theorem C132_iterates : forall {S} (O : sops S) (opp inv : S -> S) dbg stray,
  field_theory (sc_zero O) (sc_one O) (sc_add O) (sc_mul O) (sc_sub O) opp (sc_div O) inv eq ->
  forall m n a A b h b' k b'' c e, sparse_square (sc_zero O) n a A ->
  (forall i, i < n -> A i i <> sc_zero O) -> is_vec n b h -> is_vec n b' k ->
  is_vec n b'' (fun i => sc_add O (sc_mul O c (h i)) (sc_mul O e (k i))) ->
  forall x f y g t u u' u'', is_vec n x f -> is_vec n y g ->
  is_vec n t (fun i => sc_add O (sc_mul O c (f i)) (sc_mul O e (g i))) ->
  length u = n -> length u' = n -> length u'' = n ->
  forall q, exists x' f' y' g' t', iterate O dbg stray m q a u x b = Ok x' /\ iterate O dbg stray m q a u' y b' = Ok y' /\
    iterate O dbg stray m q a u'' t b'' = Ok t' /\ is_vec n x' f' /\ is_vec n y' g' /\
    is_vec n t' (fun i => sc_add O (sc_mul O c (f' i)) (sc_mul O e (g' i))).
Proof. exact @iterate_lin. Qed.
Print Assumptions C132_iterates.

(** Equations multiplied by any factors that are not zero and unknowns measured in other units. *)
Theorem C132_scaled : forall {S} (O : sops S) (opp inv : S -> S) dbg stray,
  field_theory (sc_zero O) (sc_one O) (sc_add O) (sc_mul O) (sc_sub O) opp (sc_div O) inv eq ->
  forall n a A a' A' b h b' h' r c back other u u' x f x' f' w,
  sparse_square (sc_zero O) n a A -> sparse_square (sc_zero O) n a' A' -> is_vec n b h -> is_vec n b' h' ->
  is_vec n x f -> is_vec n x' f' -> length u = n -> length u' = n ->
  (forall i, i < n -> A i i <> sc_zero O /\ r i <> sc_zero O /\ c i <> sc_zero O) ->
  (forall i j, i < n -> j < n -> A' i j = sc_mul O (sc_mul O (r i) (A i j)) (c j)) ->
  (forall i, i < n -> h' i = sc_mul O (r i) (h i)) -> (forall i, i < n -> f i = sc_mul O (c i) (f' i)) ->
  exists y z y' z', sweep O dbg stray back other a u x b w = Ok y /\ sweep O dbg stray back other a' u' x' b' w = Ok y' /\
    is_vec n y z /\ is_vec n y' z' /\ forall i, i < n -> z i = sc_mul O (c i) (z' i).
Proof. exact @sweep_scaled. Qed.
Print Assumptions C132_scaled.

(** A solve whose start is moved by [d] and whose constant vector by the product of the matrix with [d] takes the same course: the
    same outcome, the same convergence data, and the solution moved by [d]. *)
Theorem C132_moved_solve : forall {S} (O : sops S) (opp inv : S -> S) dbg stray,
  field_theory (sc_zero O) (sc_one O) (sc_add O) (sc_mul O) (sc_sub O) opp (sc_div O) inv eq ->
  forall M m n a A b h b' d lim fuel x f x' u u', sparse_square (sc_zero O) n a A -> (forall i, i < n -> A i i <> sc_zero O) ->
  is_vec n b h ->
  is_vec n b' (fun i => sc_add O (h i) (asum (sc_zero O) (sc_add O) n (fun j => sc_mul O (A i j) (d j)))) ->
  is_vec n x f -> is_vec n x' (fun i => sc_add O (f i) (d i)) ->
  both (fun r r' => snd r' = snd r /\ exists z, is_vec n (fst r) z /\ is_vec n (fst r') (fun i => sc_add O (z i) (d i)))
    (run_method O M dbg stray m fuel lim a u x b) (run_method O M dbg stray m fuel lim a u' x' b').
Proof. exact @solve_shift. Qed.
Print Assumptions C132_moved_solve.

(** Whether the iterates converge to a solution depends on the first error only, not on the constant vector. *)
Theorem C132_constant_vector : forall dbg stray m n a A b h x f e xs, sparse_square 0%R n a A -> (forall i, i < n -> A i i <> 0%R) ->
  is_vec n b h -> is_vec n x f -> solves rops n A xs h -> is_vec n e (fun i => (f i - xs i)%R) ->
  (tends dbg stray m n a b x xs <-> tends dbg stray m n a (zeros n) e (fun _ => 0%R)).
Proof. exact tends_rhs. Qed.
Print Assumptions C132_constant_vector.

(** Solvers that converge from the [n] unit vectors on the system with constant vector zero converge on every system with this
    matrix that has a solution, from every start, and there is only that solution. *)
Theorem C132_unit_vectors : forall dbg stray m n a A, sparse_square 0%R n a A -> (forall i, i < n -> A i i <> 0%R) ->
  (forall k, k < n -> tends dbg stray m n a (zeros n) (unit_vector n k) (fun _ => 0%R)) ->
  forall b h x xs, is_vec n b h -> length x = n -> solves rops n A xs h ->
    tends dbg stray m n a b x xs /\ forall ys, solves rops n A ys h -> forall i, i < n -> ys i = xs i.
Proof. exact tends_units. Qed.
Print Assumptions C132_unit_vectors.

(** 4 x + y = 1, 2 x + 3 y = 2 from (0, 0), and the system moved by (1, 1); the sweeps of the solvers, and a matrix that meets the
    hypothesis on the unit vectors. *)
Example C132_hypotheses :
  (let A := fun i j => lookup (q 0) (nth i (two_rows (q 4) (q 1) (q 2) (q 3)) []) j in
   sparse_square (q 0) 2 (two (q 4) (q 1) (q 2) (q 3)) A /\ (forall i, i < 2 -> A i i <> q 0) /\
   is_vec 2 [q 6; q 7] (fun i => sc_add qops (nth i [q 1; q 2] (q 0))
     (asum (q 0) (sc_add qops) 2 (fun j => sc_mul qops (A i j) (q 1))))) /\
  (exists z, sweep qops true None false false (two (q 4) (q 1) (q 2) (q 3)) [] [q 0; q 0] [q 1; q 2] (q 1) = Ok z /\
     map this z = [1 # 4; 1 # 2]%Q) /\
  (exists z, sweep qops true None false false (two (q 4) (q 1) (q 2) (q 3)) [] [q 1; q 1] [q 6; q 7] (q 1) = Ok z /\
     map this z = [5 # 4; 3 # 2]%Q) /\
  (exists z, sweep qops true None true false (two (q 4) (q 1) (q 2) (q 3)) [] [q 0; q 0] [q 1; q 2] (q 1) = Ok z /\
     map this z = [1 # 12; 2 # 3]%Q) /\
  (let A := fun i j => lookup 0%R (nth i (two_rows 4 1 2 3)%R []) j in
   sparse_square 0%R 2 (two 4 1 2 3)%R A /\ (forall i, i < 2 -> A i i <> 0%R) /\
   (forall k, k < 2 -> tends true None Jacobi 2 (two 4 1 2 3)%R (zeros 2) (unit_vector 2 k) (fun _ => 0%R)) /\
   solves rops 2 A (fun i => if i =? 0 then (1 / 10)%R else (3 / 5)%R) (fun i => if i =? 0 then 1%R else 2%R)).
Proof.
  split; [|split; [|split; [|split]]].
  - cbv zeta. split; [apply two_square|]. split.
    + intros [|[|i]] Hi; try lia; discriminate.
    + split; [reflexivity|]. intros [|[|i]] Hi; try lia; cbn [nth_error]; f_equal; apply Qc_is_canon; vm_compute; reflexivity.
  - eexists. split; [vm_compute; reflexivity|]. vm_compute. reflexivity.
  - eexists. split; [vm_compute; reflexivity|]. vm_compute. reflexivity.
  - eexists. split; [vm_compute; reflexivity|]. vm_compute. reflexivity.
  - cbv zeta. split; [apply two_square|]. split; [|split].
    + intros [|[|i]] Hi; try lia; cbn; lra.
    + intros k Hk. eapply dominant_units; [apply two_square|apply two_dominant|exact Hk].
    + intros [|[|i]] Hi; try lia; cbn; lra.
Qed.
