(** Property C150: the class Laplace_2D of the library's tests, which fills a matrix and two vectors it is given.
    [rim N n i]: node [i] of [N] in rows of [n] is the first or the last of its row, or among the first or the last [n];
    [beside n i j]: [j] is one of the four neighbours of [i]; [five_points N u]: at the nodes of the rim [u] is the function
    [true_u] (see C147), and inside the five point difference of [u] is minus the Laplacian of [true_u], the rows being of
    [Nat.sqrt N] nodes. *)
From Coq Require Import ZArith Reals Lra Lia List SpecFloat.
From Verif Require Import Base DenseModel DenseFacts ScalarModel GeometryReal SparseModel SparseSpec LuModel IterModel IterLoop IterField
  PropIterLemmas PropRelaxLemmas FloatFacts SourceError SourceSolved LaplaceModel LaplaceFacts LaplaceReal StopReal LaplaceSolved.
Import ListNotations.
Local Open Scope R_scope.

(** ** C150 *)

(** Whatever a sparse matrix held: the equations are the five point equations, also when the number of nodes is no square. *)
Theorem C150_sparse : forall M dbg stray N a A0 b x, (9 <= N)%nat -> sparse_square 0 N a A0 -> length b = N -> length x = N ->
  exists a' A b' g x', construct_sparse rops M dbg stray a b x = Ok (a', b', x') /\ sparse_square 0 N a' A /\ is_vec N b' g /\
    (forall u, (forall i, (i < N)%nat -> rsum N (fun j => A i j * u j) = g i) <-> five_points N u) /\
    is_vec N x' (fun i => let n := Nat.sqrt N in true_u (INR (i mod n) * spacing n) (INR (i / n) * spacing n)).
Proof. exact laplace_sparse. Qed.
Print Assumptions C150_sparse.

(** The same of a dense matrix. *)
Theorem C150_dense : forall dbg N a A0 b x, (9 <= N)%nat -> is_mat N N a A0 -> length b = N -> length x = N ->
  exists a' A b' g x', construct_dense rops dbg a b x = Ok (a', b', x') /\ is_mat N N a' A /\ is_vec N b' g /\
    (forall u, (forall i, (i < N)%nat -> rsum N (fun j => A i j * u j) = g i) <-> five_points N u) /\
    is_vec N x' (fun i => let n := Nat.sqrt N in true_u (INR (i mod n) * spacing n) (INR (i / n) * spacing n)).
Proof. exact laplace_dense. Qed.
Print Assumptions C150_dense.

(** On a square number of nodes they are the equations of C147. *)
Theorem C150_square : forall n u, (3 <= n)%nat -> five_points (n * n) u <-> discretised n u.
Proof. exact five_points_square. Qed.
Print Assumptions C150_square.

(** Their solution on any number of nodes: at most an eighth of the square of the spacing above the function, and at most 45/64 of it
    below (on a square number of nodes it is nowhere below: C147). *)
Theorem C150_error : forall N, (9 <= N)%nat -> let n := Nat.sqrt N in let h := spacing n in forall u, five_points N u -> forall i, (i < N)%nat ->
  let s := INR (i mod n) * h in let t := INR (i / n) * h in let e := u i - true_u s t in
  - (45 / 8) * (h ^ 2 * (s * (1 - s) / 2)) <= e <= h ^ 2 * (s * (1 - s) / 2) /\ - (45 / 64) * h ^ 2 <= e <= h ^ 2 / 8.
Proof. exact five_points_error. Qed.
Print Assumptions C150_error.

(** There is exactly one solution; Jacobi and Gauss-Seidel come as near to it as wanted from every start, and meet every tolerance
    ([solver_stops]: see C149). *)
Theorem C150_solved : forall M dbg stray N a A0 b x, (9 <= N)%nat -> sparse_square 0 N a A0 -> length b = N -> length x = N ->
  exists a' A b' g us, (exists x', construct_sparse rops M dbg stray a b x = Ok (a', b', x')) /\ sparse_square 0 N a' A /\ is_vec N b' g /\
  five_points N us /\ (forall vs, five_points N vs -> forall i, (i < N)%nat -> vs i = us i) /\
  forall y, length y = N ->
    (forall eps, 0 < eps -> exists K, forall k, (K <= k)%nat ->
      (forall w, length w = N -> exists y' w' f, times (jacobi_step rops dbg stray a' b') k (y, w) = Ok (y', w') /\ is_vec N y' f /\ near N f us eps) /\
      (exists y' f, times (gauss_seidel_step rops dbg stray a' b') k (y, []) = Ok (y', []) /\ is_vec N y' f /\ near N f us eps)) /\
    forall tol, 0 < tol ->
      (forall working, solver_stops M N A g tol (jacobi_step rops dbg stray a' b' (y, vresize working N 0))
         (fun lim fuel => do r <- jacobi_solve rops M dbg stray fuel lim working a' y b'; Ok (fst (fst r), snd r))) /\
      solver_stops M N A g tol (gauss_seidel_step rops dbg stray a' b' (y, [])) (fun lim fuel => gauss_seidel_solve rops M dbg stray fuel lim a' y b').
Proof. exact laplace_solved. Qed.
Print Assumptions C150_solved.

(** For scalars of any kind: a place that is not written is stored when it was, on the rim with 0, inside with 0 times what it held. *)
Theorem C150_kept : forall (S : Type) (O : sops S) M dbg stray N (a : smat S) b x,
  (9 <= N)%nat -> swf a -> s_rows a = N -> csize a = N -> length b = N -> length x = N ->
  exists a' b' x', construct_sparse O M dbg stray a b x = Ok (a', b', x') /\ swf a' /\ s_rows a' = N /\ csize a' = N /\
    let n := Nat.sqrt N in forall i j v, (i < N)%nat -> j <> i ->
      (rim N n i -> (stored a' i j v <-> v = sc_of_Z O 0 /\ exists w, stored a i j w)) /\
      (~ rim N n i -> ~ beside n i j -> (stored a' i j v <-> exists w, stored a i j w /\ v = sc_mul O w (sc_of_Z O 0))).
Proof. exact @laplace_kept. Qed.
Print Assumptions C150_kept.

(** In full: in doubles the places that are not written are zeros, whatever the matrix held. What is missing: a matrix that held an
    infinity or a NaN. *)
Theorem C150_zeros_partial : forall M dbg stray N (a : smat f64) b x,
  (9 <= N)%nat -> swf a -> s_rows a = N -> csize a = N -> length b = N -> length x = N ->
  (forall i j w, stored a i j w -> f_finite w = true) ->
  exists a' b' x', construct_sparse fops M dbg stray a b x = Ok (a', b', x') /\
    let n := Nat.sqrt N in forall i j v, (i < N)%nat -> j <> i -> rim N n i \/ ~ beside n i j -> stored a' i j v -> exists s, v = S754_zero s.
Proof. exact laplace_zeros. Qed.
Print Assumptions C150_zeros_partial.

(** A matrix that held an infinity in the row of the middle node: that row then holds a NaN. *)
Theorem C150_zeros_refuted : let z := repeat (S754_zero false) 9 in exists a' b' x',
  construct_sparse fops 1000 true None held_infinity z z = Ok (a', b', x') /\ swf held_infinity /\
  exists v, stored a' 4 0 v /\ v = S754_nan.
Proof. exact laplace_previous. Qed.
Print Assumptions C150_zeros_refuted.

(** The description says that a zero initial condition is set. It is not: the start is the function itself. *)
Theorem C150_start_refuted : forall M dbg stray a A0 b x, sparse_square 0 9 a A0 -> length b = 9%nat -> length x = 9%nat ->
  exists a' b' x', construct_sparse rops M dbg stray a b x = Ok (a', b', x') /\ nth_error x' 4 = Some (- 9 / 256).
Proof. exact laplace_start. Qed.
Print Assumptions C150_start_refuted.

(** What a debug build refuses. *)
Theorem C150_refused : forall (S : Type) (O : sops S) M stray (a : smat S) b x,
  s_rows a <> csize a \/ s_rows a <> length b \/ s_rows a <> length x \/ (length b < 9)%nat ->
  construct_sparse O M true stray a b x = Abort.
Proof. exact @laplace_refused. Qed.
Print Assumptions C150_refused.

(** Eleven nodes, in rows of three: a dense matrix of ones is one that may be given; nodes 4 and 7 are inside, the others are the rim.
    A sparse matrix for nine nodes that holds 5 in the row of the middle is another. *)
Example C150_hypotheses : (9 <= 11)%nat /\ is_mat 11 11 (repeat (repeat 1 11) 11) (fun _ _ => 1) /\ Nat.sqrt 11 = 3%nat /\
  (forall i, (i < 11)%nat -> (~ rim 11 3 i <-> i = 4%nat \/ i = 7%nat)) /\ beside 3 7 4 /\ ~ beside 3 7 0 /\
  s_rows held_infinity <> length (@nil f64) /\ sparse_square 0 9 (holding 5) (fun i j => if ((i =? 4) && (j =? 0))%nat%bool then 5 else 0) /\
  swf (holding (f_of_Z 5)) /\ (forall i j w, stored (holding (f_of_Z 5)) i j w -> f_finite w = true) /\ ~ beside 3 4 0 /\ five_points 9 middle.
Proof.
  split; [lia|]. split.
  { split; [reflexivity|]. intros i Hi. exists (repeat 1 11). split; [|split; [reflexivity|]].
    - do 11 (destruct i as [|i]; [reflexivity|]). lia.
    - intros j Hj. do 11 (destruct j as [|j]; [reflexivity|]). lia. }
  split; [reflexivity|]. split.
  { intros i Hi. unfold rim. do 11 (destruct i as [|i]; [cbn; lia|]). lia. }
  split; [unfold beside; lia|]. split; [unfold beside; lia|]. split; [cbn; lia|]. split; [apply holding_square|].
  split; [apply holding_swf|]. split; [|split; [unfold beside; lia|apply (five_points_square 3), middle_discretised; lia]].
  intros i j w H. apply holding_stored in H as (_ & _ & ->). reflexivity.
Qed.
