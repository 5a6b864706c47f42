(** Property C119: solving a system and the same system with signs changed or scaled. [both Q r r']: both calls fail in the same way,
    or both return and [Q] relates the results. [near false x y]: the same double up to the sign of zeros; [near true x y]: the
    opposite double up to the sign of zeros. [turned_matrix s m]: every stored value of [m] with its sign changed when [s].
    [near_run t]: the unknowns are [near t] and all convergence data are equal. *)
From Coq Require Import SpecFloat ZArith Reals.
From Verif Require Import Base DenseModel ScalarModel SparseModel LuModel IterModel GeometryReal PropOddLemmas.
Local Open Scope nat_scope.

(** ** C119: in doubles, changing the signs of the matrix ([s]), of the unknowns ([t]) and of the right-hand side accordingly
    changes the signs of the result and nothing else; with both false: signs of zeros in the data do not matter. *)
Theorem C119_sparse : forall M dbg stray s t fuel v v' m x x' b b', near_solver t v v' -> Forall2 (near t) x x' ->
  Forall2 (near (xorb s t)) b b' ->
  both (fun r r' => near_solver t (fst (fst r)) (fst (fst r')) /\ near_run t (snd (fst r), snd r) (snd (fst r'), snd r'))
    (solve_sparse fops M dbg stray fuel v m x b) (solve_sparse fops M dbg stray fuel v' (turned_matrix s m) x' b').
Proof. exact near_sparse. Qed.
Print Assumptions C119_sparse.

(** The direct solvers, also when the right-hand side is the solution vector itself ([None]). *)
Theorem C119_dense : forall dbg t v x x' b b', Forall2 (near t) x x' ->
  match b, b' with Some y, Some y' => Forall2 (near t) y y' | None, None => True | _, _ => False end ->
  both (fun r r' => fst (fst r) = fst (fst r') /\ near_run t (snd (fst r), snd r) (snd (fst r'), snd r'))
    (solve_dense fops dbg v x b) (solve_dense fops dbg v x' b').
Proof. exact near_dense. Qed.
Print Assumptions C119_dense.

(** In exact arithmetic the matrix scaled by [al] and the unknowns by [xi]: the results are scaled, the number of iterations and the
    normalised residuals are the same. *)
Theorem C119_scaled_gauss_seidel : forall M dbg stray al xi, al <> 0%R -> xi <> 0%R -> forall fuel lim m x b,
  both (scaled_run xi) (gauss_seidel_solve rops M dbg stray fuel lim m x b)
    (gauss_seidel_solve rops M dbg stray fuel lim (scaled_matrix al m) (map (Rmult xi) x) (map (Rmult (al * xi)) b)).
Proof. exact scaled_gauss_seidel. Qed.
Print Assumptions C119_scaled_gauss_seidel.

Theorem C119_scaled_sor : forall M dbg stray al xi, al <> 0%R -> xi <> 0%R -> forall fuel lim w m x b,
  both (scaled_run xi) (sor_solve rops M dbg stray fuel lim w m x b)
    (sor_solve rops M dbg stray fuel lim w (scaled_matrix al m) (map (Rmult xi) x) (map (Rmult (al * xi)) b)).
Proof. exact scaled_sor. Qed.
Print Assumptions C119_scaled_sor.

Theorem C119_scaled_jacobi : forall M dbg stray al xi, al <> 0%R -> xi <> 0%R -> forall fuel lim w m x b,
  both (fun r r' => snd (fst r') = map (Rmult xi) (snd (fst r)) /\ scaled_run xi (fst (fst r), snd r) (fst (fst r'), snd r'))
    (jacobi_solve rops M dbg stray fuel lim w m x b)
    (jacobi_solve rops M dbg stray fuel lim (map (Rmult xi) w) (scaled_matrix al m) (map (Rmult xi) x) (map (Rmult (al * xi)) b)).
Proof. exact scaled_jacobi. Qed.
Print Assumptions C119_scaled_jacobi.

Theorem C119_scaled_direct : forall dbg pivot (c : R) st x b,
  both (fun r r' => fst r' = map (Rmult c) (fst r) /\ snd r = snd r') (lu_solve rops dbg pivot st x (Some b))
    (lu_solve rops dbg pivot st (map (Rmult c) x) (Some (map (Rmult c) b))).
Proof. exact scaled_lu. Qed.
Print Assumptions C119_scaled_direct.

(** 4 x + y = 1, x + 4 y = 2 and its opposite in doubles; the solves return. In one unknown with the right-hand sides 0 and -0 the
    result is 0 both times, so opposite results can be asked for only up to the sign of zeros. *)
Example C119_hypotheses :
  let m := mkS [0; 2; 4] [0; 1; 0; 1] [f_of_Z 4; f_of_Z 1; f_of_Z 1; f_of_Z 4] 2 in
  let lim := mkLimits 0 3 (f_of_Z 0) in
  near_solver true (SolverGaussSeidel lim) (SolverGaussSeidel lim) /\
  near_solver true (SolverJacobi lim [f_of_Z 1]) (SolverJacobi lim [f_of_Z (-1)]) /\
  Forall2 (near true) [f_of_Z 1; f_of_Z 2] [f_of_Z (-1); f_of_Z (-2)] /\
  Forall2 (near false) [S754_zero false; f_of_Z 2] [S754_zero true; f_of_Z 2] /\
  turned_matrix true m = mkS [0; 2; 4] [0; 1; 0; 1] [f_of_Z (-4); f_of_Z (-1); f_of_Z (-1); f_of_Z (-4)] 2 /\
  (exists r, solve_sparse fops 100 true None 10 (SolverGaussSeidel lim) m [f_of_Z 0; f_of_Z 0] [f_of_Z 1; f_of_Z 2] = Ok r /\
     cd_iteration (snd r) = 4) /\
  (exists r, solve_sparse fops 100 true None 10 (SolverJacobi lim [f_of_Z 1]) m [f_of_Z 0; f_of_Z 0] [f_of_Z 1; f_of_Z 2] = Ok r /\
     cd_iteration (snd r) = 4) /\
  (forall p, gauss_seidel_step fops true None (mkS [0; 1] [0] [f_of_Z 1] 1) [S754_zero p] ([f_of_Z 3], []) =
     Ok ([S754_zero false], [])).
Proof.
  cbv zeta. split; [reflexivity|]. split; [split; [reflexivity|repeat constructor]|].
  split; [repeat constructor|]. split; [constructor; [right; eauto|repeat constructor]|].
  split; [reflexivity|]. split; [eexists; split; [vm_compute; reflexivity|reflexivity]|].
  split; [eexists; split; [vm_compute; reflexivity|reflexivity]|]. intros p. destruct p; vm_compute; reflexivity.
Qed.
