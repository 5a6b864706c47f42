(** C103: the iterative solvers called with the constant vector as the unknown. *)
From Coq Require Import Reals Lra ZArith QArith Qcanon.
From Verif Require Import Base ScalarModel SparseModel LuModel IterModel GeometryReal PropLuLemmas InPlaceModel PropInPlaceLemmas.
Local Open Scope nat_scope.

(** Full statement: solve_system(a, b, b) leaves in b what solve_system(a, x, b) leaves in x, started from x = b.
    It holds for the first sweep of each solver, over any scalars (doubles included). Missing: all further sweeps; see
    the refutation below. *)
Theorem C103_first_sweep_partial {S} (O : sops S) dbg stray a b s :
  own_jacobi_step O dbg stray a (b, s) = jacobi_step O dbg stray a b (b, s) /\
  own_gauss_seidel_step O dbg stray a (b, s) = gauss_seidel_step O dbg stray a b (b, s) /\
  own_sor_step O dbg stray a (b, s) = sor_step O dbg stray a b (b, s).
Proof. exact (own_steps O dbg stray a b s). Qed.
Print Assumptions C103_first_sweep_partial.

Example C103_first_sweep_example :
  match own_gauss_seidel_step qops true None (mkS [0; 2; 4] [0; 1; 0; 1] [q 2; q 1; q 1; q 4] 2) ([q 4; q 6], []) with
  | Ok (x, _) => map this x = map this [q (-1); Q2Qc (7 # 4)]
  | _ => False
  end.
Proof. vm_compute. reflexivity. Qed.

(** Refuted: for one equation d x = b with |d| > 1 every run with a tolerance below one that may make two sweeps ends,
    by its own account converged or out of sweeps, in b / d^K with K >= 2, which is no solution. *)
Theorem C103_gauss_seidel_refuted M dbg stray lim b d : b <> 0%R -> (tolerance lim < 1)%R ->
  1 <= max_iteration lim < M -> min_iterations lim <= max_iteration lim -> (1 < Rabs d)%R ->
  wrong lim d b (1 / d + (1 - 1)) (own_gauss_seidel rops M dbg stray (max_iteration lim + 2) lim (one d) [b]).
Proof. exact (fun H1 H2 H3 H4 => own_gauss_seidel_wrong M dbg stray lim b H1 H2 H3 H4 d). Qed.
Print Assumptions C103_gauss_seidel_refuted.

Theorem C103_jacobi_refuted M dbg stray lim b d w : b <> 0%R -> (tolerance lim < 1)%R ->
  1 <= max_iteration lim < M -> min_iterations lim <= max_iteration lim -> (1 < Rabs d)%R ->
  wrong lim d b (1 / d + (1 - 1)) (own_jacobi rops M dbg stray (max_iteration lim + 2) lim w (one d) [b]).
Proof. exact (fun H1 H2 H3 H4 => own_jacobi_wrong M dbg stray lim b H1 H2 H3 H4 d w). Qed.
Print Assumptions C103_jacobi_refuted.

(** Refuted for successive over relaxation by 2 x = b. *)
Theorem C103_sor_refuted M dbg stray lim b : b <> 0%R -> (tolerance lim < 1)%R ->
  1 <= max_iteration lim < M -> min_iterations lim <= max_iteration lim ->
  wrong lim 2 b (/ 4) (own_sor rops M dbg stray (max_iteration lim + 2) lim (one 2) [b]).
Proof. exact (own_sor_wrong M dbg stray lim b). Qed.
Print Assumptions C103_sor_refuted.

Example C103_refuted_example : let lim := mkLimits 0 100 (/ 1000)%R in
  (3 <> 0)%R /\ (tolerance lim < 1)%R /\ (1 <= max_iteration lim < 200) /\ min_iterations lim <= max_iteration lim /\
  (1 < Rabs (-5))%R.
Proof. cbn. repeat split; try lra; try lia. rewrite Rabs_left; lra. Qed.
