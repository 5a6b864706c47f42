(** Property C121: sweeps that keep the order of vectors, in double precision.
    [signs a]: finite entries, positive on the diagonal and not positive beside it. [valid_vec n x]: [n] doubles;
    [fin_vec n x]: finite ones; [le_vec n x y]: no element of [x] is larger than that of [y]; [inside n x z y]: where
    [x] and [y] are finite, [z] is finite and between them. [step_of]: one step of Gauss-Seidel or of Jacobi. *)
From Coq Require Import ZArith Reals Lra Lia List SpecFloat.
From Verif Require Import Base DenseModel DenseFacts ScalarModel GeometryReal SparseModel SparseSpec IterModel IterFacts
  IterLoop IterField FloatFacts PropIterLemmas OrderFacts PropOrderLemmas.
Import ListNotations.
Local Open Scope R_scope.

(** ** C121 *)

Theorem C121_sweep : forall back apart dbg stray n a b1 b2 b3 x z y u v t w,
  square_system n a b1 -> signs a -> f_valid w /\ f_finite w = true /\ 0 <= f_real w <= 1 ->
  valid_vec n b1 -> valid_vec n b2 -> valid_vec n b3 -> inside n b1 b2 b3 ->
  valid_vec n x -> valid_vec n z -> valid_vec n y -> inside n x z y ->
  length u = n -> length v = n -> length t = n ->
  exists x' z' y', sweep_of back apart dbg stray a x u b1 w = Ok x' /\ sweep_of back apart dbg stray a z v b2 w = Ok z' /\
    sweep_of back apart dbg stray a y t b3 w = Ok y' /\
    valid_vec n x' /\ valid_vec n z' /\ valid_vec n y' /\ inside n x' z' y'.
Proof. exact sweep_inside. Qed.
Print Assumptions C121_sweep.

Theorem C121_order : forall seidel dbg stray n a b1 b2 b3 x z y u v t k, square_system n a b1 -> signs a ->
  valid_vec n b1 -> valid_vec n b2 -> valid_vec n b3 -> inside n b1 b2 b3 ->
  valid_vec n x -> valid_vec n z -> valid_vec n y -> inside n x z y ->
  (seidel = false -> length u = n /\ length v = n /\ length t = n) ->
  exists x' z' y' u' v' t', times (step_of fops seidel dbg stray a b1) k (x, u) = Ok (x', u') /\
    times (step_of fops seidel dbg stray a b2) k (z, v) = Ok (z', v') /\
    times (step_of fops seidel dbg stray a b3) k (y, t) = Ok (y', t') /\
    valid_vec n x' /\ valid_vec n z' /\ valid_vec n y' /\ inside n x' z' y'.
Proof. exact steps_inside. Qed.
Print Assumptions C121_order.

Theorem C121_sign : forall seidel dbg stray n a b x u k, square_system n a b -> signs a -> valid_vec n b -> valid_vec n x ->
  (seidel = false -> length u = n) ->
  exists x' u', times (step_of fops seidel dbg stray a b) k (x, u) = Ok (x', u') /\ valid_vec n x' /\
    (not_negative n b -> not_negative n x -> not_negative n x') /\
    (not_positive n b -> not_positive n x -> not_positive n x').
Proof. exact steps_sign. Qed.
Print Assumptions C121_sign.

(** A run that rises at first rises for ever, one that falls at first falls for ever; also without a vector on the other side. *)
Theorem C121_rising : forall seidel dbg stray n a b, square_system n a b -> signs a -> valid_vec n b ->
  forall x u x1 u1 k, valid_vec n x -> valid_vec n x1 -> (seidel = false -> length u = n) ->
    step_of fops seidel dbg stray a b (x, u) = Ok (x1, u1) ->
    (forall i, (i < n)%nat -> f_finite (at_ x i) = true -> f_finite (at_ x1 i) = true -> f_real (at_ x i) <= f_real (at_ x1 i)) ->
    exists y z v w, times (step_of fops seidel dbg stray a b) k (x, u) = Ok (y, v) /\
      times (step_of fops seidel dbg stray a b) (S k) (x, u) = Ok (z, w) /\ valid_vec n y /\ valid_vec n z /\
      forall i, (i < n)%nat -> f_finite (at_ y i) = true -> f_finite (at_ z i) = true -> f_real (at_ y i) <= f_real (at_ z i).
Proof. exact rising. Qed.
Print Assumptions C121_rising.

Theorem C121_falling : forall seidel dbg stray n a b, square_system n a b -> signs a -> valid_vec n b ->
  forall x u x1 u1 k, valid_vec n x -> valid_vec n x1 -> (seidel = false -> length u = n) ->
    step_of fops seidel dbg stray a b (x, u) = Ok (x1, u1) ->
    (forall i, (i < n)%nat -> f_finite (at_ x i) = true -> f_finite (at_ x1 i) = true -> f_real (at_ x1 i) <= f_real (at_ x i)) ->
    exists y z v w, times (step_of fops seidel dbg stray a b) k (x, u) = Ok (y, v) /\
      times (step_of fops seidel dbg stray a b) (S k) (x, u) = Ok (z, w) /\ valid_vec n y /\ valid_vec n z /\
      forall i, (i < n)%nat -> f_finite (at_ y i) = true -> f_finite (at_ z i) = true -> f_real (at_ z i) <= f_real (at_ y i).
Proof. exact falling. Qed.
Print Assumptions C121_falling.

(** From a vector raised by a step and one above it lowered by a step: the two runs close in on each other, and every run
    from between them stays between them. *)
Theorem C121_enclosure : forall seidel dbg stray n a b, square_system n a b -> signs a -> valid_vec n b ->
  forall x u x1 u1 y t y1 t1, fin_vec n x -> fin_vec n y -> le_vec n x y ->
    (seidel = false -> length u = n /\ length t = n) ->
    step_of fops seidel dbg stray a b (x, u) = Ok (x1, u1) -> step_of fops seidel dbg stray a b (y, t) = Ok (y1, t1) ->
    fin_vec n x1 -> fin_vec n y1 -> le_vec n x x1 -> le_vec n y1 y ->
  forall z v k, fin_vec n z -> le_vec n x z -> le_vec n z y -> (seidel = false -> length v = n) ->
    exists x' z' y' x'' y'' u' v' t' u'' t'',
      times (step_of fops seidel dbg stray a b) k (x, u) = Ok (x', u') /\
      times (step_of fops seidel dbg stray a b) k (z, v) = Ok (z', v') /\
      times (step_of fops seidel dbg stray a b) k (y, t) = Ok (y', t') /\
      times (step_of fops seidel dbg stray a b) (S k) (x, u) = Ok (x'', u'') /\
      times (step_of fops seidel dbg stray a b) (S k) (y, t) = Ok (y'', t'') /\
      fin_vec n x' /\ fin_vec n z' /\ fin_vec n y' /\ fin_vec n x'' /\ fin_vec n y'' /\
      le_vec n x x' /\ le_vec n x' x'' /\ le_vec n x' z' /\ le_vec n z' y' /\ le_vec n y'' y' /\ le_vec n y' y.
Proof. exact enclosed. Qed.
Print Assumptions C121_enclosure.

(** The two runs stop changing. *)
Theorem C121_settle : forall seidel dbg stray n a b, square_system n a b -> signs a -> valid_vec n b ->
  forall x u x1 u1 y t y1 t1, fin_vec n x -> fin_vec n y -> le_vec n x y ->
    (seidel = false -> length u = n /\ length t = n) ->
    step_of fops seidel dbg stray a b (x, u) = Ok (x1, u1) -> step_of fops seidel dbg stray a b (y, t) = Ok (y1, t1) ->
    fin_vec n x1 -> fin_vec n y1 -> le_vec n x x1 -> le_vec n y1 y ->
  exists K, forall k, (K <= k)%nat -> exists x' xK y' yK u' uK t' tK,
    times (step_of fops seidel dbg stray a b) k (x, u) = Ok (x', u') /\
    times (step_of fops seidel dbg stray a b) K (x, u) = Ok (xK, uK) /\ same_vec n x' xK /\ fin_vec n xK /\
    times (step_of fops seidel dbg stray a b) k (y, t) = Ok (y', t') /\
    times (step_of fops seidel dbg stray a b) K (y, t) = Ok (yK, tK) /\ same_vec n y' yK /\ fin_vec n yK.
Proof. exact settle. Qed.
Print Assumptions C121_settle.

(** What solve_system returns. *)
Theorem C121_solve : forall seidel dbg stray n a b, square_system n a b -> signs a -> valid_vec n b ->
  forall x u x1 u1 y t y1 t1, fin_vec n x -> fin_vec n y -> (seidel = false -> length u = n /\ length t = n) ->
    step_of fops seidel dbg stray a b (x, u) = Ok (x1, u1) -> step_of fops seidel dbg stray a b (y, t) = Ok (y1, t1) ->
    fin_vec n x1 -> fin_vec n y1 -> le_vec n x x1 -> le_vec n y1 y ->
  forall M fuel lim w z, fin_vec n z -> le_vec n x z -> le_vec n z y ->
    (dbg = true -> n <> 0%nat) -> (min_iterations lim <= M)%nat -> (max_iteration lim < M)%nat -> (sweep_bound lim < fuel)%nat ->
    exists z', solve_of seidel dbg stray a b M fuel lim w z = Ok z' /\ fin_vec n z' /\ le_vec n x z' /\ le_vec n z' y.
Proof. exact solve_inside. Qed.
Print Assumptions C121_solve.

(** In exact arithmetic the runs from below and above a solution stay there. *)
Theorem C121_exact : forall seidel dbg stray n a A b xs, sparse_square 0 n a A -> length b = n ->
  (forall i, (i < n)%nat -> 0 < A i i) ->
  (forall i j, (i < n)%nat -> (j < n)%nat -> i <> j -> A i j <= 0) -> length xs = n ->
  (forall i, (i < n)%nat -> asum 0 Rplus n (fun j => A i j * nth j xs 0) = nth i b 0) ->
  forall x u y t k, length x = n -> length y = n -> (seidel = false -> length u = n /\ length t = n) ->
  (forall i, (i < n)%nat -> nth i x 0 <= nth i xs 0 <= nth i y 0) ->
  exists x' y' u' t', times (step_of rops seidel dbg stray a b) k (x, u) = Ok (x', u') /\
    times (step_of rops seidel dbg stray a b) k (y, t) = Ok (y', t') /\ length x' = n /\ length y' = n /\
    forall i, (i < n)%nat -> nth i x' 0 <= nth i xs 0 <= nth i y' 0.
Proof. exact exact_enclosure. Qed.
Print Assumptions C121_exact.

(** Gauss-Seidel is never behind Jacobi: from a vector raised and one lowered by a sweep of Jacobi, every run of Gauss-Seidel
    from between them, or from one of them, stays between the two runs of Jacobi. *)
Theorem C121_seidel_in_jacobi : forall dbg stray n a b, square_system n a b -> signs a -> valid_vec n b ->
  forall x u x1 u1 y t y1 t1, fin_vec n x -> fin_vec n y -> length u = n -> length t = n ->
    jacobi_step fops dbg stray a b (x, u) = Ok (x1, u1) -> jacobi_step fops dbg stray a b (y, t) = Ok (y1, t1) ->
    fin_vec n x1 -> fin_vec n y1 -> le_vec n x x1 -> le_vec n y1 y ->
  forall z v k, fin_vec n z -> le_vec n x z -> le_vec n z y ->
    exists x' z' y' u' t', times (jacobi_step fops dbg stray a b) k (x, u) = Ok (x', u') /\
      times (gauss_seidel_step fops dbg stray a b) k (z, v) = Ok (z', v) /\
      times (jacobi_step fops dbg stray a b) k (y, t) = Ok (y', t') /\
      fin_vec n x' /\ fin_vec n z' /\ fin_vec n y' /\ le_vec n x' z' /\ le_vec n z' y'.
Proof. exact seidel_in_jacobi. Qed.
Print Assumptions C121_seidel_in_jacobi.

(** 2 x - y = 1, - x + 2 y = 1: from (0, 0) to (1/2, 1/2), from (2, 2) to (3/2, 3/2). *)
Example C121_hypotheses : square_system 2 lap lap_b /\ signs lap /\ fin_vec 2 lap_b /\ fin_vec 2 lap_lo /\ fin_vec 2 lap_hi /\
  le_vec 2 lap_lo lap_hi /\
  exists x1 u1 y1 t1, step_of fops false true None lap lap_b (lap_lo, lap_lo) = Ok (x1, u1) /\
    step_of fops false true None lap lap_b (lap_hi, lap_lo) = Ok (y1, t1) /\
    fin_vec 2 x1 /\ fin_vec 2 y1 /\ le_vec 2 lap_lo x1 /\ le_vec 2 y1 lap_hi /\ ~ same_vec 2 lap_lo x1.
Proof.
  split; [apply two_system|]. split; [exact lap_signs|]. split; [apply (fin_check_ok lap_b); reflexivity|].
  split; [apply (fin_check_ok lap_lo); reflexivity|]. split; [apply (fin_check_ok lap_hi); reflexivity|].
  split; [apply (le_check_ok lap_lo); vm_compute; reflexivity|].
  eexists _, _, _, _. split; [vm_compute; reflexivity|]. split; [vm_compute; reflexivity|].
  split; [refine (fin_check_ok _ _); vm_compute; reflexivity|]. split; [refine (fin_check_ok _ _); vm_compute; reflexivity|].
  split; [apply (le_check_ok lap_lo); vm_compute; reflexivity|].
  split; [match goal with |- le_vec _ ?x ?y => apply (le_check_ok x y) end; vm_compute; reflexivity|].
  intro H. specialize (H 0%nat ltac:(lia)). cbn [at_ nth lap_lo fz] in H.
  apply (f_equal (fun r => r * Flocq.Core.Raux.bpow Flocq.Core.Zaux.radix2 1074)) in H.
  rewrite !grid_real in H by reflexivity. apply eq_IZR in H. vm_compute in H. discriminate.
Qed.

(** The factor 3/2 of SOR is not between 0 and 1: it takes (1, 0), with b = 0, to a vector with a negative element. *)
Example C121_sor : exists x1 w1, sor_step fops true None lap [fz 0; fz 0] ([fz 1; fz 0], []) = Ok (x1, w1) /\
  (grid (at_ x1 0) < 0)%Z.
Proof. eexists _, _. split; vm_compute; reflexivity. Qed.
