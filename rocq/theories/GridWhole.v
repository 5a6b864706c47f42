(** More lemmas behind C143: from filling the matrix to the end of the iterations. *)
From Coq Require Import ZArith Reals Lra Lia List SpecFloat Psatz.
From Verif Require Import Base ListFacts Csr DenseModel DenseFacts ScalarModel GeometryReal GraphModel GraphSpec SparseModel SparseSpec
  SparseFacts SparseSeq SparseMul LuModel LuReal IterModel IterFacts IterLoop IterField IterReal FloatFacts FloatError IterFloat
  PropFloatLemmas FloatUnit PropIterLemmas LuSuccess FloatSweep PropSweepLemmas FloatStops FloatSor PropStopLemmas PropSorLemmas Energy EnergyDrift
  FloatDrift PropDefiniteLemmas SymmetricJacobi FloatDefJacobi PropDefiniteJacobiLemmas GraphGen PropRelaxLemmas PropChainLemmas
  ScaledSymmetric FloatGrid GridSetup PropGridLemmas.
Import ListNotations.
Local Open Scope R_scope.

(** The five point equations of a square of n by n unknowns, node (x, y) numbered y * n + x, with zero all around it. *)
Definition poisson (n : nat) (u h : nat -> R) : Prop := forall x y, (x < n)%nat -> (y < n)%nat -> let i := (y * n + x)%nat in
  4 * u i - (if (x =? 0)%nat then 0 else u (i - 1)%nat) - (if (x + 1 =? n)%nat then 0 else u (i + 1)%nat)
  - (if (y =? 0)%nat then 0 else u (i - n)%nat) - (if (y + 1 =? n)%nat then 0 else u (i + n)%nat) = h i.

(** The matrix, with zero outside. *)
Definition setup_matrix (n i j : nat) : f64 :=
  if ((i <? n * n) && (j <? n * n))%nat%bool then setup_entry n i j else S754_zero false.

Lemma entry_real n i j : (2 <= n)%nat -> (i < n * n)%nat -> (j < n * n)%nat -> f_real (setup_matrix n i j) =
  (if (i =? j)%nat then 4 else 0) +
  ((if (i - 1 =? j)%nat then if (i mod n =? 0)%nat then 0 else -1 else 0) +
   ((if (i + 1 =? j)%nat then if ((i + 1) mod n =? 0)%nat then 0 else -1 else 0) +
    ((if (i - n =? j)%nat then if (i <? n)%nat then 0 else -1 else 0) + (if (i + n =? j)%nat then -1 else 0)))).
Proof.
  intros Hn Hi Hj. unfold setup_matrix, setup_entry, touches. apply Nat.ltb_lt in Hi as Hi', Hj as Hj'. rewrite Hi', Hj'. cbn [andb].
  assert (Z0 : i = 0%nat -> (i mod n =? 0)%nat = true) by (intros ->; rewrite Nat.mod_0_l by lia; reflexivity).
  destruct (Nat.eqb_spec i j) as [->|H1].
  - rewrite fz4. destruct (Nat.eqb_spec (j - 1) j) as [E|]; [rewrite Z0 by lia|]; destruct (Nat.eqb_spec (j + 1) j); try lia;
    (destruct (Nat.eqb_spec (j - n) j); [destruct (Nat.ltb_spec j n); try lia|]); destruct (Nat.eqb_spec (j + n) j); try lia; lra.
  - destruct (Nat.eqb_spec (i + n) j) as [<-|H2].
    { rewrite Nat.eqb_refl, Hj'. cbn [andb orb]. rewrite fzm1. destruct (Nat.eqb_spec (i - 1) (i + n)); try lia. destruct (Nat.eqb_spec (i + 1) (i + n)); try lia.
      destruct (Nat.eqb_spec (i - n) (i + n)); try lia. lra. }
    destruct (Nat.eqb_spec j (i + n)); [lia|]. cbn [andb orb].
    destruct (Nat.eqb_spec i (j + n)) as [->|H3].
    { rewrite Bool.orb_true_r, fzm1. destruct (Nat.eqb_spec (j + n - 1) j); try lia. destruct (Nat.eqb_spec (j + n + 1) j); try lia.
      destruct (Nat.eqb_spec (j + n - n) j); try lia. destruct (Nat.ltb_spec (j + n) n); try lia. lra. }
    replace (if (i - n =? j)%nat then if (i <? n)%nat then 0 else -1 else 0) with 0
      by (destruct (Nat.eqb_spec (i - n) j); [destruct (Nat.ltb_spec i n); [reflexivity|lia]|reflexivity]).
    destruct (Nat.eqb_spec i (j + 1)) as [->|H4].
    { destruct (Nat.eqb_spec (j + 1 - 1) j); try lia. destruct (Nat.eqb_spec (j + 1 + 1) j); try lia. destruct (Nat.eqb_spec j (j + 1 + 1)); try lia.
      destruct ((j + 1) mod n =? 0)%nat; cbn [andb orb negb]; [change (f_real (S754_zero false)) with 0|rewrite fzm1]; lra. }
    replace (if (i - 1 =? j)%nat then if (i mod n =? 0)%nat then 0 else -1 else 0) with 0
      by (destruct (Nat.eqb_spec (i - 1) j); [rewrite Z0 by lia; reflexivity|reflexivity]).
    destruct (Nat.eqb_spec j (i + 1)) as [->|H5].
    { rewrite Nat.eqb_refl. destruct ((i + 1) mod n =? 0)%nat; cbn [andb orb negb]; [change (f_real (S754_zero false)) with 0|rewrite fzm1]; lra. }
    destruct (Nat.eqb_spec (i + 1) j); [lia|]. cbn [andb orb]. change (f_real (S754_zero false)) with 0. lra.
Qed.

Lemma setup_rows n u i : (2 <= n)%nat -> (i < n * n)%nat -> rsum (n * n) (fun j => f_real (setup_matrix n i j) * u j) =
  4 * u i - (if (i mod n =? 0)%nat then 0 else u (i - 1)%nat) - (if ((i + 1) mod n =? 0)%nat then 0 else u (i + 1)%nat)
  - (if (i <? n)%nat then 0 else u (i - n)%nat) - (if (i + n <? n * n)%nat then u (i + n)%nat else 0).
Proof.
  intros Hn Hi.
  rewrite (asum_ext _ _ (n * n) _ (fun j => (if (i =? j)%nat then 4 * u i else 0) +
    ((if (i - 1 =? j)%nat then if (i mod n =? 0)%nat then 0 else - u (i - 1)%nat else 0) +
     ((if (i + 1 =? j)%nat then if ((i + 1) mod n =? 0)%nat then 0 else - u (i + 1)%nat else 0) +
      ((if (i - n =? j)%nat then if (i <? n)%nat then 0 else - u (i - n)%nat else 0) + (if (i + n =? j)%nat then - u (i + n)%nat else 0)))))).
  - rewrite !rsum_plus, !rsum_single. apply Nat.ltb_lt in Hi as Hi'. rewrite Hi'.
    destruct (Nat.ltb_spec (i - 1) (n * n)); [|lia]. destruct (Nat.ltb_spec (i - n) (n * n)); [|lia].
    destruct (Nat.eqb_spec ((i + 1) mod n) 0) as [E|E].
    + destruct (i + 1 <? n * n)%nat; destruct (i mod n =? 0)%nat, (i <? n)%nat, (i + n <? n * n)%nat; lra.
    + pose proof (next_in_row n Hn i Hi E) as L. apply Nat.ltb_lt in L. rewrite L.
      destruct (i mod n =? 0)%nat, (i <? n)%nat, (i + n <? n * n)%nat; lra.
  - intros j Hj. rewrite (entry_real n i j Hn Hi Hj). rewrite !Rmult_plus_distr_r.
    repeat apply f_equal2; match goal with |- context [(?k =? j)%nat] => destruct (Nat.eqb_spec k j) as [<-|]; [|ring] end; try ring;
    match goal with |- (if ?c then _ else _) * _ = _ => destruct c; ring end.
Qed.

Lemma setup_poisson n u h : (2 <= n)%nat ->
  (forall i, (i < n * n)%nat -> rsum (n * n) (fun j => f_real (setup_matrix n i j) * u j) = h i) <-> poisson n u h.
Proof.
  intro Hn. assert (K : forall x y, (x < n)%nat -> (y < n)%nat -> let i := (y * n + x)%nat in (i < n * n)%nat /\
    rsum (n * n) (fun j => f_real (setup_matrix n i j) * u j) =
    4 * u i - (if (x =? 0)%nat then 0 else u (i - 1)%nat) - (if (x + 1 =? n)%nat then 0 else u (i + 1)%nat)
    - (if (y =? 0)%nat then 0 else u (i - n)%nat) - (if (y + 1 =? n)%nat then 0 else u (i + n)%nat)).
  { intros x y Hx Hy i. assert (Hi : (i < n * n)%nat) by (unfold i; nia). split; [exact Hi|]. rewrite (setup_rows n u i Hn Hi).
    assert (E1 : (i mod n = x)%nat) by (unfold i; rewrite Nat.add_comm, Nat.mod_add by lia; apply Nat.mod_small; lia). rewrite E1.
    assert (E2 : (((i + 1) mod n =? 0) = (x + 1 =? n))%nat).
    { unfold i. rewrite <- Nat.add_assoc, Nat.add_comm, Nat.mod_add by lia. destruct (Nat.eqb_spec (x + 1) n) as [->|].
      - rewrite Nat.mod_same by lia. reflexivity.
      - rewrite Nat.mod_small by lia. apply Nat.eqb_neq. lia. }
    rewrite E2. assert (E3 : ((i <? n) = (y =? 0))%nat).
    { destruct (Nat.ltb_spec i n), (Nat.eqb_spec y 0); auto; exfalso; unfold i in *; nia. }
    rewrite E3. assert (E4 : ((i + n <? n * n) = negb (y + 1 =? n))%nat).
    { destruct (Nat.ltb_spec (i + n) (n * n)), (Nat.eqb_spec (y + 1) n); auto; exfalso; unfold i in *; nia. }
    rewrite E4. destruct (y + 1 =? n)%nat; reflexivity. }
  split.
  - intros H x y Hx Hy. cbv zeta. destruct (K x y Hx Hy) as (Hi & E). rewrite <- E. apply H, Hi.
  - intros H i Hi. assert (Hx : (i mod n < n)%nat) by (apply Nat.mod_upper_bound; lia).
    assert (Hy : (i / n < n)%nat) by (apply Nat.div_lt_upper_bound; lia).
    destruct (K _ _ Hx Hy) as (_ & E). specialize (H _ _ Hx Hy). cbv zeta in H.
    replace (i / n * n + i mod n)%nat with i in E, H by (rewrite (Nat.mul_comm (i / n)); apply Nat.div_mod; lia). rewrite E. exact H.
Qed.

Lemma setup_stencil dbg n g : (2 <= n)%nat -> create_graph_structured dbg false n = Ok g -> stencil g 4 (fun i j => f_real (setup_matrix n i j)).
Proof.
  intros Hn Hg. destruct (grid_spec dbg false n ltac:(lia)) as (g' & Hg' & Hwf & Hsz & _). assert (Q := Hg). rewrite Hg in Hg'. injection Hg' as <-.
  intros i j Hi Hj. rewrite Hsz in Hi, Hj. unfold setup_matrix. apply Nat.ltb_lt in Hi as Hi', Hj as Hj'. rewrite Hi', Hj'. cbn [andb].
  unfold setup_entry. pose proof (touches_edge n Hn dbg g i j Q Hi Hj) as T. split; [|split].
  - intros ->. rewrite Nat.eqb_refl. apply fz4.
  - intro He. destruct (Nat.eqb_spec i j) as [->|].
    + exfalso. apply T in He. unfold touches in He. rewrite !Bool.orb_true_iff, !Bool.andb_true_iff, !Nat.eqb_eq in He. lia.
    + apply T in He. rewrite He. apply fzm1.
  - intros Hne He. apply Nat.eqb_neq in Hne. rewrite Hne. destruct (touches n i j) eqn:E; [|reflexivity]. exfalso. apply He, T. reflexivity.
Qed.

Lemma setup_finite n i j : f_valid (setup_matrix n i j) /\ f_finite (setup_matrix n i j) = true.
Proof.
  unfold setup_matrix, setup_entry. destruct (_ && _)%bool; [destruct (i =? j)%nat; [|destruct (touches n i j)]|]; split; vm_compute; reflexivity.
Qed.

(** The matrix of the test, filled and solved with. *)
Lemma grid_whole M dbg stray n : (2 <= n <= 120)%nat -> let N := (n * n)%nat in let m := INR n + 1 in
  exists a, run_ops (S754_zero false) M dbg stray (setup n) s_default = Ok a /\
  forall b h H x f Y lim rho w fuel,
    is_vec N b h -> finite_vec N h -> 0 <= H -> (forall i, (i < N)%nat -> Rabs (f_real (h i)) <= H) ->
    is_vec N x f -> finite_vec N f -> 0 <= Y -> (forall i, (i < N)%nat -> Rabs (f_real (f i)) <= Y) ->
    m ^ 2 / 8 * H + Y <= 2 ^ 900 ->
    (min_iterations lim <= M)%nat -> (max_iteration lim < M)%nat -> (Nat.max (min_iterations lim) (max_iteration lim + 1) < fuel)%nat ->
  let P := f_u * (m ^ 2 / 8 * H) + f_eta in let E := m ^ 2 * (m ^ 2 / 8 * H + Y) in
  exists xs, poisson n xs (fun i => f_real (h i)) /\ (forall ys, poisson n ys (fun i => f_real (h i)) -> forall i, (i < N)%nat -> ys i = xs i) /\
    (exists x' w' cd f', jacobi_solve fops M dbg stray fuel lim w a x b = Ok (x', w', cd) /\ is_vec N x' f' /\ finite_vec N f' /\
       within N f' xs (m ^ 7 * P + (1 - 3 / m ^ 2) ^ cd_iteration cd * E)) /\
    (exists x' cd f', gauss_seidel_solve fops M dbg stray fuel lim a x b = Ok (x', cd) /\ is_vec N x' f' /\ finite_vec N f' /\
       within N f' xs (6 * m ^ 7 * P + (1 - 2 / 5 / m ^ 2) ^ cd_iteration cd * E)) /\
    (exists x' cd f', sor_solve fops M dbg stray fuel lim rho a x b = Ok (x', cd) /\ is_vec N x' f' /\ finite_vec N f' /\
       within N f' xs (15 * m ^ 7 * P + (1 - 3 / 20 / m ^ 2) ^ cd_iteration cd * E)).
Proof.
  intros Hn N m. assert (H2 : (2 <= n)%nat) by lia. destruct (setup_runs n H2 M dbg stray) as (a & Ea & Sa). exists a. split; [exact Ea|].
  change (sparse_square (S754_zero false) (n * n) a (setup_matrix n)) in Sa.
  intros b h H x f Y lim rho w fuel Hb Hh H0 Hhb Hx Hf HY Hfy Hbig Hmin Hmax Hfuel P E.
  destruct (grid_spec dbg false n ltac:(lia)) as (g & Hg & _).
  pose proof (setup_stencil dbg n g H2 Hg) as Hs.
  destruct (grid_solution dbg n g _ H2 Hg Hs (fun i => f_real (h i)) H H0 Hhb) as (xs & S1 & S2 & S3).
  set (X := m ^ 2 / 8 * H) in *. assert (X0 : 0 <= X).
  { unfold X. apply Rmult_le_pos; [|exact H0]. apply Rmult_le_pos; [|lra]. apply pow_le. unfold m. pose proof (pos_INR n). lra. }
  assert (D : grid_doubles dbg n g a (setup_matrix n) b h xs X).
  { constructor; auto; [intros; apply setup_finite|]. split; [|exact S3]. split; [exact X0|]. lra. }
  assert (HE : 0 <= X + Y <= 2 ^ 900) by (split; [lra|exact Hbig]).
  assert (Hw : within (n * n) f xs (X + Y)).
  { intros i Hi. unfold Rminus. eapply Rle_trans; [apply Rabs_triang|]. rewrite Rabs_Ropp. rewrite Rplus_comm. apply Rplus_le_compat; [apply S3, Hi|apply Hfy, Hi]. }
  exists xs. split; [apply setup_poisson; auto|]. split.
  { intros ys Hys i Hi. apply S2; [|exact Hi]. apply setup_poisson; auto. }
  pose proof (grid_solves M dbg stray n g a _ b h xs X D x f (X + Y) Hx Hf HE Hw lim rho w fuel Hmin Hmax Hfuel) as ((x1 & w1 & c1 & f1 & A1 & A2 & A3 & A4) & B & C).
  split; [|split; [exact B|exact C]]. exists x1, w1, c1, f1. repeat (split; [assumption|]). intros i Hi. specialize (A4 i Hi).
  eapply Rle_trans; [exact A4|]. apply Req_le. unfold P, E. fold m. ring.
Qed.

Lemma setup_filled M dbg stray n g : (2 <= n)%nat -> create_graph_structured dbg false n = Ok g ->
  exists a A, run_ops (S754_zero false) M dbg stray (setup n) s_default = Ok a /\ sparse_square (S754_zero false) (n * n) a A /\
    stencil g 4 (fun i j => f_real (A i j)) /\ (forall i j, f_valid (A i j) /\ f_finite (A i j) = true) /\
    forall u h, (forall i, (i < n * n)%nat -> rsum (n * n) (fun j => f_real (A i j) * u j) = h i) <-> poisson n u h.
Proof.
  intros Hn Hg. destruct (setup_runs n Hn M dbg stray) as (a & Ea & Sa). exists a, (setup_matrix n). split; [exact Ea|]. split; [exact Sa|].
  split; [apply (setup_stencil dbg); auto|]. split; [apply setup_finite|]. intros u h. apply setup_poisson, Hn.
Qed.

(** The grid of the library's test, with ones on the right. *)
Lemma test_grid : exists g a A xs, run_ops (S754_zero false) 100 true None (setup 10) s_default = Ok a /\
  grid_doubles true 10 g a A (repeat (fz 1) 100) (fun _ => fz 1) xs (121 / 8) /\
  is_vec 100 (repeat (fz 0) 100) (fun _ => fz 0) /\ finite_vec 100 (fun _ => fz 0) /\ within 100 (fun _ => fz 0) xs (121 / 8).
Proof.
  assert (H2 : (2 <= 10)%nat) by lia. destruct (grid_spec true false 10 ltac:(lia)) as (g & Hg & _).
  destruct (setup_filled 100 true None 10 g H2 Hg) as (a & A & Ea & Sa & St & Fa & _).
  destruct (grid_solution true 10 g _ H2 Hg St (fun _ => 1) 1 ltac:(lra)) as (xs & S1 & _ & S3).
  { intros i _. rewrite Rabs_R1. lra. }
  assert (B : forall i, (i < 100)%nat -> Rabs (xs i) <= 121 / 8).
  { intros i Hi. eapply Rle_trans; [apply (S3 i Hi)|]. cbn [INR]. lra. }
  assert (P9 : 121 / 8 <= 2 ^ 900).
  { apply Rle_trans with (2 ^ 4); [lra|]. apply Rle_pow; [lra|lia]. }
  exists g, a, A, xs. split; [exact Ea|]. split; [|split; [|split]].
  - constructor; auto; [lia| | | |].
    + split; [reflexivity|]. intros i Hi. apply nth_error_repeat. exact Hi.
    + intros i _. split; vm_compute; reflexivity.
    + intros i Hi. rewrite (S1 i Hi). symmetry. apply fz1.
    + split; [split; [lra|exact P9]|exact B].
  - split; [reflexivity|]. intros i Hi. apply nth_error_repeat. exact Hi.
  - intros i _. split; vm_compute; reflexivity.
  - intros i Hi. change (f_real (fz 0)) with 0. rewrite Rminus_0_l, Rabs_Ropp. apply B, Hi.
Qed.
