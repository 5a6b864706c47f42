(** The Laplace problem with a source: what is filled are the five point equations, and the solvers find their solution. *)
From Coq Require Import ZArith Reals Lra Lia List Psatz.
From Verif Require Import Base ListFacts DenseModel DenseFacts ScalarModel GeometryReal GraphModel GraphSpec SparseModel SparseSpec SparseFacts
  SparseSeq LuModel LuReal LuFacts IterModel IterLoop IterField IterReal FloatFacts PropIterLemmas PropRelaxLemmas PropSuccessLemmas PropChainLemmas GridSetup PropGridLemmas GridWhole SourceModel SourceFacts SourceError.
Import ListNotations.
Local Open Scope R_scope.

(** The real numbers the vectors hold, by place. *)
Definition wanted (n i : nat) : R := true_u (INR (i mod n) * spacing n) (INR (i / n) * spacing n).

Section Values.
  Variable n : nat.
  Hypothesis Hn : (3 <= n)%nat.
  Notation N := (n * n)%nat.
  Notation h := (spacing n).

  Lemma at_node i : co_ordinate rops i n = (INR (i mod n) * h, INR (i / n) * h).
  Proof using Hn.
    unfold co_ordinate. cbn [rops sc_one sc_div sc_mul sc_of_Z]. rewrite <- !INR_IZR_INZ. rewrite minus_INR by lia. unfold spacing. cbn [INR].
    unfold Rdiv. rewrite !Rmult_1_l. reflexivity.
  Qed.

  Lemma analytical_is i : analytical_solution rops i n = wanted n i.
  Proof using Hn. unfold analytical_solution. rewrite at_node. cbn [rops sc_one sc_div sc_mul sc_sub sc_of_Z]. unfold wanted, true_u. ring. Qed.

  Lemma source_is i : let s := INR (i mod n) * h in let t := INR (i / n) * h in
    source rops i n = - ((2 - 12 * s ^ 2) * (t ^ 4 - t ^ 2) + (s ^ 2 - s ^ 4) * (12 * t ^ 2 - 2)).
  Proof using Hn. cbv zeta. unfold source. rewrite at_node. cbn [rops sc_one sc_div sc_mul sc_sub sc_add sc_of_Z]. ring. Qed.

  Lemma inverse_is : inverse_square rops n = / h ^ 2.
  Proof using Hn.
    unfold inverse_square. cbn [rops sc_one sc_div sc_mul sc_sub sc_of_Z]. rewrite <- INR_IZR_INZ. unfold spacing.
    pose proof (le_INR 3 n Hn) as H. cbn [INR] in H. field. lra.
  Qed.

  Definition given_b (i : nat) : R := if on_boundary n i then wanted n i else source rops i n.

  Lemma b_filled b : exists b', source_b rops n b = Ok b' /\ is_vec N b' given_b.
  Proof using Hn.
    unfold source_b. cbn [rops sc_zero sc_one sc_div]. fold rops. destruct (is_vec_vresize_any N b 0) as (f0 & H0).
    destruct (FOR_inv (fun k v => is_vec N v (fun i => if (i <? k)%nat then given_b i else f0 i)) N
      (fun i b => do b <- vset b i (source rops i n / 1); if on_boundary n i then vset b i (analytical_solution rops i n) else Ok b)
      (vresize b N 0)) as (b' & E & H).
    - exact H0.
    - intros k v Hk Hv. destruct (is_vec_set N v _ k (source rops k n / 1) Hv Hk) as (v1 & E1 & H1). rewrite E1. cbn [bind].
      destruct (on_boundary n k) eqn:B.
      + destruct (is_vec_set N v1 _ k (analytical_solution rops k n) H1 Hk) as (v2 & E2 & H2). exists v2. split; [exact E2|].
        eapply is_vec_ext; [exact H2|]. intros i Hi. cbv beta. unfold given_b. destruct (Nat.eqb_spec i k) as [->|].
        * destruct (Nat.ltb_spec k (k + 1)); [|lia]. rewrite B. apply analytical_is.
        * destruct (Nat.ltb_spec i k), (Nat.ltb_spec i (k + 1)); try lia; reflexivity.
      + exists v1. split; [reflexivity|]. eapply is_vec_ext; [exact H1|]. intros i Hi. cbv beta. unfold given_b. destruct (Nat.eqb_spec i k) as [->|].
        * destruct (Nat.ltb_spec k (k + 1)); [|lia]. rewrite B. field.
        * destruct (Nat.ltb_spec i k), (Nat.ltb_spec i (k + 1)); try lia; reflexivity.
    - exists b'. split; [exact E|]. eapply is_vec_ext; [exact H|]. intros i Hi. cbv beta. apply Nat.ltb_lt in Hi. rewrite Hi. reflexivity.
  Qed.

  Lemma x_filled x : exists x' f, source_x rops n x = Ok x' /\ is_vec N x' f /\
    forall i, (i < N)%nat -> f i = if on_boundary n i then wanted n i else nth i x 0.
  Proof using Hn.
    unfold source_x. cbn [rops sc_zero]. fold rops.
    assert (H0 : is_vec N (vresize x N 0) (fun i => nth i x 0)).
    { split; [apply vresize_length|]. intros i Hi. unfold vresize. destruct (Nat.lt_ge_cases i (length x)) as [L|L].
      - rewrite nth_error_app1 by (rewrite firstn_length; lia).
        rewrite <- (firstn_skipn N x) at 2. rewrite app_nth1 by (rewrite firstn_length; lia). apply nth_error_nth'. rewrite firstn_length. lia.
      - rewrite nth_error_app2 by (rewrite firstn_length; lia). rewrite firstn_length. rewrite nth_overflow by lia.
        rewrite nth_error_repeat by lia. reflexivity. }
    destruct (FOR_inv (fun k v => is_vec N v (fun i => if (i <? k)%nat then if on_boundary n i then wanted n i else nth i x 0 else nth i x 0)) N
      (fun i x => if on_boundary n i then vset x i (analytical_solution rops i n) else Ok x) (vresize x N 0)) as (x' & E & H).
    - exact H0.
    - intros k v Hk Hv. destruct (on_boundary n k) eqn:B.
      + destruct (is_vec_set N v _ k (analytical_solution rops k n) Hv Hk) as (v1 & E1 & H1). exists v1. split; [exact E1|].
        eapply is_vec_ext; [exact H1|]. intros i Hi. cbv beta. destruct (Nat.eqb_spec i k) as [->|].
        * destruct (Nat.ltb_spec k (k + 1)); [|lia]. rewrite B. apply analytical_is.
        * destruct (Nat.ltb_spec i k), (Nat.ltb_spec i (k + 1)); try lia; reflexivity.
      + exists v. split; [reflexivity|]. eapply is_vec_ext; [exact Hv|]. intros i Hi. cbv beta.
        destruct (Nat.ltb_spec i k), (Nat.ltb_spec i (k + 1)); try lia; try reflexivity. replace i with k by lia. rewrite B. reflexivity.
    - eexists x', _. split; [exact E|]. split; [exact H|]. intros i Hi. cbv beta. apply Nat.ltb_lt in Hi. rewrite Hi. reflexivity.
  Qed.

  Lemma boundary_is x y : (x < n)%nat -> (y < n)%nat -> (on_boundary n (y * n + x) = true <-> edge_of n x y).
  Proof using Hn.
    intros Hx Hy. unfold on_boundary, edge_of. rewrite !Bool.orb_true_iff, !Nat.eqb_eq, Nat.ltb_lt, Nat.leb_le.
    assert (E1 : ((y * n + x) mod n = x)%nat) by (rewrite Nat.add_comm, Nat.mod_add by lia; apply Nat.mod_small; lia). rewrite E1.
    assert (E2 : ((y * n + x + 1) mod n = 0 <-> x + 1 = n)%nat).
    { rewrite <- Nat.add_assoc, Nat.add_comm, Nat.mod_add by lia. destruct (Nat.eq_dec (x + 1) n) as [->|].
      - rewrite Nat.mod_same by lia. tauto.
      - rewrite Nat.mod_small by lia. lia. }
    rewrite E2. split.
    - intros [[[H|H]|H]|H]; [tauto|tauto|right; left; nia|right; right; right; nia].
    - intros [H|[H|[H|H]]]; [tauto|subst y; left; right; nia|tauto|right; nia].
  Qed.

  Lemma solves_discretised u : (forall i, (i < N)%nat -> rsum N (fun j => source_full n i j * u j) = given_b i) <-> discretised n u.
  Proof using Hn.
    destruct (spacing_pos n Hn) as (Hh & _).
    assert (K : forall x y, (x < n)%nat -> (y < n)%nat -> ((y * n + x < N)%nat /\ (y * n + x) mod n = x /\ (y * n + x) / n = y)%nat).
    { intros x y Hx Hy. split; [nia|]. split.
      - rewrite Nat.add_comm, Nat.mod_add by lia. apply Nat.mod_small. lia.
      - rewrite Nat.div_add_l by lia. rewrite Nat.div_small by lia. lia. }
    split.
    - intros H x y Hx Hy. destruct (K x y Hx Hy) as (Hi & E1 & E2). cbv zeta. specialize (H _ Hi). rewrite (source_rows n Hn u _ Hi) in H. unfold given_b in H.
      pose proof (boundary_is x y Hx Hy) as B. destruct (on_boundary n (y * n + x)).
      + unfold wanted in H. rewrite E1, E2 in H. split; [intros _; exact H|]. intro F. exfalso. apply F, B. reflexivity.
      + split; [intro F; apply B in F; discriminate|]. intros _. pose proof (source_is (y * n + x)) as Q. cbv zeta in Q. rewrite E1, E2 in Q.
        eexists _, _. split; [apply true_xx|]. split; [apply true_yy|]. rewrite Q in H. rewrite <- H, inverse_is. unfold Rdiv. ring.
    - intros H i Hi. rewrite (source_rows n Hn u _ Hi). unfold given_b.
      assert (Hx : (i mod n < n)%nat) by (apply Nat.mod_upper_bound; lia). assert (Hy : (i / n < n)%nat) by (apply Nat.div_lt_upper_bound; lia).
      specialize (H _ _ Hx Hy). cbv zeta in H. pose proof (boundary_is _ _ Hx Hy) as B.
      replace (i / n * n + i mod n)%nat with i in H, B by (rewrite (Nat.mul_comm (i / n)); apply Nat.div_mod; lia).
      destruct (on_boundary n i).
      + apply H, B. reflexivity.
      + destruct (proj2 H) as (p & q & P & Q & E); [intro F; apply B in F; discriminate|].
        rewrite (second_unique _ _ _ _ P (true_xx _ _)), (second_unique _ _ _ _ Q (true_yy _ _)) in E.
        pose proof (source_is i) as Qi. cbv zeta in Qi. rewrite Qi, <- E, inverse_is. unfold Rdiv. ring.
  Qed.

  Lemma interior i : (i < N)%nat -> on_boundary n i = false -> (n <= i /\ i + n < N /\ i mod n <> 0 /\ (i + 1) mod n <> 0)%nat.
  Proof using Hn.
    intros Hi B. unfold on_boundary in B. apply Bool.orb_false_elim in B as (B & B4). apply Bool.orb_false_elim in B as (B & B3).
    apply Bool.orb_false_elim in B as (B1 & B2). apply Nat.eqb_neq in B1, B2. apply Nat.ltb_ge in B3. apply Nat.leb_gt in B4. lia.
  Qed.

  Lemma source_chained : chained N (source_full n).
  Proof using Hn.
    destruct (spacing_pos n Hn) as (Hh & _). assert (Hc : 0 < inverse_square rops n) by (rewrite inverse_is; apply Rinv_0_lt_compat, pow_lt; lra).
    assert (D : forall i, (i < N)%nat -> source_full n i i = if on_boundary n i then 1 else 4 * inverse_square rops n).
    { intros i Hi. unfold source_full, source_entry. apply Nat.ltb_lt in Hi. rewrite Hi, Nat.eqb_refl. reflexivity. }
    assert (Off : forall i, (i < N)%nat -> off_diagonal N (source_full n) i = if on_boundary n i then 0 else 4 * inverse_square rops n).
    { intros i Hi.
      assert (E : off_diagonal N (source_full n) i = rsum N (fun j => source_full n i j * (if (j =? i)%nat then 1 else -1)) - (if on_boundary n i then 1 else 4 * inverse_square rops n)
         + (if on_boundary n i then 0 else 0)).
      { pose proof (D i Hi) as Di. unfold off_diagonal.
        rewrite (asum_ext _ _ N (fun j => source_full n i j * (if (j =? i)%nat then 1 else -1))
          (fun j => (if (j =? i)%nat then 0 else Rabs (source_full n i j)) + (if (i =? j)%nat then source_full n i i else 0))).
        - rewrite rsum_plus, rsum_single. apply Nat.ltb_lt in Hi. rewrite Hi, Di. destruct (on_boundary n i); lra.
        - intros j Hj. rewrite (Nat.eqb_sym i j). destruct (Nat.eqb_spec j i) as [->|Hne]; [ring|].
          assert (source_full n i j <= 0).
          { unfold source_full, source_entry. apply Nat.ltb_lt in Hi, Hj. rewrite Hi, Hj. cbn [andb]. destruct (Nat.eqb_spec i j); [congruence|].
            destruct (on_boundary n i); [lra|]. destruct (touches n i j); lra. }
          rewrite Rabs_left1 by assumption. ring. }
      rewrite E, (source_rows n Hn _ _ Hi). destruct (on_boundary n i) eqn:B.
      - rewrite Nat.eqb_refl. lra.
      - destruct (interior i Hi B) as (I1 & I2 & I3 & I4). rewrite Nat.eqb_refl.
        destruct (Nat.eqb_spec (i - 1) i); [lia|]. destruct (Nat.eqb_spec (i + 1) i); [lia|]. destruct (Nat.eqb_spec (i - n) i); [lia|].
        destruct (Nat.eqb_spec (i + n) i); [lia|]. ring. }
    split.
    - intros i Hi. rewrite (D i Hi), (Off i Hi). destruct (on_boundary n i); rewrite Rabs_pos_eq by lra; split; lra.
    - assert (K : forall k i, (i < N)%nat -> (i <= k)%nat -> exists m, chain N (source_full n) m i).
      { induction k as [|k IH]; intros i Hi Hk.
        - exists 0%nat. apply chain_0; [exact Hi|]. replace i with 0%nat in * by lia. rewrite (D _ Hi), (Off _ Hi).
          assert (B : on_boundary n 0 = true) by (unfold on_boundary; rewrite Nat.mod_0_l by lia; reflexivity). rewrite B, Rabs_pos_eq; lra.
        - destruct (on_boundary n i) eqn:B.
          + exists 0%nat. apply chain_0; [exact Hi|]. rewrite (D _ Hi), (Off _ Hi), B, Rabs_pos_eq; lra.
          + destruct (interior i Hi B) as (I1 & I2 & I3 & I4). destruct (IH (i - 1)%nat ltac:(lia) ltac:(lia)) as (m & C). exists (S m).
            apply (chain_S N _ m i (i - 1)%nat); [exact Hi|lia| |exact C].
            unfold source_full, source_entry. assert (Hj : (i - 1 < N)%nat) by lia. apply Nat.ltb_lt in Hi, Hj. rewrite Hi, Hj, B. cbn [andb].
            destruct (Nat.eqb_spec i (i - 1)); [lia|]. assert (T : touches n i (i - 1) = true).
            { unfold touches. replace (i - 1 + 1)%nat with i by lia. rewrite Nat.eqb_refl. apply Nat.eqb_neq in I3. rewrite I3. cbn [andb negb]. rewrite Bool.orb_true_r. reflexivity. }
            rewrite T. lra. }
      intros i Hi. apply (K i i Hi). lia.
  Qed.
End Values.

(** All of it together. *)
Lemma source_solved M dbg stray n b : (3 <= n)%nat -> let N := (n * n)%nat in
  exists a b' us, run_ops 0 M dbg stray (source_matrix rops n) s_default = Ok a /\ source_b rops n b = Ok b' /\
  discretised n us /\ (forall vs, discretised n vs -> forall i, (i < N)%nat -> vs i = us i) /\
  forall x, length x = N -> forall eps, 0 < eps -> exists K, forall k, (K <= k)%nat ->
    (forall w, length w = N -> exists x' w' f, times (jacobi_step rops dbg stray a b') k (x, w) = Ok (x', w') /\ is_vec N x' f /\ near N f us eps) /\
    (exists x' f, times (gauss_seidel_step rops dbg stray a b') k (x, []) = Ok (x', []) /\ is_vec N x' f /\ near N f us eps).
Proof.
  intros Hn N. destruct (source_runs n Hn M dbg stray) as (a & Ea & Ha). destruct (b_filled n Hn b) as (b' & Eb & Hb).
  destruct (chained_converges dbg stray N a (source_full n) b' (given_b n) Ha Hb (source_chained n Hn)) as (us & Hs & Hu & H).
  exists a, b', us. split; [exact Ea|]. split; [exact Eb|]. split; [apply (solves_discretised n Hn us); exact Hs|]. split; [|exact H].
  intros vs Hv. apply Hu. exact (proj2 (solves_discretised n Hn vs) Hv).
Qed.

Lemma source_filled M dbg stray n b x : (3 <= n)%nat -> let N := (n * n)%nat in
  exists a A b' g x' f, run_ops 0 M dbg stray (source_matrix rops n) s_default = Ok a /\ sparse_square 0 N a A /\
    source_b rops n b = Ok b' /\ is_vec N b' g /\ source_x rops n x = Ok x' /\ is_vec N x' f /\
    (forall u, (forall i, (i < N)%nat -> rsum N (fun j => A i j * u j) = g i) <-> discretised n u) /\
    forall p q, (p < n)%nat -> (q < n)%nat -> let i := (q * n + p)%nat in
      (edge_of n p q -> f i = true_u (INR p * spacing n) (INR q * spacing n)) /\ (~ edge_of n p q -> f i = nth i x 0).
Proof.
  intros Hn N. destruct (source_runs n Hn M dbg stray) as (a & Ea & Ha). destruct (b_filled n Hn b) as (b' & Eb & Hb).
  destruct (x_filled n Hn x) as (x' & f & Ex & Hx & Hf). exists a, (source_full n), b', (given_b n), x', f. repeat (split; [assumption|]).
  split; [intro u; apply (solves_discretised n Hn u)|]. intros p q Hp Hq i. assert (Hi : (i < n * n)%nat) by (unfold i; nia). rewrite (Hf i Hi).
  pose proof (boundary_is n Hn p q Hp Hq) as B. fold i in B. destruct (on_boundary n i).
  - split; [intros _|intro F; exfalso; apply F, B; reflexivity]. unfold wanted, i.
    replace ((q * n + p) mod n)%nat with p by (symmetry; rewrite Nat.add_comm, Nat.mod_add by lia; apply Nat.mod_small; lia).
    replace ((q * n + p) / n)%nat with q by (symmetry; rewrite Nat.div_add_l by lia; rewrite Nat.div_small by lia; lia). reflexivity.
  - split; [intro F; apply B in F; discriminate|reflexivity].
Qed.

(** Three by three nodes: one unknown. *)
Definition middle (i : nat) : R := if (i =? 4)%nat then - (3 / 128) else 0.
Lemma middle_discretised : discretised 3 middle.
Proof.
  assert (Es : spacing 3 = / 2) by (unfold spacing; cbn [INR]; field). intros x y Hx Hy. cbv zeta. rewrite Es. split.
  - intro B. assert (Hm : middle (y * 3 + x) = 0).
    { unfold middle. destruct (Nat.eqb_spec (y * 3 + x) 4); [|reflexivity]. exfalso. unfold edge_of in B. lia. }
    rewrite Hm. unfold true_u. destruct B as [->|[->|[B|B]]].
    + cbn [INR]. ring.
    + cbn [INR]. ring.
    + replace x with 2%nat by lia. cbn [INR]. field.
    + replace y with 2%nat by lia. cbn [INR]. field.
  - intro B. assert (x = 1 /\ y = 1)%nat as (-> & ->) by (unfold edge_of in B; lia). eexists _, _. split; [apply true_xx|]. split; [apply true_yy|].
    unfold middle. cbn [Nat.mul Nat.add Nat.sub Nat.eqb INR]. field.
Qed.
