(** The equations the class Laplace_2D makes, over the reals and in doubles. *)
From Coq Require Import ZArith Reals Lra Lia List Psatz SpecFloat.
From Verif Require Import Base ListFacts DenseModel DenseFacts ScalarModel GeometryReal SparseModel SparseSpec SparseFacts SparseSeq SparseMul IterField IterReal PropChainLemmas FloatFacts
  SourceModel SourceError SourceSolved LaplaceModel LaplaceFacts.
Import ListNotations.
Local Open Scope R_scope.

(** The five point equations on [N] nodes in rows of [Nat.sqrt N]. *)
Definition five_points (N : nat) (u : nat -> R) : Prop := forall i, (i < N)%nat ->
  let n := Nat.sqrt N in let h := spacing n in let s := INR (i mod n) * h in let t := INR (i / n) * h in
  (rim N n i -> u i = true_u s t) /\
  (~ rim N n i -> exists p q, second (fun z => true_u z t) s p /\ second (true_u s) t q /\
     (4 * u i - u (i - 1)%nat - u (i + 1)%nat - u (i - n)%nat - u (i + n)%nat) / h ^ 2 = - (p + q)).

(** On a square number of nodes they are those of C147. *)
Lemma five_points_square n u : (3 <= n)%nat -> five_points (n * n) u <-> discretised n u.
Proof.
  intro Hn. unfold five_points. rewrite Nat.sqrt_square. cbv zeta.
  assert (P : forall x y, (x < n)%nat -> (y < n)%nat -> let i := (y * n + x)%nat in (i < n * n)%nat /\ (i mod n = x)%nat /\ (i / n = y)%nat /\ (rim (n * n) n i <-> edge_of n x y)).
  { intros x y Hx Hy i. assert (Hi : (i < n * n)%nat) by (unfold i; nia).
    assert (E1 : (i mod n = x)%nat) by (unfold i; rewrite Nat.add_comm, Nat.mod_add by lia; apply Nat.mod_small; lia).
    assert (E2 : (i / n = y)%nat) by (unfold i; rewrite Nat.div_add_l by lia; rewrite Nat.div_small by lia; lia).
    split; [exact Hi|]. split; [exact E1|]. split; [exact E2|]. unfold rim, edge_of. rewrite E1.
    assert (E3 : ((i + 1) mod n = 0 <-> x + 1 = n)%nat).
    { unfold i. replace (y * n + x + 1)%nat with ((x + 1) + y * n)%nat by lia. rewrite Nat.mod_add by lia. split; intro H.
      - destruct (Nat.eq_dec (x + 1) n) as [|F]; [assumption|]. rewrite Nat.mod_small in H by lia. lia.
      - rewrite H. apply Nat.mod_same. lia. }
    rewrite E3. unfold i. split; intro H.
    - destruct H as [H|[H|[H|H]]]; [auto|auto| |].
      + right; left. destruct y; [reflexivity|]. nia.
      + right; right; right. destruct (Nat.eq_dec (y + 1) n) as [|F]; [assumption|]. assert (y + 2 <= n)%nat by lia. nia.
    - destruct H as [H|[H|[H|H]]]; [auto| |auto|].
      + rewrite H. right; right; left. lia.
      + right; right; right. nia. }
  split.
  - intros H x y Hx Hy. destruct (P x y Hx Hy) as (Hi & E1 & E2 & E3). specialize (H _ Hi). rewrite E1, E2, E3 in H. exact H.
  - intros H i Hi. assert (Hx : (i mod n < n)%nat) by (apply Nat.mod_upper_bound; lia).
    assert (Hy : (i / n < n)%nat) by (apply Nat.div_lt_upper_bound; lia).
    pose proof (Nat.div_mod i n ltac:(lia)) as D. assert (Ei : (i / n * n + i mod n = i)%nat) by lia.
    destruct (P _ _ Hx Hy) as (_ & _ & _ & E3). specialize (H _ _ Hx Hy). rewrite Ei in H, E3. rewrite E3. exact H.
Qed.

Section Reals.
  Variable N : nat.
  Hypothesis HN : (9 <= N)%nat.
  Let n := Nat.sqrt N.
  Notation h := (spacing n).
  Let H3 : (3 <= n)%nat := proj1 (side N HN).

  Lemma l_node i : l_co_ordinate rops i n = (INR (i mod n) * h, INR (i / n) * h).
  Proof using.
    unfold l_co_ordinate. cbn [rops sc_one sc_div sc_mul sc_sub sc_of_Z]. rewrite <- !INR_IZR_INZ. unfold spacing.
    unfold Rdiv. rewrite !Rmult_1_l. reflexivity.
  Qed.

  Lemma l_solution_is i : l_solution rops i n = true_u (INR (i mod n) * h) (INR (i / n) * h).
  Proof using. unfold l_solution. rewrite l_node. cbn [rops sc_one sc_div sc_mul sc_sub sc_of_Z]. unfold true_u. ring. Qed.

  Lemma l_source_is i : let s := INR (i mod n) * h in let t := INR (i / n) * h in
    l_source rops i n = - ((2 - 12 * s ^ 2) * (t ^ 4 - t ^ 2) + (s ^ 2 - s ^ 4) * (12 * t ^ 2 - 2)).
  Proof using. cbv zeta. unfold l_source. rewrite l_node. cbn [rops sc_one sc_div sc_mul sc_sub sc_add sc_of_Z]. ring. Qed.

  Lemma l_inverse_is : l_inverse_square rops n = / h ^ 2.
  Proof using H3 HN.
    unfold l_inverse_square. cbn [rops sc_one sc_div sc_mul sc_sub sc_of_Z]. rewrite <- INR_IZR_INZ. unfold spacing.
    pose proof (le_INR 3 n H3) as H. cbn [INR] in H. field. lra.
  Qed.

  Definition l_full (i j : nat) : R := if (i <? N)%nat then match laid rops N i j with Some v => v | None => 0 end else 0.

  Lemma l_rows u i : (i < N)%nat -> rsum N (fun j => l_full i j * u j) =
    if l_boundary N n i then u i else / h ^ 2 * (4 * u i - u (i - 1)%nat - u (i + 1)%nat - u (i - n)%nat - u (i + n)%nat).
  Proof using H3 HN.
    intro Hi. unfold l_full. apply Nat.ltb_lt in Hi as Hi'. rewrite Hi'. unfold laid. fold n. rewrite l_inverse_is. cbn [rops sc_one sc_mul sc_of_Z].
    destruct (l_boundary N n i) eqn:B.
    - rewrite (asum_ext _ _ N _ (fun j => if (i =? j)%nat then u i else 0)).
      + rewrite rsum_single, Hi'. reflexivity.
      + intros j Hj. rewrite (Nat.eqb_sym i j). destruct (Nat.eqb_spec j i) as [->|]; ring.
    - unfold l_boundary in B. apply Bool.orb_false_elim in B as (B & B4). apply Bool.orb_false_elim in B as (_ & B3).
      apply Nat.ltb_ge in B3. apply Nat.leb_gt in B4. set (c := / h ^ 2).
      rewrite (asum_ext _ _ N _ (fun j => ((((if (i =? j)%nat then 4 * c * u i else 0) + (if (i - 1 =? j)%nat then - c * u (i - 1)%nat else 0))
        + (if (i + 1 =? j)%nat then - c * u (i + 1)%nat else 0)) + (if (i - n =? j)%nat then - c * u (i - n)%nat else 0)) + (if (i + n =? j)%nat then - c * u (i + n)%nat else 0))).
      + rewrite !rsum_plus, !rsum_single. rewrite Hi'.
        destruct (Nat.ltb_spec (i - 1) N), (Nat.ltb_spec (i + 1) N), (Nat.ltb_spec (i - n) N), (Nat.ltb_spec (i + n) N); try lia. ring.
      + intros j Hj. destruct (Nat.eqb_spec j i) as [Q1|Q1], (Nat.eqb_spec i j) as [Q2|Q2], (Nat.eqb_spec (i - 1) j) as [Q3|Q3], (Nat.eqb_spec (i + 1) j) as [Q4|Q4],
          (Nat.eqb_spec (i - n) j) as [Q5|Q5], (Nat.eqb_spec (i + n) j) as [Q6|Q6], (Nat.eqb_spec (j + 1) i) as [Q7|Q7], (Nat.eqb_spec j (i + 1)) as [Q8|Q8],
          (Nat.eqb_spec (j + n) i) as [Q9|Q9], (Nat.eqb_spec j (i + n)) as [Q0|Q0]; try lia; cbn [orb];
          first [ring|rewrite Q2; ring|rewrite Q3; ring|rewrite Q4; ring|rewrite Q5; ring|rewrite Q6; ring].
  Qed.

  Lemma l_equations u : (forall i, (i < N)%nat -> rsum N (fun j => l_full i j * u j) = given rops N i) <-> five_points N u.
  Proof using H3 HN.
    unfold five_points. fold n. cbv zeta. assert (Hn : (n <= N)%nat) by (apply Nat.sqrt_le_lin; lia).
    split; intros H i Hi; specialize (H i Hi).
    - rewrite (l_rows u i Hi) in H. unfold given in H. fold n in H. pose proof (rim_test N n i Hn) as T. destruct (l_boundary N n i).
      + split; [intros _|intro F; exfalso; apply F, T; reflexivity]. rewrite H. apply l_solution_is.
      + split; [intro F; apply T in F; discriminate|intros _]. eexists _, _. split; [apply true_xx|]. split; [apply true_yy|].
        unfold Rdiv. rewrite Rmult_comm, H. apply l_source_is.
    - destruct H as (G1 & G2). rewrite (l_rows u i Hi). unfold given. fold n. pose proof (rim_test N n i Hn) as T. destruct (l_boundary N n i).
      + rewrite (G1 (proj1 T eq_refl)). symmetry. apply l_solution_is.
      + destruct G2 as (p & q & P & Q & E); [intro F; apply T in F; discriminate|].
        rewrite (second_unique _ _ _ _ P (true_xx _ _)), (second_unique _ _ _ _ Q (true_yy _ _)) in E. rewrite Rmult_comm. unfold Rdiv in E. rewrite E. symmetry. apply l_source_is.
  Qed.

  Lemma made_real g i j : (i < N)%nat -> (match made rops N g i j with Some v => v | None => 0 end) = l_full i j.
  Proof using.
    intro Hi. unfold made, l_full. apply Nat.ltb_lt in Hi. rewrite Hi. destruct (laid rops N i j); [reflexivity|].
    unfold left_over. cbn [rops sc_mul sc_of_Z]. destruct (g i j); cbn [option_map]; [destruct (l_boundary _ _ _); ring|reflexivity].
  Qed.
End Reals.

Lemma sparse_filled M dbg stray N a A0 b x : (9 <= N)%nat -> sparse_square 0 N a A0 -> length b = N -> length x = N ->
  exists a' b' x', construct_sparse rops M dbg stray a b x = Ok (a', b', x') /\ sparse_square 0 N a' (l_full N) /\ is_vec N b' (given rops N) /\
    is_vec N x' (fun i => l_solution rops i (Nat.sqrt N)).
Proof.
  intros HN (Hw & Hr & Hc & _) Lb Lx. destruct (map_held a Hw) as ([r c g] & Hh).
  assert (r = N /\ c = N) as (-> & ->) by (destruct Hh as (Q1 & Q2 & _); cbn [arows acols] in *; split; congruence).
  destruct (sparse_constructed rops N HN M dbg stray a g b x (conj Hw Hh) Lb Lx) as (a' & b' & x' & E & (Hw' & Q1 & Q2 & Q3) & Hb & Hx).
  exists a', b', x'. split; [exact E|]. split; [|split; [exact Hb|exact Hx]].
  split; [exact Hw'|]. split; [exact Q1|]. split; [exact Q2|]. intros i j. cbn [arows acols aget] in *.
  destruct (Nat.lt_ge_cases i N) as [Hi|Hi].
  - specialize (Q3 i j). rewrite (proj2 (Nat.ltb_lt i N) Hi) in Q3. rewrite <- (made_real N g i j Hi). split.
    + intros v Hv. apply Q3 in Hv. rewrite Hv. reflexivity.
    + intro H. destruct (made rops N g i j) as [v|]; [|reflexivity]. exfalso. apply (H v), Q3. reflexivity.
  - unfold l_full. rewrite (proj2 (Nat.ltb_ge i N) Hi). split; [|reflexivity]. intros v (Hv & _). lia.
Qed.

Lemma laplace_sparse M dbg stray N a A0 b x : (9 <= N)%nat -> sparse_square 0 N a A0 -> length b = N -> length x = N ->
  exists a' A b' g x', construct_sparse rops M dbg stray a b x = Ok (a', b', x') /\ sparse_square 0 N a' A /\ is_vec N b' g /\
    (forall u, (forall i, (i < N)%nat -> rsum N (fun j => A i j * u j) = g i) <-> five_points N u) /\
    is_vec N x' (fun i => let n := Nat.sqrt N in true_u (INR (i mod n) * spacing n) (INR (i / n) * spacing n)).
Proof.
  intros HN Ha Lb Lx. destruct (sparse_filled M dbg stray N a A0 b x HN Ha Lb Lx) as (a' & b' & x' & E & Ha' & Hb & Hx).
  exists a', (l_full N), b', (given rops N), x'. split; [exact E|]. split; [exact Ha'|]. split; [exact Hb|].
  split; [intro u; apply (l_equations N HN u)|]. eapply is_vec_ext; [exact Hx|]. intros i Hi. cbv zeta beta. apply l_solution_is.
Qed.

Lemma laplace_dense dbg N a A0 b x : (9 <= N)%nat -> is_mat N N a A0 -> length b = N -> length x = N ->
  exists a' A b' g x', construct_dense rops dbg a b x = Ok (a', b', x') /\ is_mat N N a' A /\ is_vec N b' g /\
    (forall u, (forall i, (i < N)%nat -> rsum N (fun j => A i j * u j) = g i) <-> five_points N u) /\
    is_vec N x' (fun i => let n := Nat.sqrt N in true_u (INR (i mod n) * spacing n) (INR (i / n) * spacing n)).
Proof.
  intros HN Hm Lb Lx.
  destruct (dense_constructed rops N HN dbg a (fun i j => Some (A0 i j)) b x) as (a' & b' & x' & E & (f & Hm' & Hf) & Hb & Hx); [|exact Lb|exact Lx|].
  { exists A0. split; [exact Hm|reflexivity]. }
  exists a', (l_full N), b', (given rops N), x'. split; [exact E|]. split; [|split; [exact Hb|]].
  - eapply is_mat_ext; [exact Hm'|]. intros i j Hi Hj. specialize (Hf i j Hi Hj). rewrite (proj2 (Nat.ltb_lt i N) Hi) in Hf.
    rewrite <- (made_real N (fun i j => Some (A0 i j)) i j Hi), Hf. reflexivity.
  - split; [intro u; apply (l_equations N HN u)|]. eapply is_vec_ext; [exact Hx|]. intros i Hi. cbv zeta beta. apply l_solution_is.
Qed.

(** Calls a debug build refuses. *)
Lemma laplace_refused {S} (O : sops S) M stray (a : smat S) b x : s_rows a <> csize a \/ s_rows a <> length b \/ s_rows a <> length x \/ (length b < 9)%nat ->
  construct_sparse O M true stray a b x = Abort.
Proof.
  intro H. unfold construct_sparse, construct, ASSERT_DEBUG. destruct (Nat.eqb_spec (s_rows a) (csize a)); [|reflexivity]. cbn [ASSERT bind].
  destruct (Nat.eqb_spec (s_rows a) (length b)); [|reflexivity]. cbn [ASSERT bind].
  destruct (Nat.eqb_spec (s_rows a) (length x)); [|reflexivity]. cbn [ASSERT bind].
  destruct (Nat.leb_spec 9 (length b)); [|reflexivity]. exfalso. lia.
Qed.


(** What the places hold that are not written, for scalars of any kind. *)
Lemma laplace_kept {S} (O : sops S) M dbg stray N (a : smat S) b x : (9 <= N)%nat -> swf a -> s_rows a = N -> csize a = N -> length b = N -> length x = N ->
  exists a' b' x', construct_sparse O M dbg stray a b x = Ok (a', b', x') /\ swf a' /\ s_rows a' = N /\ csize a' = N /\
    let n := Nat.sqrt N in forall i j v, (i < N)%nat -> j <> i ->
      (rim N n i -> (stored a' i j v <-> v = sc_of_Z O 0 /\ exists w, stored a i j w)) /\
      (~ rim N n i -> ~ beside n i j -> (stored a' i j v <-> exists w, stored a i j w /\ v = sc_mul O w (sc_of_Z O 0))).
Proof.
  intros HN Hw Hr Hc Lb Lx. destruct (map_held a Hw) as ([r c g] & Hh).
  assert (r = N /\ c = N) as (-> & ->) by (destruct Hh as (Q1 & Q2 & _); cbn [arows acols] in *; split; congruence).
  destruct (sparse_constructed O N HN M dbg stray a g b x (conj Hw Hh) Lb Lx) as (a' & b' & x' & E & (Hw' & Q1 & Q2 & Q3) & _).
  exists a', b', x'. split; [exact E|]. split; [exact Hw'|]. split; [exact Q1|]. split; [exact Q2|]. intros n i j v Hi Hj.
  destruct Hh as (_ & _ & Hg). cbn [aget] in Q3, Hg. rewrite Q3, (proj2 (Nat.ltb_lt i N) Hi). unfold made, laid, left_over. fold n.
  rewrite (proj2 (Nat.eqb_neq j i) Hj). assert (Hn : (n <= N)%nat) by (apply Nat.sqrt_le_lin; lia). pose proof (rim_test N n i Hn) as T.
  destruct (l_boundary N n i).
  - split; [intros _|intro F; exfalso; apply F, T; reflexivity]. split.
    + destruct (g i j) as [w|] eqn:Eg; [|discriminate]. intro Ev. injection Ev as <-. split; [reflexivity|]. exists w. apply Hg, Eg.
    + intros (-> & w & Hs). apply Hg in Hs. rewrite Hs. reflexivity.
  - split; [intro F; apply T in F; discriminate|]. intros _ B.
    assert (EB : ((j + 1 =? i) || (j =? i + 1) || (j + n =? i) || (j =? i + n))%nat%bool = false).
    { destruct (Nat.eqb_spec (j + 1) i), (Nat.eqb_spec j (i + 1)), (Nat.eqb_spec (j + n) i), (Nat.eqb_spec j (i + n)); try reflexivity; exfalso; apply B; unfold beside; auto. }
    rewrite EB. split.
    + destruct (g i j) as [w|] eqn:Eg; [|discriminate]. intro Ev. injection Ev as <-. exists w. split; [apply Hg, Eg|reflexivity].
    + intros (w & Hs & ->). apply Hg in Hs. rewrite Hs. reflexivity.
Qed.

(** In doubles: zeros when the matrix held finite numbers. *)
Lemma laplace_zeros M dbg stray N (a : smat f64) b x : (9 <= N)%nat -> swf a -> s_rows a = N -> csize a = N -> length b = N -> length x = N ->
  (forall i j w, stored a i j w -> f_finite w = true) ->
  exists a' b' x', construct_sparse fops M dbg stray a b x = Ok (a', b', x') /\
    let n := Nat.sqrt N in forall i j v, (i < N)%nat -> j <> i -> rim N n i \/ ~ beside n i j -> stored a' i j v -> exists s, v = S754_zero s.
Proof.
  intros HN Hw Hr Hc Lb Lx Hf. destruct (laplace_kept fops M dbg stray N a b x HN Hw Hr Hc Lb Lx) as (a' & b' & x' & E & _ & _ & _ & K).
  exists a', b', x'. split; [exact E|]. intros n i j v Hi Hj Hp Hs. destruct (K i j v Hi Hj) as (K1 & K2). fold n in K1, K2.
  assert (D : rim N n i \/ ~ rim N n i) by (unfold rim; lia). destruct D as [D|D].
  - apply (K1 D) in Hs as (-> & _). exists false. reflexivity.
  - destruct Hp as [Hp|Hp]; [contradiction|]. apply (K2 D Hp) in Hs as (w & Hs & ->). specialize (Hf _ _ _ Hs).
    destruct w as [s|s| |s m e]; try discriminate; eexists; reflexivity.
Qed.

(** A matrix for three by three nodes that holds one element, in the row of the middle. *)
Definition holding {V} (v : V) : smat V := mkS [0; 0; 0; 0; 0; 1; 1; 1; 1; 1]%nat [0%nat] [v] 9.
Definition held_infinity : smat f64 := holding (S754_infinity false).

Lemma holding_swf {V} (v : V) : swf (holding v).
Proof.
  exists [[]; []; []; []; [(0%nat, v)]; []; []; []; []]. split; [split; [left; reflexivity|split; reflexivity]|].
  intros i Hi. cbn [length] in Hi. do 9 (destruct i as [|i]; [cbn; split; [repeat constructor|intros j Hj; cbn in *; intuition lia]|]). lia.
Qed.

Lemma holding_stored {V} (v w : V) i j : stored (holding v) i j w <-> i = 4%nat /\ j = 0%nat /\ w = v.
Proof.
  split.
  - intros (Hi & k & Hk & Ec & Ev). assert (k = 0%nat) as ->.
    { destruct k as [|[|k]]; [reflexivity|discriminate|discriminate]. }
    cbn in Ec, Ev. injection Ec as <-. injection Ev as <-. unfold s_rows in Hi. cbn in Hi. split; [|auto].
    do 9 (destruct i as [|i]; [cbn in Hk; try lia|]). lia.
  - intros (-> & -> & ->). split; [cbn; lia|]. exists 0%nat. cbn. split; [lia|auto].
Qed.

Lemma holding_square v : sparse_square 0 9 (holding v) (fun i j => if ((i =? 4) && (j =? 0))%nat%bool then v else 0).
Proof.
  split; [apply holding_swf|]. split; [reflexivity|]. split; [reflexivity|]. intros i j. split.
  - intros w Hw. apply holding_stored in Hw as (-> & -> & ->). reflexivity.
  - intro H. destruct (Nat.eqb_spec i 4) as [->|]; [|reflexivity]. destruct (Nat.eqb_spec j 0) as [->|]; [|reflexivity].
    exfalso. apply (H v), holding_stored. auto.
Qed.

Lemma laplace_previous : let z := repeat (S754_zero false) 9 in exists a' b' x',
  construct_sparse fops 1000 true None held_infinity z z = Ok (a', b', x') /\ swf held_infinity /\
  exists v, stored a' 4 0 v /\ v = S754_nan.
Proof.
  intro z. destruct (laplace_kept fops 1000 true None 9 held_infinity z z) as (a' & b' & x' & E & _ & _ & _ & K); try reflexivity; try exact (holding_swf (S754_infinity false)); try lia.
  exists a', b', x'. split; [exact E|]. split; [exact (holding_swf (S754_infinity false))|]. exists S754_nan. split; [|reflexivity].
  destruct (K 4%nat 0%nat S754_nan ltac:(lia) ltac:(lia)) as (_ & K2). change (Nat.sqrt 9) with 3%nat in K2. apply K2.
  - unfold rim. cbn. lia.
  - unfold beside. lia.
  - exists (S754_infinity false). split; [|reflexivity]. apply holding_stored. auto.
Qed.

(** The start is not zero: in the middle of three by three nodes it is -9/256. *)
Lemma laplace_start M dbg stray a A0 b x : sparse_square 0 9 a A0 -> length b = 9%nat -> length x = 9%nat ->
  exists a' b' x', construct_sparse rops M dbg stray a b x = Ok (a', b', x') /\ nth_error x' 4 = Some (- 9 / 256).
Proof.
  intros Ha Lb Lx. destruct (laplace_sparse M dbg stray 9 a A0 b x ltac:(lia) Ha Lb Lx) as (a' & A & b' & g & x' & E & _ & _ & _ & Hx).
  exists a', b', x'. split; [exact E|]. destruct Hx as (_ & Hx). rewrite (Hx 4%nat ltac:(lia)). f_equal.
  change (Nat.sqrt 9) with 3%nat. cbv zeta. change (4 mod 3)%nat with 1%nat. change (4 / 3)%nat with 1%nat. unfold true_u, spacing. cbn [INR]. field.
Qed.
